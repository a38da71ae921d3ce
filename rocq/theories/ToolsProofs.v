From Coq Require Import Ascii String Reals NArith Nnat.
From Verif Require Import Base ReaderModel HyperModel ToolsModel SpecTools.
Local Open Scope nat_scope.

(* ---------------- npow *)
Lemma i32_iff z : int32_ok z = true <-> (-2147483648 <= z <= 2147483647)%Z.
Proof. unfold int32_ok. rewrite andb_true_iff, !Z.leb_le. tauto. Qed.

Lemma npow_loop_ok d n r :
  (forall k, k <= n -> int32_ok (r * d ^ Z.of_nat k) = true) -> npow_loop n d r = Ok (r * d ^ Z.of_nat n)%Z.
Proof.
  revert r. induction n as [|n IH]; intros r H.
  - cbn. f_equal. rewrite Z.mul_1_r. reflexivity.
  - change (npow_loop (S n) d r) with (if int32_ok (r * d) then npow_loop n d (r * d) else UB).
    pose proof (H 1 ltac:(lia)) as H1. rewrite Z.pow_1_r in H1. rewrite H1, IH.
    + f_equal. rewrite Nat2Z.inj_succ, Z.pow_succ_r by lia. ring.
    + intros k Hk. pose proof (H (S k) ltac:(lia)) as Hs. rewrite Nat2Z.inj_succ, Z.pow_succ_r in Hs by lia.
      rewrite <- Z.mul_assoc. exact Hs.
Qed.
Lemma npow_loop_bad d n r k :
  1 <= k <= n -> int32_ok (r * d ^ Z.of_nat k) = false -> npow_loop n d r = UB.
Proof.
  revert r k. induction n as [|n IH]; intros r k Hk H; [lia|].
  change (npow_loop (S n) d r) with (if int32_ok (r * d) then npow_loop n d (r * d) else UB).
  destruct (int32_ok (r * d)) eqn:E; [|reflexivity].
  destruct k as [|[|k]]; [lia| |].
  - rewrite Z.pow_1_r in H. congruence.
  - apply (IH _ (S k)); [lia|]. rewrite Nat2Z.inj_succ, Z.pow_succ_r in H by lia. rewrite <- Z.mul_assoc. exact H.
Qed.
Lemma pow_abs_le d j k : (j <= k)%nat -> d <> 0%Z -> (Z.abs (d ^ Z.of_nat j) <= Z.abs (d ^ Z.of_nat k))%Z.
Proof.
  intros Hj Hd. rewrite !Z.abs_pow. apply Z.pow_le_mono_r; lia.
Qed.
Lemma pow_part d j k : (j < k)%nat -> int32_ok (d ^ Z.of_nat k) = true -> int32_ok (d ^ Z.of_nat j) = true.
Proof.
  intros Hj H. rewrite i32_iff in *.
  destruct (Z.eq_dec d 0) as [->|Hd].
  { destruct j; [cbn; lia|]. rewrite Z.pow_0_l by lia. lia. }
  destruct (Z.eq_dec (Z.abs d) 1) as [H1|H1].
  { assert (Z.abs (d ^ Z.of_nat j) = 1)%Z by (rewrite Z.abs_pow, H1; apply Z.pow_1_l; lia). lia. }
  pose proof (pow_abs_le d j (k - 1) ltac:(lia) Hd) as A.
  assert (B : (Z.abs (d ^ Z.of_nat k) = Z.abs d * Z.abs (d ^ Z.of_nat (k - 1)))%Z).
  { replace k with (S (k - 1)) at 1 by lia. rewrite Nat2Z.inj_succ, Z.pow_succ_r by lia. apply Z.abs_mul. }
  assert (C : (0 <= Z.abs (d ^ Z.of_nat (k - 1)))%Z) by lia.
  assert (D : (2 <= Z.abs d)%Z) by lia.
  assert (2 * Z.abs (d ^ Z.of_nat (k - 1)) <= Z.abs (d ^ Z.of_nat k))%Z by (rewrite B; apply Z.mul_le_mono_nonneg_r; lia).
  lia.
Qed.
Lemma npow_exact d p : int32_ok (d ^ Z.of_nat p) = true -> npow d p = Ok (d ^ Z.of_nat p)%Z.
Proof.
  intros H. unfold npow. rewrite npow_loop_ok; [f_equal; apply Z.mul_1_l|].
  intros k Hk. rewrite Z.mul_1_l. destruct (Nat.eq_dec k p) as [->|N]; [exact H|]. apply (pow_part d k p); [lia|exact H].
Qed.
Lemma npow_over d p : int32_ok (d ^ Z.of_nat p) = false -> npow d p = UB.
Proof.
  intros H. unfold npow. apply (npow_loop_bad d p 1 p); [|rewrite Z.mul_1_l; exact H].
  destruct p; [cbn in H; discriminate H|lia].
Qed.
Lemma npow_sign p : npow (-1) p = Ok (if Nat.even p then 1 else -1)%Z.
Proof.
  assert (E : ((-1) ^ Z.of_nat p = if Nat.even p then 1 else -1)%Z).
  { induction p as [|p IH]; [reflexivity|].
    rewrite Nat2Z.inj_succ, Z.pow_succ_r, IH by lia. rewrite Nat.even_succ, <- Nat.negb_even. destruct (Nat.even p); reflexivity. }
  rewrite npow_exact; [rewrite E; reflexivity|]. rewrite E. destruct (Nat.even p); reflexivity.
Qed.

(* ---------------- blanks *)
Lemma eqb_sp c : Ascii.eqb c SP = true <-> c = SP.
Proof. apply Ascii.eqb_eq. Qed.
Lemma eqb_nsp c : c <> SP -> Ascii.eqb c SP = false.
Proof. intros H. destruct (Ascii.eqb c SP) eqn:E; [apply eqb_sp in E; contradiction|reflexivity]. Qed.
Lemma at_blank n l i : (i < N.of_nat n)%N -> at_ (blanks n ++ l) i = SP.
Proof.
  intros H. unfold at_. rewrite app_nth1 by (unfold blanks; rewrite repeat_length; lia).
  unfold blanks. rewrite nth_indep with (d' := SP) by (rewrite repeat_length; lia). apply nth_repeat.
Qed.
Lemma at_app n l i : at_ (blanks n ++ l) (N.of_nat n + i) = at_ l i.
Proof. unfold at_. rewrite app_nth2 by (unfold blanks; rewrite repeat_length; lia). f_equal. unfold blanks. rewrite repeat_length. lia. Qed.
Lemma len_app a b : len (a ++ b) = (len a + len b)%N.
Proof. unfold len. rewrite app_length. lia. Qed.
Lemma len_blanks n : len (blanks n) = N.of_nat n.
Proof. unfold len, blanks. rewrite repeat_length. reflexivity. Qed.

Lemma length_blanks n : length (blanks n) = n.
Proof. apply repeat_length. Qed.
Lemma skip_to a c t fuel d i :
  c <> SP -> (N.of_nat a < U16)%N -> (i + N.of_nat d = N.of_nat a)%N -> d < fuel ->
  skip_blanks fuel (blanks a ++ c :: t) i = Ok (Some (N.of_nat a)).
Proof.
  intros Hc Ha. revert fuel i. induction d as [|d IH]; intros fuel i Hi Hf; destruct fuel as [|f]; try lia; cbn [skip_blanks].
  - replace i with (N.of_nat a + 0)%N by lia. rewrite at_app.
    change (at_ (c :: t) 0) with c. rewrite eqb_nsp by exact Hc. f_equal. f_equal. lia.
  - rewrite at_blank by lia. change (Ascii.eqb SP SP) with true. cbv iota zeta.
    rewrite N.mod_small by lia.
    assert (E : ((i + 1)%N =? len (blanks a ++ c :: t))%N = false).
    { apply N.eqb_neq. rewrite len_app, len_blanks. unfold len. cbn [length]. lia. }
    rewrite E. apply IH; lia.
Qed.
Lemma skip_all n fuel d i :
  (N.of_nat n < U16)%N -> (i + N.of_nat (S d) = N.of_nat n)%N -> d < fuel ->
  skip_blanks fuel (blanks n) i = Ok None.
Proof.
  intros Hn. revert fuel i. induction d as [|d IH]; intros fuel i Hi Hf; destruct fuel as [|f]; try lia; cbn [skip_blanks];
    rewrite <- (app_nil_r (blanks n)), at_blank by lia; change (Ascii.eqb SP SP) with true; cbv iota zeta;
    rewrite N.mod_small by lia; rewrite app_nil_r, len_blanks.
  - replace (i + 1 =? N.of_nat n)%N with true by (symmetry; apply N.eqb_eq; lia). reflexivity.
  - replace (i + 1 =? N.of_nat n)%N with false by (symmetry; apply N.eqb_neq; lia). apply IH; lia.
Qed.
Lemma skip_never n l fuel i :
  (U16 <= N.of_nat n)%N -> (i < U16)%N -> skip_blanks fuel (blanks n ++ l) i = Loop.
Proof.
  intros Hn. revert i. induction fuel as [|f IH]; intros i Hi; [reflexivity|]. cbn [skip_blanks].
  rewrite at_blank by lia. change (Ascii.eqb SP SP) with true. cbv iota zeta.
  assert (M : ((i + 1) mod U16 < U16)%N) by (apply N.mod_lt; discriminate).
  replace ((i + 1) mod U16 =? len (blanks n ++ l))%N with false.
  - apply IH. exact M.
  - symmetry. apply N.eqb_neq. rewrite len_app, len_blanks. lia.
Qed.
Lemma back_to l b fuel d e k :
  l <> [] -> last l nul <> SP -> (len l + N.of_nat b <= U16)%N ->
  (e = len l - 1 + N.of_nat d)%N -> d <= b -> d < fuel -> k = b ->
  back_blanks fuel (l ++ blanks k) e = Ok (len l - 1)%N.
Proof.
  intros Hl Hlast Hb He Hd Hf ->. subst e. revert fuel Hf. induction d as [|d IH]; intros fuel Hf; destruct fuel as [|f]; try lia; cbn [back_blanks].
  - assert (E : at_ (l ++ blanks b) (len l - 1 + N.of_nat 0) = last l nul).
    { destruct (exists_last Hl) as [l' [c ->]]. rewrite last_last. unfold at_, len. rewrite <- app_assoc, app_length. cbn [length app].
      rewrite app_nth2 by lia. replace (N.to_nat _ - length l') with 0 by lia. reflexivity. }
    rewrite E, eqb_nsp by exact Hlast. f_equal. lia.
  - assert (Ll : (1 <= len l)%N) by (destruct l; [contradiction|unfold len; cbn [length]; lia]).
    assert (E : at_ (l ++ blanks b) (len l - 1 + N.of_nat (S d)) = SP).
    { unfold at_. rewrite app_nth2 by (unfold len in *; lia). unfold blanks.
      rewrite nth_indep with (d' := SP) by (rewrite repeat_length; unfold len in *; lia). apply nth_repeat. }
    rewrite E. change (Ascii.eqb SP SP) with true. cbv iota.
    replace ((len l - 1 + N.of_nat (S d) + U16 - 1) mod U16)%N with (len l - 1 + N.of_nat d)%N.
    + apply IH; lia.
    + replace (len l - 1 + N.of_nat (S d) + U16 - 1)%N with (len l - 1 + N.of_nat d + 1 * U16)%N by lia.
      rewrite N.mod_add by discriminate. symmetry. apply N.mod_small. lia.
Qed.

Lemma last_app_ne (a b : str) d : b <> [] -> last (a ++ b) d = last b d.
Proof.
  intros H. destruct (exists_last H) as [b' [c ->]]. rewrite app_assoc, !last_last. reflexivity.
Qed.
Lemma del_trim fuel a w b :
  edges w -> (N.of_nat a + len w + N.of_nat b <= U16)%N -> a + b < fuel ->
  del_spaces fuel (blanks a ++ w ++ blanks b) = Ok w.
Proof.
  intros (c & t & -> & Hc & Hl) Hn Hf.
  assert (LW : len (c :: t) = N.of_nat (S (length t))) by reflexivity.
  unfold del_spaces. destruct (blanks a ++ (c :: t) ++ blanks b) as [|x y] eqn:E.
  { destruct (blanks a); discriminate E. }
  rewrite <- E. clear E x y.
  change ((c :: t) ++ blanks b) with (c :: (t ++ blanks b)) at 1.
  rewrite (skip_to a c (t ++ blanks b) fuel a 0) by (try exact Hc; lia). cbn [obind].
  rewrite app_assoc.
  assert (LL : len (blanks a ++ c :: t) = (N.of_nat a + N.of_nat (S (length t)))%N) by (rewrite len_app, len_blanks, LW; reflexivity).
  rewrite (back_to (blanks a ++ c :: t) b fuel b _ b); try lia.
  - cbn [obind]. f_equal. unfold substr.
    replace (_ <? 0)%Z with false by (symmetry; apply Z.ltb_ge; rewrite LL; lia).
    rewrite Nat2N.id, <- app_assoc, skipn_app, length_blanks.
    rewrite skipn_all2 by (rewrite length_blanks; lia).
    rewrite Nat.sub_diag. cbn [app skipn].
    replace (Z.to_nat _) with (length (c :: t)) by (rewrite LL; cbn [length]; lia).
    rewrite app_comm_cons, firstn_app, firstn_all, Nat.sub_diag. cbn [firstn]. apply app_nil_r.
  - destruct (blanks a); discriminate.
  - rewrite last_app_ne by discriminate. exact Hl.
  - rewrite LL, len_app, LL, len_blanks. rewrite N.mod_small by lia. lia.
Qed.

Lemma del_blank fuel n : 1 <= n -> (N.of_nat n < U16)%N -> n < fuel -> del_spaces fuel (blanks n) = Ok [SP].
Proof.
  intros H1 Hn Hf. unfold del_spaces. destruct n as [|n]; [lia|].
  change (blanks (S n)) with (SP :: blanks n) at 1. cbv iota.
  rewrite (skip_all (S n) fuel n 0) by lia. reflexivity.
Qed.
Lemma del_loop fuel n l : (U16 <= N.of_nat n)%N -> del_spaces fuel (blanks n ++ l) = Loop.
Proof.
  intros Hn. unfold del_spaces. destruct (blanks n ++ l) eqn:E.
  - destruct n; [unfold U16 in Hn; lia|discriminate E].
  - rewrite <- E, skip_never by (try exact Hn; reflexivity). reflexivity.
Qed.

(* every text is blank or has an inside *)
Lemma unlead_split l : exists a, l = blanks a ++ unlead l /\ (unlead l = [] \/ exists c t, unlead l = c :: t /\ c <> SP).
Proof.
  induction l as [|c l (a & H & H')]; [exists 0; split; [reflexivity|left; reflexivity]|].
  cbn [unlead]. destruct (Ascii.eqb c SP) eqn:E.
  - apply eqb_sp in E. subst c. exists (S a). split; [cbn [blanks repeat app]; f_equal; exact H|exact H'].
  - exists 0. split; [reflexivity|]. right. exists c, l. split; [reflexivity|]. intros ->. discriminate E.
Qed.
Lemma unlead_idem c t : c <> SP -> unlead (c :: t) = c :: t.
Proof. intros H. cbn [unlead]. rewrite eqb_nsp by exact H. reflexivity. Qed.
Lemma unlead_blanks a l : unlead (blanks a ++ l) = unlead l.
Proof. induction a; [reflexivity|exact IHa]. Qed.
Lemma rev_blanks a : rev (blanks a) = blanks a.
Proof.
  induction a; [reflexivity|]. change (blanks (S a)) with (SP :: blanks a). cbn [rev]. rewrite IHa.
  clear. induction a; [reflexivity|]. change (blanks (S a)) with (SP :: blanks a). cbn [app]. f_equal. exact IHa.
Qed.
Lemma last_cons_rev w c t : rev w = c :: t -> last w nul = c.
Proof. intros H. rewrite <- (rev_involutive w), H. cbn [rev]. apply last_last. Qed.
Lemma hd_rev_last w : w <> [] -> exists t, rev w = last w nul :: t.
Proof.
  intros H. destruct (exists_last H) as [w' [c ->]]. rewrite rev_app_distr, last_last. cbn. exists (rev w'). reflexivity.
Qed.

Lemma text_cases l :
  l = [] \/ (exists n, 1 <= n /\ l = blanks n) \/ exists a w b, l = blanks a ++ w ++ blanks b /\ edges w.
Proof.
  destruct (unlead_split l) as (a & H & [H0|(c & t & Hc & Nc)]).
  - rewrite H0, app_nil_r in H. destruct a as [|a]; [left; exact H|]. right; left. exists (S a). split; [lia|exact H].
  - right; right. rewrite Hc in H. destruct (unlead_split (rev (c :: t))) as (b & Hb & Hb').
    assert (R : c :: t = rev (unlead (rev (c :: t))) ++ blanks b).
    { rewrite <- (rev_involutive (c :: t)) at 1. rewrite Hb at 1. rewrite rev_app_distr, rev_blanks. reflexivity. }
    set (u := unlead (rev (c :: t))) in *. exists a, (rev u), b. split; [rewrite <- R; exact H|].
    destruct Hb' as [U0|(c' & t' & U & Nc')].
    + rewrite U0 in R. cbn [rev app] in R. destruct b; [discriminate R|]. injection R as -> _. contradiction Nc. reflexivity.
    + assert (L : last (rev u) nul = c') by (apply (last_cons_rev _ c' t'); rewrite rev_involutive; exact U).
      destruct (rev u) as [|x y] eqn:Er.
      * rewrite U in Er. cbn in Er. destruct (rev t'); discriminate Er.
      * cbn [app] in R. injection R as <- _. exists c, y. rewrite L. auto.
Qed.
Lemma tidy_nil : tidy [] = [].
Proof. reflexivity. Qed.
Lemma tidy_blanks n : 1 <= n -> tidy (blanks n) = [SP].
Proof.
  intros H. destruct n as [|n]; [lia|]. pose proof (unlead_blanks (S n) []) as E. rewrite app_nil_r in E.
  change (blanks (S n)) with (SP :: blanks n) in *. unfold tidy. rewrite E. reflexivity.
Qed.
Lemma tidy_text a w b : edges w -> tidy (blanks a ++ w ++ blanks b) = w.
Proof.
  intros (c & t & -> & Hc & Hl).
  assert (E : unlead (blanks a ++ (c :: t) ++ blanks b) = (c :: t) ++ blanks b) by (rewrite unlead_blanks; apply unlead_idem; exact Hc).
  destruct (blanks a ++ (c :: t) ++ blanks b) as [|x y] eqn:E0; [destruct (blanks a); discriminate E0|].
  unfold tidy. rewrite E. cbn [app]. rewrite app_comm_cons, rev_app_distr, rev_blanks, unlead_blanks.
  destruct (hd_rev_last (c :: t)) as [r Hr]; [discriminate|].
  rewrite Hr, unlead_idem by exact Hl. rewrite <- Hr. apply rev_involutive.
Qed.
Lemma del_tidy fuel l : (len l < U16)%N -> length l < fuel -> del_spaces fuel l = Ok (tidy l).
Proof.
  intros Hl Hf. destruct (text_cases l) as [->|[(n & Hn & ->)|(a & w & b & -> & He)]].
  - reflexivity.
  - rewrite len_blanks in Hl. rewrite length_blanks in Hf.
    rewrite tidy_blanks by exact Hn. apply del_blank; assumption.
  - rewrite tidy_text by exact He. rewrite !len_app, !len_blanks in Hl. rewrite !app_length in Hf. rewrite !length_blanks in Hf.
    apply del_trim; [exact He|lia|]. destruct He as (c & t & -> & _). cbn [length] in Hf. lia.
Qed.
Lemma tidy_idem l : tidy (tidy l) = tidy l.
Proof.
  destruct (text_cases l) as [->|[(n & Hn & ->)|(a & w & b & -> & He)]].
  - reflexivity.
  - rewrite tidy_blanks by exact Hn. reflexivity.
  - rewrite tidy_text by exact He. pose proof (tidy_text 0 w 0 He) as T. cbn [blanks repeat app] in T. rewrite app_nil_r in T. exact T.
Qed.
Lemma del_66k fuel a w b :
  edges w -> (N.of_nat a + len w + N.of_nat b = U16)%N -> a + b < fuel -> del_spaces fuel (blanks a ++ w ++ blanks b) = Ok w.
Proof. intros He Hn. apply del_trim; [exact He|lia]. Qed.
(* a text longer than 65536 characters without blanks loses its tail *)
Lemma del_cut fuel w : Forall (fun c => c <> SP) w -> w <> [] -> 1 <= fuel ->
  del_spaces fuel w = Ok (firstn (N.to_nat ((len w - 1) mod U16 + 1)) w).
Proof.
  intros Hw Hn Hf. unfold del_spaces. destruct w as [|c t]; [contradiction|].
  destruct fuel as [|f]; [lia|].
  assert (A : forall i, (i < len (c :: t))%N -> Ascii.eqb (at_ (c :: t) i) SP = false).
  { intros i Hi. apply eqb_nsp. rewrite Forall_forall in Hw. apply Hw. unfold at_. apply nth_In. unfold len in Hi. lia. }
  assert (L : (1 <= len (c :: t))%N) by (unfold len; cbn [length]; lia).
  cbn [skip_blanks]. rewrite A by lia. cbn [obind]. cbn [back_blanks].
  assert (M : ((len (c :: t) - 1) mod U16 <= len (c :: t) - 1)%N) by (apply N.mod_le; discriminate).
  rewrite A by lia. cbn [obind]. f_equal. unfold substr.
  set (M0 := ((len (c :: t) - 1) mod U16)%N) in *.
  replace (Z.of_N M0 - Z.of_N 0 + 1 <? 0)%Z with false by (symmetry; apply Z.ltb_ge; lia).
  cbn [N.to_nat skipn]. f_equal. lia.
Qed.

(* ---------------- tokens *)
Lemma assign16_short t : shorter 32768 t -> assign16 t = Ok t.
Proof.
  unfold shorter. intros H. unfold assign16, int16_of. rewrite N.mod_small by (unfold U16; lia).
  replace (len t <? 32768)%N with true by (symmetry; apply N.ltb_lt; exact H).
  replace (_ <? 0)%Z with false by (symmetry; apply Z.ltb_ge; lia).
  f_equal. unfold len. rewrite firstn_all2 by lia. reflexivity.
Qed.
Lemma put_short fuel vec t : shorter 32768 t -> length t < fuel -> put_token fuel vec t = Ok (vec ++ [tidy t]).
Proof.
  intros H Hf. unfold put_token. rewrite assign16_short by exact H. cbn [obind].
  rewrite del_tidy by (try exact Hf; unfold shorter in H; unfold U16; lia). reflexivity.
Qed.
Lemma delim_ok c : is_delim c = delim_sign c.
Proof. destruct c as [[|] [|] [|] [|] [|] [|] [|] [|]]; reflexivity. Qed.
Lemma token_word fuel w rest tok vec :
  plain w -> token_loop fuel (w ++ rest) tok vec = token_loop fuel rest (tok ++ w) vec.
Proof.
  revert tok. induction w as [|c w IH]; intros tok H; [rewrite app_nil_r; reflexivity|].
  inversion H as [|x y [Hd Hc] H']; subst. cbn [app token_loop].
  replace (Ascii.eqb c "!"%char) with false by (symmetry; apply Ascii.eqb_neq; exact Hc).
  rewrite delim_ok, Hd, IH by exact H'. rewrite <- app_assoc. reflexivity.
Qed.
Lemma token_end fuel c tok vec : comment c -> token_loop fuel c tok vec = put_token fuel vec tok.
Proof. intros [->|[t ->]]; reflexivity. Qed.
Lemma delim_nobang d : is_delim d = true -> Ascii.eqb d "!"%char = false.
Proof.
  unfold is_delim, delimeters. cbn [existsb]. intros H. destruct (Ascii.eqb d "!"%char) eqn:E; [|reflexivity].
  apply Ascii.eqb_eq in E. subst d. discriminate H.
Qed.
Lemma token_delim fuel d rest tok vec : delim_sign d = true ->
  token_loop fuel (d :: rest) tok vec = (v <- put_token fuel vec tok ;; token_loop fuel rest [] (v ++ [[d]])).
Proof. intros H0. assert (H : is_delim d = true) by (rewrite delim_ok; exact H0). cbn [token_loop]. rewrite delim_nobang, H by exact H. reflexivity. Qed.

Lemma tokens_gen fuel l c : comment c ->
  forall w vec, command w l -> Forall (shorter 32768) (words w l) -> Forall (fun t => length t < fuel) (words w l) ->
  token_loop fuel (spell w l ++ c) [] vec = Ok (vec ++ tokens w l).
Proof.
  intros Hc. induction l as [|[d t] l IH]; intros w vec [Hp Hd] Hs Hf; unfold words in *; cbn [map snd] in *.
  - unfold spell. cbn [flat_map]. rewrite app_nil_r, token_word by (inversion Hp; assumption).
    rewrite token_end by exact Hc. apply put_short; [inversion Hs; assumption|inversion Hf; assumption].
  - inversion Hp as [|? ? Pw Pl]; inversion Hs as [|? ? Sw Sl]; inversion Hf as [|? ? Fw Fl]; inversion Hd as [|? ? Dd Dl]; subst. cbn [fst] in Dd.
    unfold spell. cbn [flat_map fst snd]. rewrite <- app_assoc, token_word by exact Pw. cbn [app].
    rewrite token_delim by exact Dd. rewrite put_short by assumption. cbn [obind].
    change (t ++ flat_map (fun p => fst p :: snd p) l) with (spell t l).
    rewrite IH; [|split; assumption|assumption|assumption].
    f_equal. unfold tokens. cbn [flat_map fst snd]. rewrite <- !app_assoc. reflexivity.
Qed.
Lemma tokens_read fuel w l c :
  command w l -> comment c -> Forall (shorter 32768) (words w l) -> length (spell w l) < fuel ->
  read_tokens fuel (spell w l ++ c) = Ok (tokens w l).
Proof.
  intros H Hc Hs Hf. unfold read_tokens. rewrite (tokens_gen fuel l c Hc w [] H Hs); [reflexivity|].
  clear H Hc Hs c. unfold spell, words in *. rewrite app_length in Hf. constructor; [lia|].
  assert (G : length (flat_map (fun p : ascii * str => fst p :: snd p) l) < fuel) by lia. clear Hf.
  induction l as [|[d t] l IH]; [constructor|]. cbn [flat_map fst snd app length] in G. rewrite app_length in G.
  cbn [map snd]. constructor; [lia|]. apply IH. lia.
Qed.
(* every text is a command followed by a comment *)
Lemma spelled input : exists w l c, command w l /\ comment c /\ input = spell w l ++ c.
Proof.
  induction input as [|x input (w & l & c & [Hp Hd] & Hc & H)].
  - exists [], [], []. split; [split; repeat constructor|]. split; [left; reflexivity|reflexivity].
  - destruct (Ascii.eqb x "!"%char) eqn:Ex; [|destruct (delim_sign x) eqn:Dx].
    + apply Ascii.eqb_eq in Ex. subst x. exists [], [], ("!"%char :: input).
      split; [split; repeat constructor|]. split; [right; exists input; reflexivity|reflexivity].
    + exists [], ((x, w) :: l), c. repeat split; [| |exact Hc|rewrite H; reflexivity].
      * constructor; [constructor|exact Hp].
      * constructor; [exact Dx|exact Hd].
    + exists (x :: w), l, c. repeat split; [|exact Hd|exact Hc|rewrite H; reflexivity].
      inversion Hp; subst. constructor; [|assumption]. constructor; [|assumption]. split; [exact Dx|]. intros ->. discriminate Ex.
Qed.
Lemma token_long fuel w l c :
  command w l -> comment c -> (32768 <= len w < U16)%N -> read_tokens fuel (spell w l ++ c) = Fatal.
Proof.
  intros [Hp Hd] Hc Hw. inversion Hp as [|? ? Pw Pl]; subst. unfold read_tokens, spell. rewrite <- app_assoc, token_word by exact Pw.
  assert (P : put_token fuel [] w = Fatal).
  { unfold put_token, assign16, int16_of. rewrite N.mod_small by lia.
    replace (len w <? 32768)%N with false by (symmetry; apply N.ltb_ge; lia).
    replace (_ <? 0)%Z with true by (symmetry; apply Z.ltb_lt; unfold U16 in Hw; lia). reflexivity. }
  cbn [app]. destruct l as [|[d t] l].
  - cbn [flat_map app]. rewrite token_end by exact Hc. exact P.
  - cbn [flat_map app fst snd]. inversion Hd; subst. rewrite token_delim by assumption. rewrite P. reflexivity.
Qed.
Lemma token_short fuel w k c :
  plain w -> comment c -> (len w = U16 + N.of_nat k)%N -> (N.of_nat k < 32768)%N -> k < fuel ->
  read_tokens fuel (w ++ c) = Ok [tidy (firstn k w)].
Proof.
  intros Pw Hc Hw Hk Hf. unfold read_tokens. rewrite token_word by exact Pw. rewrite token_end by exact Hc. cbn [app].
  unfold put_token, assign16, int16_of. rewrite Hw.
  replace ((U16 + N.of_nat k) mod U16)%N with (N.of_nat k).
  - replace (N.of_nat k <? 32768)%N with true by (symmetry; apply N.ltb_lt; exact Hk).
    replace (_ <? 0)%Z with false by (symmetry; apply Z.ltb_ge; lia). cbn [obind].
    replace (Z.to_nat (Z.of_N (N.of_nat k))) with k by lia.
    rewrite del_tidy; [reflexivity| |].
    + unfold len. rewrite firstn_length. unfold U16. lia.
    + rewrite firstn_length. lia.
  - rewrite N.add_comm. replace (N.of_nat k + U16)%N with (N.of_nat k + 1 * U16)%N by lia. rewrite N.mod_add by discriminate.
    symmetry. apply N.mod_small. unfold U16. lia.
Qed.
