(* numbers, component lists, constraint equations *)
From Coq Require Import Ascii String.
From Verif Require Import Base ReaderModel SpecReader ReaderProofs.
Local Open Scope nat_scope.
Local Open Scope list_scope.

Lemma code_digit d : (0 <= d < 10)%Z -> code (digit d) = 48 + Z.to_nat d.
Proof. intros H. unfold code, digit. apply nat_ascii_embedding. lia. Qed.
Lemma is_digit_digit d : (0 <= d < 10)%Z -> is_digit (digit d) = true.
Proof.
  intros H. unfold is_digit. rewrite code_digit by exact H.
  apply andb_true_iff. split; apply Nat.leb_le; lia.
Qed.
Definition all_digits (l : str) : Prop := Forall (fun c => is_digit c = true) l.
Lemma dec_digits f : forall n, (0 <= n)%Z -> all_digits (dec f n).
Proof.
  induction f as [|f IH]; intros n H; cbn [dec]; [constructor|].
  apply Forall_app. split.
  - destruct (Z.ltb_spec n 10); [constructor|]. apply IH. apply Z.div_pos; lia.
  - constructor; [|constructor]. apply is_digit_digit. apply Z.mod_pos_bound. lia.
Qed.
Lemma digits_val_snoc l d : all_digits l -> (0 <= d < 10)%Z ->
  forall acc, digits_val acc (l ++ [digit d]) = (digits_val acc l * 10 + d)%Z.
Proof.
  intros A H. induction A as [|c l Hc A IH]; intros acc; cbn [app digits_val].
  - rewrite is_digit_digit, code_digit by exact H.
    replace (48 + Z.to_nat d - 48) with (Z.to_nat d) by lia. rewrite Z2Nat.id by lia. reflexivity.
  - rewrite Hc. apply IH.
Qed.
Lemma digits_val_dec f : forall n, (0 <= n < 10 ^ Z.of_nat f)%Z -> digits_val 0 (dec f n) = n.
Proof.
  induction f as [|f IH]; intros n H; cbn [dec]; [cbn in H; cbn; lia|].
  pose proof (Z.mod_pos_bound n 10 ltac:(lia)).
  rewrite digits_val_snoc; [| |lia].
  - destruct (Z.ltb_spec n 10).
    + cbn [digits_val]. rewrite Z.mod_small by lia. lia.
    + rewrite IH; [pose proof (Z.div_mod n 10 ltac:(lia)); lia|].
      replace (Z.of_nat (S f)) with (Z.succ (Z.of_nat f)) in H by lia.
      rewrite Z.pow_succ_r in H by lia.
      split; [apply Z.div_pos; lia|]. apply Z.div_lt_upper_bound; lia.
  - destruct (Z.ltb_spec n 10); [constructor|]. apply dec_digits. apply Z.div_pos; lia.
Qed.
Lemma dec_nonempty f n : f <> 0 -> (0 <= n)%Z -> exists c t, dec f n = c :: t /\ is_digit c = true.
Proof.
  intros Hf Hn. pose proof (dec_digits f n Hn) as A. destruct f as [|f]; [lia|].
  destruct (dec (S f) n) as [|c t] eqn:E.
  - cbn [dec] in E. apply app_eq_nil in E. destruct E as [_ E]. discriminate.
  - exists c, t. split; [reflexivity|]. inversion A; auto.
Qed.
(* the first digit does not leave the range of the others *)
Definition int_ok (z : Z) : Prop := (-2147483648 <= z <= 2147483647)%Z.
Lemma int_range_ok z : int_ok z -> int_range z = CVal z.
Proof.
  intros [A B]. unfold int_range.
  rewrite (proj2 (Z.leb_le _ _) A), (proj2 (Z.leb_le _ _) B). reflexivity.
Qed.
Lemma digit_notspace c : is_digit c = true -> is_space c = false /\ (code c =? 45) = false /\ (code c =? 43) = false /\ is_blank c = false.
Proof.
  unfold is_digit, is_space, is_blank. rewrite andb_true_iff, !Nat.leb_le. intros [A B].
  destruct (Nat.eqb_spec (code c) 32), (Nat.eqb_spec (code c) 45), (Nat.eqb_spec (code c) 43), (Nat.eqb_spec (code c) 9);
    try lia.
  repeat split; auto. cbn [orb]. apply andb_false_iff. right. apply Nat.leb_gt. lia.
Qed.
Lemma drop_space_sp n l : drop_space (repeat " "%char n ++ l) = drop_space l.
Proof. induction n as [|n IH]; [reflexivity|]. cbn [repeat app drop_space]. exact IH. Qed.
Lemma show_cases z : int_ok z ->
  (z < 0 /\ show z = "-"%char :: dec 10 (- z))%Z \/ (0 <= z /\ show z = dec 10 z)%Z.
Proof. intros H. unfold show. destruct (Z.ltb_spec z 0); [left|right]; auto. Qed.
Lemma pow10 : (10 ^ Z.of_nat 10 = 10000000000)%Z. Proof. reflexivity. Qed.
Lemma stoi_pad n z : int_ok z -> stoi (repeat " "%char n ++ show z) = CVal z.
Proof.
  intros H. unfold stoi. rewrite drop_space_sp.
  destruct (show_cases z H) as [[Hz E]|[Hz E]]; rewrite E; unfold int_ok in H.
  - destruct (dec_nonempty 10 (- z) ltac:(lia) ltac:(lia)) as (c & t & E2 & D).
    pose proof (digits_val_dec 10 (- z) ltac:(rewrite pow10; lia)) as V. rewrite E2 in *.
    change (drop_space ("-"%char :: c :: t)) with ("-"%char :: c :: t).
    cbv zeta iota beta. change (code "-"%char =? 45) with true. cbn [fst snd starts_digit].
    rewrite D, V. cbn iota. rewrite Z.opp_involutive. apply int_range_ok. exact H.
  - destruct (dec_nonempty 10 z ltac:(lia) ltac:(lia)) as (c & t & E2 & D).
    pose proof (digits_val_dec 10 z ltac:(rewrite pow10; lia)) as V. rewrite E2 in *.
    destruct (digit_notspace c D) as (S1 & S2 & S3 & _).
    cbn [drop_space]. rewrite S1. cbv zeta iota beta. rewrite S2, S3. cbn [fst snd starts_digit].
    rewrite D, V. apply int_range_ok. exact H.
Qed.
Lemma stoi_show z : int_ok z -> stoi (show z) = CVal z.
Proof. exact (stoi_pad 0 z). Qed.
Lemma stoi_padw w z : int_ok z -> stoi (pad w (show z)) = CVal z.
Proof. intros H. unfold pad. apply stoi_pad. exact H. Qed.
Lemma pad_length w l : length l <= w -> length (pad w l) = w.
Proof. intros H. unfold pad. rewrite app_length, repeat_length. lia. Qed.
(* characters of a printed number *)
Lemma show_chars z : int_ok z -> Forall (fun c => is_digit c = true \/ c = "-"%char) (show z).
Proof.
  intros H. destruct (show_cases z H) as [[Hz E]|[Hz E]]; rewrite E.
  - constructor; [right; reflexivity|].
    eapply Forall_impl; [|apply (dec_digits 10 (- z)); lia]. intros; left; assumption.
  - eapply Forall_impl; [|apply (dec_digits 10 z); lia]. intros; left; assumption.
Qed.
Lemma show_nonblank z : int_ok z -> Forall (fun c => is_blank c = false) (show z).
Proof.
  intros H. eapply Forall_impl; [|exact (show_chars z H)].
  intros c [A| ->]; [apply digit_notspace; exact A|reflexivity].
Qed.
Lemma trimmed_nonblank l : Forall (fun c => is_blank c = false) l -> trimmed l.
Proof.
  intros F. split; intros c t ->.
  - inversion F; auto.
  - apply Forall_app in F. destruct F as [_ F]. inversion F; auto.
Qed.
Lemma blanks_repeat n : blanks (repeat " "%char n).
Proof. induction n; constructor; auto. Qed.
Lemma strim_pad w l : trimmed l -> strim (pad w l) = l.
Proof.
  intros T. unfold pad. rewrite <- (app_nil_r l) at 2.
  apply (strim_trimmed _ l []); [apply blanks_repeat|constructor|exact T].
Qed.
Lemma strim_id l : trimmed l -> strim l = l.
Proof. intros T. rewrite <- (app_nil_r l) at 1. exact (strim_trimmed [] l [] (Forall_nil _) (Forall_nil _) T). Qed.
Lemma show_trimmed z : int_ok z -> trimmed (show z).
Proof. intros H. apply trimmed_nonblank, show_nonblank, H. Qed.
Lemma show_plain z : int_ok z -> plain (show z) /\ no_delim comma (show z).
Proof.
  intros H. pose proof (show_chars z H) as F. rewrite Forall_forall in F.
  split; [split; intros I; destruct (F _ I) as [A|A]; vm_compute in A; discriminate|].
  apply Forall_forall. intros c I. unfold mem, comma. cbn [existsb]. rewrite orb_false_r.
  apply aeqb_f. intros ->. destruct (F _ I) as [A|A]; vm_compute in A; discriminate.
Qed.
Lemma pad_plain w l : plain l -> plain (pad w l).
Proof.
  intros [A B]. unfold pad.
  split; intros I; apply in_app_or in I; destruct I as [I|I]; auto; apply repeat_spec in I; discriminate.
Qed.

(* ---- rows of numbers *)
Section Rows.
  Variables (k w : nat).
  Hypothesis Hk : 0 < k.
  Hypothesis Hw : 0 < w.
  Definition P (z : Z) : str := pad w (show z).
  Definition fits (z : Z) : Prop := int_ok z /\ length (show z) <= w.
  Lemma P_length z : fits z -> length (P z) = w.
  Proof. intros [_ H]. apply pad_length. exact H. Qed.
  Lemma P_lengths zs : Forall fits zs -> map (@length _) (map P zs) = repeat w (length zs).
  Proof. induction 1 as [|z zs H F IH]; [reflexivity|]. cbn. rewrite P_length, IH by exact H. reflexivity. Qed.
  Lemma ssplit_row zs : Forall fits zs -> length zs <= k ->
    ssplit (concat (map P zs)) (repeat w k) false = Ok (map P zs).
  Proof.
    intros F L. apply ssplit_fields. exists (repeat w (k - length zs)). split.
    - rewrite P_lengths by exact F. rewrite <- repeat_app. f_equal. lia.
    - apply Forall_forall. intros x I. apply repeat_spec in I. lia.
  Qed.
  Lemma rows_cons f zs : k < length zs ->
    rows (S f) k (map P zs) = concat (map P (firstn k zs)) :: rows f k (map P (skipn k zs)).
  Proof.
    intros L. cbn [rows]. rewrite map_length. destruct (Nat.leb_spec (length zs) k); [lia|].
    rewrite <- firstn_map, <- skipn_map. reflexivity.
  Qed.
  Lemma rows_last f zs : length zs <= k -> rows (S f) k (map P zs) = [concat (map P zs)].
  Proof. intros L. cbn [rows]. rewrite map_length. destruct (Nat.leb_spec (length zs) k); [reflexivity|lia]. Qed.
  (* what is left of the rows when z's of todo are still to be read *)
  Definition rest_rows (todo : list Z) (ls rest : list str) : Prop :=
    match todo with
    | [] => ls = rest
    | _ => exists f, length todo <= f /\ ls = rows (S f) k (map P todo) ++ rest
    end.
  Lemma rest_rows_next todo ls rest : todo <> [] -> Forall fits todo -> rest_rows todo ls rest ->
    ssplit (fst (next_line ls)) (repeat w k) false = Ok (map P (firstn k todo)) /\
    rest_rows (skipn k todo) (snd (next_line ls)) rest.
  Proof.
    intros N F R. unfold rest_rows in R. destruct todo as [|z todo]; [exfalso; auto|].
    destruct R as (f & Hf & ->). set (l := z :: todo) in *.
    destruct (Nat.le_gt_cases (length l) k) as [L|L].
    - rewrite rows_last by exact L. cbn [app next_line fst snd].
      rewrite (firstn_all2 (n := k) l) by exact L. rewrite (skipn_all2 (n := k) l) by exact L.
      split; [apply ssplit_row; auto|reflexivity].
    - rewrite rows_cons by exact L. cbn [app next_line fst snd].
      split; [apply ssplit_row; [|rewrite firstn_length; lia]|].
      { rewrite <- (firstn_skipn k l) in F. apply Forall_app in F. exact (proj1 F). }
      unfold rest_rows. destruct (skipn k l) as [|y t] eqn:E.
      + apply (f_equal (@length _)) in E. rewrite skipn_length in E. cbn [length] in E. fold (length l) in *. lia.
      + rewrite <- E. destruct f as [|f]; [lia|]. exists f. rewrite skipn_length. split; [lia|reflexivity].
  Qed.
End Rows.

(* ---- CMBLOCK *)
Fixpoint okseq (prev : Z) (l : list Z) : Prop :=
  match l with
  | [] => True
  | z :: t => ((0 < z < 2147483648) \/ (0 < prev <= - z /\ -2147483648 < z < 0))%Z /\ okseq z t
  end.
Lemma w16_small n : (N.of_nat n < 65536)%N -> w16 n = n.
Proof. intros H. unfold w16. rewrite N.mod_small by exact H. apply Nnat.Nat2N.id. Qed.

Section CM.
  Variables (k w : nat) (n : Z) (rest : list str).
  Hypothesis Hk : 0 < k.
  Hypothesis Hk2 : (N.of_nat k < 65536)%N.
  Hypothesis Hw : 0 < w.
  Hypothesis Hn : (n < 65536)%Z.

  Lemma cm_step_row todo : forall fuel ls v in_row rv ne prev,
    Forall (fits w) todo -> okseq prev todo -> (rv = [] -> prev = 0%Z) -> (rv <> [] -> prev = last rv 0%Z) ->
    (Z.of_nat (length rv + length todo) = n)%Z ->
    (0 <= ne <= Z.of_nat (length rv) * 2147483648)%Z ->
    in_row <= k -> skipn in_row v = map (P w) (firstn (k - in_row) todo) ->
    rest_rows k w (skipn (k - in_row) todo) ls rest ->
    length todo < fuel ->
    exists ne', cm_read fuel k (repeat w k) n ls v in_row (length rv) rv ne = Ok (rest, (rv ++ todo, ne')) /\
      (0 <= ne' <= n * 2147483648)%Z.
  Proof.
    induction todo as [|z todo IH]; intros fuel ls v in_row rv ne prev F O P0 P1 Ln Hne Hr V R Hf;
      destruct fuel as [|fuel]; try (cbn [length] in Hf; lia).
    - cbn [cm_read]. cbn [length] in Ln. destruct (Z.ltb_spec (Z.of_nat (length rv)) n); [lia|].
      rewrite skipn_nil in R. cbn in R. subst ls. rewrite app_nil_r. exists ne. split; [reflexivity|].
      replace n with (Z.of_nat (length rv)) by lia. exact Hne.
    - cbn [cm_read]. cbn [length] in Ln, Hf. destruct (Z.ltb_spec (Z.of_nat (length rv)) n); [|lia].
      assert (Q : exists ls' v' in_row', (if in_row =? k
                then v <- ssplit (fst (next_line ls)) (repeat w k) false ;; Ok (snd (next_line ls), (v, 0))
                else Ok (ls, (v, in_row))) = Ok (ls', (v', in_row')) /\ in_row' < k /\
                skipn in_row' v' = map (P w) (firstn (k - in_row') (z :: todo)) /\
                rest_rows k w (skipn (k - in_row') (z :: todo)) ls' rest).
      { destruct (Nat.eqb_spec in_row k) as [->|Hne'].
        - rewrite Nat.sub_diag in R. change (skipn 0 (z :: todo)) with (z :: todo) in R.
          destruct (rest_rows_next k w Hk Hw (z :: todo) ls rest ltac:(discriminate) F R) as [E1 E2].
          rewrite E1. cbn [obind]. exists (snd (next_line ls)), (map (P w) (firstn k (z :: todo))), 0.
          split; [reflexivity|]. split; [exact Hk|]. rewrite Nat.sub_0_r. split; [reflexivity|exact E2].
        - exists ls, v, in_row. split; [reflexivity|]. split; [lia|]. split; [exact V|exact R]. }
      destruct Q as (ls' & v' & ir & -> & Hir & V' & R'). cbn [obind fst snd].
      clear V R Hr. inversion F as [|? ? F1 F2]; subst x l. destruct O as [O1 O2].
      assert (Ek : k - ir = S (k - ir - 1)) by lia.
      rewrite Ek in V', R'. cbn [firstn skipn map] in V', R'.
      assert (G : aget v' ir = Ok (P w z)).
      { unfold aget. replace (nth_error v' ir) with (nth_error (skipn ir v') 0); [rewrite V'; reflexivity|].
        clear. revert v'. induction ir as [|i IHi]; intros [|x v']; try reflexivity. exact (IHi v'). }
      rewrite G. cbn [obind]. unfold P at 1. rewrite stoi_padw by (apply (proj1 F1)). cbn [thrown obind].
      assert (G2 : aget (rv ++ [z]) (length rv) = Ok z).
      { unfold aget. rewrite nth_error_app2, Nat.sub_diag by lia. reflexivity. }
      rewrite G2. cbn [obind].
      assert (NE : exists ne2, (if (0 <? z)%Z then Ok (ne + 1)%Z
         else asserting (0 <? length rv)
                (pr <- aget (rv ++ [z]) (length rv - 1);;
                 asserting (0 <? pr)%Z
                   (asserting (negb (z =? -2147483648)%Z)
                      (Ok ((ne + (- z - pr)) mod 18446744073709551616)%Z)))) = Ok ne2 /\
                 (0 <= ne2 <= Z.of_nat (length (rv ++ [z])) * 2147483648)%Z).
      { rewrite app_length. cbn [length]. destruct (Z.ltb_spec 0 z).
        - exists (ne + 1)%Z. split; [reflexivity|lia].
        - destruct O1 as [O1|[O1 O3]]; [lia|].
          assert (RN : rv <> []) by (intros ->; rewrite (P0 eq_refl) in O1; lia).
          assert (LP : 0 < length rv) by (destruct rv; [exfalso; auto|cbn; lia]).
          destruct (Nat.ltb_spec 0 (length rv)); [|lia]. cbn [asserting].
          assert (G3 : aget (rv ++ [z]) (length rv - 1) = Ok prev).
          { unfold aget. rewrite nth_error_app1 by lia. rewrite (P1 RN).
            rewrite (app_removelast_last 0%Z RN) at 1 2. rewrite app_length. cbn [length].
            rewrite nth_error_app2 by lia. replace (_ + 1 - 1 - _) with 0 by lia. reflexivity. }
          rewrite G3. cbn [obind]. destruct (Z.ltb_spec 0 prev); [|lia]. cbn [asserting].
          destruct (Z.eqb_spec z (-2147483648)); [lia|]. cbn [negb asserting].
          eexists. split; [reflexivity|]. rewrite Z.mod_small; [lia|]. nia. }
      destruct NE as (ne2 & -> & NE2). cbn [obind].
      rewrite w16_small by lia. rewrite w16_small by lia.
      destruct (IH fuel ls' v' (ir + 1) (rv ++ [z]) ne2 z F2 O2) as (ne' & E & B).
      + intros X. apply app_eq_nil in X. destruct X; discriminate.
      + intros _. rewrite last_last. reflexivity.
      + rewrite app_length. cbn [length]. lia.
      + exact NE2.
      + lia.
      + rewrite Nat.add_1_r. change (skipn (S ir) v') with (skipn (S ir) v').
        replace (k - S ir) with (k - ir - 1) by lia.
        assert (SK : skipn (S ir) v' = tl (skipn ir v')).
        { clear. revert v'. induction ir as [|i IHi]; intros [|x v']; try reflexivity. cbn [skipn]. rewrite <- IHi. reflexivity. }
        rewrite SK, V'. reflexivity.
      + replace (k - (ir + 1)) with (k - ir - 1) by lia. exact R'.
      + lia.
      + rewrite app_length in E. cbn [length] in E. rewrite E. exists ne'. rewrite <- app_assoc. split; [reflexivity|exact B].
  Qed.
End CM.

Lemma zseq_map a m : zseq a m = map (fun j => a + Z.of_nat j)%Z (seq 0 m).
Proof.
  revert a. induction m as [|m IH]; intros a; [reflexivity|]. cbn [zseq seq map]. f_equal; [lia|].
  rewrite IH, <- seq_shift, map_map. apply map_ext. intros. lia.
Qed.
Lemma cm_fill_encode xs : Forall item_ok xs -> forall p, cm_fill p (encode xs) = expand xs.
Proof.
  induction 1 as [|x xs H F IH]; intros p; [reflexivity|].
  unfold encode, expand in *. cbn [flat_map]. destruct x as [a|a b]; cbn [app cm_fill item_list item_ok] in *.
  - destruct (Z.ltb_spec 0 a); [|lia]. cbn [app]. rewrite IH. reflexivity.
  - destruct (Z.ltb_spec 0 a); [|lia]. destruct (Z.ltb_spec 0 (- b)); [lia|].
    rewrite IH. replace (Z.to_nat (b - a + 1)) with (S (Z.to_nat (b - a))) by lia.
    cbn [seq map app]. f_equal; [lia|]. f_equal. rewrite zseq_map, <- seq_shift, map_map.
    replace (- - b - a)%Z with (b - a)%Z by lia. apply map_ext. intros. lia.
Qed.
Lemma okseq_encode xs : Forall item_ok xs -> forall p, okseq p (encode xs).
Proof.
  induction 1 as [|x xs H F IH]; intros p; [exact I|].
  unfold encode in *. cbn [flat_map]. destruct x as [a|a b]; cbn [app okseq item_ok] in *.
  - split; [left; lia|apply IH].
  - split; [left; lia|]. split; [right; lia|apply IH].
Qed.
Lemma encode_int xs : Forall item_ok xs -> Forall int_ok (encode xs).
Proof.
  induction 1 as [|x xs H F IH]; [constructor|]. unfold encode, int_ok in *. cbn [flat_map].
  destruct x as [a|a b]; cbn [app item_ok] in *; repeat (constructor; [lia|]); exact IH.
Qed.

Lemma aget_nth {A} (l : list A) i a : nth_error l i = Some a -> aget l i = Ok a.
Proof. unfold aget. intros ->. reflexivity. Qed.

Lemma number_rows_rest k w zs rest : zs <> [] -> rest_rows k w zs (number_rows k w zs ++ rest) rest.
Proof.
  intros N. unfold rest_rows, number_rows. destruct zs as [|z zs]; [exfalso; auto|].
  exists (length (z :: zs)). split; [lia|reflexivity].
Qed.

Lemma read_cm_ok t name lab ntok hdr k w xs rest :
  nth_error t 1 = Some name -> nth_error t 2 = Some lab -> nth_error t 3 = Some ntok ->
  stoi ntok = CVal (Z.of_nat (length (encode xs))) ->
  fmt_i hdr = Ok (k, w) -> 0 < k -> (N.of_nat k < 65536)%N -> 0 < w ->
  (N.of_nat (length (encode xs)) < 65536)%N ->
  Forall item_ok xs -> Forall (fun z => length (show z) <= w) (encode xs) ->
  read_cm t (hdr :: number_rows k w (encode xs) ++ rest) =
    Ok (rest, (name, mkComp (typeFromString (stoupper lab)) (expand xs))).
Proof.
  intros T1 T2 T3 Hn Hf Hk Hk2 Hw Hl I L. unfold read_cm, tokenInt.
  rewrite (aget_nth _ _ _ T1), (aget_nth _ _ _ T2), (aget_nth _ _ _ T3). cbn [obind].
  rewrite Hn. cbn [thrown obind next_line fst snd]. rewrite Hf. cbn [obind fst snd].
  set (zs := encode xs) in *.
  assert (F : Forall (fits w) zs).
  { apply Forall_forall. intros z Hz. split; [|rewrite Forall_forall in L; auto].
    pose proof (encode_int xs I) as E. rewrite Forall_forall in E. auto. }
  rewrite (Z.mod_small (Z.of_nat (length zs))) by lia.
  replace (Z.min (Z.of_nat (length zs)) 65536) with (Z.of_nat (length zs)) by lia. rewrite Nat2Z.id.
  match goal with |- context [S (length zs) + ?e] => generalize e; intros extra end. rewrite Nat.add_succ_l.
  destruct zs as [|z zs'] eqn:Ezs.
  - cbn [number_rows rows length map Nat.leb concat app next_line fst snd].
    unfold ssplit. destruct k as [|k]; [lia|]. cbn [repeat ssplit_from length].
    destruct (Nat.ltb_spec (0 - 0) w); [|lia]. cbn [Nat.sub Nat.eqb negb]. cbn [obind cm_read].
    cbn [length Z.of_nat Z.ltb Z.compare obind fst snd cm_fill].
    change (2305843009213693951 <? 0)%Z with false. cbn iota.
    pose proof (cm_fill_encode xs I 0) as X. change (encode xs) with zs in X. rewrite Ezs in X. cbn [cm_fill] in X.
    rewrite <- X. reflexivity.
  - rewrite <- Ezs in *. assert (N : zs <> []) by (rewrite Ezs; discriminate).
    destruct (rest_rows_next k w Hk Hw zs _ rest N F (number_rows_rest k w zs rest N)) as [E1 E2].
    rewrite E1. cbn [obind].
    destruct (cm_step_row k w (Z.of_nat (length zs)) rest Hk Hk2 Hw ltac:(lia) zs (S (length zs + extra))
               (snd (next_line (number_rows k w zs ++ rest))) (map (P w) (firstn k zs)) 0 [] 0%Z 0%Z)
      as (ne & E & B).
    + exact F.
    + apply okseq_encode. exact I.
    + reflexivity.
    + intros X. exfalso. auto.
    + reflexivity.
    + cbn. lia.
    + lia.
    + rewrite Nat.sub_0_r. reflexivity.
    + rewrite Nat.sub_0_r. exact E2.
    + lia.
    + cbn [length app] in E. rewrite E. cbn [obind fst snd].
      destruct (Z.ltb_spec 2305843009213693951 ne); [nia|].
      unfold zs. rewrite cm_fill_encode by exact I. reflexivity.
Qed.

(* 65536 and more entries: the loop has no way out *)
Lemma w16_lt n : (Z.of_nat (w16 n) < 65536)%Z.
Proof.
  unfold w16. pose proof (N.mod_lt (N.of_nat n) 65536 ltac:(discriminate)) as H.
  rewrite N_nat_Z. lia.
Qed.
Lemma cm_read_big k ws n : (65536 <= n)%Z -> forall fuel ls v r a rv ne q,
  (Z.of_nat a < 65536)%Z -> cm_read fuel k ws n ls v r a rv ne <> Ok q.
Proof.
  intros Hn. induction fuel as [|fuel IH]; intros ls v r a rv ne q Ha; [discriminate|].
  cbn [cm_read]. destruct (Z.ltb_spec (Z.of_nat a) n); [|lia].
  destruct (if r =? k then _ else _) as [[ls' [v' r']]| | |]; try discriminate. cbn [obind fst snd].
  destruct (aget v' r'); try discriminate. cbn [obind]. destruct (thrown _); try discriminate. cbn [obind].
  destruct (aget _ a); try discriminate. cbn [obind].
  match goal with |- obind ?e _ <> _ => destruct e; try discriminate end. cbn [obind].
  apply IH. apply w16_lt.
Qed.
Lemma read_cm_big t ntok n ls q : nth_error t 3 = Some ntok -> stoi ntok = CVal n -> (65536 <= n)%Z ->
  read_cm t ls <> Ok q.
Proof.
  intros T Hs Hn. unfold read_cm, tokenInt. destruct (aget t 1); try discriminate. cbn [obind].
  destruct (aget t 2); try discriminate. cbn [obind]. rewrite (aget_nth _ _ _ T). cbn [obind].
  rewrite Hs. cbn [thrown obind]. destruct (fmt_i _); try discriminate. cbn [obind].
  destruct (ssplit _ _ _); try discriminate. cbn [obind].
  match goal with |- obind ?e _ <> _ => destruct e eqn:E; try discriminate end.
  exfalso. revert E. apply cm_read_big; [|reflexivity].
  assert (n <= 2147483647)%Z.
  { clear - Hs. unfold stoi in Hs. destruct (starts_digit _); [|discriminate]. unfold int_range in Hs.
    match type of Hs with (if ?b then _ else _) = _ => destruct b eqn:B; [|discriminate] end.
    injection Hs as <-. apply andb_prop in B. destruct B as [_ B]. apply Z.leb_le in B. exact B. }
  rewrite Z.mod_small by lia. exact Hn.
Qed.
