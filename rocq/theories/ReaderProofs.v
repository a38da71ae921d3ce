From Coq Require Import Ascii String.
From Verif Require Import Base ReaderModel SpecReader.
Local Open Scope nat_scope.
Local Open Scope list_scope.

Lemma aeqb_t a b : Ascii.eqb a b = true <-> a = b.
Proof. apply Ascii.eqb_eq. Qed.
Lemma aeqb_f a b : Ascii.eqb a b = false <-> a <> b.
Proof. apply Ascii.eqb_neq. Qed.
Lemma str_eqb_eq a : forall b, str_eqb a b = true <-> a = b.
Proof.
  induction a as [|x a IH]; intros [|y b]; cbn [str_eqb]; try (split; [discriminate|discriminate]); [tauto|].
  rewrite andb_true_iff, aeqb_t, IH. split; [intros [-> ->]; reflexivity|intros H; injection H; auto].
Qed.
Lemma str_eqb_refl a : str_eqb a a = true.
Proof. apply str_eqb_eq. reflexivity. Qed.

(* ---- getLine *)
Lemma getLine_plain l : forall t s, plain l -> getLine_from t (l ++ s) = getLine_from (t ++ l) s.
Proof.
  induction l as [|c l IH]; intros t s [H1 H2]; cbn [app]; [rewrite app_nil_r; reflexivity|].
  cbn [getLine_from]. assert (E1 : Ascii.eqb c LF = false) by (apply aeqb_f; intros ->; apply H1; left; auto).
  assert (E2 : Ascii.eqb c CR = false) by (apply aeqb_f; intros ->; apply H2; left; auto).
  rewrite E1, E2, IH; [|split; intros H; [apply H1|apply H2]; right; exact H].
  rewrite <- app_assoc. reflexivity.
Qed.
Definition head_LF (s : str) : bool := match s with d :: _ => Ascii.eqb d LF | [] => false end.
Lemma getLine_line l e s : plain l -> (e = E_CR -> head_LF s = false) ->
  getLine (l ++ eol_str e ++ s) = (l, s, false).
Proof.
  intros P H. unfold getLine. rewrite getLine_plain by exact P. cbn [app].
  destruct e; cbn [eol_str app getLine_from].
  - reflexivity.
  - reflexivity.
  - change (Ascii.eqb CR LF) with false. change (Ascii.eqb CR CR) with true. cbn iota.
    specialize (H eq_refl). destruct s as [|d s]; [reflexivity|]. cbn [head_LF] in H. rewrite H. reflexivity.
Qed.
Lemma getLine_last l : plain l -> getLine l = (l, [], match l with [] => true | _ => false end).
Proof.
  intros P. unfold getLine. rewrite <- (app_nil_r l) at 1. rewrite getLine_plain by exact P. reflexivity.
Qed.

Lemma read_lines_file ls : forall last fuel,
  Forall (fun p => plain (fst p)) ls -> plain last -> unambiguous ls ->
  length ls + length (last_line last) < fuel ->
  read_lines fuel (file_of ls last) = Ok (map fst ls ++ last_line last).
Proof.
  induction ls as [|[l e] ls IH]; intros last fuel F P U L; destruct fuel as [|fuel]; try lia.
  - cbn [file_of map app read_lines]. rewrite getLine_last by exact P.
    destruct last as [|c last]; [reflexivity|]. destruct fuel as [|fuel]; [cbn in L; lia|].
    cbn [read_lines]. cbn. reflexivity.
  - inversion F as [|? ? P1 F1]; subst. cbn [fst] in P1.
    cbn [file_of read_lines]. rewrite getLine_line; [|exact P1|].
    + rewrite IH; [reflexivity|exact F1|exact P| |cbn in L; lia].
      exact (proj2 U).
    + intros ->. destruct ls as [|[l' e'] ls]; cbn [file_of].
      * destruct last as [|c last]; [reflexivity|]. cbn. apply aeqb_f. intros ->. apply (proj1 P). left; auto.
      * destruct l' as [|c l'].
        -- destruct U as [U _]. specialize (U eq_refl eq_refl). destruct e'; [exfalso; auto|reflexivity|reflexivity].
        -- cbn. apply aeqb_f. intros ->. inversion F1 as [|? ? P2 _]; subst. apply (proj1 P2). left; auto.
Qed.

Lemma file_length ls last : length ls + length (last_line last) < S (length (file_of ls last)).
Proof.
  induction ls as [|[l e] ls IH]; cbn [file_of length].
  - destruct last; cbn; lia.
  - rewrite !app_length. destruct e; cbn [eol_str length]; lia.
Qed.

(* every file is of this form *)
Lemma file_decompose n : forall s, length s < n -> exists ls last,
  s = file_of ls last /\ Forall (fun p => plain (fst p)) ls /\ plain last /\ unambiguous ls.
Proof.
  induction n as [|n IH]; intros s L; [lia|].
  destruct s as [|c s].
  - exists [], []. repeat split; auto.
  - cbn [length] in L.
    destruct (Ascii.eqb c LF) eqn:E1; [apply aeqb_t in E1; subst c|].
    + destruct (IH s ltac:(lia)) as (ls & la & -> & F & P & U).
      exists (([], E_LF) :: ls), la. split; [reflexivity|]. split; [constructor; [split; intros []|exact F]|].
      split; [exact P|]. split; [|exact U]. destruct ls as [|[l e] ls]; [exact I|]. discriminate.
    + destruct (Ascii.eqb c CR) eqn:E2; [apply aeqb_t in E2; subst c|].
      * destruct (head_LF s) eqn:H.
        -- destruct s as [|d s]; [discriminate|]. cbn in H. apply aeqb_t in H. subst d. cbn in L.
           destruct (IH s ltac:(lia)) as (ls & la & -> & F & P & U).
           exists (([], E_CRLF) :: ls), la. split; [reflexivity|]. split; [constructor; [split; intros []|exact F]|].
           split; [exact P|]. split; [|exact U]. destruct ls as [|[l e] ls]; [exact I|]. discriminate.
        -- destruct (IH s ltac:(lia)) as (ls & la & -> & F & P & U).
           exists (([], E_CR) :: ls), la. split; [reflexivity|]. split; [constructor; [split; intros []|exact F]|].
           split; [exact P|]. split; [|exact U]. destruct ls as [|[l e] ls]; [exact I|].
           intros _ -> ->. cbn in H. discriminate.
      * apply aeqb_f in E1. apply aeqb_f in E2.
        destruct (IH s ltac:(lia)) as (ls & la & -> & F & P & U).
        destruct ls as [|[l e] ls].
        -- exists [], (c :: la). cbn. repeat split; auto; intros [X|X]; try congruence; [apply (proj1 P)|apply (proj2 P)]; auto.
        -- exists ((c :: l, e) :: ls), la. split; [reflexivity|].
           inversion F as [|? ? P1 F1]; subst. cbn [fst] in P1.
           split; [constructor; [|exact F1]|split; [exact P|]].
           { split; intros [X|X]; try congruence; [apply (proj1 P1)|apply (proj2 P1)]; auto. }
           exact U.
Qed.

(* ---- strim *)
Lemma drop_blank_split l : exists b, blanks b /\ l = b ++ drop_blank l.
Proof.
  induction l as [|c l (b & B & E)]; [exists []; split; [constructor|reflexivity]|].
  cbn [drop_blank]. destruct (is_blank c) eqn:H.
  - exists (c :: b). split; [constructor; auto|cbn; congruence].
  - exists []. split; [constructor|reflexivity].
Qed.
Lemma drop_blank_head l c t : drop_blank l = c :: t -> is_blank c = false.
Proof.
  induction l as [|x l IH]; cbn [drop_blank]; [discriminate|].
  destruct (is_blank x) eqn:H; [exact IH|]. intros E. injection E; intros; subst; auto.
Qed.
Lemma blanks_rev b : blanks b -> blanks (rev b).
Proof. unfold blanks. intros H. apply Forall_rev. exact H. Qed.
Lemma drop_blank_blanks b l : blanks b -> drop_blank (b ++ l) = drop_blank l.
Proof. induction 1 as [|c b H B IH]; [reflexivity|]. cbn. rewrite H. exact IH. Qed.
Lemma drop_blank_trimmed l : (forall c t, l = c :: t -> is_blank c = false) -> drop_blank l = l.
Proof. destruct l as [|c l]; [reflexivity|]. intros H. cbn. rewrite (H c l eq_refl). reflexivity. Qed.

Lemma strim_split l : exists b1 b2, blanks b1 /\ blanks b2 /\ l = b1 ++ strim l ++ b2 /\ trimmed (strim l).
Proof.
  destruct (drop_blank_split l) as (b1 & B1 & E1).
  destruct (drop_blank_split (rev (drop_blank l))) as (b2 & B2 & E2).
  exists b1, (rev b2). split; [exact B1|]. split; [apply blanks_rev; exact B2|].
  assert (E3 : drop_blank l = strim l ++ rev b2).
  { unfold strim. rewrite <- rev_app_distr, <- E2, rev_involutive. reflexivity. }
  split; [rewrite <- E3; exact E1|]. split.
  - intros c t H. apply (drop_blank_head l c (t ++ rev b2)). rewrite E3, H. reflexivity.
  - intros c t H. unfold strim in H. apply (f_equal (@rev _)) in H. rewrite rev_involutive, rev_app_distr in H.
    exact (drop_blank_head _ _ _ H).
Qed.
Lemma strim_trimmed b1 l b2 : blanks b1 -> blanks b2 -> trimmed l -> strim (b1 ++ l ++ b2) = l.
Proof.
  intros B1 B2 [T1 T2]. unfold strim. rewrite drop_blank_blanks by exact B1.
  destruct l as [|c l].
  - cbn [app]. assert (E : drop_blank b2 = []).
    { rewrite <- (app_nil_r b2). rewrite drop_blank_blanks by exact B2. reflexivity. }
    rewrite E. reflexivity.
  - rewrite (drop_blank_trimmed ((c :: l) ++ b2)) by (intros c' t H; cbn [app] in H; injection H as <- _; eapply T1; reflexivity).
    rewrite rev_app_distr, drop_blank_blanks by (apply blanks_rev; exact B2).
    rewrite drop_blank_trimmed; [apply rev_involutive|].
    intros c' t H. apply (T2 c' (rev t)). apply (f_equal (@rev _)) in H. rewrite rev_involutive in H. exact H.
Qed.

(* ---- tokenize *)
Definition no_delim (ds : list ascii) (l : str) : Prop := Forall (fun c => mem c ds = false) l.
Lemma find_none ds l : find_first_of ds l = None -> no_delim ds l.
Proof.
  induction l as [|c l IH]; [constructor|]. cbn. destruct (mem c ds) eqn:H; [discriminate|].
  destruct (find_first_of ds l) as [[[a d] b]|]; [discriminate|]. intros _. constructor; auto. apply IH. reflexivity.
Qed.
Lemma find_some ds l : forall a d b, find_first_of ds l = Some (a, d, b) ->
  l = a ++ d :: b /\ no_delim ds a /\ mem d ds = true.
Proof.
  induction l as [|c l IH]; intros a d b; [discriminate|]. cbn. destruct (mem c ds) eqn:H.
  - intros E. injection E as <- <- <-. repeat split; auto. constructor.
  - destruct (find_first_of ds l) as [[[a' d'] b']|] eqn:F; [|discriminate].
    intros E. injection E as <- <- <-. destruct (IH _ _ _ eq_refl) as (-> & N & M).
    repeat split; auto. constructor; auto.
Qed.
Lemma find_app ds a d b : no_delim ds a -> mem d ds = true -> find_first_of ds (a ++ d :: b) = Some (a, d, b).
Proof.
  intros N M. induction N as [|c a H N IH]; cbn; [rewrite M; reflexivity|]. rewrite H, IH. reflexivity.
Qed.
Lemma find_nodelim ds a : no_delim ds a -> find_first_of ds a = None.
Proof. induction 1 as [|c a H N IH]; cbn; [reflexivity|]. rewrite H, IH. reflexivity. Qed.

Lemma join_cons r r' rs d ds : join (r :: r' :: rs) (d :: ds) = r ++ d :: join (r' :: rs) ds.
Proof. reflexivity. Qed.

Lemma tokenize_from_spec ds : forall fuel l tok dtok, length l < fuel ->
  exists raws dts, tokenize_from fuel ds l tok dtok = Ok (tok ++ map strim raws, dtok ++ dts) /\
    length raws = S (length dts) /\ join raws dts = l /\
    Forall (no_delim ds) raws /\ Forall (fun d => mem d ds = true) dts.
Proof.
  induction fuel as [|fuel IH]; intros l tok dtok L; [lia|]. cbn [tokenize_from].
  destruct (find_first_of ds l) as [[[a d] b]|] eqn:F.
  - destruct (find_some _ _ _ _ _ F) as (-> & N & M). rewrite app_length in L. cbn [length] in L.
    destruct (IH b (tok ++ [strim a]) (dtok ++ [d]) ltac:(lia)) as (raws & dts & E & Hl & J & FN & FM).
    exists (a :: raws), (d :: dts). rewrite E, <- !app_assoc. split; [reflexivity|].
    split; [cbn; lia|]. split; [|split; constructor; auto].
    destruct raws as [|r raws]; [discriminate|]. rewrite join_cons, J. reflexivity.
  - exists [l], []. rewrite app_nil_r. repeat split; auto. constructor; [apply find_none; exact F|constructor].
Qed.
Lemma tokenize_from_join ds : forall raws dts fuel tok dtok, length raws = S (length dts) ->
  Forall (no_delim ds) raws -> Forall (fun d => mem d ds = true) dts -> length dts < fuel ->
  tokenize_from fuel ds (join raws dts) tok dtok = Ok (tok ++ map strim raws, dtok ++ dts).
Proof.
  induction raws as [|r raws IH]; intros dts fuel tok dtok L FN FM Hf; [discriminate|].
  inversion FN as [|? ? N1 FN1]; subst. destruct fuel as [|fuel]; [lia|].
  destruct dts as [|d dts].
  - destruct raws; [|discriminate]. cbn [join tokenize_from]. rewrite find_nodelim by exact N1.
    rewrite app_nil_r. reflexivity.
  - destruct raws as [|r' raws]; [discriminate|]. inversion FM as [|? ? M1 FM1]; subst.
    rewrite join_cons. cbn [tokenize_from]. rewrite find_app by assumption.
    rewrite IH; [rewrite <- !app_assoc; reflexivity|cbn in *; lia|exact FN1|exact FM1|cbn in Hf; lia].
Qed.
Lemma join_length raws : forall dts, length raws = S (length dts) -> length dts <= length (join raws dts).
Proof.
  induction raws as [|r raws IH]; intros dts L; [discriminate|]. destruct dts as [|d dts]; [cbn; lia|].
  destruct raws as [|r' raws]; [discriminate|]. rewrite join_cons, app_length. cbn [length].
  specialize (IH dts ltac:(cbn in *; lia)). lia.
Qed.

Lemma tokenize_spec ds lowr l : exists raws dts,
  tokenize ds lowr l = Ok (map (fun r => if lowr then stolower (strim r) else strim r) raws, dts) /\
  length raws = S (length dts) /\ join raws dts = l /\
  Forall (no_delim ds) raws /\ Forall (fun d => mem d ds = true) dts.
Proof.
  destruct (tokenize_from_spec ds (S (length l)) l [] [] ltac:(lia)) as (raws & dts & E & H).
  exists raws, dts. split; [|exact H]. unfold tokenize. rewrite E. cbn [obind fst snd app].
  destruct lowr; [rewrite map_map|]; reflexivity.
Qed.
Lemma tokenize_join ds lowr raws dts : length raws = S (length dts) ->
  Forall (no_delim ds) raws -> Forall (fun d => mem d ds = true) dts ->
  tokenize ds lowr (join raws dts) = Ok (map (fun r => if lowr then stolower (strim r) else strim r) raws, dts).
Proof.
  intros L FN FM. unfold tokenize. rewrite tokenize_from_join; auto; [|pose proof (join_length _ _ L); lia].
  cbn [obind fst snd app]. destruct lowr; [rewrite map_map|]; reflexivity.
Qed.

(* ---- ssplit *)
Lemma skipn_add {A} a : forall b (l : list A), skipn (a + b) l = skipn b (skipn a l).
Proof. induction a as [|a IH]; intros b [|x l]; cbn; auto. destruct b; reflexivity. Qed.
Lemma ssplit_ok line ws strict : forall ind vv, ind <= length line -> ind + total ws <= length line ->
  ssplit_from line ind ws strict vv = Ok (vv ++ fields (skipn ind line) ws).
Proof.
  induction ws as [|w ws IH]; intros ind vv L T; cbn [ssplit_from fields total] in *.
  - rewrite app_nil_r. reflexivity.
  - destruct (Nat.ltb_spec (length line - ind) w); [lia|]. rewrite IH by lia.
    rewrite <- app_assoc, skipn_add. reflexivity.
Qed.
Lemma ssplit_short line ws strict : forall ind vv, ind <= length line -> length line < ind + total ws ->
  exists k, k < length ws /\ ind + total (firstn k ws) <= length line < ind + total (firstn (S k) ws) /\
    ssplit_from line ind ws strict vv =
      if strict then Fatal
      else if ind + total (firstn k ws) =? length line
           then Ok (vv ++ fields (skipn ind line) (firstn k ws)) else Fatal.
Proof.
  induction ws as [|w ws IH]; intros ind vv L T; cbn [ssplit_from total] in *; [lia|].
  destruct (Nat.ltb_spec (length line - ind) w) as [H|H].
  - exists 0. cbn [firstn total length fields]. rewrite app_nil_r.
    split; [lia|]. split; [lia|]. destruct strict; [reflexivity|].
    destruct (Nat.eqb_spec (length line - ind) 0), (Nat.eqb_spec (ind + 0) (length line)); try lia; reflexivity.
  - destruct (IH (ind + w) (vv ++ [firstn w (skipn ind line)]) ltac:(lia) ltac:(lia)) as (k & Hk & R & E).
    exists (S k). cbn [length]. split; [lia|].
    change (firstn (S (S k)) (w :: ws)) with (w :: firstn (S k) ws).
    change (firstn (S k) (w :: ws)) with (w :: firstn k ws). cbn [total fields].
    split; [lia|]. rewrite E. destruct strict; [reflexivity|].
    rewrite <- Nat.add_assoc, <- app_assoc, skipn_add. reflexivity.
Qed.
Lemma fields_concat ws : forall l, total ws <= length l ->
  concat (fields l ws) = firstn (total ws) l /\ map (@length _) (fields l ws) = ws.
Proof.
  induction ws as [|w ws IH]; intros l L; cbn [fields total concat map] in *; [split; reflexivity|].
  destruct (IH (skipn w l)) as [E1 E2]; [rewrite skipn_length; lia|].
  rewrite E1, E2, firstn_length. split; [|f_equal; lia].
  rewrite <- (firstn_skipn w l) at 3. rewrite firstn_app, firstn_length, Nat.min_l by lia.
  rewrite firstn_firstn, Nat.min_r by lia. f_equal. f_equal. lia.
Qed.
Lemma fields_of_concat vs : forall rest, fields (concat vs ++ rest) (map (@length _) vs) = vs.
Proof.
  induction vs as [|v vs IH]; intros rest; [reflexivity|]. cbn [concat map fields].
  rewrite <- app_assoc. rewrite firstn_app, Nat.sub_diag, firstn_all. cbn [firstn]. rewrite app_nil_r.
  rewrite skipn_app, skipn_all, Nat.sub_diag. cbn [skipn app]. rewrite IH. reflexivity.
Qed.
Lemma total_lengths vs : total (map (@length ascii) vs) = length (concat vs).
Proof. induction vs as [|v vs IH]; [reflexivity|]. cbn. rewrite app_length, IH. reflexivity. Qed.
(* a line made of the first fields *)
Lemma ssplit_fields vs ws : (exists ws', ws = map (@length _) vs ++ ws' /\ Forall (fun w => 0 < w) ws') ->
  ssplit (concat vs) ws false = Ok vs.
Proof.
  intros (ws' & -> & P). unfold ssplit.
  destruct ws' as [|w ws'].
  - rewrite app_nil_r. rewrite ssplit_ok; [|lia|rewrite total_lengths; lia].
    cbn [skipn app]. rewrite <- (app_nil_r (concat vs)), fields_of_concat. reflexivity.
  - assert (T : forall a b, total (a ++ b) = total a + total b) by (induction a; intros; cbn; [reflexivity|rewrite IHa; lia]).
    inversion P as [|? ? Pw P']; subst.
    destruct (ssplit_short (concat vs) (map (@length _) vs ++ w :: ws') false 0 [] ltac:(lia)) as (k & Hk & R & E).
    { rewrite T, total_lengths. cbn [total]. lia. }
    rewrite E. cbn [Nat.add] in *.
    assert (Ek : k = length vs).
    { pose proof (total_lengths vs) as TL.
      assert (W1 : total (firstn (length vs) (map (@length _) vs ++ w :: ws')) = length (concat vs)).
      { rewrite firstn_app, map_length, Nat.sub_diag. cbn [firstn]. rewrite app_nil_r.
        rewrite firstn_all2 by (rewrite map_length; lia). exact TL. }
      assert (W2 : total (firstn (S (length vs)) (map (@length _) vs ++ w :: ws')) = length (concat vs) + w).
      { rewrite firstn_app, map_length. replace (S (length vs) - length vs) with 1 by lia.
        rewrite (firstn_all2 (n := S (length vs)) (map (@length _) vs)) by (rewrite map_length; auto with arith). rewrite T, TL. cbn [firstn total]. lia. }
      assert (Mono : forall W i j, i <= j -> total (firstn i W) <= total (firstn j W)).
      { induction W as [|x W IHW]; intros [|i] [|j] Hij; cbn [firstn total]; try lia.
        specialize (IHW i j ltac:(lia)). lia. }
      destruct (Nat.lt_trichotomy k (length vs)) as [H|[H|H]]; [|exact H|]; exfalso.
      - pose proof (Mono (map (@length _) vs ++ w :: ws') (S k) (length vs) ltac:(lia)). lia.
      - pose proof (Mono (map (@length _) vs ++ w :: ws') (S (length vs)) k ltac:(lia)). lia. }
    subst k. rewrite firstn_app, map_length, Nat.sub_diag. cbn [firstn]. rewrite app_nil_r.
    rewrite (firstn_all2 (n := length vs)) by (rewrite map_length; lia).
    rewrite total_lengths, Nat.eqb_refl. cbn [skipn app].
    rewrite <- (app_nil_r (concat vs)), fields_of_concat. reflexivity.
Qed.
