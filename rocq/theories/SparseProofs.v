(* Proofs about SparsityInfo: representation invariants, addEntry, compress, getIndex *)
From Verif Require Import Base BaseProofs SparseModel SpecSparse.
From Coq Require Import Permutation Sorted.

(* ------------------------------------------------------------------ *)
(* rows stored one after the other in a flat array *)
Definition psum {A} (ll : list (list A)) (i : nat) : nat := length (concat (firstn i ll)).

Lemma psum_0 {A} (ll : list (list A)) : psum ll 0 = 0.
Proof. reflexivity. Qed.

Lemma firstn_S_nth {A} (l : list A) i d :
  i < length l -> firstn (S i) l = firstn i l ++ [nth i l d].
Proof.
  revert i; induction l as [|x l IH]; intros [|i] H; cbn in *; try lia; auto.
  f_equal. apply IH; lia.
Qed.

Lemma psum_S {A} (ll : list (list A)) i :
  i < length ll -> psum ll (S i) = psum ll i + length (nth i ll []).
Proof.
  intros H. unfold psum. rewrite (firstn_S_nth ll i []) by auto.
  rewrite concat_app, app_length. cbn. rewrite app_nil_r. reflexivity.
Qed.

Lemma psum_all {A} (ll : list (list A)) : psum ll (length ll) = length (concat ll).
Proof. unfold psum. now rewrite firstn_all. Qed.

Lemma psum_mono {A} (ll : list (list A)) i j : i <= j -> psum ll i <= psum ll j.
Proof.
  intros H. unfold psum.
  replace (firstn j ll) with (firstn i ll ++ firstn (j - i) (skipn i ll)).
  - rewrite concat_app, app_length. lia.
  - rewrite <- (firstn_skipn i (firstn j ll)). rewrite firstn_firstn.
    replace (min i j) with i by lia. f_equal.
    rewrite skipn_firstn_comm. reflexivity.
Qed.

Lemma nth_error_concat {A} (ll : list (list A)) i k :
  i < length ll -> k < length (nth i ll []) ->
  nth_error (concat ll) (psum ll i + k) = nth_error (nth i ll []) k.
Proof.
  revert i; induction ll as [|l ll IH]; intros [|i] Hi Hk; cbn in *; try lia.
  - rewrite nth_error_app1 by auto. reflexivity.
  - unfold psum; cbn. rewrite app_length, nth_error_app2 by lia.
    replace (length l + length (concat (firstn i ll)) + k - length l)
      with (psum ll i + k) by (unfold psum; lia).
    apply IH; lia.
Qed.

Lemma concat_pos {A} (ll : list (list A)) p :
  p < length (concat ll) ->
  exists i k, i < length ll /\ k < length (nth i ll []) /\ p = psum ll i + k.
Proof.
  revert p; induction ll as [|l ll IH]; cbn; intros p H; [lia|].
  rewrite app_length in H. destruct (Nat.lt_ge_cases p (length l)) as [C|C].
  - exists 0, p. cbn. repeat split; lia.
  - destruct (IH (p - length l)) as (i & k & Hi & Hk & E); [lia|].
    exists (S i), k. cbn. unfold psum in *; cbn. rewrite app_length. repeat split; try lia.
Qed.

Lemma pos_inj {A} (ll : list (list A)) i k i' k' :
  i < length ll -> k < length (nth i ll []) ->
  i' < length ll -> k' < length (nth i' ll []) ->
  psum ll i + k = psum ll i' + k' -> i = i' /\ k = k'.
Proof.
  intros Hi Hk Hi' Hk' E.
  destruct (lt_eq_lt_dec i i') as [[C|C]|C].
  - assert (psum ll (S i) <= psum ll i') by (apply psum_mono; lia).
    rewrite psum_S in H by auto. lia.
  - subst. lia.
  - assert (psum ll (S i') <= psum ll i) by (apply psum_mono; lia).
    rewrite psum_S in H by auto. lia.
Qed.

Lemma psum_len {A B} (l1 : list (list A)) (l2 : list (list B)) i :
  map (@length A) l1 = map (@length B) l2 -> psum l1 i = psum l2 i.
Proof.
  unfold psum. revert l2 i; induction l1 as [|x l1 IH]; intros [|y l2] i H; cbn in *;
    try discriminate.
  - now destruct i.
  - destruct i; cbn; auto. rewrite !app_length. injection H as H1 H2.
    rewrite (IH l2) by auto. lia.
Qed.

Lemma psum_uniform {A} (ll : list (list A)) m i :
  (forall l, In l ll -> length l = m) -> i <= length ll -> psum ll i = i * m.
Proof.
  intros H. induction i as [|i IH]; intros Hi; [reflexivity|].
  rewrite psum_S by lia. rewrite IH by lia.
  rewrite (H (nth i ll [])) by (apply nth_In; lia). lia.
Qed.

(* ------------------------------------------------------------------ *)
(* position of a column in a row *)
Fixpoint index_of (j : nat) (l : list nat) : option nat :=
  match l with
  | [] => None
  | x :: t => if x =? j then Some 0 else option_map S (index_of j t)
  end.

Lemma index_of_some j l k : index_of j l = Some k -> nth_error l k = Some j /\ k < length l.
Proof.
  revert k; induction l as [|x l IH]; cbn; intros k H; [discriminate|].
  destruct (Nat.eqb_spec x j) as [->|N].
  - injection H as <-. cbn. split; auto; lia.
  - destruct (index_of j l) as [k'|]; cbn in H; [|discriminate]. injection H as <-.
    cbn. destruct (IH k' eq_refl). split; auto; lia.
Qed.

Lemma index_of_none j l : index_of j l = None <-> ~ In j l.
Proof.
  induction l as [|x l IH]; cbn; [tauto|].
  destruct (Nat.eqb_spec x j) as [->|N].
  - split; [discriminate|]. intros H; exfalso; auto.
  - destruct (index_of j l); cbn; split; intros H; try discriminate; auto.
    + exfalso. apply H. right. destruct (in_dec Nat.eq_dec j l) as [i|i]; auto.
      exfalso. apply IH in i. discriminate.
    + intros [C|C]; [congruence|]. apply IH in C; auto.
Qed.

Lemma index_of_in j l : In j l -> exists k, index_of j l = Some k.
Proof.
  intros H. destruct (index_of j l) as [k|] eqn:E; eauto.
  apply index_of_none in E. tauto.
Qed.

Lemma index_of_nth l k j : NoDup l -> nth_error l k = Some j -> index_of j l = Some k.
Proof.
  intros ND H.
  destruct (index_of_in j l) as [k' E]; [eapply nth_error_In; eauto|].
  rewrite E. f_equal. apply index_of_some in E as [E1 E2].
  apply (proj1 (NoDup_nth_error l) ND k' k); congruence.
Qed.

(* ------------------------------------------------------------------ *)
(* std_sort *)
Lemma insert_sorted_perm x l : Permutation (insert_sorted x l) (x :: l).
Proof.
  induction l as [|y l IH]; cbn; auto.
  destruct (x <=? y); auto.
  rewrite IH. apply perm_swap.
Qed.

Lemma std_sort_perm l : Permutation (std_sort l) l.
Proof.
  induction l as [|x l IH]; cbn; auto.
  rewrite insert_sorted_perm. now constructor.
Qed.

Lemma insert_sorted_sorted x l : Sorted le l -> Sorted le (insert_sorted x l).
Proof.
  induction l as [|y l IH]; cbn; intros H; [auto|].
  destruct (Nat.leb_spec x y).
  - constructor; auto.
  - inversion H as [|? ? H1 H2]; subst. constructor; auto.
    destruct l as [|z l]; cbn; [constructor; lia|].
    destruct (x <=? z); constructor; [lia|]. inversion H2; auto.
Qed.

Lemma std_sort_sorted l : Sorted le (std_sort l).
Proof. induction l; cbn; [constructor|]. now apply insert_sorted_sorted. Qed.

Lemma std_sort_strict l : NoDup l -> StronglySorted lt (std_sort l).
Proof.
  intros ND.
  assert (ND' : NoDup (std_sort l)).
  { eapply Permutation_NoDup; [symmetry; apply std_sort_perm|auto]. }
  pose proof (std_sort_sorted l) as H.
  apply Sorted_StronglySorted in H; [|intros a b c; lia].
  induction H as [|x t H IH F]; constructor.
  - apply IH. now inversion ND'.
  - inversion ND' as [|? ? N1 N2]; subst. rewrite Forall_forall in *. intros y Hy.
    specialize (F y Hy). destruct (Nat.eq_dec x y); [subst; tauto|lia].
Qed.

Lemma strict_NoDup l : StronglySorted lt l -> NoDup l.
Proof.
  induction 1 as [|x t H IH F]; constructor; auto.
  rewrite Forall_forall in F. intros HI. specialize (F x HI). lia.
Qed.

Lemma strict_nth l a b x y :
  StronglySorted lt l -> nth_error l a = Some x -> nth_error l b = Some y ->
  a < b -> x < y.
Proof.
  intros H. revert a b; induction H as [|z t H IH F]; intros a b Ha Hb Hab.
  - destruct a; discriminate.
  - destruct b as [|b]; [lia|]. cbn in Hb. destruct a as [|a]; cbn in Ha.
    + injection Ha as <-. rewrite Forall_forall in F. apply F. eapply nth_error_In; eauto.
    + eapply IH; eauto; lia.
Qed.

Lemma strict_nth_inv l a b x y :
  StronglySorted lt l -> nth_error l a = Some x -> nth_error l b = Some y ->
  x < y -> a < b.
Proof.
  intros H Ha Hb Hxy. destruct (lt_eq_lt_dec a b) as [[C|C]|C]; auto.
  - subst. rewrite Ha in Hb. injection Hb as <-. lia.
  - assert (y < x) by (eapply strict_nth; [exact H|exact Hb|exact Ha|exact C]). lia.
Qed.

(* ------------------------------------------------------------------ *)
(* representation invariants *)
Definition layout (s : spinfo) (cells : list (list (option nat))) : Prop :=
  length cells = si_nrows s /\
  si_columns s = concat cells /\
  length (si_iofeir s) = S (si_nrows s) /\
  (forall i, i <= si_nrows s -> nth_error (si_iofeir s) i = Some (S (psum cells i))).

Definition pad (m : nat) (r : list nat) : list (option nat) :=
  map Some r ++ repeat None (m - length r).

Definition rows_ok (s : spinfo) (rows : list (list nat)) : Prop :=
  forall r, In r rows ->
    NoDup r /\ (forall j, In j r -> 1 <= j <= si_ncols s).

(* before compress *)
Definition RepU (s : spinfo) (rows : list (list nat)) : Prop :=
  si_compressed s = false /\
  layout s (map (pad (si_max s)) rows) /\
  rows_ok s rows /\
  (forall r, In r rows -> length r <= si_max s) /\
  si_nvals s = length (concat rows).

(* after compress *)
Definition RepC (s : spinfo) (rows : list (list nat)) : Prop :=
  si_compressed s = true /\
  layout s (map (map Some) rows) /\
  rows_ok s rows /\
  (forall r, In r rows -> StronglySorted lt r) /\
  si_nvals s = length (concat rows).

Lemma pad_length m r : length r <= m -> length (pad m r) = m.
Proof. intros H. unfold pad. rewrite app_length, map_length, repeat_length. lia. Qed.

Lemma RepC_len s rows : RepC s rows -> length rows = si_nrows s.
Proof. intros (_ & (H & _) & _). now rewrite map_length in H. Qed.
Lemma RepU_len s rows : RepU s rows -> length rows = si_nrows s.
Proof. intros (_ & (H & _) & _). now rewrite map_length in H. Qed.

Definition cap (nc m : nat) : nat := if m <? nc then m else nc.

Lemma concat_repeat_nil {A} n : concat (repeat (@nil A) n) = [].
Proof. induction n; cbn; auto. Qed.

Lemma concat_repeat_repeat {A} (a : A) n m :
  concat (repeat (repeat a m) n) = repeat a (n * m).
Proof. induction n; cbn; auto. rewrite IHn. now rewrite repeat_app. Qed.

Lemma map_repeat {A B} (f : A -> B) a n : map f (repeat a n) = repeat (f a) n.
Proof. induction n; cbn; f_equal; auto. Qed.

Lemma si_reinit_ok nr nc m :
  0 < m -> exists s, si_reinit nr nc m = Ok s /\ RepU s (repeat [] nr) /\
    si_nrows s = nr /\ si_ncols s = nc /\ si_max s = cap nc m.
Proof.
  intros H. unfold si_reinit. apply Nat.ltb_lt in H. rewrite H. cbn [asserting].
  fold (cap nc m). eexists; split; [reflexivity|].
  split; [|repeat split]. split; [reflexivity|]. split; [|split; [|split]].
  - unfold layout; cbn [si_nrows si_columns si_iofeir si_max]. repeat split.
    + now rewrite map_length, repeat_length.
    + rewrite map_repeat. unfold pad; cbn [map app length]. rewrite Nat.sub_0_r.
      now rewrite concat_repeat_repeat.
    + now rewrite map_length, seq_length.
    + intros i Hi.
      rewrite nth_error_map'. rewrite (nth_error_nth' _ 0) by (rewrite seq_length; lia).
      rewrite seq_nth by lia. cbn [option_map]. do 2 f_equal.
      rewrite (psum_uniform _ (cap nc m)); [lia| |].
      * intros l HI. apply in_map_iff in HI as (r & <- & HI).
        apply repeat_spec in HI; subst. apply pad_length; cbn; lia.
      * now rewrite map_length, repeat_length.
  - intros r HI. apply repeat_spec in HI; subst. split; [constructor|]. intros j [].
  - intros r HI. apply repeat_spec in HI; subst; cbn; lia.
  - now rewrite concat_repeat_nil.
Qed.

(* the abstract effect of addEntry *)
Definition rows_add (rows : list (list nat)) (i j : nat) : list (list nat) :=
  let r := nth (i - 1) rows [] in
  if in_dec Nat.eq_dec j r then rows else upd rows (i - 1) (r ++ [j]).

Lemma add_scan_spec cols base r m k j :
  (forall q, q < m -> nth_error cols (base + q) = nth_error (pad m r) q) ->
  length r <= m -> k <= length r -> ~ In j (firstn k r) ->
  add_scan cols (base + k) (m - k) j =
    if in_dec Nat.eq_dec j r then Ok None
    else if length r <? m then Ok (Some (base + length r)) else Fatal.
Proof.
  intros Hc Hr. remember (m - k) as n eqn:En. revert k En.
  induction n as [|n IH]; intros k En Hk Hn.
  - cbn. assert (k = length r) by lia. subst k. rewrite firstn_all in Hn.
    destruct (in_dec _ _ _); [tauto|].
    replace (length r <? m) with false; auto.
    symmetry. apply Nat.ltb_ge. lia.
  - cbn [add_scan]. unfold aget. rewrite Hc by lia. unfold pad.
    destruct (Nat.lt_ge_cases k (length r)) as [C|C].
    + rewrite nth_error_app1 by (rewrite map_length; auto).
      rewrite nth_error_map'. rewrite (nth_error_nth' r 0 C). cbn [option_map obind].
      destruct (Nat.eqb_spec (nth k r 0) j) as [E|E].
      * assert (In j r) by (rewrite <- E; apply nth_In; auto).
        destruct (in_dec _ _ _); tauto.
      * replace (S (base + k)) with (base + S k) by lia. apply IH; try lia.
        rewrite (firstn_S_nth r k 0 C). rewrite in_app_iff. cbn. intuition.
    + assert (k = length r) by lia. subst k.
      rewrite nth_error_app2 by (rewrite map_length; auto).
      rewrite map_length, nth_error_repeat_lt.
      replace (length r - length r <? m - length r) with true
        by (symmetry; apply Nat.ltb_lt; lia). cbn [obind].
      rewrite firstn_all in Hn. destruct (in_dec _ _ _); [tauto|].
      replace (length r <? m) with true; auto. symmetry; apply Nat.ltb_lt; lia.
Qed.

Lemma in_upd {A} (l : list A) i a x : In x (upd l i a) -> x = a \/ In x l.
Proof.
  revert i; induction l as [|y l IH]; intros [|i]; cbn; intros H; auto.
  - destruct H; auto.
  - destruct H as [H|H]; auto. destruct (IH i H); auto.
Qed.

Lemma length_concat_upd {A} (ll : list (list A)) i l :
  i < length ll ->
  length (concat (upd ll i l)) + length (nth i ll []) = length (concat ll) + length l.
Proof.
  revert i; induction ll as [|x ll IH]; intros [|i] H; cbn in *; try lia.
  - rewrite !app_length. lia.
  - rewrite !app_length. specialize (IH i). lia.
Qed.

Lemma map_upd {A B} (f : A -> B) l i a : map f (upd l i a) = upd (map f l) i (f a).
Proof. revert i; induction l; intros [|i]; cbn; f_equal; auto. Qed.

Lemma concat_upd_cell {A} (ll : list (list A)) i k a :
  i < length ll -> k < length (nth i ll []) ->
  concat (upd ll i (upd (nth i ll []) k a)) = upd (concat ll) (psum ll i + k) a.
Proof.
  intros Hi Hk. apply list_ext. intros p.
  revert i p Hi Hk; induction ll as [|l ll IH]; intros [|i] p Hi Hk; cbn in *; try lia.
  - clear IH Hi. revert k p Hk. induction l as [|x l IH]; intros [|k] p Hk; cbn in *; try lia.
    + destruct p; auto.
    + destruct p; cbn; auto. apply IH; lia.
  - unfold psum; cbn. rewrite app_length.
    replace (length l + length (concat (firstn i ll)) + k) with (length l + (psum ll i + k))
      by (unfold psum; lia).
    revert p. induction l as [|x l IHl]; cbn; intros p.
    + apply IH; lia.
    + destruct p; cbn; auto.
Qed.

Lemma pad_snoc m r j : length r < m -> pad m (r ++ [j]) = upd (pad m r) (length r) (Some j).
Proof.
  intros H. unfold pad. rewrite app_length; cbn [length].
  replace (m - length r) with (S (m - (length r + 1))) by lia. cbn [repeat].
  rewrite map_app. cbn [map]. rewrite <- app_assoc. cbn [app].
  generalize (repeat (@None nat) (m - (length r + 1))) as t. intros t.
  clear H. induction r as [|x r IH]; cbn; auto. f_equal. exact IH.
Qed.

Lemma nth_map_pad rows m i : i < length rows ->
  nth i (map (pad m) rows) [] = pad m (nth i rows []).
Proof.
  intros H. rewrite (nth_indep _ [] (pad m [])) by (rewrite map_length; auto).
  apply map_nth.
Qed.

Lemma si_addEntry_spec s rows i j :
  RepU s rows -> 1 <= i <= si_nrows s -> 1 <= j <= si_ncols s ->
  let r := nth (i - 1) rows [] in
  if in_dec Nat.eq_dec j r then si_addEntry s i j = Ok s
  else if length r <? si_max s then
    exists s', si_addEntry s i j = Ok s' /\ RepU s' (rows_add rows i j) /\
      si_nrows s' = si_nrows s /\ si_ncols s' = si_ncols s /\ si_max s' = si_max s
  else si_addEntry s i j = Fatal.
Proof.
  intros HR Hi Hj r.
  pose proof (RepU_len _ _ HR) as HL.
  destruct HR as (Hcomp & (L1 & L2 & L3 & L4) & Hok & Hmax & Hn).
  assert (Hi' : i - 1 < length rows) by lia.
  assert (Hr : In r rows) by (apply nth_In; auto).
  assert (Hlr : length r <= si_max s) by auto.
  assert (Epad : nth (i - 1) (map (pad (si_max s)) rows) [] = pad (si_max s) r)
    by (apply nth_map_pad; auto).
  assert (Ei : psum (map (pad (si_max s)) rows) i
    = psum (map (pad (si_max s)) rows) (i - 1) + si_max s).
  { replace i with (S (i - 1)) at 1 by lia. rewrite psum_S by (rewrite map_length; lia).
    rewrite Epad, pad_length by auto. reflexivity. }
  set (base := psum (map (pad (si_max s)) rows) (i - 1)) in *.
  assert (E : si_addEntry s i j =
    (r0 <- add_scan (si_columns s) base (si_max s) j ;;
     match r0 with
     | None => Ok s
     | Some q =>
         cols <- aset (si_columns s) q (Some j) ;;
         Ok (mkSI (si_nrows s) (si_ncols s) (si_max s) cols (si_iofeir s)
                (S (si_nvals s)) false)
     end)).
  { unfold si_addEntry.
    replace ((0 <? i) && (i <=? si_nrows s)) with true
      by (symmetry; apply andb_true_intro; split; [apply Nat.ltb_lt|apply Nat.leb_le]; lia).
    replace ((0 <? j) && (j <=? si_ncols s)) with true
      by (symmetry; apply andb_true_intro; split; [apply Nat.ltb_lt|apply Nat.leb_le]; lia).
    rewrite Hcomp. cbn [asserting negb].
    rewrite (aget_nth_error _ _ _ (L4 (i - 1) ltac:(lia))).
    rewrite (aget_nth_error _ _ _ (L4 i ltac:(lia))). cbn [obind].
    rewrite Ei. fold base. rewrite !Nat.sub_succ, !Nat.sub_0_r.
    replace (base + si_max s - base) with (si_max s) by lia. reflexivity. }
  rewrite E. clear E.
  pose proof (add_scan_spec (si_columns s) base r (si_max s) 0 j) as Scan.
  rewrite Nat.add_0_r, Nat.sub_0_r in Scan. rewrite Scan; clear Scan; cbn [firstn In]; auto;
    [|intros q Hq|lia].
  2:{ rewrite L2, <- Epad. unfold base. apply nth_error_concat.
      - rewrite map_length; auto.
      - rewrite Epad, pad_length by auto; lia. }
  destruct (in_dec Nat.eq_dec j r) as [I|NI]; [reflexivity|].
  destruct (Nat.ltb_spec (length r) (si_max s)) as [C|C]; [|reflexivity].
  cbn [obind].
  assert (Hb : base + length r < length (si_columns s)).
  { rewrite L2. rewrite <- psum_all.
    apply Nat.lt_le_trans with (psum (map (pad (si_max s)) rows) i).
    - lia.
    - apply psum_mono. rewrite map_length. lia. }
  rewrite aset_ok by auto. cbn [obind]. eexists; split; [reflexivity|].
  cbn [si_nrows si_ncols si_max]. split; [|auto].
  unfold rows_add. fold r. destruct (in_dec Nat.eq_dec j r); [tauto|].
  assert (Erows : map (pad (si_max s)) (upd rows (i - 1) (r ++ [j])) =
          upd (map (pad (si_max s)) rows) (i - 1) (upd (pad (si_max s) r) (length r) (Some j))).
  { rewrite map_upd, pad_snoc by auto. reflexivity. }
  repeat split; cbn [si_compressed si_max si_nrows si_columns si_iofeir si_nvals si_ncols].
  - rewrite map_length, upd_length. lia.
  - rewrite Erows, <- Epad, concat_upd_cell.
    + rewrite L2. reflexivity.
    + rewrite map_length; auto.
    + rewrite Epad, pad_length by auto. auto.
  - auto.
  - intros q Hq. rewrite (L4 q Hq). do 2 f_equal. apply psum_len.
    rewrite Erows. rewrite map_upd.
    apply list_ext. intros p.
    destruct (Nat.eq_dec (i - 1) p) as [<-|NE].
    + rewrite nth_error_upd_same by (rewrite !map_length; auto).
      rewrite nth_error_map'. rewrite (nth_error_nth' _ [] ) by (rewrite map_length; auto).
      rewrite Epad. cbn [option_map]. rewrite upd_length. reflexivity.
    + rewrite nth_error_upd_diff by auto. reflexivity.
  - apply in_upd in H as [->|H]; [|apply Hok; auto].
    apply NoDup_Add with (a := j) (l := r); [|split; auto; apply Hok; auto].
    clear. induction r; cbn; constructor; auto.
  - apply in_upd in H as [->|H].
    + apply in_app_iff in H0 as [H0|[<-|[]]]; [|lia]. apply (Hok r Hr); auto.
    + apply (Hok _ H); auto.
  - apply in_upd in H as [->|H].
    + apply in_app_iff in H0 as [H0|[<-|[]]]; [|lia]. apply (Hok r Hr); auto.
    + apply (Hok _ H); auto.
  - intros q Hq. apply in_upd in Hq as [->|Hq]; auto. rewrite app_length; cbn; lia.
  - pose proof (length_concat_upd rows (i - 1) (r ++ [j]) Hi') as P.
    fold r in P. rewrite app_length in P. cbn in P. lia.
Qed.

(* ------------------------------------------------------------------ *)
(* compress *)
Lemma copy_row_spec cols base r m k :
  (forall q, q < m -> nth_error cols (base + q) = nth_error (pad m r) q) ->
  length r <= m -> k <= length r ->
  copy_row cols (base + k) (m - k) = Ok (skipn k r).
Proof.
  intros Hc Hr. remember (m - k) as n eqn:En. revert k En.
  induction n as [|n IH]; intros k En Hk; cbn [copy_row].
  - rewrite skipn_all2 by lia. reflexivity.
  - unfold aget. rewrite Hc by lia. unfold pad.
    destruct (Nat.lt_ge_cases k (length r)) as [C|C].
    + rewrite nth_error_app1 by (rewrite map_length; auto).
      rewrite nth_error_map'. rewrite (nth_error_nth' r 0 C). cbn [option_map obind].
      replace (S (base + k)) with (base + S k) by lia.
      rewrite IH by lia. cbn [obind]. f_equal.
      clear -C. revert k C; induction r as [|x r IH]; intros [|k] C; cbn in *; try lia; auto.
      apply IH; lia.
    + rewrite nth_error_app2 by (rewrite map_length; auto).
      rewrite map_length, nth_error_repeat_lt.
      replace (k - length r <? m - length r) with true
        by (symmetry; apply Nat.ltb_lt; lia). cbn [obind].
      rewrite skipn_all2 by lia. reflexivity.
Qed.

Lemma si_compress_spec s rows :
  RepU s rows -> exists s', si_compress s = Ok s' /\ RepC s' (map std_sort rows) /\
    si_nrows s' = si_nrows s /\ si_ncols s' = si_ncols s /\ si_nvals s' = si_nvals s.
Proof.
  intros HR. pose proof (RepU_len _ _ HR) as HL.
  destruct HR as (Hcomp & (L1 & L2 & L3 & L4) & Hok & Hmax & Hn).
  unfold si_compress. rewrite Hcomp.
  set (cells := map (pad (si_max s)) rows) in *.
  set (srows := map std_sort rows).
  assert (Hloop : forall k, k <= si_nrows s ->
    exists iof, ofold (compress_row (si_columns s)) (seq 0 k) ([], si_iofeir s)
       = Ok (concat (firstn k srows), iof) /\ length iof = S (si_nrows s) /\
       (forall q, q <= si_nrows s -> nth_error iof q =
          Some (S (if q <? k then psum srows q else psum cells q)))).
  { induction k as [|k IH]; intros Hk.
    - exists (si_iofeir s). cbn. repeat split; auto.
    - destruct IH as (iof & E1 & E2 & E3); [lia|].
      rewrite seq_S, ofold_app, E1. cbn [obind ofold Nat.add].
      unfold compress_row.
      rewrite (aget_nth_error _ _ _ (E3 k ltac:(lia))). rewrite Nat.ltb_irrefl.
      rewrite (aget_nth_error _ _ _ (E3 (k + 1) ltac:(lia))).
      replace (k + 1 <? k) with false by (symmetry; apply Nat.ltb_ge; lia).
      cbn [obind]. rewrite !Nat.sub_succ, !Nat.sub_0_r.
      assert (Ec : nth k cells [] = pad (si_max s) (nth k rows []))
        by (apply nth_map_pad; lia).
      assert (Hrk : length (nth k rows []) <= si_max s) by (apply Hmax, nth_In; lia).
      assert (Ek : psum cells (k + 1) = psum cells k + si_max s).
      { rewrite Nat.add_1_r, psum_S by (unfold cells; rewrite map_length; lia).
        rewrite Ec, pad_length; auto. }
      rewrite Ek. replace (psum cells k + si_max s - psum cells k) with (si_max s) by lia.
      pose proof (copy_row_spec (si_columns s) (psum cells k) (nth k rows []) (si_max s) 0) as C.
      rewrite Nat.add_0_r, Nat.sub_0_r in C. rewrite C; clear C; [|intros q Hq|auto|lia].
      2:{ rewrite L2, <- Ec. apply nth_error_concat.
          - unfold cells; rewrite map_length; lia.
          - rewrite Ec, pad_length; auto. }
      cbn [obind skipn]. rewrite aset_ok by lia. cbn [obind].
      eexists. split; [|split].
      + rewrite (firstn_S_nth srows k []) by (unfold srows; rewrite map_length; lia).
        rewrite concat_app. cbn [concat]. rewrite app_nil_r.
        replace (nth k srows []) with (std_sort (nth k rows [])); [reflexivity|].
        symmetry. unfold srows. change (@nil nat) with (std_sort []) at 1. apply map_nth.
      + now rewrite upd_length.
      + intros q Hq. destruct (Nat.eq_dec k q) as [<-|NE].
        * rewrite nth_error_upd_same by lia.
          replace (k <? S k) with true by (symmetry; apply Nat.ltb_lt; lia).
          fold (psum srows k). f_equal. lia.
        * rewrite nth_error_upd_diff by auto. rewrite (E3 q Hq). do 2 f_equal.
          destruct (Nat.ltb_spec q k), (Nat.ltb_spec q (S k)); auto; lia. }
  destruct (Hloop (si_nrows s) (le_n _)) as (iof & E1 & E2 & E3).
  rewrite E1. cbn [obind].
  assert (Ls : length srows = si_nrows s) by (unfold srows; rewrite map_length; auto).
  assert (Econc : length (concat srows) = length (concat rows)).
  { unfold srows. clear. induction rows as [|r rows IH]; cbn; auto.
    rewrite !app_length, IH. f_equal. apply Permutation_length, std_sort_perm. }
  rewrite <- Ls, firstn_all.
  rewrite Econc. rewrite Hn, Nat.eqb_refl. cbn [asserting].
  rewrite aset_ok by lia. cbn [obind]. eexists; split; [reflexivity|].
  cbn. rewrite Ls. split; [|auto].
  assert (Lm : map (@length (option nat)) (map (map Some) srows) = map (@length nat) srows).
  { rewrite map_map. apply map_ext. intros; apply map_length. }
  repeat split; cbn [si_compressed si_nrows si_ncols si_max si_iofeir si_columns si_nvals].
  - now rewrite map_length.
  - now rewrite concat_map.
  - now rewrite upd_length.
  - intros q Hq. rewrite (psum_len _ srows) by exact Lm.
    destruct (Nat.eq_dec (si_nrows s) q) as [<-|NE].
    + rewrite nth_error_upd_same by lia. rewrite <- Ls at 1. rewrite psum_all, Econc. f_equal; lia.
    + rewrite nth_error_upd_diff by auto. rewrite (E3 q Hq).
      replace (q <? si_nrows s) with true by (symmetry; apply Nat.ltb_lt; lia). reflexivity.
  - apply in_map_iff in H as (r0 & <- & H).
    eapply Permutation_NoDup; [symmetry; apply std_sort_perm|]. apply Hok; auto.
  - apply in_map_iff in H as (r0 & <- & H).
    apply (Permutation_in _ (std_sort_perm r0)) in H0. now apply (Hok r0 H).
  - apply in_map_iff in H as (r0 & <- & H).
    apply (Permutation_in _ (std_sort_perm r0)) in H0. now apply (Hok r0 H).
  - intros r HI. apply in_map_iff in HI as (r0 & <- & HI). apply std_sort_strict. apply Hok; auto.
  - auto.
Qed.

(* ------------------------------------------------------------------ *)
(* getIndex *)
Lemma bsearch_spec fuel cols base r j a b :
  (forall k x, nth_error r k = Some x -> nth_error cols (base + k) = Some (Some x)) ->
  StronglySorted lt r -> a <= b -> b < length r -> b - a < fuel ->
  (forall k, index_of j r = Some k -> a <= k <= b) ->
  bsearch fuel cols (base + a) (base + b) j =
    Ok (option_map (fun k => base + k) (index_of j r)).
Proof.
  intros Hc Hs. pose proof (strict_NoDup r Hs) as ND. revert a b.
  induction fuel as [|fuel IH]; intros a b Hab Hb Hf Hk; [lia|].
  cbn [bsearch]. replace (base + b - (base + a)) with (b - a) by lia.
  assert (Hget : forall k, k < length r -> aget cols (base + k) = Ok (Some (nth k r 0))).
  { intros k Hkl. apply aget_nth_error. apply Hc. apply nth_error_nth'; auto. }
  assert (Hfound : forall k, k < length r -> nth k r 0 = j -> index_of j r = Some k).
  { intros k Hkl E. apply index_of_nth; auto. rewrite <- E. apply nth_error_nth'; auto. }
  assert (Hnf : forall k, index_of j r = Some k -> nth k r 0 = j).
  { intros k E. apply index_of_some in E as [E _]. now apply nth_error_nth with (d := 0) in E. }
  destruct (Nat.eqb_spec (b - a) 1) as [E1|E1].
  - rewrite (Hget a), (Hget b) by lia. cbn [obind slot_is].
    destruct (Nat.eqb_spec (nth a r 0) j) as [F|F].
    + rewrite (Hfound a) by (auto; lia). reflexivity.
    + destruct (Nat.eqb_spec (nth b r 0) j) as [G|G].
      * rewrite (Hfound b) by (auto; lia). reflexivity.
      * destruct (index_of j r) as [k|] eqn:E; auto. exfalso.
        specialize (Hk k eq_refl). pose proof (Hnf k eq_refl).
        assert (k = a \/ k = b) as [->| ->] by lia; tauto.
  - set (mid := (a + b) / 2).
    assert (Em : (base + b + (base + a)) / 2 = base + mid).
    { replace (base + b + (base + a)) with (a + b + base * 2) by lia.
      rewrite Nat.div_add by lia. fold mid. lia. }
    assert (Hm : 2 * mid <= a + b < 2 * mid + 2).
    { unfold mid. pose proof (Nat.div_mod (a + b) 2 ltac:(lia)).
      pose proof (Nat.mod_upper_bound (a + b) 2 ltac:(lia)). lia. }
    rewrite Em. rewrite (Hget mid) by lia. cbn [obind slot_is slot_gt].
    destruct (Nat.eqb_spec (nth mid r 0) j) as [F|F].
    + rewrite (Hfound mid) by (auto; lia). reflexivity.
    + destruct (Nat.eqb_spec (base + b) (base + a)) as [G|G].
      * destruct (index_of j r) as [k|] eqn:E; auto. exfalso.
        specialize (Hk k eq_refl). pose proof (Hnf k eq_refl).
        assert (k = mid) as -> by lia. tauto.
      * destruct (Nat.ltb_spec j (nth mid r 0)) as [C|C].
        -- apply IH; try lia. intros k E. specialize (Hk k E). split; [lia|].
           pose proof (index_of_some _ _ _ E) as [E2 E3].
           assert (k < mid); [|lia].
           eapply strict_nth_inv; [exact Hs|exact E2|apply (nth_error_nth' r 0); lia|auto].
        -- apply IH; try lia. intros k E. specialize (Hk k E). split; [|lia].
           pose proof (index_of_some _ _ _ E) as [E2 E3].
           assert (mid < k); [|lia].
           eapply strict_nth_inv; [exact Hs|apply (nth_error_nth' r 0); lia|exact E2|lia].
Qed.

(* slot number of a position *)
Definition slot (rows : list (list nat)) (i j : nat) : option nat :=
  option_map (fun k => psum rows (i - 1) + k) (index_of j (nth (i - 1) rows [])).

Lemma nth_map_mapSome (rows : list (list nat)) i :
  nth i (map (map Some) rows) [] = map Some (nth i rows []).
Proof. change (@nil (option nat)) with (map (@Some nat) []). apply map_nth. Qed.

Lemma psum_mapSome (rows : list (list nat)) i :
  psum (map (map Some) rows) i = psum rows i.
Proof. apply psum_len. rewrite map_map. apply map_ext. intros; apply map_length. Qed.

Lemma RepC_cell s rows i k x :
  RepC s rows -> i < length rows -> nth_error (nth i rows []) k = Some x ->
  nth_error (si_columns s) (psum rows i + k) = Some (Some x).
Proof.
  intros (_ & (L1 & L2 & _) & _) Hi Hx.
  assert (k < length (nth i rows [])) by (apply nth_error_Some; congruence).
  rewrite L2, <- (psum_mapSome rows). rewrite nth_error_concat.
  - rewrite nth_map_mapSome, nth_error_map', Hx. reflexivity.
  - now rewrite map_length.
  - now rewrite nth_map_mapSome, map_length.
Qed.

Lemma RepC_iofeir s rows i :
  RepC s rows -> i <= si_nrows s -> nth_error (si_iofeir s) i = Some (S (psum rows i)).
Proof.
  intros (_ & (_ & _ & _ & L4) & _) Hi. rewrite (L4 i Hi). now rewrite psum_mapSome.
Qed.

Lemma si_getIndex_spec s rows i j :
  RepC s rows -> 1 <= i <= si_nrows s -> 1 <= j <= si_ncols s ->
  si_getIndex s i j = Ok (slot rows i j).
Proof.
  intros HR Hi Hj. pose proof (RepC_len _ _ HR) as HL.
  unfold si_getIndex.
  replace ((0 <? i) && (i <=? si_nrows s)) with true
    by (symmetry; apply andb_true_intro; split; [apply Nat.ltb_lt|apply Nat.leb_le]; lia).
  replace ((0 <? j) && (j <=? si_ncols s)) with true
    by (symmetry; apply andb_true_intro; split; [apply Nat.ltb_lt|apply Nat.leb_le]; lia).
  cbn [asserting].
  rewrite (aget_nth_error _ _ _ (RepC_iofeir s rows (i - 1) HR ltac:(lia))).
  rewrite (aget_nth_error _ _ _ (RepC_iofeir s rows i HR ltac:(lia))). cbn [obind].
  rewrite !Nat.sub_succ, !Nat.sub_0_r.
  set (r := nth (i - 1) rows []).
  assert (Ei : psum rows i = psum rows (i - 1) + length r).
  { replace i with (S (i - 1)) at 1 by lia. rewrite psum_S by lia. reflexivity. }
  rewrite Ei. unfold slot. fold r.
  destruct (Nat.eqb_spec (psum rows (i - 1)) (psum rows (i - 1) + length r)) as [E|E].
  - destruct r; cbn in *; [reflexivity|lia].
  - replace (psum rows (i - 1) + length r - psum rows (i - 1) + 1) with (length r + 1) by lia.
    replace (psum rows (i - 1) + length r - 1) with (psum rows (i - 1) + (length r - 1)) by lia.
    replace (psum rows (i - 1)) with (psum rows (i - 1) + 0) at 1 by lia.
    apply bsearch_spec; try lia.
    + intros k x Hx. eapply RepC_cell; eauto. lia.
    + destruct HR as (_ & _ & _ & Hs & _). apply Hs. apply nth_In. lia.
    + intros k Ek. apply index_of_some in Ek as [_ Ek]. lia.
Qed.

Lemma slot_some s rows i j p :
  RepC s rows -> 1 <= i <= si_nrows s ->
  slot rows i j = Some p ->
  exists k, p = psum rows (i - 1) + k /\ k < length (nth (i - 1) rows []) /\
    nth_error (nth (i - 1) rows []) k = Some j /\ p < si_nvals s.
Proof.
  intros HR Hi. pose proof (RepC_len _ _ HR) as HL. unfold slot. destruct (index_of j _) as [k|] eqn:E; cbn; [|discriminate].
  intros [= <-]. apply index_of_some in E as [E1 E2]. exists k. repeat split; auto.
  destruct HR as (_ & _ & _ & _ & Hn). rewrite Hn, <- psum_all.
  apply Nat.lt_le_trans with (psum rows (S (i - 1))).
  - rewrite psum_S by lia. lia.
  - apply psum_mono. lia.
Qed.

Lemma slot_inj s rows i j i' j' p :
  RepC s rows -> 1 <= i <= si_nrows s -> 1 <= i' <= si_nrows s ->
  slot rows i j = Some p -> slot rows i' j' = Some p -> i = i' /\ j = j'.
Proof.
  intros HR Hi Hi' H1 H2. pose proof (RepC_len _ _ HR) as HL.
  apply (slot_some s) in H1 as (k & -> & K1 & K2 & _); auto.
  apply (slot_some s) in H2 as (k' & E & K1' & K2' & _); auto.
  apply pos_inj in E as [E1 E2]; auto; try lia.
  assert (i = i') by lia. subst. split; auto. congruence.
Qed.

Lemma slot_surj s rows p :
  RepC s rows -> p < si_nvals s ->
  exists i j, 1 <= i <= si_nrows s /\ 1 <= j <= si_ncols s /\ slot rows i j = Some p.
Proof.
  intros HR Hp. pose proof (RepC_len _ _ HR) as HL.
  destruct HR as (_ & _ & Hok & Hs & Hn). rewrite Hn in Hp.
  apply concat_pos in Hp as (i & k & Hi & Hk & ->).
  exists (S i), (nth k (nth i rows []) 0).
  assert (HI : In (nth i rows []) rows) by (apply nth_In; auto).
  split; [lia|]. split.
  - apply (Hok _ HI). apply nth_In; auto.
  - unfold slot. replace (S i - 1) with i by lia.
    rewrite (index_of_nth _ k); auto.
    + apply (Hok _ HI).
    + apply nth_error_nth'; auto.
Qed.

Lemma slot_none rows i j : slot rows i j = None <-> ~ In j (nth (i - 1) rows []).
Proof.
  unfold slot. rewrite <- index_of_none. destruct (index_of _ _); cbn; split; congruence.
Qed.

(* ------------------------------------------------------------------ *)
Lemma rows_add_len rows i j : length (rows_add rows i j) = length rows.
Proof. unfold rows_add. destruct (in_dec _ _ _); auto. apply upd_length. Qed.

Lemma rows_add_in rows i j i' j' :
  1 <= i <= length rows -> 1 <= i' ->
  In j' (nth (i' - 1) (rows_add rows i j) []) <->
  In j' (nth (i' - 1) rows []) \/ (i', j') = (i, j).
Proof.
  intros Hi Hi'. unfold rows_add. destruct (in_dec _ _ _) as [I|N].
  - split; auto. intros [H|H]; auto. injection H as -> ->. auto.
  - rewrite nth_upd by lia. destruct (Nat.eqb_spec (i - 1) (i' - 1)) as [E|E].
    + assert (i = i') by lia. subst i'. rewrite in_app_iff. cbn.
      split; intros [H|H]; auto; [destruct H; [right; congruence|tauto]|]. injection H as ->. auto.
    + split; auto. intros [H|H]; auto. injection H as -> ->. lia.
Qed.

Lemma row_cols_in es i j : In j (row_cols es i) <-> In (i, j) es.
Proof.
  unfold row_cols. rewrite nodup_In, in_map_iff. split.
  - intros ((i', j') & E & H). cbn in E. subst. apply filter_In in H as [H1 H2].
    apply Nat.eqb_eq in H2. cbn in H2. subst. auto.
  - intros H. exists (i, j). split; auto. apply filter_In. split; auto. apply Nat.eqb_refl.
Qed.

Definition rows_of (rows : list (list nat)) (es : list (nat * nat)) : Prop :=
  forall i j, 1 <= i <= length rows ->
    (In j (nth (i - 1) rows []) <-> In (i, j) es).

Lemma rows_of_length s rows es i :
  RepU s rows -> rows_of rows es -> 1 <= i <= length rows ->
  length (nth (i - 1) rows []) = length (row_cols es i).
Proof.
  intros HR Ho Hi. apply Permutation_length, NoDup_Permutation.
  - destruct HR as (_ & _ & Hok & _). apply Hok. apply nth_In; lia.
  - apply NoDup_nodup.
  - intros j. rewrite row_cols_in. apply Ho; auto.
Qed.

Lemma add_entries_gen es : forall s rows done,
  RepU s rows -> rows_of rows done ->
  (forall e, In e es -> in_shape (si_nrows s) (si_ncols s) e) ->
  ((forall i, 1 <= i <= si_nrows s -> length (row_cols (done ++ es) i) <= si_max s) ->
   exists s' rows', add_entries s es = Ok s' /\ RepU s' rows' /\ rows_of rows' (done ++ es) /\
     si_nrows s' = si_nrows s /\ si_ncols s' = si_ncols s /\ si_max s' = si_max s) /\
  ((exists i, 1 <= i <= si_nrows s /\ si_max s < length (row_cols (done ++ es) i)) ->
   add_entries s es = Fatal).
Proof.
  induction es as [|[i j] es IH]; intros s rows done HR Ho Hin.
  - rewrite app_nil_r. split.
    + intros _. exists s, rows. cbn. split; [reflexivity|split; [exact HR|split; [exact Ho|auto]]].
    + intros (i & Hi & Hlt). exfalso.
      rewrite <- (rows_of_length s rows done i) in Hlt; auto.
      * destruct HR as (_ & (Hl & _) & _ & Hm & _). rewrite map_length in Hl.
        specialize (Hm (nth (i - 1) rows [])). specialize (Hm ltac:(apply nth_In; lia)). lia.
      * rewrite (RepU_len _ _ HR). auto.
  - pose proof (Hin (i, j) (or_introl eq_refl)) as [Hi Hj]. cbn in Hi, Hj.
    pose proof (RepU_len _ _ HR) as HL.
    pose proof (si_addEntry_spec s rows i j HR Hi Hj) as Hadd. cbn zeta in Hadd.
    replace (done ++ (i, j) :: es) with ((done ++ [(i, j)]) ++ es)
      by (rewrite <- app_assoc; reflexivity).
    unfold add_entries. cbn [ofold fst snd]. fold (add_entries).
    destruct (in_dec Nat.eq_dec j (nth (i - 1) rows [])) as [I|N].
    + rewrite Hadd. cbn [obind].
      apply (IH s rows (done ++ [(i, j)])); auto.
      * intros a b Ha. rewrite in_app_iff. cbn. rewrite (Ho a b Ha). split; auto.
        intros [H|[H|[]]]; auto. injection H as <- <-. apply (Ho i j); auto.
      * intros e He. apply Hin. now right.
    + destruct (Nat.ltb_spec (length (nth (i - 1) rows [])) (si_max s)) as [C|C].
      * destruct Hadd as (s1 & E & HR1 & E1 & E2 & E3). rewrite E. cbn [obind].
        rewrite <- E1, <- E2, <- E3.
        apply (IH s1 (rows_add rows i j) (done ++ [(i, j)])); auto.
        -- intros a b Ha. rewrite rows_add_len in Ha. rewrite rows_add_in by lia.
           rewrite in_app_iff, (Ho a b Ha). cbn. intuition congruence.
        -- intros e He. rewrite E1, E2. apply Hin. now right.
      * rewrite Hadd. cbn [obind]. split; [|auto]. intros Hcap. exfalso.
        specialize (Hcap i Hi).
        assert (length (nth (i - 1) rows [] ++ [j]) <= length (row_cols ((done ++ [(i, j)]) ++ es) i)).
        { apply NoDup_incl_length.
          - destruct HR as (_ & _ & Hok & _).
            apply NoDup_Add with (a := j) (l := nth (i - 1) rows []).
            + clear. induction (nth (i - 1) rows []); cbn; constructor; auto.
            + split; auto. apply Hok. apply nth_In; lia.
          - intros x Hx. apply row_cols_in. rewrite !in_app_iff in *. cbn in *.
            destruct Hx as [Hx|[Hx|[]]]; [|subst; auto].
            left; left. apply (Ho i x); auto. lia. }
        rewrite app_length in H. cbn in H. lia.
Qed.

Lemma rows_of_nil n : rows_of (repeat [] n) [].
Proof.
  intros i j Hi. rewrite repeat_length in Hi.
  assert (nth (i - 1) (repeat (@nil nat) n) [] = []) as ->.
  { apply (repeat_spec n). apply nth_In. rewrite repeat_length. lia. }
  reflexivity.
Qed.

Lemma cap_cols es nr nc m i : (forall e, In e es -> in_shape nr nc e) ->
  1 <= i <= nr ->
  (length (row_cols es i) <= cap nc m <-> length (row_cols es i) <= m).
Proof.
  intros Hin Hi. unfold cap.
  assert (length (row_cols es i) <= nc).
  { rewrite <- (seq_length nc 1). apply NoDup_incl_length; [apply NoDup_nodup|].
    intros j Hj. apply row_cols_in in Hj. destruct (Hin _ Hj) as [_ H]. cbn in H.
    apply in_seq. lia. }
  destruct (Nat.ltb_spec m nc); lia.
Qed.

Lemma rows_of_sorted rows es : rows_of rows es -> rows_of (map std_sort rows) es.
Proof.
  intros H i j Hi. rewrite map_length in Hi.
  change (@nil nat) with (std_sort []). rewrite map_nth.
  rewrite <- (H i j Hi). split; apply Permutation_in; [|symmetry]; apply std_sort_perm.
Qed.

Lemma build_spec nr nc m es :
  0 < m -> (forall e, In e es -> in_shape nr nc e) ->
  ((forall i, 1 <= i <= nr -> length (row_cols es i) <= m) ->
    exists s rows, build nr nc m es = Ok s /\ RepC s rows /\ rows_of rows es /\
      si_nrows s = nr /\ si_ncols s = nc) /\
  ((exists i, 1 <= i <= nr /\ m < length (row_cols es i)) -> build nr nc m es = Fatal).
Proof.
  intros Hm Hin. unfold build.
  destruct (si_reinit_ok nr nc m Hm) as (s0 & E0 & HR0 & N1 & N2 & N3).
  rewrite E0. cbn [obind].
  assert (Hin' : forall e, In e es -> in_shape (si_nrows s0) (si_ncols s0) e)
    by (rewrite N1, N2; auto).
  destruct (add_entries_gen es s0 (repeat [] nr) [] HR0 (rows_of_nil nr) Hin') as [A B].
  cbn [app] in A, B. split.
  - intros Hcap. destruct A as (s1 & rows1 & E1 & HR1 & Ho1 & M1 & M2 & M3).
    + intros i Hi. rewrite N3. rewrite N1 in Hi. apply (cap_cols es nr nc m i); auto.
    + rewrite E1. cbn [obind].
      destruct (si_compress_spec s1 rows1 HR1) as (s2 & E2 & HR2 & P1 & P2 & P3).
      exists s2, (map std_sort rows1). split; [exact E2|split; [exact HR2|split]].
      * now apply rows_of_sorted.
      * split; congruence.
  - intros (i & Hi & Hlt). rewrite B; auto. exists i. rewrite N1. split; auto.
    rewrite N3. destruct (Nat.le_gt_cases (length (row_cols es i)) (cap nc m)) as [C|C]; auto.
    apply (cap_cols es nr nc m i) in C; auto. lia.
Qed.
