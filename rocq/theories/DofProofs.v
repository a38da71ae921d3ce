(* Proofs about the DoF table (C15). *)
From Verif Require Import Base BaseProofs SparseProofs DofModel SpecDof.
From Coq Require Import Permutation.

(* segs: the DoFs of each entity *)
Definition rep (c : dofc) (segs : list (list dof)) : Prop :=
  dc_n c = length segs /\
  dc_dofs c = concat segs /\
  dc_pos c = map (psum segs) (seq 0 (S (length segs))) /\
  dc_used c = length (concat segs) /\
  (forall s, In s segs -> NoDup (map d_type s)).

Definition seg (segs : list (list dof)) (n : nat) : list dof := nth (n - 1) segs [].

Fixpoint find_pos (t : nat) (l : list dof) : option nat :=
  match l with
  | [] => None
  | d :: r => if d_type d =? t then Some 0 else option_map S (find_pos t r)
  end.

Definition look (segs : list (list dof)) (n t : nat) : option dof :=
  find (fun d => d_type d =? t) (seg segs n).

Implicit Types (segs : list (list dof)).

Lemma psum_segs_nth segs i :
  i <= length segs -> nth_error (map (psum segs) (seq 0 (S (length segs)))) i = Some (psum segs i).
Proof.
  intros H. rewrite (nth_error_map' (psum segs)).
  rewrite (nth_error_nth' _ 0) by (rewrite seq_length; lia).
  rewrite seq_nth by lia. reflexivity.
Qed.

Lemma segment_ok c segs n :
  rep c segs -> 1 <= n <= length segs ->
  segment c n = Ok (psum segs (n - 1), psum segs n).
Proof.
  intros (Hn & _ & Hp & _) H. unfold segment.
  rewrite Hn, Hp. unfold asserting.
  replace (n <=? length segs) with true by (symmetry; apply Nat.leb_le; lia).
  rewrite map_length, seq_length. cbn [Nat.ltb].
  replace (0 <? S (length segs)) with true by (symmetry; apply Nat.ltb_lt; lia).
  replace (n =? 0) with false by (symmetry; apply Nat.eqb_neq; lia).
  rewrite (aget_nth_error _ _ _ (psum_segs_nth segs (n - 1) ltac:(lia))). cbn [obind].
  rewrite (aget_nth_error _ _ _ (psum_segs_nth segs n ltac:(lia))). reflexivity.
Qed.

Lemma psum_seg segs n :
  1 <= n <= length segs -> psum segs n = psum segs (n - 1) + length (seg segs n).
Proof.
  intros H. destruct n; [lia|]. unfold seg. replace (S n - 1) with n by lia.
  apply psum_S. lia.
Qed.

Lemma search_spec segs n t :
  1 <= n <= length segs ->
  search (psum segs n - psum segs (n - 1)) (concat segs) (psum segs (n - 1)) (psum segs n) t
  = Ok (option_map (fun k => psum segs (n - 1) + k) (find_pos t (seg segs n))).
Proof.
  intros H. rewrite (psum_seg segs n H).
  set (p := psum segs (n - 1)).
  assert (G : forall k l, skipn k (seg segs n) = l ->
     search (length l) (concat segs) (p + k) (p + length (seg segs n)) t
     = Ok (option_map (fun j => p + (k + j)) (find_pos t l))).
  { intros k l. revert k. induction l as [|d l IH]; intros k E; cbn [search length find_pos option_map].
    - reflexivity.
    - assert (Lk : length (seg segs n) = k + S (length l)).
      { pose proof (skipn_length k (seg segs n)) as L. rewrite E in L. cbn in L. lia. }
      replace (p + k <? p + length (seg segs n)) with true by (symmetry; apply Nat.ltb_lt; lia).
      assert (Hk : nth_error (seg segs n) k = Some d).
      { pose proof (firstn_skipn k (seg segs n)) as F. rewrite E in F. rewrite <- F.
        rewrite nth_error_app2 by (rewrite firstn_length; lia).
        rewrite firstn_length. replace (k - Nat.min k (length (seg segs n))) with 0 by lia. reflexivity. }
      assert (Hd : nth_error (concat segs) (p + k) = Some d).
      { unfold p. rewrite nth_error_concat; [exact Hk|lia|].
        fold (seg segs n). lia. }
      rewrite (aget_nth_error _ _ _ Hd). cbn [obind].
      destruct (d_type d =? t); cbn [option_map].
      + f_equal. f_equal. lia.
      + replace (p + k + 1) with (p + S k) by lia. rewrite IH.
        * destruct (find_pos t l); cbn; f_equal; f_equal; lia.
        * clear -E. revert k E. generalize (seg segs n). intros l0.
          induction l0 as [|y l0 IH]; intros [|k] E; cbn in *; try discriminate; auto.
          now inversion E. }
  replace (p + length (seg segs n) - p) with (length (seg segs n)) by lia.
  specialize (G 0 (seg segs n) eq_refl). rewrite Nat.add_0_r in G. rewrite G.
  destruct (find_pos t (seg segs n)); reflexivity.
Qed.

Lemma getDof_spec c segs n t :
  rep c segs -> 1 <= n <= length segs ->
  getDof c n t = Ok (option_map (fun k => psum segs (n - 1) + k) (find_pos t (seg segs n))).
Proof.
  intros R H. unfold getDof. rewrite (segment_ok c segs n R H). cbn [obind fst snd].
  destruct R as (_ & -> & _). now apply search_spec.
Qed.

Lemma find_pos_find t l :
  match find_pos t l with
  | Some k => exists d, find (fun d => d_type d =? t) l = Some d /\ nth_error l k = Some d /\ d_type d = t /\ k < length l
  | None => find (fun d => d_type d =? t) l = None
  end.
Proof.
  induction l as [|d l IH]; cbn [find_pos find]; auto.
  destruct (d_type d =? t) eqn:E.
  - exists d. apply Nat.eqb_eq in E. cbn. repeat split; auto. lia.
  - destruct (find_pos t l); cbn [option_map]; auto.
    destruct IH as (d' & A & B & C & D). exists d'. cbn. repeat split; auto. lia.
Qed.

Lemma find_in t l d :
  NoDup (map d_type l) -> In d l -> d_type d = t -> find (fun d => d_type d =? t) l = Some d.
Proof.
  induction l as [|x l IH]; cbn; [tauto|]. intros N [->|I] E.
  - rewrite E, Nat.eqb_refl. reflexivity.
  - inversion N; subst. destruct (d_type x =? d_type d) eqn:F; auto.
    apply Nat.eqb_eq in F. exfalso. apply H1. rewrite F. now apply in_map.
Qed.

Lemma look_some_iff segs n t :
  (exists d, look segs n t = Some d) <-> In t (map d_type (seg segs n)).
Proof.
  unfold look. split.
  - intros [d H]. apply find_some in H. destruct H as [H E]. apply Nat.eqb_eq in E.
    subst. now apply in_map.
  - intros H. apply in_map_iff in H. destruct H as (d & E & I).
    destruct (find (fun d => d_type d =? t) (seg segs n)) eqn:F; [eauto|].
    pose proof (find_none _ _ F d I) as G. cbn in G. apply Nat.eqb_neq in G. tauto.
Qed.

Lemma look_type segs n t d : look segs n t = Some d -> d_type d = t.
Proof. intros H. apply find_some in H. now apply Nat.eqb_eq. Qed.

(* ---- sets ---- *)
Inductive incr : list nat -> Prop :=
| incr_nil : incr []
| incr_cons x l : (forall y, In y l -> x < y) -> incr l -> incr (x :: l).

Lemma set_insert_in t s x : In x (set_insert t s) <-> x = t \/ In x s.
Proof.
  induction s as [|y s IH]; cbn; [intuition|].
  destruct (t <? y); cbn; [intuition|].
  destruct (t =? y) eqn:E; cbn.
  - apply Nat.eqb_eq in E. subst. intuition.
  - rewrite IH. intuition.
Qed.

Lemma set_insert_incr t s : incr s -> incr (set_insert t s).
Proof.
  induction s as [|y s IH]; cbn; intros H.
  - constructor; [intros ? []|constructor].
  - inversion H; subst. destruct (t <? y) eqn:E.
    + apply Nat.ltb_lt in E. constructor; auto. intros z [->|Z]; auto.
      specialize (H2 z Z). lia.
    + apply Nat.ltb_ge in E. destruct (t =? y) eqn:F; auto.
      apply Nat.eqb_neq in F. constructor; auto.
      intros z Z. apply set_insert_in in Z. destruct Z as [->|Z]; auto. lia.
Qed.

Lemma fold_set_in l s x : In x (fold_left (fun s t => set_insert t s) l s) <-> In x l \/ In x s.
Proof.
  revert s; induction l as [|t l IH]; cbn; intros s; [intuition|].
  rewrite IH, set_insert_in. intuition.
Qed.

Lemma fold_set_incr l s : incr s -> incr (fold_left (fun s t => set_insert t s) l s).
Proof. revert s; induction l; cbn; intros; auto using set_insert_incr. Qed.

Lemma set_of_in l x : In x (set_of l) <-> In x l.
Proof. unfold set_of. rewrite fold_set_in. cbn. intuition. Qed.

Lemma incr_NoDup l : incr l -> NoDup l.
Proof.
  induction 1; constructor; auto. intros I. specialize (H x I). lia.
Qed.

Lemma set_of_NoDup l : NoDup (set_of l).
Proof. apply incr_NoDup, fold_set_incr. constructor. Qed.

(* ---- addDof ---- *)
Definition fresh_types (s : list dof) (ts : list nat) : list nat :=
  filter (fun t => match find_pos t s with Some _ => false | None => true end) ts.

Lemma new_types_ok segs n ts :
  1 <= n <= length segs ->
  new_types (concat segs) (psum segs (n - 1)) (psum segs n) ts = Ok (fresh_types (seg segs n) ts).
Proof.
  intros H. induction ts as [|t ts IH]; cbn [new_types fresh_types filter]; auto.
  rewrite (search_spec segs n t H), IH. clear IH.
  assert (E : (if psum segs (n - 1) =? psum segs n then Ok None else
          Ok (option_map (fun k => psum segs (n - 1) + k) (find_pos t (seg segs n))))
        = Ok (option_map (fun k => psum segs (n - 1) + k) (find_pos t (seg segs n)))).
  { destruct (psum segs (n - 1) =? psum segs n) eqn:E; auto.
    apply Nat.eqb_eq in E. rewrite (psum_seg segs n H) in E.
    assert (length (seg segs n) = 0) by lia. destruct (seg segs n); [reflexivity|discriminate]. }
  rewrite E. cbn [obind]. destruct (find_pos t (seg segs n)); reflexivity.
Qed.

Lemma fresh_types_in s ts t :
  In t (fresh_types s ts) <-> In t ts /\ ~ In t (map d_type s).
Proof.
  unfold fresh_types. rewrite filter_In. pose proof (find_pos_find t s) as F.
  destruct (find_pos t s).
  - destruct F as (d & A & B & C & D). split; [intros [_ ?]; discriminate|].
    intros [_ N]. exfalso. apply N. subst t. apply in_map. eapply nth_error_In; eauto.
  - split; intros [A B]; split; auto. intros I. apply in_map_iff in I.
    destruct I as (d & E & I). pose proof (find_none _ _ F d I) as G. cbn in G.
    apply Nat.eqb_neq in G. tauto.
Qed.

Definition add_segs (segs : list (list dof)) (n : nat) (ts : list nat) : list (list dof) :=
  upd segs (n - 1) (seg segs n ++ map new_dof (fresh_types (seg segs n) (set_of ts))).

Lemma concat_split {A} (ll : list (list A)) i x :
  i < length ll ->
  concat (upd ll i (nth i ll [] ++ x)) = firstn (psum ll (S i)) (concat ll) ++ x ++ skipn (psum ll (S i)) (concat ll).
Proof.
  unfold psum. revert i; induction ll as [|l ll IH]; intros [|i] H; cbn in *; try lia.
  - rewrite app_nil_r, firstn_app, skipn_app, Nat.sub_diag, firstn_all, skipn_all. cbn.
    rewrite app_nil_r, app_assoc. reflexivity.
  - rewrite app_length, firstn_app, skipn_app.
    set (k := length (concat match ll with [] => [] | a :: l0 => a :: firstn i l0 end)).
    rewrite (firstn_all2 l) by lia. rewrite (skipn_all2 l) by lia.
    replace (length l + k - length l) with k by lia. cbn. rewrite <- app_assoc. f_equal.
    apply IH. lia.
Qed.

Lemma psum_upd_app {A} (ll : list (list A)) i x j :
  i < length ll -> j <= length ll ->
  psum (upd ll i (nth i ll [] ++ x)) j = if S i <=? j then psum ll j + length x else psum ll j.
Proof.
  unfold psum. revert i j; induction ll as [|l ll IH]; intros [|i] [|j] Hi Hj; try (cbn in *; lia).
  - cbn [length upd nth firstn concat]. rewrite !app_length. cbn. lia.
  - cbn [length upd nth firstn concat]. rewrite !app_length.
    cbn in Hi, Hj. rewrite IH by lia.
    change (S (S i) <=? S j) with (S i <=? j). destruct (S i <=? j); lia.
Qed.

Lemma in_upd {A} (l : list A) i a x : In x (upd l i a) -> x = a \/ In x l.
Proof.
  revert i; induction l as [|y l IH]; intros [|i]; cbn; intuition.
  destruct (IH _ H0); auto.
Qed.

Lemma find_app' {A} (f : A -> bool) l1 l2 :
  find f (l1 ++ l2) = match find f l1 with Some x => Some x | None => find f l2 end.
Proof. induction l1; cbn; auto. destruct (f a); auto. Qed.

Lemma map_type_new l : map d_type (map new_dof l) = l.
Proof. rewrite map_map. apply map_id. Qed.

Lemma NoDup_app_intro {A} (l1 l2 : list A) :
  NoDup l1 -> NoDup l2 -> (forall x, In x l1 -> ~ In x l2) -> NoDup (l1 ++ l2).
Proof.
  induction l1; cbn; auto. intros N1 N2 H. inversion N1; subst. constructor.
  - rewrite in_app_iff. intros [?|?]; [tauto|]. apply (H a); auto.
  - apply IHl1; auto.
Qed.

Lemma map_combine_seq {A B} (f : nat * A -> B) (l : list A) s d :
  map f (combine (seq s (length l)) l) = map (fun i => f (s + i, nth i l d)) (seq 0 (length l)).
Proof.
  revert s; induction l as [|x l IH]; intros s; cbn [length seq combine map]; auto.
  f_equal; [f_equal; f_equal; lia|]. rewrite IH.
  rewrite <- (seq_shift (length l) 0), map_map. apply map_ext. intros i. cbn. f_equal. f_equal. lia.
Qed.

Lemma addDof_ok c segs n ts :
  rep c segs -> 1 <= n <= length segs ->
  exists c', addDof c n ts = Ok c' /\ rep c' (add_segs segs n ts) /\
    (forall t, In t (dc_unique c') <->
       In t (dc_unique c) \/ (fresh_types (seg segs n) (set_of ts) <> [] /\ In t ts)).
Proof.
  intros R H. unfold addDof. rewrite (segment_ok c segs n R H). cbn [obind fst snd].
  destruct R as (Hn & Hd & Hp & Hu & Hnd).
  rewrite Hd, (new_types_ok segs n _ H). cbn [obind].
  destruct (fresh_types (seg segs n) (set_of ts)) as [|a l] eqn:E.
  - exists c. split; [reflexivity|]. split.
    + unfold add_segs. rewrite E, app_nil_r.
      replace (upd segs (n - 1) (seg segs n)) with segs; [repeat split; auto|].
      apply list_ext_nth with (d := []); [now rewrite upd_length|].
      intros i Hi. destruct (Nat.eq_dec i (n-1)); subst.
      * rewrite nth_upd_same by lia. reflexivity.
      * rewrite nth_upd_diff by lia. reflexivity.
    + intros t. split; auto. intros [?|[? _]]; [auto|congruence].
  - remember (a :: l) as x eqn:Ex.
    assert (Es : add_segs segs n ts = upd segs (n - 1) (nth (n - 1) segs [] ++ map new_dof x)).
    { unfold add_segs. rewrite E. reflexivity. }
    eexists. split; [reflexivity|]. split.
    2:{ intros t. cbn [dc_unique]. rewrite fold_set_in, set_of_in. split.
        - intros [?|?]; auto. right. split; [subst; congruence|auto].
        - intros [?|[_ ?]]; auto. }
    rewrite Es. unfold rep. cbn [dc_n dc_dofs dc_pos dc_used].
    rewrite upd_length. split; [auto|].
    rewrite (concat_split segs (n - 1) (map new_dof x)) by lia.
    replace (S (n - 1)) with n by lia. split; [reflexivity|]. split.
    + rewrite (map_combine_seq _ _ 0 0). rewrite Hp at 1. rewrite map_length, seq_length.
      apply map_ext_in. intros i Hi. apply in_seq in Hi. cbn [fst snd].
      rewrite Hp. rewrite (nth_error_nth _ _ _ (psum_segs_nth segs i ltac:(lia))).
      rewrite psum_upd_app by lia. rewrite map_length.
      replace (S (n - 1)) with n by lia. rewrite Nat.add_0_l. reflexivity.
    + split.
      * rewrite Hu, !app_length, map_length, firstn_length, skipn_length.
        assert (psum segs n <= length (concat segs)).
        { rewrite <- psum_all. apply psum_mono. lia. }
        lia.
      * intros s Hs. apply in_upd in Hs. destruct Hs as [->|Hs]; auto.
        rewrite map_app, map_type_new. apply NoDup_app_intro.
        -- apply Hnd. apply nth_In. lia.
        -- rewrite <- E. apply NoDup_filter. apply set_of_NoDup.
        -- intros y Hy Hy'. rewrite <- E in Hy'. apply fresh_types_in in Hy'. tauto.
Qed.

Lemma seg_add segs n ts m :
  1 <= n <= length segs -> 1 <= m ->
  seg (add_segs segs n ts) m =
    if m =? n then seg segs n ++ map new_dof (fresh_types (seg segs n) (set_of ts)) else seg segs m.
Proof.
  intros H Hm. unfold add_segs, seg at 1.
  destruct (m =? n) eqn:E.
  - apply Nat.eqb_eq in E. subst. now rewrite nth_upd_same by lia.
  - apply Nat.eqb_neq in E. now rewrite nth_upd_diff by lia.
Qed.

Lemma types_add segs n ts m t :
  1 <= n <= length segs -> 1 <= m ->
  (In t (map d_type (seg (add_segs segs n ts) m)) <->
   In t (map d_type (seg segs m)) \/ (m = n /\ In t ts)).
Proof.
  intros H Hm. rewrite seg_add by auto. destruct (m =? n) eqn:E.
  - apply Nat.eqb_eq in E. subst. rewrite map_app, map_type_new, in_app_iff, fresh_types_in, set_of_in.
    destruct (in_dec Nat.eq_dec t (map d_type (seg segs n))); intuition.
  - apply Nat.eqb_neq in E. intuition.
Qed.

Lemma init_rep N : rep (initDofTable N) (repeat [] N).
Proof.
  unfold rep, initDofTable; cbn [dc_n dc_dofs dc_pos dc_used].
  assert (C : concat (repeat (@nil dof) N) = []) by (induction N; cbn; auto).
  rewrite repeat_length, C. repeat split; auto.
  - replace (N + 1) with (S N) by lia. apply list_ext_nth with (d := 0).
    + now rewrite repeat_length, map_length, seq_length.
    + intros i Hi. rewrite repeat_length in Hi.
      rewrite nth_repeat.
      rewrite (nth_map_seq (psum (repeat [] N))) by lia.
      rewrite (psum_uniform _ 0); [lia| |rewrite repeat_length; lia].
      intros l Hl. apply repeat_spec in Hl. now subst.
  - intros s Hs. apply repeat_spec in Hs. subst. constructor.
Qed.

(* the table after a list of registrations *)
Definition reg_ok (segs : list (list dof)) (calls : list (nat * list nat)) : Prop :=
  forall n t, 1 <= n <= length segs ->
    (In t (map d_type (seg segs n)) <-> registered calls n t).

Lemma registered_snoc calls n ts m t :
  registered (calls ++ [(n, ts)]) m t <-> registered calls m t \/ (m = n /\ In t ts).
Proof.
  unfold registered. split.
  - intros (us & I & J). apply in_app_iff in I. destruct I as [I|[I|[]]].
    + left; eauto.
    + inversion I; subst. auto.
  - intros [(us & I & J)|[-> J]].
    + exists us. rewrite in_app_iff. auto.
    + exists ts. rewrite in_app_iff. cbn. auto.
Qed.

Lemma fill_ok' N calls :
  (forall x, In x calls -> 1 <= fst x <= N) ->
  exists c segs, fill_table N calls = Ok c /\ rep c segs /\ length segs = N /\ reg_ok segs calls /\
    (forall t, In t (dc_unique c) <-> exists n, registered calls n t).
Proof.
  intros H. unfold fill_table.
  induction calls as [|[n ts] calls IH] using rev_ind.
  - exists (initDofTable N), (repeat [] N). cbn. split; [reflexivity|]. split; [apply init_rep|].
    rewrite repeat_length. split; [auto|]. split.
    + intros n t Hn. unfold seg. rewrite nth_repeat. cbn. split; [tauto|]. intros (us & [] & _).
    + intros t; split; [intros []|]. intros (n & us & [] & _).
  - destruct IH as (c & segs & E & R & L & G & U).
    { intros x Hx. apply H. apply in_app_iff; auto. }
    rewrite ofold_app, E. cbn [obind ofold fst snd].
    assert (Hn : 1 <= n <= length segs).
    { specialize (H (n, ts)). cbn in H. rewrite L. apply H. apply in_app_iff. cbn. auto. }
    destruct (addDof_ok c segs n ts R Hn) as (c' & E' & R' & U').
    exists c', (add_segs segs n ts). rewrite E'. cbn [obind]. split; [reflexivity|]. split; [auto|].
    split; [unfold add_segs; rewrite upd_length; auto|]. split.
    + intros m t Hm. unfold add_segs in Hm. rewrite upd_length in Hm.
      rewrite types_add by lia. rewrite registered_snoc. rewrite (G m t) by lia. tauto.
    + intros t. rewrite U', U. split.
      * intros [[m Hm]|[_ Ht]].
        -- exists m. rewrite registered_snoc. auto.
        -- exists n. rewrite registered_snoc. auto.
      * intros [m Hm]. apply registered_snoc in Hm. destruct Hm as [Hm|[-> Ht]]; [left; eauto|].
        destruct (fresh_types (seg segs n) (set_of ts)) eqn:F.
        -- left. exists n. apply G; auto.
           destruct (in_dec Nat.eq_dec t (map d_type (seg segs n))) as [?|NI]; auto.
           assert (In t (fresh_types (seg segs n) (set_of ts))) as X.
           { apply fresh_types_in. rewrite set_of_in. auto. }
           rewrite F in X. destruct X.
        -- right. split; [discriminate|auto].
Qed.

Lemma seg_entity c segs n :
  rep c segs -> 1 <= n <= length segs -> getEntityDofs c n = Ok (seg segs n).
Proof.
  intros R H. unfold getEntityDofs. rewrite (segment_ok c segs n R H). cbn [obind fst snd].
  destruct R as (_ & Hd & _). rewrite Hd. f_equal.
  rewrite (psum_seg segs n H).
  replace (psum segs (n - 1) + length (seg segs n) - psum segs (n - 1)) with (length (seg segs n)) by lia.
  unfold seg. destruct n as [|n]; [lia|]. replace (S n - 1) with n by lia.
  assert (Hn : n < length segs) by lia. clear -Hn. unfold psum.
  revert n Hn; induction segs as [|s segs IH]; intros [|n] Hn; cbn in *; try lia.
  - rewrite firstn_app, Nat.sub_diag, firstn_all. cbn. now rewrite app_nil_r.
  - rewrite app_length, skipn_app, skipn_all2 by lia. cbn.
    match goal with |- context [skipn (length s + ?k - length s)] =>
      replace (length s + k - length s) with k by lia end.
    apply IH. lia.
Qed.

(* pairs (entity, type) present in the table *)
Definition all_pairs (segs : list (list dof)) : list (nat * nat) :=
  flat_map (fun n => map (fun d => (n, d_type d)) (seg segs n)) (seq 1 (length segs)).

Lemma NoDup_flat_map {A B} (f : A -> list B) l :
  NoDup l -> (forall a, In a l -> NoDup (f a)) ->
  (forall a b x, In a l -> In b l -> In x (f a) -> In x (f b) -> a = b) ->
  NoDup (flat_map f l).
Proof.
  induction l as [|a l IH]; cbn; intros N H D; [constructor|].
  inversion N; subst. apply NoDup_app_intro; auto.
  - apply IH; auto. intros; eapply D; eauto.
  - intros x Hx Hx'. apply in_flat_map in Hx'. destruct Hx' as (b & Hb & Hx').
    assert (a = b) by (eapply D; eauto). subst. tauto.
Qed.

Lemma map_pair_NoDup (n : nat) s :
  NoDup (map d_type s) -> NoDup (map (fun d => (n, d_type d)) s).
Proof.
  intros H. replace (map (fun d => (n, d_type d)) s) with (map (pair n) (map d_type s))
    by now rewrite map_map.
  apply FinFun.Injective_map_NoDup; auto. intros x y E. now inversion E.
Qed.

Lemma all_pairs_NoDup c segs : rep c segs -> NoDup (all_pairs segs).
Proof.
  intros (_ & _ & _ & _ & Hnd). apply NoDup_flat_map.
  - apply seq_NoDup.
  - intros n Hn. apply in_seq in Hn. apply map_pair_NoDup. apply Hnd. apply nth_In. lia.
  - intros n m x _ _ Hx Hy. apply in_map_iff in Hx. apply in_map_iff in Hy.
    destruct Hx as (d & E & _), Hy as (d' & E' & _). subst. now inversion E'.
Qed.

Lemma all_pairs_length segs : length (all_pairs segs) = length (concat segs).
Proof.
  unfold all_pairs.
  assert (G : forall k, length (flat_map (fun n => map (fun d => (n, d_type d)) (nth (n - S k) segs [])) (seq (S k) (length segs)))
     = length (concat segs)).
  { induction segs as [|s segs IH]; intros k; cbn [length seq flat_map concat]; auto.
    rewrite !app_length, map_length. rewrite Nat.sub_diag. cbn [nth]. f_equal.
    rewrite <- (IH (S k)). f_equal.
    rewrite !flat_map_concat_map. f_equal. apply map_ext_in. intros n Hn. apply in_seq in Hn.
    replace (n - S k) with (S (n - S (S k))) by lia. reflexivity. }
  apply (G 0).
Qed.

Lemma all_pairs_in segs n t :
  In (n, t) (all_pairs segs) <-> 1 <= n <= length segs /\ In t (map d_type (seg segs n)).
Proof.
  unfold all_pairs. rewrite in_flat_map. split.
  - intros (m & Hm & H). apply in_seq in Hm. apply in_map_iff in H. destruct H as (d & E & I).
    inversion E; subst. split; [lia|]. now apply in_map.
  - intros [H I]. exists n. rewrite in_seq. split; [lia|].
    apply in_map_iff in I. destruct I as (d & E & I). apply in_map_iff. exists d. subst. auto.
Qed.

Lemma reg_pairs_in calls n t : In (n, t) (reg_pairs calls) <-> registered calls n t.
Proof.
  unfold reg_pairs, registered. rewrite nodup_In, in_flat_map. split.
  - intros ([m ts] & I & J). cbn in J. apply in_map_iff in J. destruct J as (u & E & J).
    inversion E; subst. eauto.
  - intros (ts & I & J). exists (n, ts). split; auto. cbn. now apply in_map.
Qed.

Lemma used_count c segs calls N :
  rep c segs -> length segs = N -> reg_ok segs calls ->
  (forall x, In x calls -> 1 <= fst x <= N) ->
  dc_used c = length (reg_pairs calls).
Proof.
  intros R L G H. destruct R as (a & b & e & Hu & Hnd) eqn:ER. rewrite Hu.
  rewrite <- all_pairs_length. apply Permutation_length. apply NoDup_Permutation.
  - eapply all_pairs_NoDup; eauto.
  - apply NoDup_nodup.
  - intros [n t]. rewrite all_pairs_in, reg_pairs_in. split.
    + intros [Hn Ht]. now apply G.
    + intros Hr. assert (1 <= n <= N).
      { destruct Hr as (ts & I & _). apply (H _ I). }
      split; [lia|]. apply G; auto. lia.
Qed.

Theorem dof_table N calls :
  (forall x, In x calls -> 1 <= fst x <= N) ->
  exists c, fill_table N calls = Ok c /\
    (forall n t, 1 <= n <= N -> exists b,
        isDofUsed c n t = Ok b /\ (b = true <-> registered calls n t)) /\
    (forall n t, 1 <= n <= N -> ~ registered calls n t -> getDof c n t = Ok None) /\
    (forall n t, 1 <= n <= N -> registered calls n t -> exists i d,
        getDof c n t = Ok (Some i) /\ nth_error (dc_dofs c) i = Some d /\ d_type d = t) /\
    (forall n t n' t' i, 1 <= n <= N -> 1 <= n' <= N ->
        getDof c n t = Ok (Some i) -> getDof c n' t' = Ok (Some i) -> n = n' /\ t = t') /\
    (forall n, 1 <= n <= N -> exists ds,
        getEntityDofs c n = Ok ds /\ NoDup (map d_type ds) /\
        (forall t, In t (map d_type ds) <-> registered calls n t)) /\
    dc_used c = length (reg_pairs calls) /\
    (forall t, In t (dc_unique c) <-> exists n, registered calls n t).
Proof.
  intros H. destruct (fill_ok' N calls H) as (c & segs & E & R & L & G & U).
  assert (GD : forall n t, 1 <= n <= N ->
    getDof c n t = Ok (option_map (fun k => psum segs (n - 1) + k) (find_pos t (seg segs n)))).
  { intros n t Hn. apply getDof_spec; auto. lia. }
  exists c. split; [exact E|]. split; [|split; [|split; [|split; [|split; [|split]]]]].
  - intros n t Hn. unfold isDofUsed. rewrite (segment_ok c segs n R) by lia. cbn [obind fst snd].
    assert (GG : registered calls n t <-> exists d, look segs n t = Some d).
    { rewrite look_some_iff. symmetry. apply G. lia. }
    unfold look in GG.
    pose proof (find_pos_find t (seg segs n)) as F.
    destruct R as (_ & Hd & _). rewrite Hd, (search_spec segs n t) by lia. cbn [obind].
    destruct (psum segs (n - 1) =? psum segs n) eqn:Z.
    + exists false. split; auto. apply Nat.eqb_eq in Z.
      rewrite (psum_seg segs n) in Z by lia. assert (length (seg segs n) = 0) by lia.
      rewrite GG. destruct (seg segs n); [|discriminate]. cbn. split; [discriminate|]. intros [? ?]; discriminate.
    + eexists. split; [reflexivity|]. rewrite GG. destruct (find_pos t (seg segs n)); cbn.
      * destruct F as (d & A & _). split; eauto.
      * split; [discriminate|]. intros [d Hd']. congruence.
  - intros n t Hn NR. rewrite GD by auto. pose proof (find_pos_find t (seg segs n)) as F.
    destruct (find_pos t (seg segs n)); auto. exfalso. apply NR. apply G; [lia|].
    apply look_some_iff. destruct F as (d & A & _). exists d. exact A.
  - intros n t Hn HR. rewrite GD by auto. pose proof (find_pos_find t (seg segs n)) as F.
    apply (G n t) in HR; [|lia]. apply look_some_iff in HR. unfold look in HR.
    destruct (find_pos t (seg segs n)) as [k|].
    + destruct F as (d & A & B & C & D). exists (psum segs (n - 1) + k), d. cbn. split; [auto|].
      split; auto. destruct R as (_ & Hd & _). rewrite Hd, nth_error_concat; auto. lia.
    + destruct HR as [d HR]. congruence.
  - intros n t n' t' i Hn Hn'. rewrite !GD by auto.
    pose proof (find_pos_find t (seg segs n)) as F. pose proof (find_pos_find t' (seg segs n')) as F'.
    destruct (find_pos t (seg segs n)) as [k|]; cbn; [|discriminate].
    destruct (find_pos t' (seg segs n')) as [k'|]; cbn; [|discriminate].
    destruct F as (d & A & B & C & D), F' as (d' & A' & B' & C' & D').
    intros X Y. inversion X; inversion Y; subst.
    assert (n - 1 = n' - 1 /\ k = k') as [Q1 Q2].
    { apply (pos_inj segs); auto; try lia. }
    assert (n = n') by lia. subst. split; auto. congruence.
  - intros n Hn. exists (seg segs n). split; [apply seg_entity; auto; lia|]. split.
    + destruct R as (_ & _ & _ & _ & Hnd). apply Hnd, nth_In. lia.
    + intros t. apply G. lia.
  - eapply used_count; eauto.
  - exact U.
Qed.
