(* Proofs about the objects owned by the storage. *)
From Verif Require Import Base BaseProofs SparseProofs DofProofs HeapModel SpecHeap.
From Coq Require Import Permutation.

Definition obj_dec (x y : nat * obj) : {x = y} + {x <> y}.
Proof. repeat decide equality. Qed.
Notation cnt := (count_occ obj_dec).

(* ---- the heap ---- *)
Lemma hget_in h a o : NoDup (map fst h) -> (hget h a = Some o <-> In (a, o) h).
Proof.
  unfold hget. induction h as [|[b p] h IH]; intros ND; cbn.
  - split; [discriminate|intros []].
  - inversion ND as [|? ? NI ND']; subst. destruct (b =? a) eqn:E.
    + apply Nat.eqb_eq in E. subst b. cbn. split.
      * intros H. injection H as ->. auto.
      * intros [H|H]; [injection H as ->; auto|]. destruct NI. apply in_map_iff. now exists (a, o).
    + apply Nat.eqb_neq in E. rewrite (IH ND'). split; [auto|]. intros [H|H]; [congruence|auto].
Qed.
Lemma hget_none h a : hget h a = None <-> ~ In a (map fst h).
Proof.
  unfold hget. induction h as [|[b p] h IH]; cbn; [tauto|]. destruct (b =? a) eqn:E.
  - apply Nat.eqb_eq in E. subst. cbn. split; [discriminate|]. intros H. destruct H. now left.
  - apply Nat.eqb_neq in E. rewrite IH. tauto.
Qed.
Lemma hdel_notin h a : ~ In a (map fst h) -> hdel h a = h.
Proof.
  unfold hdel. induction h as [|[b p] h IH]; cbn; auto. intros H. destruct (b =? a) eqn:E.
  - apply Nat.eqb_eq in E. subst. destruct H. now left.
  - cbn. f_equal. apply IH. tauto.
Qed.
Lemma hdel_cnt h a o : NoDup (map fst h) -> In (a, o) h -> forall x, cnt h x = cnt [(a, o)] x + cnt (hdel h a) x.
Proof.
  induction h as [|[b p] h IH]; intros ND H x; [destruct H|].
  inversion ND as [|? ? NI ND']; subst. unfold hdel. cbn [filter fst]. destruct H as [H|H].
  - injection H as -> ->. rewrite Nat.eqb_refl. cbn [negb]. fold (hdel h a). rewrite (hdel_notin h a NI). cbn. destruct (obj_dec (a, o) x); lia.
  - destruct (b =? a) eqn:E.
    + apply Nat.eqb_eq in E. subst. destruct NI. apply in_map_iff. now exists (a, o).
    + cbn [negb]. fold (hdel h a). cbn [count_occ] in *. specialize (IH ND' H x). destruct (obj_dec (b, p) x); lia.
Qed.
Lemma hdel_nodup h a : NoDup (map fst h) -> NoDup (map fst (hdel h a)).
Proof.
  unfold hdel. induction h as [|[b p] h IH]; cbn; auto. intros ND. inversion ND as [|? ? NI ND']; subst.
  destruct (b =? a); cbn; auto. constructor; auto. intros H. apply NI. apply in_map_iff in H as ([c q] & <- & H).
  apply filter_In in H as [H _]. apply in_map_iff. now exists (c, q).
Qed.
Lemma cnt_pos l (x : nat * obj) : In x l <-> 0 < cnt l x.
Proof. rewrite (count_occ_In obj_dec). lia. Qed.

(* deletion of the objects of a table *)
Lemma del_list_ok T : Forall (fun x => deletable (snd x) = true) T ->
  forall h, NoDup (map fst h) -> (forall x, cnt T x <= cnt h x) ->
  exists h', del_list h (map fst T) = Ok h' /\ NoDup (map fst h') /\ (forall x, cnt h x = cnt T x + cnt h' x).
Proof.
  induction 1 as [|[a o] T D HT IH]; intros h ND LE.
  - exists h. split; [reflexivity|]. split; auto.
  - assert (I : In (a, o) h). { apply cnt_pos. specialize (LE (a, o)). cbn in LE. destruct (obj_dec _ _); [lia|congruence]. }
    unfold del_list. cbn [map ofold fst]. unfold del at 1. rewrite (proj2 (hget_in h a o ND) I). cbn [snd] in D. rewrite D. cbn [obind].
    pose proof (hdel_cnt h a o ND I) as C.
    destruct (IH (hdel h a) (hdel_nodup h a ND)) as (h' & E & N & C').
    { intros x. specialize (C x). specialize (LE x). cbn in C, LE. destruct (obj_dec _ _); lia. }
    exists h'. split; [exact E|]. split; auto. intros x. rewrite C, C'. cbn. destruct (obj_dec _ _); lia.
Qed.
(* a pointer to an object that is gone *)
Lemma del_dead h a l : ~ In a (map fst h) -> del_list h (a :: l) = UB.
Proof. intros H. unfold del_list. cbn [ofold]. unfold del. now rewrite (proj2 (hget_none h a) H). Qed.
Lemma del_bad h a l o : hget h a = Some o -> deletable o = false -> del_list h (a :: l) = UB.
Proof. intros H D. unfold del_list. cbn [ofold]. unfold del. now rewrite H, D. Qed.
Lemma touch_ok h l : (forall a, In a l -> hget h a <> None) -> touch h l = Ok tt.
Proof.
  unfold touch. induction l as [|a l IH]; intros H; cbn [ofold]; auto.
  destruct (hget h a) eqn:E; [|destruct (H a); cbn; auto]. cbn [obind]. apply IH. intros b Hb. apply H. now right.
Qed.
Lemma touch_dead h a l : ~ In a (map fst h) -> touch h (a :: l) = UB.
Proof. intros H. unfold touch. cbn [ofold]. now rewrite (proj2 (hget_none h a) H). Qed.

Lemma alloc_cnt os : forall h n x, cnt (alloc h n os) x = cnt h x + cnt (combine (seq n (length os)) os) x.
Proof.
  induction os as [|o os IH]; intros h n x; cbn [alloc length seq combine]; [cbn; lia|].
  rewrite IH. replace (n + 1) with (S n) by lia. cbn. destruct (obj_dec (n, o) x); lia.
Qed.
Lemma alloc_fst os : forall h n, map fst (alloc h n os) = rev (seq n (length os)) ++ map fst h.
Proof.
  induction os as [|o os IH]; intros h n; cbn [alloc length seq rev]; auto.
  rewrite IH. replace (n + 1) with (S n) by lia. cbn. now rewrite <- app_assoc.
Qed.

(* ---- what the tables say ---- *)
Definition ntab (o : obj) (l : list nat) : heap := map (fun a => (a, o)) l.
Definition etab (l : list nat) : heap := combine l (map OElem (seq 1 (length l))).
Lemma etab_fst l : map fst (etab l) = l.
Proof. unfold etab. generalize 1. induction l as [|a l IH]; intros n; cbn; auto. f_equal. apply IH. Qed.
Lemma ntab_fst o l : map fst (ntab o l) = l.
Proof. unfold ntab. rewrite map_map. apply map_id. Qed.
Lemma etab_app l l' : etab (l ++ l') = etab l ++ combine l' (map OElem (seq (length l + 1) (length l'))).
Proof.
  unfold etab. rewrite app_length, seq_app, map_app. replace (1 + length l) with (length l + 1) by lia.
  generalize (map OElem (seq (length l + 1) (length l'))). intros q.
  assert (H : length l = length (map OElem (seq 1 (length l)))) by now rewrite map_length, seq_length.
  revert H. generalize (map OElem (seq 1 (length l))). induction l as [|a l IH]; intros [|b r] H; cbn in *; try discriminate; auto.
  f_equal. apply IH. lia.
Qed.
Lemma ntab_combine o n k : combine (seq n (length (repeat o k))) (repeat o k) = ntab o (seq n k).
Proof. unfold ntab. rewrite repeat_length. revert n; induction k as [|k IH]; intros n; cbn; auto. f_equal. apply IH. Qed.

(* the objects the storage should own, and lost ones *)
Record inv (c : counts) (s : hst) (L : heap) : Prop := {
  i_sizes : sizes_ok c s;
  i_cnt : forall x, cnt (hs_live s) x = cnt (ntab ONode (hs_nodes s)) x + cnt (etab (hs_els s)) x + cnt (ntab OMpc (hs_mpcs s)) x
    + cnt (ntab OComp (hs_comps s)) x + cnt (ntab (OMat false) (hs_mat s)) x
    + cnt (ntab OMatrix (hs_K s)) x + cnt (ntab OMatrix (hs_C s)) x + cnt (ntab OMatrix (hs_M s)) x + cnt L x;
  i_nd : NoDup (map fst (hs_live s));
  i_lt : Forall (fun a => a < hs_next s) (map fst (hs_live s));
  i_lost : length L = c_lost c }.

Lemma inv0 : inv no_objects empty_storage [].
Proof. split; cbn; auto; try constructor; repeat split; reflexivity. Qed.

Lemma new_nodup h n os : NoDup (map fst h) -> Forall (fun a => a < n) (map fst h) -> NoDup (map fst (alloc h n os)).
Proof.
  intros ND LT. rewrite alloc_fst. apply NoDup_app_intro; auto.
  - apply NoDup_rev, seq_NoDup.
  - intros x H1 H2. apply in_rev, in_seq in H1. rewrite Forall_forall in LT. apply LT in H2. lia.
Qed.
Lemma new_lt h n os : Forall (fun a => a < n) (map fst h) -> Forall (fun a => a < n + length os) (map fst (alloc h n os)).
Proof.
  intros LT. rewrite alloc_fst. apply Forall_app. split.
  - apply Forall_forall. intros x H. apply in_rev, in_seq in H. lia.
  - revert LT. apply Forall_impl. intros; lia.
Qed.
Lemma ntab_app o l l' : ntab o (l ++ l') = ntab o l ++ ntab o l'.
Proof. apply map_app. Qed.

Section Step.
  Variables (c : counts) (s : hst) (L : heap).
  Hypothesis I : inv c s L.

  Lemma live_in a o : 0 < cnt (hs_live s) (a, o) -> hget (hs_live s) a = Some o.
  Proof. intros H. apply hget_in; [apply (i_nd _ _ _ I)|]. now apply cnt_pos. Qed.
  Lemma ntab_in o l a : In a l -> 0 < cnt (ntab o l) (a, o).
  Proof. intros H. apply cnt_pos. unfold ntab. apply in_map_iff. now exists a. Qed.
  Lemma etab_nth l i a : nth_error l i = Some a -> In (a, OElem (i + 1)) (etab l).
  Proof.
    unfold etab. intros H.
    assert (G : forall l n i, nth_error l i = Some a -> In (a, OElem (n + i)) (combine l (map OElem (seq n (length l))))).
    { clear. induction l as [|b l IH]; intros n [|i] H; cbn in *; try discriminate.
      - injection H as ->. left. now rewrite Nat.add_0_r.
      - right. replace (n + S i) with (S n + i) by lia. now apply IH. }
    replace (i + 1) with (1 + i) by lia. now apply G.
  Qed.
  Lemma node_live a : In a (hs_nodes s) -> hget (hs_live s) a = Some ONode.
  Proof. intros H. apply live_in. rewrite (i_cnt _ _ _ I). pose proof (ntab_in ONode _ a H). lia. Qed.
  Lemma el_live i a : nth_error (hs_els s) i = Some a -> hget (hs_live s) a = Some (OElem (i + 1)).
  Proof. intros H. apply live_in. rewrite (i_cnt _ _ _ I). apply etab_nth, cnt_pos in H. lia. Qed.
  Lemma mpc_live a : In a (hs_mpcs s) -> hget (hs_live s) a = Some OMpc.
  Proof. intros H. apply live_in. rewrite (i_cnt _ _ _ I). pose proof (ntab_in OMpc _ a H). lia. Qed.
  Lemma comp_live a : In a (hs_comps s) -> hget (hs_live s) a = Some OComp.
  Proof. intros H. apply live_in. rewrite (i_cnt _ _ _ I). pose proof (ntab_in OComp _ a H). lia. Qed.
  Lemma matrix_live a : In a (hs_K s) \/ In a (hs_C s) \/ In a (hs_M s) -> hget (hs_live s) a = Some OMatrix.
  Proof. intros H. apply live_in. rewrite (i_cnt _ _ _ I). destruct H as [H|[H|H]]; pose proof (ntab_in OMatrix _ a H); lia. Qed.
  Lemma touch_els : touch (hs_live s) (hs_els s) = Ok tt.
  Proof. apply touch_ok. intros a H. apply In_nth_error in H as (i & H). rewrite (el_live i a H). discriminate. Qed.
  Lemma touch_mpcs : touch (hs_live s) (hs_mpcs s) = Ok tt.
  Proof. apply touch_ok. intros a H. rewrite (mpc_live a H). discriminate. Qed.

  Ltac cnts := intros x; rewrite ?count_occ_app; pose proof (i_cnt _ _ _ I x); try lia.
  Ltac sizes := match goal with H : sizes_ok _ _ |- _ => destruct H as (? & ? & ? & ? & ? & ? & ? & ? & ?) end; unfold sizes_ok; cbn; rewrite ?app_length; unfold addrs; rewrite ?seq_length; repeat split; auto; try lia; try congruence.

  Lemma add_nodes_ok k : inv (mkCounts (c_nodes c + k) (c_els c) (c_mpcs c) (c_comps c) (c_mat c) (c_K c) (c_CM c) (c_lost c)) (add_nodes s k) L.
  Proof.
    pose proof (i_sizes _ _ _ I) as Z. split; cbn [add_nodes hs_live hs_next hs_nodes hs_els hs_mpcs hs_comps hs_mat hs_K hs_C hs_M new_objs with_live].
    - unfold addrs. sizes.
    - intros x. rewrite alloc_cnt, ntab_combine, ntab_app, count_occ_app. pose proof (i_cnt _ _ _ I x). unfold addrs. lia.
    - apply new_nodup; apply I.
    - apply new_lt. apply I.
    - apply I.
  Qed.
  Lemma add_elements_ok k : inv (mkCounts (c_nodes c) (c_els c + k) (c_mpcs c) (c_comps c) (c_mat c) (c_K c) (c_CM c) (c_lost c)) (add_elements s k) L.
  Proof.
    pose proof (i_sizes _ _ _ I) as Z. split; cbn [add_elements hs_live hs_next hs_nodes hs_els hs_mpcs hs_comps hs_mat hs_K hs_C hs_M new_objs with_live].
    - unfold addrs. sizes.
    - intros x. rewrite alloc_cnt, etab_app, count_occ_app. pose proof (i_cnt _ _ _ I x). unfold addrs. rewrite map_length, !seq_length. lia.
    - apply new_nodup; apply I.
    - apply new_lt. apply I.
    - apply I.
  Qed.
  Lemma add_mpcs_ok k : inv (mkCounts (c_nodes c) (c_els c) (c_mpcs c + k) (c_comps c) (c_mat c) (c_K c) (c_CM c) (c_lost c)) (add_mpcs s k) L.
  Proof.
    pose proof (i_sizes _ _ _ I) as Z. split; cbn [add_mpcs hs_live hs_next hs_nodes hs_els hs_mpcs hs_comps hs_mat hs_K hs_C hs_M new_objs with_live].
    - unfold addrs. sizes.
    - intros x. rewrite alloc_cnt, ntab_combine, ntab_app, count_occ_app. pose proof (i_cnt _ _ _ I x). unfold addrs. lia.
    - apply new_nodup; apply I.
    - apply new_lt. apply I.
    - apply I.
  Qed.
End Step.

Ltac szs := match goal with H : sizes_ok _ _ |- _ => destruct H as (? & ? & ? & ? & ? & ? & ? & ? & ?) end; unfold sizes_ok; cbn; rewrite ?app_length; unfold addrs; rewrite ?seq_length; repeat split; auto; cbn in *; try lia; try congruence.
(* deletion of one table from a heap *)
Lemma del_table h T rest : Forall (fun x => deletable (snd x) = true) T -> NoDup (map fst h) ->
  (forall x, cnt h x = cnt T x + rest x) ->
  exists h', del_list h (map fst T) = Ok h' /\ NoDup (map fst h') /\ (forall x, cnt h' x = rest x) /\ incl h' h.
Proof.
  intros D ND H. destruct (del_list_ok T D h ND) as (h' & E & N & C).
  { intros x. rewrite H. lia. }
  exists h'. split; auto. split; auto. assert (Q : forall x, cnt h' x = rest x) by (intros x; specialize (H x); specialize (C x); lia).
  split; auto. intros x Hx. apply cnt_pos. apply cnt_pos in Hx. specialize (C x). lia.
Qed.
Lemma ntab_deletable o l : deletable o = true -> Forall (fun x => deletable (snd x) = true) (ntab o l).
Proof. intros D. unfold ntab. apply Forall_forall. intros x H. apply in_map_iff in H as (a & <- & _). exact D. Qed.
Lemma etab_deletable l : Forall (fun x => deletable (snd x) = true) (etab l).
Proof.
  unfold etab. apply Forall_forall. intros [a o] H. apply in_combine_r in H. apply in_map_iff in H as (n & <- & _). reflexivity.
Qed.
Lemma incl_lt (h h' : heap) n : incl h' h -> Forall (fun a => a < n) (map fst h) -> Forall (fun a => a < n) (map fst h').
Proof. intros H F. rewrite Forall_forall in *. intros a Ha. apply in_map_iff in Ha as (x & <- & Hx). apply F. apply in_map. auto. Qed.

Lemma del_elements_ok c s L : inv c s L -> exists s', s_DeleteElements s = Ok s' /\
  inv (mkCounts (c_nodes c) 0 (c_mpcs c) (c_comps c) (c_mat c) (c_K c) (c_CM c) (c_lost c)) s' L /\ hs_els s' = [] /\ hs_nodes s' = hs_nodes s /\ hs_mpcs s' = hs_mpcs s /\ hs_comps s' = hs_comps s.
Proof.
  intros I. destruct I as [Z C N T O]. unfold s_DeleteElements.
  destruct (del_table (hs_live s) (etab (hs_els s)) (fun x => cnt (hs_live s) x - cnt (etab (hs_els s)) x) (etab_deletable _) N) as (h & E & N' & C' & S).
  { intros x. rewrite C. lia. }
  rewrite ?etab_fst, ?ntab_fst in E. rewrite E. cbn [obind]. eexists. split; [reflexivity|]. split; [|repeat split; reflexivity].
  split; cbn [hs_live hs_next hs_nodes hs_els hs_mpcs hs_comps hs_mat hs_K hs_C hs_M]; auto.
  - szs.
  - intros x. rewrite C', C. cbn. lia.
  - eapply incl_lt; eauto.
Qed.
Lemma del_nodes_ok c s L : inv c s L -> exists s', s_DeleteNodes s = Ok s' /\
  inv (mkCounts 0 (c_els c) (c_mpcs c) (c_comps c) (c_mat c) (c_K c) (c_CM c) (c_lost c)) s' L /\ hs_nodes s' = [] /\ hs_els s' = hs_els s /\ hs_mpcs s' = hs_mpcs s /\ hs_comps s' = hs_comps s.
Proof.
  intros I. destruct I as [Z C N T O]. unfold s_DeleteNodes.
  destruct (del_table (hs_live s) (ntab ONode (hs_nodes s)) (fun x => cnt (hs_live s) x - cnt (ntab ONode (hs_nodes s)) x) (ntab_deletable ONode _ eq_refl) N) as (h & E & N' & C' & S).
  { intros x. rewrite C. lia. }
  rewrite ?etab_fst, ?ntab_fst in E. rewrite E. cbn [obind]. eexists. split; [reflexivity|]. split; [|repeat split; reflexivity].
  split; cbn [hs_live hs_next hs_nodes hs_els hs_mpcs hs_comps hs_mat hs_K hs_C hs_M]; auto.
  - szs.
  - intros x. rewrite C', C. cbn. lia.
  - eapply incl_lt; eauto.
Qed.
Lemma del_comps_ok c s L : inv c s L -> exists s', s_DeleteComponents s = Ok s' /\
  inv (mkCounts (c_nodes c) (c_els c) (c_mpcs c) 0 (c_mat c) (c_K c) (c_CM c) (c_lost c)) s' L.
Proof.
  intros I. destruct I as [Z C N T O]. unfold s_DeleteComponents.
  destruct (del_table (hs_live s) (ntab OComp (hs_comps s)) (fun x => cnt (hs_live s) x - cnt (ntab OComp (hs_comps s)) x) (ntab_deletable OComp _ eq_refl) N) as (h & E & N' & C' & S).
  { intros x. rewrite C. lia. }
  rewrite ?etab_fst, ?ntab_fst in E. rewrite E. cbn [obind]. eexists. split; [reflexivity|].
  split; cbn [hs_live hs_next hs_nodes hs_els hs_mpcs hs_comps hs_mat hs_K hs_C hs_M]; auto.
  - szs.
  - intros x. rewrite C', C. cbn. lia.
  - eapply incl_lt; eauto.
Qed.
Lemma del_colls_ok c s L : inv c s L -> s_DeleteCollections s = Ok s.
Proof. intros I. pose proof (i_sizes _ _ _ I) as (_ & _ & _ & _ & H & _). unfold s_DeleteCollections. rewrite H. destruct s; cbn in *. now subst. Qed.
(* the equations are released, the table keeps the pointers *)
Lemma del_mpcs_ok c s L : inv c s L -> exists h, del_list (hs_live s) (hs_mpcs s) = Ok h /\ NoDup (map fst h) /\ incl h (hs_live s) /\
  (forall x, cnt (hs_live s) x = cnt (ntab OMpc (hs_mpcs s)) x + cnt h x).
Proof.
  intros I. destruct I as [Z C N T O].
  destruct (del_table (hs_live s) (ntab OMpc (hs_mpcs s)) (fun x => cnt (hs_live s) x - cnt (ntab OMpc (hs_mpcs s)) x) (ntab_deletable OMpc _ eq_refl) N) as (h & E & N' & C' & S).
  { intros x. rewrite C. lia. }
  rewrite ntab_fst in E. exists h. split; auto. split; auto. split; auto. intros x. rewrite C', C. lia.
Qed.
Lemma del_data_ok c s L : inv c s L -> exists s', s_DeleteSolutionData s = Ok s' /\
  inv (mkCounts (c_nodes c) (c_els c) (c_mpcs c) (c_comps c) (c_mat c) false false (c_lost c)) s' L.
Proof.
  intros I. destruct I as [Z C N T O]. unfold s_DeleteSolutionData.
 
  destruct (del_table (hs_live s) (ntab OMatrix (hs_K s)) (fun x => cnt (hs_live s) x - cnt (ntab OMatrix (hs_K s)) x) (ntab_deletable OMatrix _ eq_refl) N) as (h & E & N1 & C1 & S1).
  { intros x. rewrite C. lia. }
  rewrite ntab_fst in E. rewrite E. cbn [obind].
  destruct (del_table h (ntab OMatrix (hs_C s)) (fun x => cnt h x - cnt (ntab OMatrix (hs_C s)) x) (ntab_deletable OMatrix _ eq_refl) N1) as (h2 & E2 & N2 & C2 & S2).
  { intros x. rewrite C1, C. lia. }
  rewrite ntab_fst in E2. rewrite E2. cbn [obind].
  destruct (del_table h2 (ntab OMatrix (hs_M s)) (fun x => cnt h2 x - cnt (ntab OMatrix (hs_M s)) x) (ntab_deletable OMatrix _ eq_refl) N2) as (h3 & E3 & N3 & C3 & S3).
  { intros x. rewrite C2, C1, C. lia. }
  rewrite ?ntab_fst in E3. rewrite E3. cbn [obind]. eexists. split; [reflexivity|].
  split; cbn [hs_live hs_next hs_nodes hs_els hs_mpcs hs_comps hs_mat hs_K hs_C hs_M]; auto.
  - szs.
  - intros x. rewrite C3, C2, C1, C. cbn. lia.
  - eapply incl_lt; [|exact T]. eapply incl_tran; [eauto|]. eapply incl_tran; eauto.
Qed.
Lemma inv_ext c c' s L : inv c s L -> c = c' -> inv c' s L.
Proof. now intros I <-. Qed.

Lemma del_mesh_ok c s L : inv c s L -> c_mpcs c = 0 -> exists s', s_DeleteMesh s = Ok s' /\
  inv (mkCounts 0 0 0 0 (c_mat c) (c_K c) (c_CM c) (c_lost c)) s' L.
Proof.
  intros I HM. unfold s_DeleteMesh. destruct (del_elements_ok _ _ _ I) as (s1 & E1 & I1 & _ & _ & M1 & _). rewrite E1. cbn [obind].
  destruct (del_nodes_ok _ _ _ I1) as (s2 & E2 & I2 & _ & _ & M2 & _). rewrite E2. cbn [obind].
  assert (hs_mpcs s2 = []) as Z. { pose proof (i_sizes _ _ _ I2) as (_ & _ & H & _). cbn in H. rewrite HM in H. now destruct (hs_mpcs s2). }
  assert (s_DeleteMpcs s2 = Ok s2) as E3. { unfold s_DeleteMpcs. rewrite Z. cbn. destruct s2; reflexivity. }
  rewrite ?ntab_fst in E3. rewrite E3. cbn [obind]. rewrite (del_colls_ok _ _ _ I2). cbn [obind].
  destruct (del_comps_ok _ _ _ I2) as (s5 & E5 & I5). exists s5. split; auto. eapply inv_ext; [exact I5|]. cbn. now rewrite HM.
Qed.

Theorem step_ok c s L o c' : inv c s L -> cstep c o = Some c' -> exists s' L', step s o = Ok s' /\ inv c' s' L'.
Proof.
  intros I H. destruct c as [n e m p mt k cm lost]. pose proof (i_sizes _ _ _ I) as Z. unfold sizes_ok in Z. cbn [c_nodes c_els c_mpcs c_comps c_mat c_K c_CM] in Z.
  destruct Z as (Z1 & Z2 & Z3 & Z4 & Z5 & Z6 & Z7 & Z8 & Z9).
  destruct o; cbn [cstep] in H; cbn [step].
  - injection H as <-. do 2 eexists. split; [reflexivity|]. exact (add_nodes_ok _ _ _ I k0).
  - injection H as <-. do 2 eexists. split; [reflexivity|]. exact (add_nodes_ok _ _ _ I 1).
  - injection H as <-. destruct known; do 2 eexists; (split; [reflexivity|]); [exact (add_elements_ok _ _ _ I k0)|exact I].
  - injection H as <-. do 2 eexists. split; [reflexivity|]. exact (add_elements_ok _ _ _ I 1).
  - injection H as <-. do 2 eexists. split; [reflexivity|]. exact (add_mpcs_ok _ _ _ I 1).
  - discriminate.
  - injection H as <-. exists (mkHst (alloc (hs_live s) (hs_next s) [OComp]) (hs_next s + 1) (hs_nodes s) (hs_els s) (hs_mpcs s) (hs_colls s) (hs_comps s ++ addrs s 1) (hs_mat s) (hs_K s) (hs_C s) (hs_M s)), L.
    split; [reflexivity|]. destruct I as [Z C N T O].
    split; cbn [hs_live hs_next hs_nodes hs_els hs_mpcs hs_comps hs_mat hs_K hs_C hs_M]; auto.
    + unfold addrs; szs.
    + intros x. rewrite alloc_cnt, ntab_app, count_occ_app. change [OComp] with (repeat OComp 1). rewrite ntab_combine, C. unfold addrs. lia.
    + now apply new_nodup.
    + now apply (new_lt _ _ [OComp]).
  - destruct derived; [discriminate|]. injection H as <-.
    exists (mkHst (alloc (hs_live s) (hs_next s) [OMat false]) (hs_next s + 1) (hs_nodes s) (hs_els s) (hs_mpcs s) (hs_colls s) (hs_comps s) (addrs s 1) (hs_K s) (hs_C s) (hs_M s)), (ntab (OMat false) (hs_mat s) ++ L).
    split; [reflexivity|]. destruct I as [Z C N T O].
    split; cbn [hs_live hs_next hs_nodes hs_els hs_mpcs hs_comps hs_mat hs_K hs_C hs_M c_lost]; auto.
    + unfold addrs; szs.
    + intros x. rewrite alloc_cnt, count_occ_app. change [OMat false] with (repeat (OMat false) 1). rewrite ntab_combine, C. unfold addrs. lia.
    + now apply new_nodup.
    + now apply (new_lt _ _ [OMat false]).
    + rewrite app_length. unfold ntab. rewrite map_length. cbn in O. lia.
  - rewrite Z1, Z2. destruct (n <? 1) eqn:N1, (e <? 1) eqn:E1; cbn [andb].
    + apply Nat.ltb_lt in N1, E1. replace n with 0 in H by lia. replace e with 0 in H by lia. discriminate.
    + rewrite (touch_els _ _ _ I). cbn [obind]. unfold coll_pre. rewrite Z5. cbn [ofold].
      apply Nat.ltb_ge in E1. replace (0 <? e) with true in H by (symmetry; apply Nat.ltb_lt; lia). rewrite orb_true_r in H. injection H as <-. eauto.
    + rewrite (touch_els _ _ _ I). cbn [obind]. unfold coll_pre. rewrite Z5. cbn [ofold].
      apply Nat.ltb_ge in N1. replace (0 <? n) with true in H by (symmetry; apply Nat.ltb_lt; lia). injection H as <-. eauto.
    + rewrite (touch_els _ _ _ I). cbn [obind]. unfold coll_pre. rewrite Z5. cbn [ofold].
      apply Nat.ltb_ge in N1. replace (0 <? n) with true in H by (symmetry; apply Nat.ltb_lt; lia). injection H as <-. eauto.
  - injection H as <-. rewrite (touch_mpcs _ _ _ I). cbn [obind]. eauto.
  - injection H as <-. rewrite (touch_els _ _ _ I). cbn [obind]. rewrite (touch_mpcs _ _ _ I). cbn [obind].
    destruct I as [Z C N T O]. do 2 eexists. split; [reflexivity|].
    instantiate (1 := ntab OMatrix (hs_K s) ++ (if transient then ntab OMatrix (hs_C s) ++ ntab OMatrix (hs_M s) else []) ++ L).
    split; cbn [hs_live hs_next hs_nodes hs_els hs_mpcs hs_comps hs_mat hs_K hs_C hs_M c_lost new_objs with_live].
    + destruct transient; szs.
    + intros x. rewrite alloc_cnt, ntab_combine, !count_occ_app, C. destruct transient; cbn [seq].
      * replace (ntab OMatrix [hs_next s; S (hs_next s); S (S (hs_next s))])
          with (ntab OMatrix [hs_next s] ++ ntab OMatrix [hs_next s + 1] ++ ntab OMatrix [hs_next s + 2])
          by (cbn; do 3 f_equal; f_equal; lia).
        rewrite !count_occ_app. lia.
      * cbn [count_occ]. lia.
    + now apply new_nodup.
    + now apply new_lt.
    + rewrite !app_length. destruct transient; rewrite ?app_length; unfold ntab; rewrite ?map_length; cbn in O |- *; destruct k, cm; cbn in *; lia.
  - destruct k; cbn [andb] in H; [|discriminate].
    assert (TK : forall l, (forall a, In a l -> In a (hs_K s) \/ In a (hs_C s) \/ In a (hs_M s)) -> touch (hs_live s) l = Ok tt).
    { intros l Hl. apply touch_ok. intros a Ha. rewrite (matrix_live _ _ _ I a (Hl a Ha)). discriminate. }
    unfold asserting. rewrite Z7. cbn [b2n Nat.ltb Nat.leb]. change (0 <? 1) with true. cbv iota.
    rewrite (TK (hs_K s)) by auto. cbn [obind]. rewrite (touch_els _ _ _ I). cbn [obind]. rewrite Z5. cbn [touch ofold obind]. rewrite (touch_mpcs _ _ _ I). cbn [obind].
    destruct transient; cbn [negb orb] in H.
    + destruct cm; [|discriminate]. injection H as <-. rewrite Z8, Z9. cbn [b2n]. change (0 <? 1) with true. cbv iota.
      rewrite (TK (hs_C s)) by auto. cbn [obind]. rewrite (TK (hs_M s)) by auto. cbn [obind]. eauto.
    + injection H as <-. eauto.
  - destruct (1 <=? n0) eqn:A; [|discriminate]. destruct (n0 <=? n) eqn:B; [|discriminate]. injection H as <-. apply Nat.leb_le in A, B.
    unfold asserting. rewrite Z1. replace (0 <? n0) with true by (symmetry; apply Nat.ltb_lt; lia). replace (n0 <=? n) with true by (symmetry; apply Nat.leb_le; lia). cbn [andb].
    unfold aget. destruct (nth_error (hs_nodes s) (n0 - 1)) as [a|] eqn:E; [|apply nth_error_None in E; lia]. cbn [obind].
    rewrite touch_ok. { cbn [obind]. eauto. } intros b [<-|[]]. rewrite (node_live _ _ _ I a (nth_error_In _ _ E)). discriminate.
  - destruct (1 <=? n0) eqn:A; [|discriminate]. destruct (n0 <=? e) eqn:B; [|discriminate]. injection H as <-. apply Nat.leb_le in A, B.
    unfold asserting. rewrite Z2. replace (n0 <=? e) with true by (symmetry; apply Nat.leb_le; lia). destruct (n0 =? 0) eqn:D; [apply Nat.eqb_eq in D; lia|].
    unfold aget. destruct (nth_error (hs_els s) (n0 - 1)) as [a|] eqn:E; [|apply nth_error_None in E; lia]. cbn [obind].
    rewrite touch_ok. { cbn [obind]. eauto. } intros b [<-|[]]. rewrite (el_live _ _ _ I _ a E). discriminate.
  - injection H as <-. destruct (del_data_ok _ _ _ I) as (s' & E & I'). eauto.
  - injection H as <-. destruct (del_nodes_ok _ _ _ I) as (s' & E & I' & _). eauto.
  - injection H as <-. destruct (del_elements_ok _ _ _ I) as (s' & E & I' & _). eauto.
  - destruct (m =? 0) eqn:M; [|discriminate]. apply Nat.eqb_eq in M. injection H as <-. exists s, L. split; auto.
    unfold s_DeleteMpcs. assert (hs_mpcs s = []) as Q by (destruct (hs_mpcs s); cbn in *; auto; lia). rewrite Q. cbn. destruct s; reflexivity.
  - injection H as <-. exists s, L. split; auto. exact (del_colls_ok _ _ _ I).
  - injection H as <-. destruct (del_comps_ok _ _ _ I) as (s' & E & I'). eauto.
  - destruct (m =? 0) eqn:M; [|discriminate]. apply Nat.eqb_eq in M. injection H as <-.
    destruct (del_mesh_ok _ _ _ I M) as (s' & E & I'). exists s', L. split; auto. now subst m.
Qed.

Lemma run_ok ops : forall c s L c', inv c s L -> crun c ops = Some c' -> exists s' L', ofold step ops s = Ok s' /\ inv c' s' L'.
Proof.
  induction ops as [|o ops IH]; intros c s L c' I H; cbn [crun ofold] in *.
  - injection H as <-. eauto.
  - destruct (cstep c o) as [c1|] eqn:E; [|discriminate]. destruct (step_ok _ _ _ _ _ I E) as (s1 & L1 & E1 & I1). rewrite E1. cbn [obind]. eauto.
Qed.

Lemma live_length c s L : inv c s L -> length (hs_live s) = living c.
Proof.
  intros I. destruct I as [Z C N T O].
  assert (P : Permutation (hs_live s) (ntab ONode (hs_nodes s) ++ etab (hs_els s) ++ ntab OMpc (hs_mpcs s) ++ ntab OComp (hs_comps s)
     ++ ntab (OMat false) (hs_mat s) ++ ntab OMatrix (hs_K s) ++ ntab OMatrix (hs_C s) ++ ntab OMatrix (hs_M s) ++ L)).
  { apply (Permutation_count_occ obj_dec). intros x. rewrite !count_occ_app, C. lia. }
  apply Permutation_length in P. rewrite P, !app_length. unfold ntab. rewrite !map_length.
  rewrite <- (map_length fst (etab (hs_els s))), etab_fst. unfold living, sizes_ok in *. lia.
Qed.

Lemma nodup_left {A} (a b : list A) : NoDup (a ++ b) -> NoDup a.
Proof.
  induction a as [|x a IH]; cbn; intros H; [constructor|]. inversion H as [|? ? NI N]; subst. constructor; auto. intros K. apply NI, in_or_app. now left.
Qed.
Lemma tables c s L : inv c s L -> tables_ok s.
Proof.
  intros I. split; [|split; [|split; [|split]]].
  - intros i a H. apply (node_live _ _ _ I). eapply nth_error_In; eauto.
  - intros i a H. apply (el_live _ _ _ I _ _ H).
  - intros i a H. apply (mpc_live _ _ _ I). eapply nth_error_In; eauto.
  - intros i a H. apply (comp_live _ _ _ I). eapply nth_error_In; eauto.
  - destruct I as [Z C N T O].
    assert (P : Permutation (hs_live s) ((ntab ONode (hs_nodes s) ++ etab (hs_els s) ++ ntab OMpc (hs_mpcs s) ++ ntab OComp (hs_comps s))
     ++ ntab (OMat false) (hs_mat s) ++ ntab OMatrix (hs_K s) ++ ntab OMatrix (hs_C s) ++ ntab OMatrix (hs_M s) ++ L)).
    { apply (Permutation_count_occ obj_dec). intros x. rewrite !count_occ_app, C. lia. }
    apply (Permutation_map fst) in P. apply (Permutation_NoDup P) in N. rewrite map_app in N. apply nodup_left in N.
    rewrite !map_app, !ntab_fst, etab_fst in N. exact N.
Qed.
