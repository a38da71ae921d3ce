(* The statements about whole programs: use of the storage, destruction, and what goes wrong. *)
From Verif Require Import Base BaseProofs HeapModel SpecHeap HeapProofs.
From Coq Require Import Permutation.

Lemma destroy_ok c s L : inv c s L -> exists h, destroy s = Ok h /\ length h = c_lost c.
Proof.
  intros I. unfold destroy.
  (* the material *)
  assert (M : exists h, del_list (hs_live s) (hs_mat s) = Ok h /\
    inv (mkCounts (c_nodes c) (c_els c) (c_mpcs c) (c_comps c) false (c_K c) (c_CM c) (c_lost c))
        (mkHst h (hs_next s) (hs_nodes s) (hs_els s) (hs_mpcs s) (hs_colls s) (hs_comps s) [] (hs_K s) (hs_C s) (hs_M s)) L).
  { destruct I as [Z C N T O].
    destruct (del_table (hs_live s) (ntab (OMat false) (hs_mat s)) (fun x => cnt (hs_live s) x - cnt (ntab (OMat false) (hs_mat s)) x) (ntab_deletable (OMat false) _ eq_refl) N) as (h & E & N' & C' & S).
    { intros x. rewrite C. lia. }
    rewrite ntab_fst in E. exists h. split; auto.
    split; cbn [hs_live hs_next hs_nodes hs_els hs_mpcs hs_comps hs_mat hs_K hs_C hs_M]; auto.
    - szs.
    - intros x. rewrite C', C. cbn. lia.
    - eapply incl_lt; eauto. }
  destruct M as (h & E & I0). rewrite E. cbn [obind].
  set (s0 := mkHst h _ _ _ _ _ _ [] _ _ _) in I0.
  destruct (del_data_ok _ _ _ I0) as (s1 & E1 & I1). cbn [c_nodes c_els c_mpcs c_comps c_mat c_K c_CM c_lost] in I1.
  assert (D : exists s1', s_DeleteSolutionData (with_live s h (hs_next s)) = Ok s1' /\
     hs_live s1' = hs_live s1 /\ hs_nodes s1' = hs_nodes s1 /\ hs_els s1' = hs_els s1 /\ hs_mpcs s1' = hs_mpcs s1 /\ hs_colls s1' = hs_colls s1 /\ hs_comps s1' = hs_comps s1).
  { revert E1. unfold s_DeleteSolutionData, s0, with_live. cbn [hs_live hs_next hs_nodes hs_els hs_mpcs hs_colls hs_comps hs_mat hs_K hs_C hs_M].
    destruct (del_list h (hs_K s)) as [h1| | |]; cbn [obind]; try discriminate.
    destruct (del_list h1 (hs_C s)) as [h2| | |]; cbn [obind]; try discriminate.
    destruct (del_list h2 (hs_M s)) as [h3| | |]; cbn [obind]; try discriminate.
    intros Q. injection Q as <-. eexists. split; [reflexivity|]. cbn. repeat split; reflexivity. }
  destruct D as (s1' & -> & F1 & F2 & F3 & F4 & F5 & F6). cbn [obind].
  destruct (del_elements_ok _ _ _ I1) as (s2 & E2 & I2 & _ & G1 & G2 & G3).
  assert (X2 : exists s2', s_DeleteElements s1' = Ok s2' /\ hs_live s2' = hs_live s2 /\ hs_nodes s2' = hs_nodes s2 /\ hs_mpcs s2' = hs_mpcs s2 /\ hs_colls s2' = hs_colls s2 /\ hs_comps s2' = hs_comps s2).
  { revert E2. unfold s_DeleteElements. rewrite F1, F3. destruct (del_list (hs_live s1) (hs_els s1)) as [q| | |]; cbn [obind]; try discriminate.
    intros Q. injection Q as <-. eexists. split; [reflexivity|]. cbn. now rewrite F2, F4, F5, F6. }
  unfold s_DeleteMesh. destruct X2 as (s2' & -> & A1 & A2 & A3 & A4 & A5). cbn [obind].
  destruct (del_nodes_ok _ _ _ I2) as (s3 & E3 & I3 & _ & _ & _ & _).
  assert (X3 : exists s3', s_DeleteNodes s2' = Ok s3' /\ hs_live s3' = hs_live s3 /\ hs_mpcs s3' = hs_mpcs s3 /\ hs_colls s3' = hs_colls s3 /\ hs_comps s3' = hs_comps s3).
  { revert E3. unfold s_DeleteNodes. rewrite A1, A2. destruct (del_list (hs_live s2) (hs_nodes s2)) as [q| | |]; cbn [obind]; try discriminate.
    intros Q. injection Q as <-. eexists. split; [reflexivity|]. cbn. now rewrite A3, A4, A5. }
  destruct X3 as (s3' & -> & B1 & B2 & B3 & B4). cbn [obind]. unfold s_DeleteMpcs. rewrite B1, B2.
  destruct (del_mpcs_ok _ _ _ I3) as (h4 & -> & N4 & S4 & C4). cbn [obind].
  unfold s_DeleteCollections, with_live. cbn [hs_colls]. rewrite B3. pose proof (i_sizes _ _ _ I3) as (_ & _ & _ & _ & Q5 & _). rewrite Q5. cbn [del_list ofold obind hs_live].
  unfold s_DeleteComponents. cbn [hs_live hs_comps]. rewrite B4.
  destruct I3 as [Z3 C3 N3 T3 O3].
  destruct (del_table h4 (ntab OComp (hs_comps s3)) (cnt L) (ntab_deletable OComp _ eq_refl) N4) as (h5 & E5 & N5 & C5 & S5).
  { intros x. specialize (C4 x). rewrite C3 in C4. destruct Z3 as (Z1 & Z2 & _ & _ & _ & Z6 & Z7 & Z8 & Z9). cbn in Z1, Z2, Z6, Z7, Z8, Z9.
    apply length_zero_iff_nil in Z1, Z2, Z6, Z7, Z8, Z9. rewrite Z1, Z2, Z6, Z7, Z8, Z9 in C4. unfold etab in C4. cbn [ntab map length seq combine count_occ] in C4. lia. }
  rewrite ntab_fst in E5. rewrite E5. cbn [obind hs_live]. exists h5. split; auto.
  assert (P : Permutation h5 L) by (apply (Permutation_count_occ obj_dec); exact C5).
  apply Permutation_length in P. rewrite P. exact O3.
Qed.

Theorem use_and_destroy ops c : crun no_objects ops = Some c ->
  exists s, run ops = Ok s /\ sizes_ok c s /\ tables_ok s /\ length (hs_live s) = living c /\
  exists h, destroy s = Ok h /\ length h = c_lost c.
Proof.
  intros H. destruct (run_ok ops _ _ _ _ inv0 H) as (s & L & E & I). exists s. split; [exact E|].
  split; [apply I|]. split; [eapply tables; eauto|]. split; [eapply live_length; eauto|]. eapply destroy_ok; eauto.
Qed.
(* nothing is lost by programs that set one material and initialise the solution data once after every deletion *)
Fixpoint tidy (mt k : bool) (ops : list op) : bool :=
  match ops with
  | [] => true
  | SetMaterial _ :: r => negb mt && tidy true k r
  | InitSolutionData _ :: r => negb k && tidy mt true r
  | DeleteSolutionData :: r => tidy mt false r
  | _ :: r => tidy mt k r
  end.
Lemma tidy_lost ops : forall c c', crun c ops = Some c' -> (c_CM c = true -> c_K c = true) -> tidy (c_mat c) (c_K c) ops = true -> c_lost c' = c_lost c.
Proof.
  induction ops as [|o ops IH]; intros c c' H W T; cbn [crun] in H.
  - now injection H as <-.
  - destruct (cstep c o) as [c1|] eqn:E; [|discriminate].
    assert (P : (c_CM c1 = true -> c_K c1 = true) /\ c_lost c1 = c_lost c /\ tidy (c_mat c1) (c_K c1) ops = true).
    { destruct c as [n e m p mt k cm lost]. cbn in W.
      destruct o; cbn in E, T |- *;
        repeat match type of E with (if ?b then _ else _) = _ => destruct b eqn:? end; try discriminate;
        injection E as <-; cbn in *; auto.
      - apply andb_prop in T as [T1 T2]. destruct mt; [discriminate|]. cbn. repeat split; auto; lia.
      - apply andb_prop in T as [T1 T2]. destruct k; [discriminate|]. destruct cm; [specialize (W eq_refl); discriminate|]. rewrite andb_false_r. cbn. repeat split; auto; lia. }
    destruct P as (P1 & P2 & P3). rewrite <- P2. eapply IH; eauto.
Qed.
Theorem tidy_no_leak ops c : crun no_objects ops = Some c -> tidy false false ops = true -> exists s, run ops = Ok s /\ destroy s = Ok [].
Proof.
  intros H T. destruct (use_and_destroy ops c H) as (s & E & _ & _ & _ & h & D & Q). exists s. split; auto.
  pose proof (tidy_lost ops no_objects c H) as Z. cbn in Z. rewrite Z in Q; auto. now destruct h; [|discriminate].
Qed.

(* numbers of created objects *)
Lemma created_nodes s k s' : step s (CreateNodes k) = Ok s' ->
  new_numbers (hs_nodes s) (hs_nodes s') = seq (length (hs_nodes s) + 1) k /\ firstn (length (hs_nodes s)) (hs_nodes s') = hs_nodes s /\ hs_els s' = hs_els s.
Proof.
  cbn [step]. intros H. injection H as <-. cbn. unfold new_numbers, addrs. rewrite app_length, seq_length. split; [|split; auto].
  - f_equal. lia.
  - rewrite firstn_app, Nat.sub_diag, firstn_all. cbn. apply app_nil_r.
Qed.
Lemma created_elements s k s' : step s (CreateElements true k) = Ok s' ->
  new_numbers (hs_els s) (hs_els s') = seq (length (hs_els s) + 1) k /\ firstn (length (hs_els s)) (hs_els s') = hs_els s /\ hs_nodes s' = hs_nodes s.
Proof.
  cbn [step]. intros H. injection H as <-. cbn. unfold new_numbers, addrs. rewrite app_length, seq_length. split; [|split; auto].
  - f_equal. lia.
  - rewrite firstn_app, Nat.sub_diag, firstn_all. cbn. apply app_nil_r.
Qed.
