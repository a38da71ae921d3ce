(* Programs that leave the contract: dangling pointers in the list of equations, classes without virtual destructors. *)
From Verif Require Import Base BaseProofs HeapModel SpecHeap HeapProofs HeapFinal.

Arguments del_list : simpl never.
(* s with other lists of equations and of collections *)
Definition set_lists (s : hst) (m cl : list nat) : hst :=
  mkHst (hs_live s) (hs_next s) (hs_nodes s) (hs_els s) m cl (hs_comps s) (hs_mat s) (hs_K s) (hs_C s) (hs_M s).
Definition lift (m cl : list nat) (x : outcome hst) : outcome hst := obind x (fun s => Ok (set_lists s m cl)).

Lemma set_els s m cl : s_DeleteElements (set_lists s m cl) = lift m cl (s_DeleteElements s).
Proof. unfold s_DeleteElements, lift. cbn. destruct (del_list (hs_live s) (hs_els s)); reflexivity. Qed.
Lemma set_nodes s m cl : s_DeleteNodes (set_lists s m cl) = lift m cl (s_DeleteNodes s).
Proof. unfold s_DeleteNodes, lift. cbn. destruct (del_list (hs_live s) (hs_nodes s)); reflexivity. Qed.
Lemma set_data s m cl : s_DeleteSolutionData (set_lists s m cl) = lift m cl (s_DeleteSolutionData s).
Proof.
  unfold s_DeleteSolutionData, lift. cbn. destruct (del_list (hs_live s) (hs_K s)); cbn; auto.
  destruct (del_list _ (hs_C s)); cbn; auto. destruct (del_list _ (hs_M s)); reflexivity.
Qed.

(* a list of equations starting with a dangling pointer *)
Lemma live_incl_els s s' : s_DeleteElements s = Ok s' -> forall c L, inv c s L -> incl (map fst (hs_live s')) (map fst (hs_live s)).
Proof.
  intros E c L I. destruct I as [Z C N T O].
  destruct (del_table (hs_live s) (etab (hs_els s)) (fun x => cnt (hs_live s) x - cnt (etab (hs_els s)) x) (etab_deletable _) N) as (h & E' & _ & _ & S).
  { intros x. rewrite C. lia. }
  rewrite etab_fst in E'. unfold s_DeleteElements in E. rewrite E' in E. cbn in E. injection E as <-. cbn.
  intros a H. apply in_map_iff in H as (x & <- & H). apply in_map. auto.
Qed.
Lemma live_incl_nodes s s' : s_DeleteNodes s = Ok s' -> forall c L, inv c s L -> incl (map fst (hs_live s')) (map fst (hs_live s)).
Proof.
  intros E c L I. destruct I as [Z C N T O].
  destruct (del_table (hs_live s) (ntab ONode (hs_nodes s)) (fun x => cnt (hs_live s) x - cnt (ntab ONode (hs_nodes s)) x) (ntab_deletable ONode _ eq_refl) N) as (h & E' & _ & _ & S).
  { intros x. rewrite C. lia. }
  rewrite ntab_fst in E'. unfold s_DeleteNodes in E. rewrite E' in E. cbn in E. injection E as <-. cbn.
  intros a H. apply in_map_iff in H as (x & <- & H). apply in_map. auto.
Qed.
Lemma live_incl_list h T : NoDup (map fst h) -> Forall (fun x => deletable (snd x) = true) T -> (forall x, cnt T x <= cnt h x) ->
  forall h', del_list h (map fst T) = Ok h' -> incl (map fst h') (map fst h).
Proof.
  intros N D LE h' E. destruct (del_table h T (fun x => cnt h x - cnt T x) D N) as (h2 & E2 & _ & _ & S).
  { intros x. specialize (LE x). lia. }
  rewrite E2 in E. injection E as <-. intros a H. apply in_map_iff in H as (x & <- & H). apply in_map. auto.
Qed.

(* the first pointer of the list of equations cannot be deleted *)
Definition stuck (h : heap) (l : list nat) : Prop := exists a r, l = a :: r /\ ~ In a (map fst h).
Lemma stuck_incl h h' l : stuck h l -> incl (map fst h') (map fst h) -> stuck h' l.
Proof. intros (a & r & E & N) H. exists a, r. split; auto. Qed.

Lemma mesh_stuck c s L m cl : inv c s L -> stuck (hs_live s) m -> s_DeleteMesh (set_lists s m cl) = UB.
Proof.
  intros I S. unfold s_DeleteMesh. rewrite set_els. destruct (del_elements_ok _ _ _ I) as (s1 & E1 & I1 & _).
  pose proof (live_incl_els _ _ E1 _ _ I) as J1. rewrite E1. cbn [lift obind].
  rewrite set_nodes. destruct (del_nodes_ok _ _ _ I1) as (s2 & E2 & I2 & _).
  pose proof (live_incl_nodes _ _ E2 _ _ I1) as J2. rewrite E2. cbn [lift obind].
  unfold s_DeleteMpcs. cbn [set_lists hs_mpcs hs_live].
  destruct (stuck_incl _ _ _ (stuck_incl _ _ _ S J1) J2) as (a & r & -> & NI). now rewrite (del_dead _ _ _ NI).
Qed.

(* what destruction does up to the mesh *)
Lemma destroy_prefix c s L m cl : inv c s L -> exists h s1 c1,
  del_list (hs_live s) (hs_mat s) = Ok h /\
  s_DeleteSolutionData (with_live (set_lists s m cl) h (hs_next s)) = Ok (set_lists (mkHst (hs_live s1) (hs_next s1) (hs_nodes s1) (hs_els s1) (hs_mpcs s1) (hs_colls s1) (hs_comps s1) (hs_mat s) (hs_K s1) (hs_C s1) (hs_M s1)) m cl) /\
  inv c1 s1 L /\ c_mpcs c1 = c_mpcs c /\ hs_mpcs s1 = hs_mpcs s /\ incl (map fst (hs_live s1)) (map fst (hs_live s)) /\ hs_mat s1 = [].
Proof.
  intros I. assert (M : exists h, del_list (hs_live s) (hs_mat s) = Ok h /\ incl h (hs_live s) /\
    inv (mkCounts (c_nodes c) (c_els c) (c_mpcs c) (c_comps c) false (c_K c) (c_CM c) (c_lost c))
        (mkHst h (hs_next s) (hs_nodes s) (hs_els s) (hs_mpcs s) (hs_colls s) (hs_comps s) [] (hs_K s) (hs_C s) (hs_M s)) L).
  { destruct I as [Z C N T O].
    destruct (del_table (hs_live s) (ntab (OMat false) (hs_mat s)) (fun x => cnt (hs_live s) x - cnt (ntab (OMat false) (hs_mat s)) x) (ntab_deletable (OMat false) _ eq_refl) N) as (h & E & N' & C' & S).
    { intros x. rewrite C. lia. }
    rewrite ntab_fst in E. exists h. split; auto. split; auto.
    split; cbn [hs_live hs_next hs_nodes hs_els hs_mpcs hs_comps hs_mat hs_K hs_C hs_M]; auto.
    - szs.
    - intros x. rewrite C', C. cbn. lia.
    - eapply incl_lt; eauto. }
  destruct M as (h & E & S & I0). set (s0 := mkHst h _ _ _ _ _ _ [] _ _ _) in I0.
  destruct (del_data_ok _ _ _ I0) as (s1 & E1 & I1).
  assert (S1 : incl (hs_live s1) h).
  { destruct I0 as [Z C N T O]. unfold s0 in *. cbn [hs_live hs_next hs_nodes hs_els hs_mpcs hs_comps hs_mat hs_K hs_C hs_M] in *.
    pose proof (i_cnt _ _ _ I1) as C1. revert E1. unfold s_DeleteSolutionData. cbn [hs_live hs_next hs_nodes hs_els hs_mpcs hs_colls hs_comps hs_mat hs_K hs_C hs_M].
    destruct (del_list h (hs_K s)) as [h1| | |]; cbn [obind]; try discriminate.
    destruct (del_list h1 (hs_C s)) as [h2| | |]; cbn [obind]; try discriminate.
    destruct (del_list h2 (hs_M s)) as [h3| | |]; cbn [obind]; try discriminate.
    intros Q. injection Q as <-. cbn [hs_live hs_next hs_nodes hs_els hs_mpcs hs_comps hs_mat hs_K hs_C hs_M] in *.
    intros x Hx. apply cnt_pos in Hx. apply cnt_pos. specialize (C x). rewrite C1 in Hx. cbn [ntab map count_occ] in Hx. lia. }
  exists h, s1. eexists. split; [exact E|]. split.
  { revert E1. unfold s_DeleteSolutionData, s0, with_live, set_lists. cbn [hs_live hs_next hs_nodes hs_els hs_mpcs hs_colls hs_comps hs_mat hs_K hs_C hs_M].
    destruct (del_list h (hs_K s)) as [h1| | |]; cbn [obind]; try discriminate.
    destruct (del_list h1 (hs_C s)) as [h2| | |]; cbn [obind]; try discriminate.
    destruct (del_list h2 (hs_M s)) as [h3| | |]; cbn [obind]; try discriminate.
    intros Q. injection Q as <-. reflexivity. }
  split; [exact I1|]. split; [reflexivity|].
  assert (F : hs_mpcs s1 = hs_mpcs s /\ hs_mat s1 = []).
  { revert E1. unfold s_DeleteSolutionData, s0. cbn [hs_live hs_next hs_nodes hs_els hs_mpcs hs_colls hs_comps hs_mat hs_K hs_C hs_M].
    destruct (del_list h (hs_K s)) as [h1| | |]; cbn [obind]; try discriminate.
    destruct (del_list h1 (hs_C s)) as [h2| | |]; cbn [obind]; try discriminate.
    destruct (del_list h2 (hs_M s)) as [h3| | |]; cbn [obind]; try discriminate.
    intros Q. injection Q as <-. now split. }
  destruct F as [F1 F2]. split; auto. split; auto.
  intros a H. apply in_map_iff in H as (x & <- & H). apply in_map. auto.
Qed.
(* the material pointer plays no part in the deletion of the mesh *)
Definition set_mat (s : hst) (l : list nat) : hst :=
  mkHst (hs_live s) (hs_next s) (hs_nodes s) (hs_els s) (hs_mpcs s) (hs_colls s) (hs_comps s) l (hs_K s) (hs_C s) (hs_M s).
Lemma mesh_mat s l : s_DeleteMesh (set_mat s l) = obind (s_DeleteMesh s) (fun s' => Ok (set_mat s' l)).
Proof.
  unfold s_DeleteMesh, s_DeleteElements, s_DeleteNodes, s_DeleteMpcs, s_DeleteCollections, s_DeleteComponents, set_mat, with_live. cbn.
  destruct (del_list (hs_live s) (hs_els s)); cbn; auto. destruct (del_list _ (hs_nodes s)); cbn; auto. destruct (del_list _ (hs_mpcs s)); cbn; auto.
  destruct (del_list _ (hs_colls s)); cbn; auto. destruct (del_list _ (hs_comps s)); reflexivity.
Qed.
Lemma destroy_ub c s L m cl : inv c s L -> (forall c' s', inv c' s' L -> c_mpcs c' = c_mpcs c -> hs_mpcs s' = hs_mpcs s -> incl (map fst (hs_live s')) (map fst (hs_live s)) ->
    s_DeleteMesh (set_lists s' m cl) = UB) -> destroy (set_lists s m cl) = UB.
Proof.
  intros I H. destruct (destroy_prefix c s L m cl I) as (h & s1 & c1 & E & E1 & I1 & C1 & M1 & J1 & _).
  unfold destroy. change (hs_live (set_lists s m cl)) with (hs_live s). change (hs_mat (set_lists s m cl)) with (hs_mat s).
  change (hs_next (set_lists s m cl)) with (hs_next s). rewrite E. cbn [obind]. rewrite E1. cbn [obind].
  pose proof (H c1 s1 I1 C1 M1 J1) as U.
  match goal with |- context [s_DeleteMesh ?t] => change t with (set_mat (set_lists s1 m cl) (hs_mat s)) end.
  rewrite mesh_mat, U. reflexivity.
Qed.

(* ---- deleteMpcs leaves dangling pointers ---- *)
Lemma after_del_mpcs c s L s' : inv c s L -> 0 < c_mpcs c -> s_DeleteMpcs s = Ok s' ->
  exists s0, s' = set_lists s0 (hs_mpcs s) [] /\
    inv (mkCounts (c_nodes c) (c_els c) 0 (c_comps c) (c_mat c) (c_K c) (c_CM c) (c_lost c)) s0 L /\ stuck (hs_live s0) (hs_mpcs s).
Proof.
  intros I P E. destruct (del_mpcs_ok _ _ _ I) as (h & D & N & S & C). unfold s_DeleteMpcs in E. rewrite D in E. cbn in E. injection E as <-.
  pose proof (i_sizes _ _ _ I) as (_ & _ & Z3 & _ & Z5 & _).
  exists (mkHst h (hs_next s) (hs_nodes s) (hs_els s) [] [] (hs_comps s) (hs_mat s) (hs_K s) (hs_C s) (hs_M s)).
  split. { unfold with_live, set_lists. cbn. now rewrite Z5. }
  split.
  - destruct I as [Z C0 N0 T O]. split; cbn [hs_live hs_next hs_nodes hs_els hs_mpcs hs_comps hs_mat hs_K hs_C hs_M]; auto.
    + szs.
    + intros x. specialize (C x). specialize (C0 x). cbn. lia.
    + eapply incl_lt; eauto.
  - destruct (hs_mpcs s) as [|a r] eqn:Q; [cbn in Z3; lia|]. exists a, r. split; auto. cbn. intros H.
    apply in_map_iff in H as ([b o] & B & H). cbn in B. subst b.
    pose proof (hget_in _ a OMpc (i_nd _ _ _ I)) as G. assert (M : hget (hs_live s) a = Some OMpc). { apply (mpc_live _ _ _ I). rewrite Q. now left. }
    pose proof (S _ H) as H'. apply (hget_in _ a o (i_nd _ _ _ I)) in H'. rewrite M in H'. injection H' as <-.
    apply cnt_pos in H. pose proof (ntab_in OMpc (a :: r) a (or_introl eq_refl)) as K1.
    specialize (C (a, OMpc)). pose proof (i_cnt _ _ _ I (a, OMpc)). assert (2 <= cnt (hs_live s) (a, OMpc)) as B by lia.
    pose proof (NoDup_map_inv _ _ (i_nd _ _ _ I)) as ND. rewrite (NoDup_count_occ obj_dec) in ND. specialize (ND (a, OMpc)). lia.
Qed.
Theorem mpcs_dangling c s L : inv c s L -> 0 < c_mpcs c ->
  exists s', step s DeleteMpcs = Ok s' /\ hs_mpcs s' = hs_mpcs s /\
    step s' AssignNumbers = UB /\ step s' DeleteMpcs = UB /\ step s' DeleteMesh = UB /\ destroy s' = UB.
Proof.
  intros I P. destruct (del_mpcs_ok _ _ _ I) as (h & D & _). cbn [step]. unfold s_DeleteMpcs at 1. rewrite D. cbn [obind].
  assert (E : s_DeleteMpcs s = Ok (with_live s h (hs_next s))) by (unfold s_DeleteMpcs; now rewrite D).
  destruct (after_del_mpcs _ _ _ _ I P E) as (s0 & -> & I0 & K). eexists. split; [reflexivity|]. split; [reflexivity|].
  pose proof K as (a & r & Q & NI). split; [|split; [|split]].
  - cbn [set_lists hs_mpcs hs_live]. rewrite Q. now rewrite (touch_dead _ _ _ NI).
  - unfold s_DeleteMpcs. cbn [set_lists hs_mpcs hs_live]. rewrite Q. now rewrite (del_dead _ _ _ NI).
  - eapply mesh_stuck; eauto.
  - eapply destroy_ub; [exact I0|]. intros c' s' I' _ _ J. eapply mesh_stuck; eauto. eapply stuck_incl; eauto.
Qed.
Theorem mesh_twice c s L : inv c s L -> 0 < c_mpcs c ->
  exists s', step s DeleteMesh = Ok s' /\ hs_nodes s' = [] /\ hs_els s' = [] /\ hs_mpcs s' = hs_mpcs s /\
    step s' AssignNumbers = UB /\ step s' DeleteMesh = UB /\ destroy s' = UB.
Proof.
  intros I P. cbn [step]. unfold s_DeleteMesh at 1.
  destruct (del_elements_ok _ _ _ I) as (s1 & -> & I1 & e1 & n1 & M1 & _). cbn [obind].
  destruct (del_nodes_ok _ _ _ I1) as (s2 & -> & I2 & n2 & e2 & M2 & _). cbn [obind].
  destruct (del_mpcs_ok _ _ _ I2) as (h & D & _). unfold s_DeleteMpcs at 1. rewrite D. cbn [obind].
  assert (E : s_DeleteMpcs s2 = Ok (with_live s2 h (hs_next s2))) by (unfold s_DeleteMpcs; now rewrite D).
  destruct (after_del_mpcs _ _ _ _ I2 P E) as (s3 & -> & I3 & K).
  unfold s_DeleteCollections at 1. cbn [set_lists hs_colls hs_live hs_next hs_nodes hs_els hs_mpcs hs_comps hs_mat hs_K hs_C hs_M del_list ofold obind].
  change (mkHst (hs_live s3) (hs_next s3) (hs_nodes s3) (hs_els s3) (hs_mpcs s2) [] (hs_comps s3) (hs_mat s3) (hs_K s3) (hs_C s3) (hs_M s3)) with (set_lists s3 (hs_mpcs s2) []).
  destruct (del_comps_ok _ _ _ I3) as (s4 & E4 & I4).
  assert (E4' : s_DeleteComponents (set_lists s3 (hs_mpcs s2) []) = Ok (set_lists s4 (hs_mpcs s2) []) /\ incl (map fst (hs_live s4)) (map fst (hs_live s3)) /\ hs_nodes s4 = hs_nodes s3 /\ hs_els s4 = hs_els s3).
  { revert E4. unfold s_DeleteComponents. cbn [set_lists hs_live hs_comps hs_next hs_nodes hs_els hs_mpcs hs_mat hs_K hs_C hs_M].
    destruct (del_list (hs_live s3) (hs_comps s3)) as [q| | |] eqn:Q; cbn [obind]; try discriminate. intros X. injection X as <-. split; [reflexivity|]. split; [|now split].
    cbn. rewrite <- (ntab_fst OComp (hs_comps s3)) in Q. eapply live_incl_list; [apply (i_nd _ _ _ I3)|apply (ntab_deletable OComp (hs_comps s3) eq_refl)| |exact Q].
    intros x. rewrite (i_cnt _ _ _ I3). lia. }
  destruct E4' as (E5 & J & n4 & e4). exists (set_lists s4 (hs_mpcs s2) []). split; [exact E5|].
  pose proof (i_sizes _ _ _ I4) as (z1 & z2 & _). cbn in z1, z2. apply length_zero_iff_nil in z1, z2.
  split; [exact z1|]. split; [exact z2|]. split; [cbn; congruence|].
  pose proof (stuck_incl _ _ _ K J) as K4. pose proof K4 as (a & r & Q & NI). split; [|split].
  - cbn [set_lists hs_mpcs hs_live]. rewrite Q. now rewrite (touch_dead _ _ _ NI).
  - eapply mesh_stuck; eauto.
  - eapply destroy_ub; [exact I4|]. intros c' s' I' _ _ J'. eapply mesh_stuck; eauto. eapply stuck_incl; eauto.
Qed.

(* ---- no virtual destructors ---- *)
Theorem derived_material c s L : inv c s L -> exists s', step s (SetMaterial true) = Ok s' /\ destroy s' = UB.
Proof.
  intros I. cbn [step]. eexists. split; [reflexivity|]. unfold destroy. cbn [hs_live hs_mat addrs seq new_objs with_live alloc].
  rewrite (del_bad _ (hs_next s) [] (OMat true)); [reflexivity| |reflexivity]. unfold hget. cbn [find fst hs_next]. now rewrite Nat.eqb_refl.
Qed.
Theorem collection_destroyed c s L k : inv c s L -> exists s', step s (AddCollection k) = Ok s' /\
  step s' DeleteCollections = UB /\ step s' DeleteMesh = UB /\ destroy s' = UB.
Proof.
  intros I. set (a := hs_next s). cbn [step]. eexists. split; [reflexivity|].
  pose proof (i_sizes _ _ _ I) as (_ & _ & _ & _ & Z5 & _). rewrite Z5. cbn [app new_objs with_live alloc hs_live hs_next addrs seq].
  set (s0 := mkHst ((a, OColl k) :: hs_live s) (a + 1) (hs_nodes s) (hs_els s) (hs_mpcs s) [] (hs_comps s) (hs_mat s) (hs_K s) (hs_C s) (hs_M s)).
  match goal with |- context [mkHst ?h ?n ?b ?d ?e ?f ?g ?i ?j ?l ?m] => change (mkHst h n b d e f g i j l m) with (set_lists s0 (hs_mpcs s0) [a]) end.
  set (c0 := mkCounts (c_nodes c) (c_els c) (c_mpcs c) (c_comps c) (c_mat c) (c_K c) (c_CM c) (c_lost c + 1)).
  assert (I0 : inv c0 s0 ((a, OColl k) :: L)).
  { destruct I as [Z C N T O]. split; unfold s0, c0; cbn [hs_live hs_next hs_nodes hs_els hs_mpcs hs_comps hs_mat hs_K hs_C hs_M].
    - szs.
    - intros x. cbn [count_occ]. rewrite C. destruct (obj_dec (a, OColl k) x); lia.
    - cbn. constructor; auto. rewrite Forall_forall in T. intros H. apply T in H. unfold a in H. lia.
    - cbn. constructor; [lia|]. revert T. apply Forall_impl. unfold a. intros; lia.
    - cbn. lia. }
  assert (U : forall c' s', inv c' s' ((a, OColl k) :: L) -> hs_mpcs s' = hs_mpcs s0 -> s_DeleteMesh (set_lists s' (hs_mpcs s0) [a]) = UB).
  { intros c' s' I' M'. unfold s_DeleteMesh. rewrite set_els.
    destruct (del_elements_ok _ _ _ I') as (s1 & -> & I1 & _ & _ & M1 & _). cbn [lift obind]. rewrite set_nodes.
    destruct (del_nodes_ok _ _ _ I1) as (s2 & -> & I2 & _ & _ & M2 & _). cbn [lift obind].
    unfold s_DeleteMpcs. cbn [set_lists hs_mpcs hs_live]. rewrite <- M', <- M1, <- M2.
    destruct (del_mpcs_ok _ _ _ I2) as (h & -> & N & _ & C). cbn [obind]. unfold s_DeleteCollections. cbn [with_live set_lists hs_colls hs_live].
    rewrite (del_bad h a [] (OColl k)); [reflexivity| |reflexivity].
    apply hget_in; auto. apply cnt_pos. specialize (C (a, OColl k)). rewrite (i_cnt _ _ _ I2) in C. cbn [count_occ] in C.
    destruct (obj_dec (a, OColl k) (a, OColl k)); [lia|congruence]. }
  split; [|split].
  - unfold s_DeleteCollections. cbn [set_lists hs_colls hs_live s0]. rewrite (del_bad _ a [] (OColl k)); [reflexivity| |reflexivity]. unfold hget. cbn [find fst hs_next]. now rewrite Nat.eqb_refl.
  - apply (U c0 s0 I0 eq_refl).
  - eapply destroy_ub; [exact I0|]. intros c' s' I' _ M' _. apply (U c' s' I' M').
Qed.

Theorem program_inv ops c : crun no_objects ops = Some c -> exists s L, run ops = Ok s /\ inv c s L.
Proof. intros H. destruct (run_ok ops _ _ _ _ inv0 H) as (s & L & E & I). eauto. Qed.
Theorem lost_matrix tr ops c : crun no_objects ops = Some c -> c_K c = true ->
  exists s h, run (ops ++ [InitSolutionData tr]) = Ok s /\ destroy s = Ok h /\ 0 < length h.
Proof.
  intros H K. assert (R : crun no_objects (ops ++ [InitSolutionData tr]) = cstep c (InitSolutionData tr)).
  { revert H. generalize no_objects. induction ops as [|o ops IH]; intros c0 H; cbn in *.
    - injection H as ->. now destruct (cstep c (InitSolutionData tr)).
    - destruct (cstep c0 o); [auto|discriminate]. }
  destruct c as [n e m p mt k cm lost]. cbn in K. subst k.
  destruct (use_and_destroy _ _ R) as (s & E & _ & _ & _ & h & D & Q). exists s, h. split; auto. split; auto. rewrite Q. cbn. lia.
Qed.
Lemma crun_app a : forall c b, crun c (a ++ b) = match crun c a with Some c' => crun c' b | None => None end.
Proof. induction a as [|o a IH]; intros c b; cbn [app crun]; auto. destruct (cstep c o); auto. Qed.
Theorem mesh_again ops c k : crun no_objects ops = Some c -> c_mpcs c = 0 ->
  exists s, run (ops ++ repeat DeleteMesh (S k)) = Ok s /\
    hs_nodes s = [] /\ hs_els s = [] /\ hs_mpcs s = [] /\ hs_colls s = [] /\ hs_comps s = [] /\
  exists h, destroy s = Ok h /\ length h = c_lost c.
Proof.
  intros H M. destruct c as [n e m p mt kk cm lost]. cbn in M. subst m.
  assert (R : crun no_objects (ops ++ repeat DeleteMesh (S k)) = Some (mkCounts 0 0 0 0 mt kk cm lost)).
  { rewrite crun_app, H. cbn. induction k; cbn; auto. }
  destruct (use_and_destroy _ _ R) as (s & E & (z1 & z2 & z3 & z4 & z5 & _) & _ & _ & h & D & Q). exists s. split; auto. cbn in z1, z2, z3, z4.
  apply length_zero_iff_nil in z1, z2, z3, z4. repeat (split; auto). exists h. split; auto.
Qed.
