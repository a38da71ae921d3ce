(* C140-C144: laws of linear structures, read off the result of LinearFESolver::solve *)
From Coq Require Import QArith Qcanon Reals Lra Lia Permutation.
From Verif Require Import Base BaseProofs RealBase SparseModel SpecSparse BlockModel SpecBlock DofModel SpecDof AsmModel SpecAsm AsmProofs AsmFinal SolveModel SpecSolve LinearProofs
  GaussModel SpecGauss GaussProofs IsoModel SpecIso IsoProofs ElemModel SpecElem ElemBase ElemProofs ElemMore SpecBal BalProofs BalMore StructModel SpecStruct StructProofs StructFinal StructMore TrussModel TrussProofs
  SpecLaws LawsProofs LawsMore LawsSolve LawsBoth SpecEnergy LawsEnergy Prop_Asm Prop_Solve Prop_Bal.

(* ---------------- C140 ---------------- *)
(* displacements, multipliers of the MPC equations and reactions of the solved problem are in balance *)
Theorem C140_result_balanced : forall (K : Rng) (big : K -> bool) (slv : eqsolver K), exact_solver slv ->
  forall nn mesh regs ks mpcs loads fixes st, good_linear nn mesh regs ks mpcs loads fixes -> distinct_nodes mesh ks ->
  (forall x v, last_fix fixes x = Some v -> big v = false -> v = r0) ->
  linear_solve big slv nn mesh regs ks mpcs loads fixes = Ok st ->
  balanced mesh regs ks mpcs loads fixes (sol_U st) (sol_mult st) (sol_R st).
Proof. exact result_balanced. Qed.
Print Assumptions C140_result_balanced.
(* and nothing else is (default equation solver) *)
Theorem C140_only_balance : forall (K : GNum), glaws K -> forall (big : K -> bool) (u : nat -> list K), (forall n, length (u n) = n) ->
  forall nn mesh regs ks mpcs loads fixes st, good_linear nn mesh regs ks mpcs loads fixes -> distinct_nodes mesh ks ->
  (forall x v, last_fix fixes x = Some v -> big v = false -> v = r0) ->
  linear_solve big (gauss_slv u) nn mesh regs ks mpcs loads fixes = Ok st ->
  forall v l r, balanced mesh regs ks mpcs loads fixes v l r ->
    (forall k, In k (reg_keys regs) -> sol_U st k = v k) /\ (forall k, In k (reg_keys regs) -> sol_R st k = r k) /\ sol_mult st = l.
Proof. exact result_unique. Qed.
Print Assumptions C140_only_balance.
(* whether a run ends with a result of which the check holds *)
Definition ends_ok (r : outcome (sol QcRng)) (chk : sol QcRng -> bool) : bool := match r with Ok st => chk st | _ => false end.
Lemma ends_ok_ex r chk : ends_ok r chk = true -> exists st, r = Ok st /\ chk st = true.
Proof. destruct r as [st| | |]; try discriminate. intros H. now exists st. Qed.
Definition qcs_are (l : list Qc) (m : list Qc) : bool := (length l =? length m)%nat && forallb (fun x => Qeq_bool (this (fst x)) (this (snd x))) (combine l m).
Lemma qcs_are_eq l m : qcs_are l m = true -> l = m.
Proof.
  unfold qcs_are. intros H. apply andb_prop in H as [H1 H2]. apply Nat.eqb_eq in H1. revert m H1 H2. induction l as [|x l IH]; destruct m as [|y m]; cbn; try discriminate; auto.
  intros H1 H2. apply andb_prop in H2 as [H2 H3]. f_equal; [apply Qc_is_canon; now apply Qeq_bool_eq|auto].
Qed.
Lemma gz_length n : length (gz n) = n.
Proof. apply repeat_length. Qed.
Lemma bar_distinct : distinct_nodes bar_mesh bar_ks.
Proof. split; repeat constructor; cbn; intuition discriminate. Qed.
Example C140_example : exists st, good_linear 4 bar_mesh bar_regs bar_ks bar_mpcs bar_loads bar_fixes /\ distinct_nodes bar_mesh bar_ks /\
  (forall x v, last_fix bar_fixes x = Some v -> bigq v = false -> v = r0) /\
  linear_solve (K := QcRng) bigq (gauss_slv gz) 4 bar_mesh bar_regs bar_ks bar_mpcs bar_loads bar_fixes = Ok st /\
  balanced (K := QcRng) bar_mesh bar_regs bar_ks bar_mpcs bar_loads bar_fixes (sol_U st) (sol_mult st) (sol_R st) /\
  sol_mult (K := QcRng) st = [Q2Qc (-29 # 16)].
Proof.
  destruct (ends_ok_ex (linear_solve (K := QcRng) bigq (gauss_slv gz) 4 bar_mesh bar_regs bar_ks bar_mpcs bar_loads bar_fixes) (fun st => qcs_are (sol_mult (K := QcRng) st) [Q2Qc (-29 # 16)]))
    as (st & E & EU); [vm_compute; reflexivity|]. exists st. split; [exact bar_good|]. split; [exact bar_distinct|]. split; [exact bar_tiny|]. split; [exact E|]. split.
  - apply (C140_result_balanced QcRng bigq (gauss_slv gz) (gauss_exact QcG QcG_laws gz gz_length) 4 bar_mesh bar_regs bar_ks bar_mpcs bar_loads bar_fixes st bar_good bar_distinct bar_tiny E).
  - now apply qcs_are_eq.
Qed.

(* ---------------- C141 ---------------- *)
(* load cases 1 and 2 solved, element loads, right hand sides, loads and supports of case 3 are a times those of case 1 plus b times
   those of case 2: case 3 is solved, displacements and reactions are the same combination *)
Theorem C141_superposition : forall (K : GNum), glaws K -> forall (big : K -> bool) (u : nat -> list K), (forall n, length (u n) = n) ->
  forall (a b : K) nn mesh regs ks1 ks2 ks3 mpcs1 mpcs2 mpcs3 loads1 loads2 loads3 fixes1 fixes2 fixes3 st1 st2,
  good_linear nn mesh regs ks1 mpcs1 loads1 fixes1 -> good_linear nn mesh regs ks2 mpcs2 loads2 fixes2 -> good_linear nn mesh regs ks3 mpcs3 loads3 fixes3 ->
  distinct_nodes mesh ks1 -> distinct_nodes mesh ks2 -> distinct_nodes mesh ks3 ->
  (forall x v, last_fix fixes1 x = Some v -> big v = false -> v = r0) -> (forall x v, last_fix fixes2 x = Some v -> big v = false -> v = r0) ->
  (forall x v, last_fix fixes3 x = Some v -> big v = false -> v = r0) ->
  Forall3 (Forall3 (comb_contrib a b)) ks1 ks2 ks3 -> Forall3 (comb_mpc a b) mpcs1 mpcs2 mpcs3 ->
  (forall k, total_load loads3 k = radd (rmul a (total_load loads1 k)) (rmul b (total_load loads2 k))) ->
  (forall k, comb_fix a b (last_fix fixes1 k) (last_fix fixes2 k) (last_fix fixes3 k)) ->
  linear_solve big (gauss_slv u) nn mesh regs ks1 mpcs1 loads1 fixes1 = Ok st1 ->
  linear_solve big (gauss_slv u) nn mesh regs ks2 mpcs2 loads2 fixes2 = Ok st2 ->
  map bc_key fixes3 = map bc_key fixes1 ->
  exists st3, linear_solve big (gauss_slv u) nn mesh regs ks3 mpcs3 loads3 fixes3 = Ok st3 /\
    forall k, In k (reg_keys regs) -> sol_U st3 k = radd (rmul a (sol_U st1 k)) (rmul b (sol_U st2 k)) /\
      sol_R st3 k = radd (rmul a (sol_R st1 k)) (rmul b (sol_R st2 k)).
Proof. exact superposed. Qed.
Print Assumptions C141_superposition.
(* whether a case is solved does not depend on loads, element loads, prescribed values and right hand sides of equations *)
Theorem C141_solvable : forall (K : GNum), glaws K -> forall (big : K -> bool) (u : nat -> list K), (forall n, length (u n) = n) ->
  forall nn mesh regs ks1 ks2 mpcs1 mpcs2 loads1 loads2 fixes1 fixes2 st1,
  good_linear nn mesh regs ks1 mpcs1 loads1 fixes1 -> good_linear nn mesh regs ks2 mpcs2 loads2 fixes2 ->
  Forall2 (Forall2 same_stiff) ks1 ks2 -> Forall2 (fun m1 m2 => mp_terms m1 = mp_terms m2) mpcs1 mpcs2 -> map bc_key fixes1 = map bc_key fixes2 ->
  linear_solve big (gauss_slv u) nn mesh regs ks1 mpcs1 loads1 fixes1 = Ok st1 ->
  exists st2, linear_solve big (gauss_slv u) nn mesh regs ks2 mpcs2 loads2 fixes2 = Ok st2.
Proof. exact solvable. Qed.
Print Assumptions C141_solvable.
(* the bar: case 2 with element loads, other loads, supports and right hand sides; case 3 = 2 * case 1 - case 2 *)
Definition ck_f (f g : Z) : list (list (contrib QcRng)) :=
  [[CKF [UX] [qz 10; qz (-10); qz 10] [qz f; qz g]]; [CKF [UX] [qz 20; qz (-20); qz 20] [qz g; qz f]]; [CK [UX] [qz 1]]].
Definition tie (b : Z) : list (mpc QcRng) := [mkMpc (qz b) [((4, UX), qz 1); ((3, UX), qz (-2))]]%nat.
Definition pull3 (f2 f3 : Z) : list (bc QcRng) := [mkBC 2 UX (qz f2); mkBC 3 UX (qz f3)]%nat.
Definition at1 (v : Z) : list (bc QcRng) := [mkBC 1 UX (qz v)]%nat.
Lemma case_good f g b f2 f3 v : good_linear 4 bar_mesh bar_regs (ck_f f g) (tie b) (pull3 f2 f3) (at1 v).
Proof.
  assert (P : good_problem 4 bar_mesh bar_regs (map bc_key (at1 v)) (tie b)) by (apply problem_check_ok; vm_compute; reflexivity).
  split; auto.
  - apply small_capacity; auto. vm_compute. lia.
  - apply contribs_check; [reflexivity|]. repeat constructor.
  - repeat constructor.
  - repeat constructor; apply key_in_ok; vm_compute; reflexivity.
Qed.
Example C141_example : exists st1 st2 st3,
  linear_solve (K := QcRng) bigq (gauss_slv gz) 4 bar_mesh bar_regs (ck_f 1 2) (tie 1) (pull3 1 3) (at1 1) = Ok st1 /\
  linear_solve (K := QcRng) bigq (gauss_slv gz) 4 bar_mesh bar_regs (ck_f 4 (-1)) (tie 3) (pull3 5 2) (at1 5) = Ok st2 /\
  linear_solve (K := QcRng) bigq (gauss_slv gz) 4 bar_mesh bar_regs (ck_f (-2) 5) (tie (-1)) (pull3 (-3) 4) (at1 (-3)) = Ok st3 /\
  Forall3 (Forall3 (comb_contrib (K := QcRng) (qz 2) (qz (-1)))) (ck_f 1 2) (ck_f 4 (-1)) (ck_f (-2) 5) /\
  Forall3 (comb_mpc (K := QcRng) (qz 2) (qz (-1))) (tie 1) (tie 3) (tie (-1)) /\
  (forall k, total_load (K := QcRng) (pull3 (-3) 4) k = radd (rmul (qz 2) (total_load (K := QcRng) (pull3 1 3) k)) (rmul (qz (-1)) (total_load (K := QcRng) (pull3 5 2) k))) /\
  (forall k, comb_fix (K := QcRng) (qz 2) (qz (-1)) (last_fix (at1 1) k) (last_fix (at1 5) k) (last_fix (at1 (-3)) k)).
Proof.
  destruct (ends_ok_ex (linear_solve (K := QcRng) bigq (gauss_slv gz) 4 bar_mesh bar_regs (ck_f 1 2) (tie 1) (pull3 1 3) (at1 1)) (fun _ => true)) as (st1 & E1 & _); [vm_compute; reflexivity|].
  destruct (ends_ok_ex (linear_solve (K := QcRng) bigq (gauss_slv gz) 4 bar_mesh bar_regs (ck_f 4 (-1)) (tie 3) (pull3 5 2) (at1 5)) (fun _ => true)) as (st2 & E2 & _); [vm_compute; reflexivity|].
  destruct (ends_ok_ex (linear_solve (K := QcRng) bigq (gauss_slv gz) 4 bar_mesh bar_regs (ck_f (-2) 5) (tie (-1)) (pull3 (-3) 4) (at1 (-3))) (fun _ => true)) as (st3 & E3 & _); [vm_compute; reflexivity|].
  exists st1, st2, st3. split; [exact E1|]. split; [exact E2|]. split; [exact E3|]. clear. split; [|split; [|split]].
  - repeat constructor; intros [|[|[|]]]; cbn; apply Qc_is_canon; reflexivity.
  - repeat constructor; cbn; apply Qc_is_canon; reflexivity.
  - intros k. unfold total_load, pull3. rewrite !sumof_cons, !sumof_nil. cbn [bc_key bc_val].
    destruct (key_dec _ _), (key_dec _ _); cbn; apply Qc_is_canon; reflexivity.
  - intros k. unfold last_fix, at1. cbn [fold_left]. destruct (key_dec _ _); cbn; [apply Qc_is_canon; reflexivity|exact I].
Qed.

(* ---------------- C142 ---------------- *)
(* nodes renumbered by p, elements, MPC equations, their terms and loads in another order: the same displacements and reactions *)
Theorem C142_renumbered_partial : forall (K : GNum), glaws K -> forall (big : K -> bool) (u : nat -> list K), (forall n, length (u n) = n) ->
  forall (p : nat -> nat) nn1 mesh1 regs1 ks1 mpcs1 loads1 fixes1 nn2 mesh2 regs2 ks2 mpcs2 mpcs loads2 fixes2 st1 st2,
  (forall m n, p m = p n -> m = n) ->
  good_linear nn1 mesh1 regs1 ks1 mpcs1 loads1 fixes1 -> good_linear nn2 mesh2 regs2 ks2 mpcs2 loads2 fixes2 ->
  distinct_nodes mesh1 ks1 -> distinct_nodes mesh2 ks2 ->
  (forall x v, last_fix fixes1 x = Some v -> big v = false -> v = r0) -> (forall x v, last_fix fixes2 x = Some v -> big v = false -> v = r0) ->
  Forall (Forall nodal) ks1 ->
  Permutation (map (fun x => (map p (fst x), snd x)) (combine mesh1 ks1)) (combine mesh2 ks2) ->
  (forall k, In k (reg_keys regs1) -> In (ren_key p k) (reg_keys regs2)) ->
  Forall2 (ren_mpc p) mpcs1 mpcs -> Permutation mpcs mpcs2 ->
  Permutation (map (fun f => mkBC (p (bc_node f)) (bc_dof f) (bc_val f)) loads1) loads2 -> (forall k, last_fix fixes2 (ren_key p k) = last_fix fixes1 k) ->
  linear_solve big (gauss_slv u) nn1 mesh1 regs1 ks1 mpcs1 loads1 fixes1 = Ok st1 ->
  linear_solve big (gauss_slv u) nn2 mesh2 regs2 ks2 mpcs2 loads2 fixes2 = Ok st2 ->
  forall k, In k (reg_keys regs1) -> sol_U st2 (ren_key p k) = sol_U st1 k /\ sol_R st2 (ren_key p k) = sol_R st1 k.
Proof. exact renumbered. Qed.
Print Assumptions C142_renumbered_partial.
(* the bar with nodes 1, 3 exchanged, 4 -> 7, elements, terms and loads in another order *)
Definition shuf (n : nat) : nat := match n with 1 => 3 | 3 => 1 | 4 => 7 | 7 => 4 | n => n end%nat.
Lemma shuf_inv n : shuf (shuf n) = n.
Proof. do 8 (destruct n as [|n]; [reflexivity|]). reflexivity. Qed.
Definition shuf_mesh := [[7]; [2; 1]; [3; 2]]%nat.
Definition shuf_regs : list reg := map (fun n => (KNode, n, [UX])) [7; 2; 3; 1]%nat.
Definition shuf_mpcs : list (mpc QcRng) := [mkMpc (qz 1) [((1, UX), qz (-2)); ((7, UX), qz 1)]]%nat.
Definition shuf_ks : list (list (contrib QcRng)) := [[CK [UX] [qz 1]]; [CK [UX] [qz 20; qz (-20); qz 20]]; [CK [UX] [qz 10; qz (-10); qz 10]]].
Definition shuf_loads : list (bc QcRng) := [mkBC 1 UX (qz 2); mkBC 1 UX (qz 1)]%nat.
Definition shuf_fixes : list (bc QcRng) := [mkBC 3 UX (Q2Qc (1 # 2))]%nat.
Example C142_example : exists st1 st2,
  linear_solve (K := QcRng) bigq (gauss_slv gz) 4 bar_mesh bar_regs bar_ks bar_mpcs bar_loads bar_fixes = Ok st1 /\
  linear_solve (K := QcRng) bigq (gauss_slv gz) 7 shuf_mesh shuf_regs shuf_ks shuf_mpcs shuf_loads shuf_fixes = Ok st2 /\
  good_linear 7 shuf_mesh shuf_regs shuf_ks shuf_mpcs shuf_loads shuf_fixes /\ distinct_nodes shuf_mesh shuf_ks /\ (forall m n, shuf m = shuf n -> m = n) /\
  Permutation (map (fun x => (map shuf (fst x), snd x)) (combine bar_mesh bar_ks)) (combine shuf_mesh shuf_ks) /\
  (forall k, In k (reg_keys bar_regs) -> In (ren_key shuf k) (reg_keys shuf_regs)) /\
  Forall2 (ren_mpc shuf) bar_mpcs shuf_mpcs /\
  Permutation (map (fun f => mkBC (K := QcRng) (shuf (bc_node f)) (bc_dof f) (bc_val f)) bar_loads) shuf_loads /\
  (forall k, last_fix shuf_fixes (ren_key shuf k) = last_fix bar_fixes k).
Proof.
  assert (INJ : forall m n, shuf m = shuf n -> m = n) by (intros m n H; rewrite <- (shuf_inv m), <- (shuf_inv n); now f_equal).
  destruct (ends_ok_ex (linear_solve (K := QcRng) bigq (gauss_slv gz) 4 bar_mesh bar_regs bar_ks bar_mpcs bar_loads bar_fixes) (fun _ => true)) as (st1 & E1 & _); [vm_compute; reflexivity|].
  destruct (ends_ok_ex (linear_solve (K := QcRng) bigq (gauss_slv gz) 7 shuf_mesh shuf_regs shuf_ks shuf_mpcs shuf_loads shuf_fixes) (fun _ => true)) as (st2 & E2 & _); [vm_compute; reflexivity|].
  exists st1, st2. split; [exact E1|]. split; [exact E2|]. clear - INJ. split; [|split; [|split; [exact INJ|split; [|split; [|split; [|split]]]]]].
  - assert (P : good_problem 7 shuf_mesh shuf_regs (map bc_key shuf_fixes) shuf_mpcs) by (apply problem_check_ok; vm_compute; reflexivity).
    split; auto.
    + apply small_capacity; auto. vm_compute. lia.
    + apply contribs_check; [reflexivity|]. repeat constructor.
    + repeat constructor.
    + repeat constructor; apply key_in_ok; vm_compute; reflexivity.
  - split; repeat constructor; cbn; intuition discriminate.
  - cbn [bar_mesh bar_ks combine map fst snd shuf shuf_mesh shuf_ks]. apply (Permutation_rev [([3; 2]%nat, [CK [UX] [qz 10; qz (-10); qz 10]]); ([2; 1]%nat, [CK [UX] [qz 20; qz (-20); qz 20]]); ([7]%nat, [CK [UX] [qz 1]])]).
  - intros k Hk. vm_compute in Hk. apply key_in_ok. decompose [or] Hk; subst; try contradiction; reflexivity.
  - constructor; [|constructor]. split; [reflexivity|]. cbn. apply perm_swap.
  - apply perm_swap.
  - intros k. unfold last_fix, shuf_fixes, bar_fixes. cbn [fold_left].
    destruct (key_dec _ (ren_key shuf k)) as [E|E], (key_dec _ k) as [E'|E']; try reflexivity; exfalso.
    + apply E'. destruct k as [[[|] n] t]; [discriminate E|]. change ((KNode, shuf 1, UX) = (KNode, shuf n, t))%nat in E. injection E as E <-.
      apply (INJ 1%nat n) in E. subst. reflexivity.
    + apply E. rewrite <- E'. reflexivity.
Qed.

(* ---------------- C144 ---------------- *)
(* supports replaced by their reactions as loads, loads by supports at the displacements found: the same result *)
Theorem C144_exchange : forall (K : GNum), glaws K -> forall (big : K -> bool) (u : nat -> list K), (forall n, length (u n) = n) ->
  forall nn mesh regs ks mpcs loads1 fixes1 loads2 fixes2 st1 st2,
  good_linear nn mesh regs ks mpcs loads1 fixes1 -> good_linear nn mesh regs ks mpcs loads2 fixes2 -> distinct_nodes mesh ks ->
  (forall x v, last_fix fixes1 x = Some v -> big v = false -> v = r0) -> (forall x v, last_fix fixes2 x = Some v -> big v = false -> v = r0) ->
  linear_solve big (gauss_slv u) nn mesh regs ks mpcs loads1 fixes1 = Ok st1 ->
  linear_solve big (gauss_slv u) nn mesh regs ks mpcs loads2 fixes2 = Ok st2 ->
  (forall k y, last_fix fixes2 k = Some y -> sol_U st1 k = y) ->
  (forall k, In k (reg_keys regs) -> last_fix fixes2 k = None -> sol_R st1 k = total_load loads2 k) ->
  forall k, In k (reg_keys regs) -> sol_U st2 k = sol_U st1 k /\ sol_R st2 k = sol_R st1 k.
Proof. exact exchange. Qed.
Print Assumptions C144_exchange.
(* the bar: node 3 held where the load has moved it, node 1 loaded by its reaction *)
Definition ex_fixes : list (bc QcRng) := [mkBC 3 UX (Q2Qc (13 # 32))]%nat.
Definition ex_loads : list (bc QcRng) := [mkBC 1 UX (Q2Qc (5 # 8))]%nat.
Example C144_example : exists st1 st2,
  linear_solve (K := QcRng) bigq (gauss_slv gz) 4 bar_mesh bar_regs bar_ks bar_mpcs bar_loads bar_fixes = Ok st1 /\
  linear_solve (K := QcRng) bigq (gauss_slv gz) 4 bar_mesh bar_regs bar_ks bar_mpcs ex_loads ex_fixes = Ok st2 /\
  good_linear 4 bar_mesh bar_regs bar_ks bar_mpcs ex_loads ex_fixes /\
  (forall k y, last_fix ex_fixes k = Some y -> sol_U (K := QcRng) st1 k = y) /\
  (forall k, In k (reg_keys bar_regs) -> last_fix ex_fixes k = None -> sol_R (K := QcRng) st1 k = total_load ex_loads k).
Proof.
  destruct (ends_ok_ex (linear_solve (K := QcRng) bigq (gauss_slv gz) 4 bar_mesh bar_regs bar_ks bar_mpcs bar_loads bar_fixes)
    (fun st => qcs_are [sol_U (K := QcRng) st (KNode, 3, UX); sol_R (K := QcRng) st (KNode, 1, UX); sol_R (K := QcRng) st (KNode, 2, UX); sol_R (K := QcRng) st (KNode, 4, UX)]%nat
       [Q2Qc (13 # 32); Q2Qc (5 # 8); qz 0; qz 0])) as (st1 & E1 & V1); [vm_compute; reflexivity|].
  destruct (ends_ok_ex (linear_solve (K := QcRng) bigq (gauss_slv gz) 4 bar_mesh bar_regs bar_ks bar_mpcs ex_loads ex_fixes) (fun _ => true)) as (st2 & E2 & _); [vm_compute; reflexivity|].
  apply qcs_are_eq in V1. exists st1, st2. split; [exact E1|]. split; [exact E2|]. clear E1 E2.
  assert (U3 := f_equal (fun l => nth 0 l (qz 7)) V1). assert (R1 := f_equal (fun l => nth 1 l (qz 7)) V1). assert (R2' := f_equal (fun l => nth 2 l (qz 7)) V1). assert (R4 := f_equal (fun l => nth 3 l (qz 7)) V1).
  clear V1. cbn [nth] in U3, R1, R2', R4. split; [|split].
  - assert (P : good_problem 4 bar_mesh bar_regs (map bc_key ex_fixes) bar_mpcs) by (apply problem_check_ok; vm_compute; reflexivity).
    split; auto.
    + apply small_capacity; auto. vm_compute. lia.
    + apply contribs_check; [reflexivity|]. repeat constructor.
    + repeat constructor.
    + repeat constructor; apply key_in_ok; vm_compute; reflexivity.
  - intros k y. unfold last_fix, ex_fixes. cbn [fold_left]. destruct (key_dec _ k) as [<-|]; [|discriminate]. intros E. injection E as <-. exact U3.
  - intros k Hk. vm_compute in Hk. destruct Hk as [<-|[<-|[<-|[<-|[]]]]]; intros F.
    + etransitivity; [exact R1|]. apply Qc_is_canon. vm_compute. reflexivity.
    + etransitivity; [exact R2'|]. apply Qc_is_canon. vm_compute. reflexivity.
    + vm_compute in F. discriminate F.
    + etransitivity; [exact R4|]. apply Qc_is_canon. vm_compute. reflexivity.
Qed.

(* ---------------- C143 ---------------- *)
Local Open Scope R_scope.
(* elements that give no energy back: among all displacements within supports and MPC equations the result has the smallest potential energy *)
Theorem C143_minimum : forall (big : R -> bool) (slv : eqsolver RNum), exact_solver slv ->
  forall nn mesh regs ks mpcs loads fixes st, good_linear (K := RNum) nn mesh regs ks mpcs loads fixes -> distinct_nodes (K := RNum) mesh ks -> plain_fixes big fixes ->
  linear_solve (K := RNum) big slv nn mesh regs ks mpcs loads fixes = Ok st ->
  forall w, no_gain mesh ks -> admissible mpcs fixes w -> energy mesh ks loads (sol_U st) <= energy mesh ks loads w.
Proof. exact energy_min. Qed.
Print Assumptions C143_minimum.
(* and no other has it (default equation solver) *)
Theorem C143_only_minimum : forall (big : R -> bool) (u : nat -> list R), (forall n, length (u n) = n) ->
  forall nn mesh regs ks mpcs loads fixes st w, good_linear (K := RNum) nn mesh regs ks mpcs loads fixes -> distinct_nodes (K := RNum) mesh ks -> plain_fixes big fixes ->
  linear_solve (K := RNum) big (gauss_slv (K := RG) u) nn mesh regs ks mpcs loads fixes = Ok st ->
  no_gain mesh ks -> admissible mpcs fixes w -> energy mesh ks loads w <= energy mesh ks loads (sol_U st) ->
  forall k, In k (reg_keys regs) -> w k = sol_U (K := RNum) st k.
Proof. exact energy_strict. Qed.
Print Assumptions C143_only_minimum.
(* more stiffness, more supports, more equations: the loads do less work *)
Theorem C143_stiffer : forall (big1 big2 : R -> bool) (slv1 slv2 : eqsolver RNum), exact_solver slv1 -> exact_solver slv2 ->
  forall nn1 mesh1 regs1 ks1 mpcs1 fixes1 nn2 mesh2 regs2 ks2 mpcs2 fixes2 loads st1 st2,
  good_linear (K := RNum) nn1 mesh1 regs1 ks1 mpcs1 loads fixes1 -> distinct_nodes (K := RNum) mesh1 ks1 -> plain_fixes big1 fixes1 ->
  good_linear (K := RNum) nn2 mesh2 regs2 ks2 mpcs2 loads fixes2 -> distinct_nodes (K := RNum) mesh2 ks2 -> plain_fixes big2 fixes2 ->
  linear_solve (K := RNum) big1 slv1 nn1 mesh1 regs1 ks1 mpcs1 loads fixes1 = Ok st1 ->
  linear_solve (K := RNum) big2 slv2 nn2 mesh2 regs2 ks2 mpcs2 loads fixes2 = Ok st2 ->
  no_gain mesh1 ks1 -> only_loads mesh1 ks1 mpcs1 fixes1 -> only_loads mesh2 ks2 mpcs2 fixes2 ->
  (forall k, last_fix (K := RNum) fixes1 k <> None -> last_fix (K := RNum) fixes2 k <> None) -> (forall m, In m mpcs1 -> In m mpcs2) ->
  (forall w, @sumof RNum _ (stiff_work (K := RNum) w w) (contribs (K := RNum) mesh1 ks1) <= @sumof RNum _ (stiff_work (K := RNum) w w) (contribs (K := RNum) mesh2 ks2)) ->
  work_of loads (sol_U (K := RNum) st2) <= work_of loads (sol_U (K := RNum) st1).
Proof. exact stiffer_less. Qed.
Print Assumptions C143_stiffer.
(* trusses: bars replaced by stiffer ones, bars added, supports added *)
Theorem C143_truss : forall big1 big2 slv1 slv2 nn1 nn2 pos ms1 ms2 extra loads fixes1 fixes2 st1 st2 rs1 rs2, exact_solver slv1 -> exact_solver slv2 ->
  struct_ok nn1 pos ms1 loads fixes1 -> struct_ok nn2 pos (ms2 ++ extra) loads fixes2 -> Forall is_bar ms1 -> Forall is_bar (ms2 ++ extra) ->
  Forall (fun m => 0 <= bar_EA m) ms1 -> Forall (fun m => 0 <= bar_EA m) extra -> Forall2 stiffer ms1 ms2 ->
  (forall k y, last_fix (K := RNum) fixes1 k = Some y -> y = 0) -> (forall k y, last_fix (K := RNum) fixes2 k = Some y -> y = 0) ->
  (forall k, last_fix (K := RNum) fixes1 k <> None -> last_fix (K := RNum) fixes2 k <> None) ->
  struct_solve big1 slv1 nn1 pos ms1 loads fixes1 = Ok (st1, rs1) -> struct_solve big2 slv2 nn2 pos (ms2 ++ extra) loads fixes2 = Ok (st2, rs2) ->
  work_of loads (disp st2) <= work_of loads (disp st1).
Proof. exact truss_stiffer. Qed.
Print Assumptions C143_truss.
(* one bar along x, node 1 and the transverse displacements held, load 1 at node 2 along x; stiffness 1 and 2 *)
Definition bar_of (E : R) : list member := [Bar 1 E 1 2].
Definition end_load : list (bc RNum) := [pin 1 (2, 0)%nat].
Definition end_fixes : list (bc RNum) := map (pin 0) [(1, 0); (1, 1); (1, 2); (2, 1); (2, 2)]%nat.
Lemma bar_of_key E n t : In n [1; 2]%nat -> (t < 3)%nat -> s_key (bar_of E) (KNode, n, t).
Proof. intros Hn Ht. split; [|exact Ht]. exists (Bar 1 E 1 2). split; [left; reflexivity|exact Hn]. Qed.
Lemma bar_of_ok E : struct_ok 2 one_pos (bar_of E) end_load end_fixes.
Proof.
  apply struct_small.
  - constructor; [|constructor]. unfold m_ok. cbn [m_nodes]. split; [repeat constructor; cbn; intuition discriminate|]. split; [repeat constructor|].
    exists 0%nat. split; [lia|]. unfold at_nodes, one_pos. cbn. lra.
  - constructor; [|constructor]. apply bar_of_key; [cbn; auto|cbn; lia].
  - cbn [map end_fixes]; repeat (apply Forall_cons; [apply bar_of_key; [cbn; auto|cbn; lia]|]); apply Forall_nil.
  - exists (KNode, 2, 0)%nat. split; [apply bar_of_key; [cbn; auto|cbn; lia]|]. cbn. intros H. decompose [or] H; discriminate || assumption.
  - vm_compute. lia.
Qed.
Lemma end_zero k y : last_fix (K := RNum) end_fixes k = Some y -> y = 0.
Proof.
  unfold last_fix, end_fixes. cbn [fold_left map]. repeat match goal with |- (if ?c then _ else _) = _ -> _ => destruct c; [intros H; injection H as <-; reflexivity|] end. discriminate.
Qed.
Lemma bar_of_solves big (u : nat -> list R) E : (forall n, length (u n) = n) -> 1 <= E -> exists st rs, struct_solve big (gauss_slv (K := RG) u) 2 one_pos (bar_of E) end_load end_fixes = Ok (st, rs).
Proof.
  intros HU HE. destruct (C113_ends big u HU 2 one_pos (bar_of E) end_load end_fixes (bar_of_ok E)) as [F|H]; [exfalso|exact H].
  destruct (C113_truss_refused big u HU 2 one_pos (bar_of E) end_load end_fixes (bar_of_ok E) ltac:(repeat constructor) ltac:(vm_compute; lia) F) as (w & W0 & (k & Hk & Fk & Wk) & WF).
  assert (Z : forall t, (t < 3)%nat -> w (KNode, 1, t)%nat = 0).
  { intros t Ht. apply W0; [|apply bar_of_key; [cbn; auto|exact Ht]]. destruct t as [|[|[|]]]; try lia; discriminate. }
  assert (K0 : k = (KNode, 2, 0)%nat).
  { destruct k as [[[|] n] t]; [destruct Hk|]. destruct Hk as [(m & [<-|[]] & Hn) Ht]. destruct Hn as [<-|[<-|[]]]; destruct t as [|[|[|]]]; try lia; try discriminate Fk; reflexivity. }
  subst k. specialize (WF 2%nat 0%nat ltac:(exists (Bar 1 E 1 2); cbn; auto) ltac:(lia) eq_refl).
  unfold bar_of in WF. rewrite (sumof_cons RRng), (sumof_nil RRng) in WF. cbn [pull bar_stress] in WF.
  assert (D : dist3 (one_pos 1) (one_pos 2) = 1).
  { apply sq_len; [lra|]. unfold one_pos. cbn. lra. }
  unfold stretch, axis, at_nodes in WF. cbn [nth] in WF. rewrite rs3, !(Z 0%nat), !(Z 1%nat), !(Z 2%nat), D, Wk in WF by lia. unfold one_pos in WF. cbn in WF.
  match type of WF with Rabs ?a < _ => replace a with E in WF by field end. rewrite Rabs_pos_eq in WF by lra. lra.
Qed.
Example C143_example : forall big (u : nat -> list R), (forall n, length (u n) = n) -> exists st1 rs1 st2 rs2,
  struct_ok 2 one_pos (bar_of 1) end_load end_fixes /\ struct_ok 2 one_pos (bar_of 2 ++ []) end_load end_fixes /\ Forall is_bar (bar_of 1) /\
  Forall (fun m => 0 <= bar_EA m) (bar_of 1) /\ Forall2 stiffer (bar_of 1) (bar_of 2) /\ (forall k y, last_fix (K := RNum) end_fixes k = Some y -> y = 0) /\
  struct_solve big (gauss_slv (K := RG) u) 2 one_pos (bar_of 1) end_load end_fixes = Ok (st1, rs1) /\
  struct_solve big (gauss_slv (K := RG) u) 2 one_pos (bar_of 2 ++ []) end_load end_fixes = Ok (st2, rs2).
Proof.
  intros big u HU. destruct (bar_of_solves big u 1 HU) as (st1 & rs1 & E1); [lra|]. destruct (bar_of_solves big u 2 HU) as (st2 & rs2 & E2); [lra|].
  exists st1, rs1, st2, rs2. split; [apply bar_of_ok|]. split; [apply (bar_of_ok 2)|]. split; [repeat constructor|]. split; [constructor; [cbn; lra|constructor]|].
  split; [constructor; [|constructor]; split; [reflexivity|cbn; lra]|]. split; [exact end_zero|]. split; [exact E1|exact E2].
Qed.
(* the minimum theorems for it: elements give no energy back, displacements of the result are admissible *)
Example C143_min_example : forall big (u : nat -> list R), (forall n, length (u n) = n) -> exists (b : list (member * list (contrib RNum))) st, let mesh := map m_nodes (bar_of 1) in
  good_linear (K := RNum) 2 mesh (flat_map m_regs (bar_of 1)) (map snd b) [] end_load end_fixes /\ distinct_nodes (K := RNum) mesh (map snd b) /\ plain_fixes big end_fixes /\
  linear_solve (K := RNum) big (gauss_slv (K := RG) u) 2 mesh (flat_map m_regs (bar_of 1)) (map snd b) [] end_load end_fixes = Ok st /\
  no_gain mesh (map snd b) /\ admissible [] end_fixes (sol_U (K := RNum) st) /\ admissible [] end_fixes (fun _ => 0) /\ only_loads mesh (map snd b) [] end_fixes.
Proof.
  intros big u HU. destruct (bar_of_solves big u 1 HU) as (st1 & rs1 & E1); [lra|]. destruct (solved _ _ _ _ _ _ _ _ _ E1) as (b & B & L1 & _).
  destruct (struct_good _ _ _ _ _ b (bar_of_ok 1) B) as [G1 D1]. exists b, st1.
  assert (PF : plain_fixes big end_fixes) by (intros k y H _; eapply end_zero; eauto).
  split; [exact G1|]. split; [exact D1|]. split; [exact PF|]. split; [exact L1|]. split; [|split; [|split]].
  - apply (truss_no_gain 2 one_pos (bar_of 1) end_load end_fixes (bar_of_ok 1) ltac:(repeat constructor) b B). constructor; [cbn; lra|constructor].
  - exact (sol_admissible big _ (gauss_exact RG RG_laws u HU) 2 _ _ _ [] end_load end_fixes st1 G1 D1 PF L1).
  - split; [intros k y H; symmetry; eapply end_zero; eauto|intros m []].
  - apply (truss_only 2 one_pos (bar_of 1) end_load end_fixes (bar_of_ok 1) ltac:(repeat constructor) b B end_zero).
Qed.
