(* C149: linear structures in NonlinearFESolver (src/lib/FESolver.cpp:403-521) and in LinearFESolver (:371-401) *)
From Coq Require Import NArith QArith Qcanon Qcabs Lia.
From Verif Require Import Base BaseProofs SparseModel SpecSparse BlockModel SpecBlock DofModel SpecDof AsmModel SpecAsm
  AsmProofs AsmFinal SolveModel SpecSolve LinearProofs GaussModel SpecGauss GaussProofs TimeModel TimeProofs
  NonlinModel SpecNonlin NonlinFinal SpecBal SpecLaws LawsProofs SpecStill StillProofs Prop_Asm Prop_Solve Prop_Nonlin Prop_Laws.
Local Close Scope Qc_scope.
Local Open Scope nat_scope.
Local Open Scope list_scope.

(* elements whose stiffness does not depend on the solution and which have no load vector, homogeneous MPC equations:
   the displacements NonlinearFESolver ends with are those LinearFESolver finds for the loads multiplied by the sum of
   the normalised times of all iterations of all load steps *)
Theorem C149_times_added : forall E (ph : physics QcG E) (cfg : nlset QcG) big (u : nat -> list Qc) nn mesh regs ks mpcs loads fixes,
  (forall n, length (u n) = n) ->
  good_nonlin ph nn mesh regs mpcs loads fixes -> good_linear (K := QcG) nn mesh regs ks mpcs loads fixes ->
  still ph ks mpcs -> distinct_nodes (K := QcG) mesh ks ->
  Forall (Forall (idle (K := QcG))) ks -> Forall (fun m : mpc QcG => mp_b m = r0) mpcs ->
  (forall x v, last_fix (K := QcG) fixes x = Some v -> big v = false -> v = r0) ->
  forall fuel e start end_ st sl, (start < end_)%Qc -> (Q2Qc 0 < end_)%Qc -> 0 < nl_steps cfg ->
  nonlin_solve ph cfg big (gauss_slv (K := QcG) u) fuel nn mesh regs mpcs e start end_ loads fixes = Ok st ->
  linear_solve (K := QcG) big (gauss_slv (K := QcG) u) nn mesh regs ks mpcs (times (K := QcG) (all_times (nl_log st)) loads) fixes = Ok sl ->
  forall k, In k (reg_keys regs) -> vget (K := QcG) (g_num (nl_g st)) (nl_U st) k = sol_U (K := QcG) sl k.
Proof. exact still_linear. Qed.
Print Assumptions C149_times_added.

(* without loads (prescribed displacements only) the two solvers find the same displacements, for all numbers of load steps and iterations *)
Theorem C149_same_displacements_partial : forall E (ph : physics QcG E) (cfg : nlset QcG) big (u : nat -> list Qc) nn mesh regs ks mpcs fixes,
  (forall n, length (u n) = n) ->
  good_nonlin ph nn mesh regs mpcs [] fixes -> good_linear (K := QcG) nn mesh regs ks mpcs [] fixes ->
  still ph ks mpcs -> distinct_nodes (K := QcG) mesh ks ->
  Forall (Forall (idle (K := QcG))) ks -> Forall (fun m : mpc QcG => mp_b m = r0) mpcs ->
  (forall x v, last_fix (K := QcG) fixes x = Some v -> big v = false -> v = r0) ->
  forall fuel e start end_ st sl, (start < end_)%Qc -> (Q2Qc 0 < end_)%Qc -> 0 < nl_steps cfg ->
  nonlin_solve ph cfg big (gauss_slv (K := QcG) u) fuel nn mesh regs mpcs e start end_ [] fixes = Ok st ->
  linear_solve (K := QcG) big (gauss_slv (K := QcG) u) nn mesh regs ks mpcs [] fixes = Ok sl ->
  forall k, In k (reg_keys regs) -> vget (K := QcG) (g_num (nl_g st)) (nl_U st) k = sol_U (K := QcG) sl k.
Proof.
  intros E ph cfg big u nn mesh regs ks mpcs fixes HU GN GL ST DN ID B0 PL fuel e start end_ st sl T1 T2 NS H HL.
  exact (still_linear E ph cfg big u nn mesh regs ks mpcs [] fixes HU GN GL ST DN ID B0 PL fuel e start end_ st sl T1 T2 NS H HL).
Qed.
Print Assumptions C149_same_displacements_partial.

(* two springs of stiffness 3 and 1 in a row, matrices as TRUSS3::buildK hands them over: without load vector *)
Definition row_ks : list (list (contrib QcG)) := [[CK [UX] [qz 3; qz (-3); qz 3]]; [CK [UX] [qz 1; qz (-1); qz 1]]].
Definition row_mesh := [[1; 2]; [2; 3]].
Definition row_regs : list reg := [(KNode, 1, [UX]); (KNode, 2, [UX]); (KNode, 3, [UX])].
Definition row : physics QcG unit := mkPhys (K := QcG) (fun _ (U : list Qc) => Ok (tt, (row_ks, []))) (fun _ _ => Ok tt).
Definition row_load : list (bc QcG) := [mkBC (K := QcG) 2 UX (qz 4)].
Definition row_clamp : list (bc QcG) := [mkBC (K := QcG) 1 UX (qz 0); mkBC (K := QcG) 3 UX (qz 0)].
Definition row_pull : list (bc QcG) := [mkBC (K := QcG) 1 UX (qz 0); mkBC (K := QcG) 3 UX (qz 4)].
Definition run_row n c loads fixes := nonlin_solve row (sp_cfg n c) bigq (gauss_slv gz) 9 3 row_mesh row_regs [] tt (qz 0) (qz 1) loads fixes.
Definition lin_row loads fixes := linear_solve (K := QcG) bigq (gauss_slv gz) 3 row_mesh row_regs row_ks [] loads fixes.
(* displacements and reactions (nodes 1, 3, 2: constrained DoFs first) *)
Definition nl_UR (r : outcome (nlst QcG unit)) : list Q * list Q := match r with Ok st => (map this (nl_U st : list Qc), map this (nl_R st : list Qc)) | _ => ([], []) end.
Definition li_UR (r : outcome (sol QcRng)) : list Q * list Q :=
  match r with Ok st => (map (fun n => this (sol_U (K := QcRng) st (KNode, n, UX))) [1; 3; 2], map (fun n => this (sol_R (K := QcRng) st (KNode, n, UX))) [1; 3; 2]) | _ => ([], []) end.
(* a load of 4 at node 2 gives the displacement 1; NonlinearFESolver in two load steps, each ended after its first iteration: 3/2 *)
Theorem C149_loads_added_refuted :
  fst (li_UR (lin_row row_load row_clamp)) = [0; 0; 1]%Q /\ fst (nl_UR (run_row 2 (qz 2) row_load row_clamp)) = [0; 0; 3 # 2]%Q /\
  fst (nl_UR (run_row 4 (qz 2) row_load row_clamp)) = [0; 0; 5 # 2]%Q.
Proof. vm_compute. auto. Qed.
Print Assumptions C149_loads_added_refuted.
(* and with a small criterion the solver never converges: every iteration adds the same increment *)
Theorem C149_never_converges_refuted : run_row 1 (Q2Qc (1 # 2)) row_load row_clamp = Fatal.
Proof. vm_compute. reflexivity. Qed.
Print Assumptions C149_never_converges_refuted.
(* prescribed displacement 4 at node 3: the displacements agree; the reactions are -3 and 3, NonlinearFESolver keeps those of the last increment:
   half of them in two load steps, none of them if the load step needs a second iteration *)
Theorem C149_reactions_of_last_increment_refuted :
  li_UR (lin_row [] row_pull) = ([0; 4; 1], [-3 # 1; 3; 0])%Q /\
  nl_UR (run_row 2 (qz 2) [] row_pull) = ([0; 4; 1], [-3 # 2; 3 # 2; 0])%Q /\
  nl_UR (run_row 1 (Q2Qc (1 # 2)) [] row_pull) = ([0; 4; 1], [0; 0; 0])%Q.
Proof. vm_compute. auto. Qed.
Print Assumptions C149_reactions_of_last_increment_refuted.

Lemma row_problem (fixes : list (bc QcG)) : fixes = row_clamp \/ fixes = row_pull -> good_problem (K := QcG) 3 row_mesh row_regs (map bc_key fixes) [].
Proof. intros [->| ->]; apply (problem_check_ok (K := QcG)); vm_compute; reflexivity. Qed.
Lemma row_linear (loads fixes : list (bc QcG)) : loads = [] \/ loads = row_load -> fixes = row_clamp \/ fixes = row_pull -> good_linear (K := QcG) 3 row_mesh row_regs row_ks [] loads fixes.
Proof.
  intros HL HF. pose proof (row_problem fixes HF) as P. split; auto.
  - apply (small_capacity QcRng); auto. destruct HF as [->| ->]; vm_compute; lia.
  - apply contribs_check; [reflexivity|]. repeat constructor.
  - repeat constructor.
  - destruct HL as [->| ->]; repeat constructor; apply key_in_ok; vm_compute; reflexivity.
Qed.
Lemma row_good (loads fixes : list (bc QcG)) : loads = [] \/ loads = row_load -> fixes = row_clamp \/ fixes = row_pull -> good_nonlin row 3 row_mesh row_regs [] loads fixes.
Proof.
  intros HL HF. destruct (row_linear loads fixes HL HF) as [G1 G2 G3 G4 G5]. split; auto.
  intros e U e' ks mpcs' H. injection H as <- <- <-. split; [exact G3|]. split; [exact G4|constructor].
Qed.
Definition ends2 {A B} (r : outcome A) (f : A -> outcome B) (chk : A -> B -> bool) : bool :=
  match r with Ok a => match f a with Ok b => chk a b | _ => false end | _ => false end.
Lemma ends2_ex {A B} (r : outcome A) (f : A -> outcome B) chk : ends2 r f chk = true -> exists a b, r = Ok a /\ f a = Ok b /\ chk a b = true.
Proof. unfold ends2. destruct r as [a| | |]; try discriminate. destruct (f a) as [b| | |] eqn:E; try discriminate. intros H. now exists a, b. Qed.
Example C149_example : exists st sl,
  good_nonlin row 3 row_mesh row_regs [] row_load row_clamp /\ good_linear (K := QcG) 3 row_mesh row_regs row_ks [] row_load row_clamp /\
  still row row_ks [] /\ distinct_nodes (K := QcG) row_mesh row_ks /\ Forall (Forall (idle (K := QcG))) row_ks /\
  (forall x v, last_fix (K := QcG) row_clamp x = Some v -> bigq v = false -> v = r0) /\
  run_row 2 (qz 2) row_load row_clamp = Ok st /\ (this (all_times (nl_log st) : Qc) == 3 # 2)%Q /\
  lin_row (times (K := QcG) (all_times (nl_log st)) row_load) row_clamp = Ok sl /\ Qeq (this (sol_U (K := QcG) sl (KNode, 2, UX))) (3 # 2)%Q.
Proof.
  destruct (ends2_ex (run_row 2 (qz 2) row_load row_clamp) (fun st => lin_row (times (K := QcG) (all_times (nl_log st)) row_load) row_clamp)
    (fun st sl => Qeq_bool (this (all_times (nl_log st) : Qc)) (3 # 2) && Qeq_bool (this (sol_U (K := QcG) sl (KNode, 2, UX))) (3 # 2))) as (st & sl & E1 & E2 & E3); [vm_compute; reflexivity|].
  apply andb_prop in E3 as [E3 E4]. apply Qeq_bool_eq in E3, E4.
  exists st, sl. split; [apply row_good; auto|]. split; [apply row_linear; auto|].
  split; [intros e U e' ks m X; injection X as <- <- <-; auto|]. split; [split; repeat constructor; cbn; intuition discriminate|]. split; [repeat constructor|].
  split.
  - intros x v F _. unfold last_fix, row_clamp in F. cbn [fold_left bc_val] in F. repeat (destruct (key_dec _ _) in F); try discriminate F; injection F as <-; reflexivity.
  - exact (conj E1 (conj E3 (conj E2 E4))).
Qed.
(* the same displacements: row_pull meets the hypotheses with two load steps *)
Example C149_example_pull : exists st sl, good_nonlin row 3 row_mesh row_regs [] [] row_pull /\ good_linear (K := QcG) 3 row_mesh row_regs row_ks [] [] row_pull /\
  (forall x v, last_fix (K := QcG) row_pull x = Some v -> bigq v = false -> v = r0) /\
  run_row 2 (qz 2) [] row_pull = Ok st /\ lin_row [] row_pull = Ok sl /\ Qeq (this (sol_U (K := QcG) sl (KNode, 2, UX))) (1)%Q.
Proof.
  destruct (ends2_ex (run_row 2 (qz 2) [] row_pull) (fun st => lin_row [] row_pull)
    (fun st sl => Qeq_bool (this (sol_U (K := QcG) sl (KNode, 2, UX))) 1)) as (st & sl & E1 & E2 & E4); [vm_compute; reflexivity|].
  apply Qeq_bool_eq in E4.
  exists st, sl. split; [apply row_good; auto|]. split; [apply row_linear; auto|]. split.
  - intros x v F B. unfold last_fix, row_pull in F. cbn [fold_left bc_val] in F. repeat (destruct (key_dec _ _) in F); try discriminate F; injection F as <-; try reflexivity; exfalso; vm_compute in B; discriminate B.
  - exact (conj E1 (conj E2 E4)).
Qed.
