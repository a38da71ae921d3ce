(* C32-C34: nonlinear static solution (src/lib/FESolver.cpp:407-521) *)
From Coq Require Import NArith QArith Qcanon Qcabs.
From Verif Require Import Base BaseProofs SparseModel SpecSparse BlockModel SpecBlock DofModel SpecDof AsmModel SpecAsm
  AsmProofs AsmFinal SolveModel SpecSolve LinearProofs GaussModel SpecGauss GaussProofs TimeModel TimeProofs
  NonlinModel SpecNonlin NonlinFinal Prop_Asm Prop_Solve.
Local Close Scope Qc_scope.
Local Open Scope nat_scope.
Local Open Scope list_scope.

(* ---------------- the example ---------------- *)
(* a spring with force e + e^2 (e: elongation) between nodes 1 and 2 *)
Definition spring : physics QcG unit := mkPhys (K := QcG)
  (fun _ (U : list Qc) => let e := (nth 1 U (qz 0) - nth 0 U (qz 0))%Qc in
     let k := (qz 1 + qz 2 * e)%Qc in let f := (e + e * e)%Qc in
     Ok (tt, ([[CKF [UX] [k; - k; k]%Qc [f; - f]%Qc : contrib QcG]], [])))
  (fun _ _ => Ok tt).
Definition sp_mesh := [[1; 2]].
Definition sp_regs : list reg := [(KNode, 1, [UX]); (KNode, 2, [UX])].
Definition sp_loads : list (bc QcG) := [mkBC (K := QcG) 2 UX (qz 2)].
Definition sp_fixes : list (bc QcG) := [mkBC (K := QcG) 1 UX (Q2Qc (1 # 2))].
Definition sp_cfg (n : nat) (c : Qc) : nlset QcG := mkSet (K := QcG) n 20 c (qz 1000000).
Example spring_good : good_nonlin spring 2 sp_mesh sp_regs [] sp_loads sp_fixes.
Proof.
  assert (P : good_problem (K := QcG) 2 sp_mesh sp_regs (map bc_key sp_fixes) [])
    by (apply (problem_check_ok (K := QcG)); vm_compute; reflexivity).
  split; auto.
  - apply (small_capacity QcRng); auto. vm_compute. lia.
  - intros e U e' ks mpcs' H. injection H as <- <- <-. split; [|split].
    + apply contribs_check; [reflexivity|]. repeat constructor.
    + repeat constructor.
    + constructor.
  - repeat constructor; apply key_in_ok; vm_compute; reflexivity.
Qed.
Definition qlog (r : outcome (nlst QcG unit)) : list (Q * Q * list Q) :=
  match r with
  | Ok st => map (fun it : iter QcG => (this (it_time it), this (mean_increment it), map this (it_after it : list Qc))) (nl_log st)
  | _ => []
  end.
Definition run_spring n c := nonlin_solve spring (sp_cfg n c) bigq (gauss_slv gz) 9 2 sp_mesh sp_regs [] tt (qz 0) (qz 1) sp_loads sp_fixes.
Example spring_runs : qlog (run_spring 2 (qz 1)) =
  [(1 # 2, 5 # 4, [1 # 4; 5 # 4]); (1 # 2, 1 # 3, [1 # 4; 11 # 12]); (1, 53 # 84, [1 # 2; 65 # 42])]%Q.
Proof. vm_compute. reflexivity. Qed.

(* ---------------- C32 ---------------- *)
(* What the test implements (exact arithmetic): the log of all iterations splits into load steps
   (exactly nl_steps of them if the start time is 0); a load step is left in its first iteration
   with mean increment below the SQUARE of the criterion *)
Theorem C32_criterion_squared_partial :
  forall E (ph : physics QcG E) (cfg : nlset QcG) big (slv : eqsolver QcG), exact_solver slv ->
  forall nn mesh regs mpcs loads fixes, good_nonlin ph nn mesh regs mpcs loads fixes ->
  forall fuel e start end_ st, (start < end_)%Qc -> (Q2Qc 0 < end_)%Qc -> 0 < nl_steps cfg -> (Q2Qc 0 < nl_crit cfg)%Qc ->
  nonlin_solve ph cfg big slv fuel nn mesh regs mpcs e start end_ loads fixes = Ok st ->
  exists gs, nl_log st = flat_map (fun g => fst g ++ [snd g]) gs /\ (start = Q2Qc 0 -> length gs = nl_steps cfg) /\
    Forall (fun g : list (iter QcG) * iter QcG => length (fst g) <= nl_iters cfg /\
      Forall (fun i => it_time i = it_time (snd g)) (fst g) /\
      Forall (fun i : iter QcG => ~ (mean_increment i < nl_crit cfg * nl_crit cfg)%Qc) (fst g) /\
      (mean_increment (snd g) < nl_crit cfg * nl_crit cfg)%Qc) gs.
Proof. exact nonlin_criterion. Qed.
Print Assumptions C32_criterion_squared_partial.
(* criterion 2: accepted with mean increment 5/2; criterion 1/3: one iteration more after 16/85 *)
Theorem C32_wrong_accuracy_refuted :
  map (fun x => snd (fst x)) (qlog (run_spring 1 (qz 2))) = [5 # 2]%Q /\ (2 < 5 # 2)%Q /\
  map (fun x => snd (fst x)) (qlog (run_spring 1 (Q2Qc (1 # 3)))) = [5 # 2; 4 # 5; 16 # 85; 256 # 21845]%Q /\
  (16 # 85 < 1 # 3)%Q.
Proof. vm_compute. auto. Qed.
Print Assumptions C32_wrong_accuracy_refuted.

(* ---------------- C33 ---------------- *)
Theorem C33_full_boundary_conditions :
  forall E (ph : physics QcG E) (cfg : nlset QcG) big (slv : eqsolver QcG), exact_solver slv ->
  forall nn mesh regs mpcs loads fixes, good_nonlin ph nn mesh regs mpcs loads fixes ->
  forall fuel e start end_ st, (start < end_)%Qc -> (Q2Qc 0 < end_)%Qc -> 0 < nl_steps cfg ->
  nonlin_solve ph cfg big slv fuel nn mesh regs mpcs e start end_ loads fixes = Ok st ->
  let s := g_num (nl_g st) in
  nl_log st <> [] /\ Forall (good_iter ph big regs loads fixes) (nl_log st) /\
  chain (zeros (length (reg_keys regs) + length mpcs)) (nl_log st) (nl_U st) /\
  (forall x v, last_fix fixes x = Some v -> vget s (nl_U st) x = v) /\
  (forall x, In x (reg_keys regs) -> last_fix fixes x = None -> vget s (nl_R st) x = total_load loads x).
Proof. exact nonlin_full. Qed.
Print Assumptions C33_full_boundary_conditions.
Example C33_exact_solver : exact_solver (gauss_slv gz).
Proof. apply (gauss_exact QcG QcG_laws). intros n. apply repeat_length. Qed.
Example C33_example : exists st, run_spring 2 (qz 1) = Ok st /\ map this (nl_U st : list Qc) = [1 # 2; 65 # 42]%Q.
Proof.
  destruct (run_spring 2 (qz 1)) as [st| | |] eqn:E.
  - exists st. split; auto. assert (H : match run_spring 2 (qz 1) with Ok st => map this (nl_U st : list Qc) | _ => [] end = [1 # 2; 65 # 42]%Q)
      by (vm_compute; reflexivity). now rewrite E in H.
  - exfalso. assert (H : match run_spring 2 (qz 1) with Ok _ => true | _ => false end = true) by (vm_compute; reflexivity). now rewrite E in H.
  - exfalso. assert (H : match run_spring 2 (qz 1) with Ok _ => true | _ => false end = true) by (vm_compute; reflexivity). now rewrite E in H.
  - exfalso. assert (H : match run_spring 2 (qz 1) with Ok _ => true | _ => false end = true) by (vm_compute; reflexivity). now rewrite E in H.
Qed.

(* ---------------- C34 ---------------- *)
(* a user-defined equation number i, the same in all iterations: the sum is (number of iterations) * b *)
Theorem C34_mpc_after_all_iterations_partial :
  forall E (ph : physics QcG E) (cfg : nlset QcG) big (slv : eqsolver QcG), exact_solver slv ->
  forall nn mesh regs mpcs loads fixes, good_nonlin ph nn mesh regs mpcs loads fixes ->
  forall fuel e start end_ st i m, (start < end_)%Qc -> (Q2Qc 0 < end_)%Qc -> 0 < nl_steps cfg ->
  (forall e U e' ks mpcs', ph_asm ph e U = Ok (e', (ks, mpcs')) -> nth_error mpcs' i = Some m) ->
  nth_error mpcs i = Some m ->
  nonlin_solve ph cfg big slv fuel nn mesh regs mpcs e start end_ loads fixes = Ok st ->
  sumof (fun t => rmul (snd t) (vget (g_num (nl_g st)) (nl_U st) (term_key t))) (mp_terms m) =
    rmul (qn (length (nl_log st)) : QcG) (mp_b m).
Proof. exact nonlin_mpc. Qed.
Print Assumptions C34_mpc_after_all_iterations_partial.
(* a linear spring between nodes 1 and 2, node 3 tied to node 2 by u3 - u2 = b *)
Definition tie (b : Qc) : list (mpc QcG) := [mkMpc (b : QcG) [((3, UX), qz 1); ((2, UX), qz (-1))]].
Definition spring3 (b : Qc) : physics QcG unit := mkPhys (K := QcG)
  (fun _ (U : list Qc) => let f := (nth 1 U (qz 0) - nth 0 U (qz 0))%Qc in
     Ok (tt, ([[CKF [UX] [qz 1; - qz 1; qz 1]%Qc [f; - f]%Qc : contrib QcG]; []], tie b)))
  (fun _ _ => Ok tt).
Definition t3_regs : list reg := [(KNode, 1, [UX]); (KNode, 2, [UX]); (KNode, 3, [UX])].
Definition t3_mesh := [[1; 2]; [3]].
Definition run_tie b := nonlin_solve (spring3 b) (sp_cfg 2 (qz 2)) bigq (gauss_slv gz) 9 3 t3_mesh t3_regs (tie b) tt (qz 0) (qz 1) sp_loads sp_fixes.
Example tie_good : forall b, good_nonlin (spring3 b) 3 t3_mesh t3_regs (tie b) sp_loads sp_fixes.
Proof.
  intros b.
  assert (P : good_problem (K := QcG) 3 t3_mesh t3_regs (map bc_key sp_fixes) (tie b))
    by (apply (problem_check_ok (K := QcG)); vm_compute; reflexivity).
  split; auto.
  - apply (small_capacity QcRng); auto. vm_compute. lia.
  - intros e U e' ks mpcs' H. injection H as <- <- <-. split; [|split].
    + apply contribs_check; [reflexivity|]. repeat constructor.
    + repeat constructor.
    + apply (same_terms_all QcRng).
  - repeat constructor; apply key_in_ok; vm_compute; reflexivity.
Qed.
Theorem C34_equation_violated_refuted :
  map (fun x => snd x) (qlog (run_tie (qz 1))) = [[1 # 4; 5 # 4; 9 # 4; 0]; [1 # 2; 5 # 2; 9 # 2; 0]]%Q /\
  (~ (9 # 2) - (5 # 2) == 1)%Q.
Proof. split; [vm_compute; reflexivity|]. vm_compute. discriminate. Qed.
Print Assumptions C34_equation_violated_refuted.
