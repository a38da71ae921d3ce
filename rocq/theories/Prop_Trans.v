(* C35, C36: transient solution (src/lib/FESolver.cpp:532-642) *)
From Coq Require Import QArith Qcanon Floats.
From Verif Require Import Base BaseProofs SparseModel SpecSparse BlockModel SpecBlock DofModel SpecDof AsmModel SpecAsm
  AsmProofs AsmFinal SolveModel SpecSolve LinearProofs GaussModel SpecGauss GaussProofs TimeModel SpecTime TimeProofs
  NonlinModel TransModel SpecTrans TransFinal Prop_Asm Prop_Solve.
Local Close Scope Qc_scope.
Local Close Scope float_scope.
Local Open Scope nat_scope.
Local Open Scope list_scope.

(* ---------------- the example ---------------- *)
(* nodes 1 and 2 joined by an element with stiffness 2 and damping 1 *)
Definition tr_mesh := [[1; 2]].
Definition tr_regs : list reg := [(KNode, 1, [UX]); (KNode, 2, [UX])].
Definition tr_ks : list (list (contrib QcG)) := [[CK (K := QcG) [UX] [qz 2; qz (-2); qz 2]]].
Definition tr_cs : list (list (contrib QcG)) := [[CC (K := QcG) [UX] [qz 1; qz (-1); qz 1]]].
Definition tr_loads : list (bc QcG) := [mkBC (K := QcG) 2 UX (qz 1)].
Definition tr_fixes (u : Qc) : list (bc QcG) := [mkBC (K := QcG) 1 UX u].
Definition tr_cfg (n : nat) (delta : Qc) : trset QcG := mkTr (K := QcG) n (Q2Qc (1 # 4)) delta (qz 0) (qz 1) (qz 0).
Definition bigq0 (x : QcG) : bool := negb (Qeq_bool (this (x : Qc)) 0).
Example tr_bigq0 : forall v : QcG, bigq0 v = false -> v = r0.
Proof.
  intros v H. unfold bigq0 in H. apply Bool.negb_false_iff, Qeq_bool_iff in H. apply Qc_is_canon. rewrite H. reflexivity.
Qed.
Example tr_good : forall u, good_trans 2 tr_mesh tr_regs tr_ks tr_cs [] tr_loads (tr_fixes u).
Proof.
  intros u. assert (P : good_problem (K := QcG) 2 tr_mesh tr_regs (map bc_key (tr_fixes u)) [])
    by (apply (problem_check_ok (K := QcG)); vm_compute; reflexivity).
  split; auto.
  - apply (small_capacity QcRng); auto. vm_compute. lia.
  - apply contribs_check; [reflexivity|]. repeat constructor.
  - repeat constructor.
  - apply contribs_check; [reflexivity|]. repeat constructor.
  - repeat constructor; discriminate.
  - repeat constructor; apply key_in_ok; vm_compute; reflexivity.
Qed.
Definition run_tr n delta u := trans_solve 9 (tr_cfg n delta) bigq0 (gauss_slv gz) 2 tr_mesh tr_regs tr_ks tr_cs [] tr_loads (tr_fixes u).
(* U, V, A after every step *)
Definition tlog (r : outcome (gst QcG * list QcG * motion QcG * list (motion QcG))) : list (list Q * list Q * list Q) :=
  match r with
  | Ok (_, _, _, log) => map (fun m : motion QcG => (map this (mo_U m : list Qc), map this (mo_V m : list Qc), map this (mo_A m : list Qc))) log
  | _ => []
  end.
(* M u'' + C u' + K u - F - R in row a, after every step *)
Definition okv (o : outcome Qc) : Qc := match o with Ok x => x | _ => Q2Qc 0 end.
Definition residuals (r : outcome (gst QcG * list QcG * motion QcG * list (motion QcG))) (a : nat) : list Q :=
  match r with
  | Ok (g, R, _, log) =>
      match g_CM g with
      | Some (C, M) => map (fun m : motion QcG => this (mv (K := QcG) (fun a b => okv (gvalue M a b)) (g_size g) (mo_A m) a +
          mv (K := QcG) (fun a b => okv (gvalue C a b)) (g_size g) (mo_V m) a +
          mv (K := QcG) (fun a b => okv (gvalue (g_K g) a b)) (g_size g) (mo_U m) a - nth (a - 1) (g_F g : list Qc) (Q2Qc 0) - nth (a - 1) (R : list Qc) (Q2Qc 0))%Qc) log
      | None => []
      end
  | _ => []
  end.

(* ---------------- C35 ---------------- *)
(* With delta = 1/2 (the default) and zero prescribed values every state of the run satisfies the
   equation of motion and the two Newmark formulas *)
Theorem C35_equation_of_motion_partial :
  forall (big : QcG -> bool) (slv : eqsolver QcG) nn mesh regs ks cs mpcs loads fixes (cfg : trset QcG) fuel g R s0 log,
  (forall v : QcG, big v = false -> v = r0) -> exact_solver slv ->
  good_trans nn mesh regs ks cs mpcs loads fixes ->
  (tr_alpha cfg : Qc) <> Q2Qc 0 -> (tr_dt cfg : Qc) <> Q2Qc 0 -> tr_delta cfg = Q2Qc (1 # 2) ->
  Forall (fun f => bc_val f = r0) fixes ->
  trans_solve fuel cfg big slv nn mesh regs ks cs mpcs loads fixes = Ok (g, R, s0, log) ->
  exists Kf Cf Mf, read_matrices g Kf Cf Mf /\
    each_step (fun s s' => sizes_ok g s' /\ fixed_kept g s s' /\ newmark_U (tr_alpha cfg) (tr_dt cfg) s s' /\
        newmark_V (tr_delta cfg) (tr_dt cfg) s s' (mo_V s') /\
        motion_holds g Kf Cf Mf R (mo_U s') (mo_V s') (mo_A s')) s0 log.
Proof. exact trans_motion. Qed.
Print Assumptions C35_equation_of_motion_partial.
(* For all delta and all prescribed values: the displacements solve the equation of motion of a
   Newmark step without the terms of the prescribed values; the velocities that are stored have
   the factors delta and 1 - delta exchanged *)
Theorem C35_any_parameters_partial :
  forall (big : QcG -> bool), (forall v : QcG, big v = false -> v = r0) ->
  forall (slv : eqsolver QcG), exact_solver slv ->
  forall nn mesh regs ks cs mpcs loads fixes, good_trans nn mesh regs ks cs mpcs loads fixes ->
  forall (cfg : trset QcG), (tr_alpha cfg : Qc) <> Q2Qc 0 -> (tr_dt cfg : Qc) <> Q2Qc 0 ->
  forall fuel g R s0 log, trans_solve fuel cfg big slv nn mesh regs ks cs mpcs loads fixes = Ok (g, R, s0, log) ->
    (exists l, instants fuel (radd (tr_time0 cfg) (tr_dt cfg)) (tr_dt cfg) (tr_time1 cfg) = Ok l /\ length log = length l) /\
    sizes_ok g s0 /\ length R = g_size g /\
    (forall x, In x (reg_keys regs) -> vget (g_num g) (mo_U s0) x = match last_fix fixes x with Some v => v | None => tr_init cfg end) /\
    (forall x, In x (reg_keys regs) -> vget (g_num g) R x = total_load loads x) /\
    (forall a, 1 <= a <= ns_ncon (g_num g) -> exists x v, In x (reg_keys regs) /\ eqn (g_num g) x = a /\ last_fix fixes x = Some v) /\
    (forall i, i < g_size g -> nth i (mo_V s0) r0 = r0 /\ nth i (mo_A s0) r0 = r0) /\
    exists Kf Cf Mf, read_matrices g Kf Cf Mf /\
      each_step (fun s s' => sizes_ok g s' /\ fixed_kept g s s' /\
        newmark_U (tr_alpha cfg) (tr_dt cfg) s s' /\ swapped_V (tr_delta cfg) (tr_dt cfg) s s' (mo_V s') /\
        newmark_V (tr_delta cfg) (tr_dt cfg) s s' (newmark_vel cfg (g_size g) s s') /\
        motion_without_fixed g Kf Cf Mf R (mo_U s') (newmark_vel cfg (g_size g) s s') (mo_A s')) s0 log.
Proof. exact trans_all. Qed.
Print Assumptions C35_any_parameters_partial.
Example C35_example : tlog (run_tr 2 (Q2Qc (1 # 2)) (qz 0)) =
    [([0; 1 # 6], [0; 2 # 3], [0; 8 # 3]); ([0; 7 # 18], [0; 2 # 9], [0; - 40 # 9])]%Q /\
  residuals (run_tr 2 (Q2Qc (1 # 2)) (qz 0)) 2 = [0; 0]%Q.
Proof. vm_compute. auto. Qed.
(* delta = 1; prescribed value 1 *)
Theorem C35_wrong_velocity_refuted :
  tlog (run_tr 1 (Q2Qc 1) (qz 0)) = [([0; 1 # 6], [0; 0], [0; 2 # 3])]%Q /\ residuals (run_tr 1 (Q2Qc 1) (qz 0)) 2 = [- 2 # 3]%Q.
Proof. vm_compute. auto. Qed.
Print Assumptions C35_wrong_velocity_refuted.
Theorem C35_prescribed_value_refuted :
  tlog (run_tr 1 (Q2Qc (1 # 2)) (qz 1)) = [([1; 1 # 4], [0; 1 # 2], [0; 1])]%Q /\
  residuals (run_tr 1 (Q2Qc (1 # 2)) (qz 1)) 2 = [- 2 # 1]%Q.
Proof. vm_compute. auto. Qed.
Print Assumptions C35_prescribed_value_refuted.

(* ---------------- C36 ---------------- *)
(* exact arithmetic: numberOfTimesteps steps at time0 + i dt, the last at time1 *)
Theorem C36_number_of_steps_exact_partial :
  forall (big : QcG -> bool) (slv : eqsolver QcG) nn mesh regs ks cs mpcs loads fixes (cfg : trset QcG) fuel g R s0 log,
  0 < tr_steps cfg -> (tr_time0 cfg < tr_time1 cfg)%Qc -> tr_steps cfg <= fuel ->
  (exists l, instants fuel (radd (tr_time0 cfg) (tr_dt cfg)) (tr_dt cfg) (tr_time1 cfg) = Ok l /\ length l = tr_steps cfg /\
    (forall i, i < tr_steps cfg -> (nth i l r0 : Qc) = (tr_time0 cfg + qn (S i) * tr_dt cfg)%Qc) /\
    (nth (tr_steps cfg - 1) l r0 : Qc) = tr_time1 cfg) /\
  (trans_solve fuel cfg big slv nn mesh regs ks cs mpcs loads fixes = Ok (g, R, s0, log) -> length log = tr_steps cfg).
Proof. exact trans_count. Qed.
Print Assumptions C36_number_of_steps_exact_partial.
(* doubles, default settings (100 steps from 0 to 1): 99 steps; the last instant is before 1 *)
Definition fl_instants (n : nat) (t1 : float) : outcome (list float) :=
  let dt := (t1 / gnat (K := FG) n)%float in instants (K := FG) 200 (0 + dt)%float dt t1.
Theorem C36_default_settings_refuted :
  match fl_instants 100 1 with
  | Ok l => length l = 99 /\ (last l 0 <? 0x1.fep-1)%float = true
  | _ => False
  end.
Proof. vm_compute. auto. Qed.
Print Assumptions C36_default_settings_refuted.
Example C36_ten_steps : match fl_instants 10 1 with Ok l => length l = 10 | _ => False end.
Proof. vm_compute. reflexivity. Qed.
