(* What the transient solution is expected to do *)
From Coq Require Import QArith Qcanon.
From Verif Require Import Base SparseModel SpecSparse BlockModel SpecBlock DofModel SpecDof AsmModel SpecAsm SolveModel SpecSolve
  GaussModel SpecGauss TimeModel NonlinModel TransModel.
Local Open Scope nat_scope.

(* a complete problem *)
Record good_trans {K : Num} (nn : nat) (mesh : list (list nat)) (regs : list reg)
  (ks cs : list (list (contrib K))) (mpcs : list (mpc K)) (loads fixes : list (bc K)) : Prop := {
  gr_problem : good_problem nn mesh regs (map bc_key fixes) mpcs;
  gr_capacity : capacity_ok nn mesh regs (map bc_key fixes) mpcs;
  gr_K : good_contribs mesh regs ks;
  gr_onlyK : only_K ks;
  gr_C : good_contribs mesh regs cs;
  gr_onlyC : only_CM cs;
  gr_loads : Forall (fun l => In (bc_key l) (reg_keys regs)) loads }.

(* every state with the one before *)
Fixpoint each_step {K : Num} (P : motion K -> motion K -> Prop) (s : motion K) (log : list (motion K)) : Prop :=
  match log with
  | [] => True
  | s' :: log => P s s' /\ each_step P s' log
  end.

Section Spec.
  Variable K : Num.
  Local Open Scope rng_scope.
  (* the matrices of the problem *)
  Definition read_matrices (g : gst K) (Kf Cf Mf : nat -> nat -> K) : Prop :=
    exists C M, g_CM g = Some (C, M) /\
    forall a b, (1 <= a <= g_size g)%nat -> (1 <= b <= g_size g)%nat ->
      gvalue (g_K g) a b = Ok (Kf a b) /\ gvalue C a b = Ok (Cf a b) /\ gvalue M a b = Ok (Mf a b).
  (* M u'' + C u' + K u = F + R in the rows of the unknown DoFs and of the MPC equations *)
  Definition motion_holds (g : gst K) (Kf Cf Mf : nat -> nat -> K) (R U V A : list K) : Prop :=
    let N := g_size g in
    forall a, (ns_ncon (g_num g) < a <= N)%nat ->
      mv Mf N A a + mv Cf N V a + mv Kf N U a = nth (a - 1) (g_F g) 0 + nth (a - 1) R 0.
  (* the same with the terms of the prescribed values left out of K u *)
  Definition motion_without_fixed (g : gst K) (Kf Cf Mf : nat -> nat -> K) (R U V A : list K) : Prop :=
    let N := g_size g in
    forall a, (ns_ncon (g_num g) < a <= N)%nat ->
      mv Mf N A a + mv Cf N V a + mv Kf N U a = nth (a - 1) (g_F g) 0 + nth (a - 1) R 0 +
        sumof (fun k => Kf a k * nth (k - 1) U 0) (seq 1 (ns_ncon (g_num g))).
  (* prescribed values are kept *)
  Definition fixed_kept (g : gst K) (s s' : motion K) : Prop :=
    forall i, (i < ns_ncon (g_num g))%nat -> nth i (mo_U s') 0 = nth i (mo_U s) 0.
  Definition sizes_ok (g : gst K) (s : motion K) : Prop :=
    length (mo_U s) = g_size g /\ length (mo_V s) = g_size g /\ length (mo_A s) = g_size g.
End Spec.
Arguments read_matrices {K} _ _ _ _.
Arguments motion_holds {K} _ _ _ _ _ _ _ _.
Arguments motion_without_fixed {K} _ _ _ _ _ _ _ _.
Arguments fixed_kept {K} _ _ _.
Arguments sizes_ok {K} _ _.

Section Newmark.
  Local Open Scope Qc_scope.
  (* U' = U + dt V + dt^2 ((1/2 - alpha) A + alpha A') *)
  Definition newmark_U (alpha dt : Qc) (s s' : motion QcG) : Prop :=
    forall i, (nth i (mo_U s') 0 : Qc) = nth i (mo_U s) 0 + dt * nth i (mo_V s) 0 +
      dt * dt * ((Q2Qc (1 # 2) - alpha) * nth i (mo_A s) 0 + alpha * nth i (mo_A s') 0).
  (* V' = V + dt ((1 - delta) A + delta A') *)
  Definition newmark_V (delta dt : Qc) (s s' : motion QcG) (V' : list QcG) : Prop :=
    forall i, (nth i V' 0 : Qc) = nth i (mo_V s) 0 + dt * ((1 - delta) * nth i (mo_A s) 0 + delta * nth i (mo_A s') 0).
  (* the same with the factors exchanged *)
  Definition swapped_V (delta dt : Qc) (s s' : motion QcG) (V' : list QcG) : Prop :=
    forall i, (nth i V' 0 : Qc) = nth i (mo_V s) 0 + dt * ((1 - delta) * nth i (mo_A s') 0 + delta * nth i (mo_A s) 0).
End Newmark.
