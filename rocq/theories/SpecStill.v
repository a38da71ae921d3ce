(* Elements with a constant stiffness in NonlinearFESolver (FESolver.cpp:403-521) *)
From Verif Require Import Base SparseModel BlockModel DofModel AsmModel SpecAsm SolveModel GaussModel TimeModel NonlinModel SpecNonlin SpecBal SpecLaws.

(* buildK and the MPC equations do not depend on the solution: TRUSS3, TETRA0, TRIANGLE4, INTER0 and linear MPC collections *)
Definition still {K : GNum} {E} (ph : physics K E) (ks : list (list (contrib K))) (mpcs : list (mpc K)) : Prop :=
  forall e U e' ks' mpcs', ph_asm ph e U = Ok (e', (ks', mpcs')) -> ks' = ks /\ mpcs' = mpcs.
(* a stiffness without load vector *)
Definition idle {K : Num} (c : contrib K) : Prop :=
  match c with
  | CKF _ _ F => forall p, nth p F r0 = r0
  | CMixed _ _ _ F f => (forall p, nth p F r0 = r0) /\ f = r0
  | CPlane41 _ F => forall p, nth p F r0 = r0
  | CK _ _ | CKEigen _ _ => True
  | CC _ _ | CM _ _ => False
  end.
(* the loads multiplied by c; sum of the times of the iterations *)
Definition times {K : Num} (c : K) (loads : list (bc K)) : list (bc K) := map (fun b => mkBC (bc_node b) (bc_dof b) (rmul c (bc_val b))) loads.
Definition all_times {K : GNum} (log : list (iter K)) : K := sumof (fun it => it_time it) log.
