(* What time stepping is expected to do *)
From Coq Require Import NArith QArith Qcanon PrimFloat.
From Verif Require Import Base GaussModel SpecGauss TimeModel Floats.
Local Open Scope nat_scope.

(* doubles *)
Definition FG : GNum := mkGNum FNum PrimFloat.div PrimFloat.abs PrimFloat.ltb 0x1.79ca10c924223p-67%float.

(* equilibrium iterations between nextStep calls: before the first, between first and second, ... *)
Fixpoint eq_counts {K} (ops : list (tcop K)) : list nat :=
  match ops with
  | [] => [0]
  | TEq :: t => match eq_counts t with [] => [] | c :: cs => S c :: cs end
  | TStep _ :: t => 0 :: eq_counts t
  end.
(* the steps that were left again: all but the last count, without those that had no iteration *)
Definition finished {K} (ops : list (tcop K)) : list nat :=
  filter (fun c => negb (c =? 0)) (removelast (eq_counts ops)).
Definition total_eq {K} (ops : list (tcop K)) : nat := list_sum (eq_counts ops).
Definition is_step {K} (o : tcop K) : bool := match o with TStep _ => true | TEq => false end.
Definition good_op (o : tcop QcG) : Prop := match o with TStep d => (Q2Qc 0 < d)%Qc | TEq => True end.
