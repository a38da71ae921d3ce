(* The increments reported by getCurrentTimeDelta and getCurrentNormalizedTimeDelta *)
From Coq Require Import NArith QArith Qcanon.
From Verif Require Import Base GaussModel SpecGauss TimeModel.
Local Open Scope nat_scope.

(* what f reports after each nextEquilibriumStep *)
Fixpoint reported (f : tcs QcG -> Qc) (ops : list (tcop QcG)) (t : tcs QcG) : list Qc :=
  match ops with
  | [] => []
  | TStep d :: ops => reported f ops (snd (next_step d t))
  | TEq :: ops => let t1 := next_eq t in f t1 :: reported f ops t1
  end.
Definition qsum (l : list Qc) : Qc := fold_right Qcplus (Q2Qc 0) l.
(* every load step has at least one equilibrium iteration: (delta, number of iterations - 1) *)
Definition iterated (l : list (Qc * nat)) : list (tcop QcG) :=
  flat_map (fun s => TStep (K := QcG) (fst s) :: repeat TEq (S (snd s))) l.
