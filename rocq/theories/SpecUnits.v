(* Structures in other units of length and force *)
From Coq Require Import Reals.
From Verif Require Import Base RealBase DofModel SpecDof AsmModel SolveModel SpecSolve ElemModel StructModel SpecStruct.
Local Open Scope R_scope.

(* numbers for lengths are multiplied by l, those for forces by f: areas by l^2, moduli and stresses by f / l^2 *)
Definition in_units (l f : R) (m : member) : member :=
  match m with
  | Bar A E a b => Bar (l * l * A) (f / (l * l) * E) a b
  | Tet e a b c d => Tet (mkTetra0 (f / (l * l) * t0_E e) (t0_my e) (t0_alpha e) (t0_T e) (t0_stress e) (t0_strains e) (t0_vol e)) a b c d
  end.
Definition result_in_units (l f : R) (r r' : result) : Prop :=
  match r, r' with
  | RBar s, RBar s' => s' = f / (l * l) * s
  | RTet e, RTet e' => t0_vol e' = l * l * l * t0_vol e /\ t0_strains e' = t0_strains e /\ t0_stress e' = map (fun s => f / (l * l) * s) (t0_stress e)
  | _, _ => False
  end.
Definition scaled_nodes (l : R) (nodes : list nat) (pos pos' : nat -> nat -> R) : Prop :=
  forall n i, In n nodes -> (i < 3)%nat -> pos' n i = l * pos n i.
Definition scaled_supports (l : R) (fixes fixes' : list (bc RNum)) : Prop :=
  forall k, last_fix fixes' k = match last_fix fixes k with Some y => Some (l * y) | None => None end.
