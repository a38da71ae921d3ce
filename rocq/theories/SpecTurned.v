(* Trusses turned (and mirrored, and moved) in space *)
From Coq Require Import Reals.
From Verif Require Import Base RealBase DofModel SpecDof AsmModel SolveModel SpecSolve SpecIso StructModel SpecStruct HeatModel.
Local Open Scope R_scope.

(* rotations and reflections: the columns of Q are orthonormal *)
Definition turning (Q : nat -> nat -> R) : Prop :=
  forall i j, (i < 3)%nat -> (j < 3)%nat -> rsumn 3 (fun k => Q k i * Q k j) = if (i =? j)%nat then 1 else 0.
Definition turn (Q : nat -> nat -> R) (v : nat -> R) (i : nat) : R := rsumn 3 (fun j => Q i j * v j).
(* nodes *)
Definition turned_nodes (Q : nat -> nat -> R) (c : nat -> R) (nodes : list nat) (pos pos' : nat -> nat -> R) : Prop :=
  forall n i, In n nodes -> (i < 3)%nat -> pos' n i = c i + turn Q (pos n) i.
(* values of the DoFs of a node *)
Definition at_node (v : key -> R) (n i : nat) : R := v (KNode, n, i).
Definition turned_values (Q : nat -> nat -> R) (v v' : key -> R) (n : nat) : Prop :=
  forall i, (i < 3)%nat -> v' (KNode, n, i) = turn Q (at_node v n) i.
(* supports: a direction that is held after turning was held before (all axes that take part in it), with the turned value; a free one was free.
   A node that is held in all directions may be turned in any way. *)
Definition turned_supports (Q : nat -> nat -> R) (fixes fixes' : list (bc RNum)) : Prop :=
  forall n i, (i < 3)%nat ->
    match last_fix fixes' (KNode, n, i) with
    | Some y' => exists y : nat -> R, (forall j, (j < 3)%nat -> Q i j <> 0 -> last_fix fixes (KNode, n, j) = Some (y j)) /\ y' = turn Q y i
    | None => forall j, (j < 3)%nat -> Q i j <> 0 -> last_fix fixes (KNode, n, j) = None
    end.

(* ---- heat conduction: rotations only (a mirrored tetrahedron has a negative volume); QUADTH elements stay in the xy plane *)
Definition rotation (Q : nat -> nat -> R) : Prop := turning Q /\ triple (Q 0%nat) (Q 1%nat) (Q 2%nat) = 1.
Definition fits (Q : nat -> nat -> R) (m : hmember) : Prop :=
  match m with HQuad _ _ _ _ _ _ _ => Q 0%nat 2%nat = 0 /\ Q 1%nat 2%nat = 0 /\ Q 2%nat 2%nat = 1 | _ => True end.
(* the flux of an element (nothing for elements without flux) *)
Definition turned_flux (Q : nat -> nat -> R) (f : list R) : list R := map (turn Q (fun i => nth i f 0)) (seq 0 (length f)).
