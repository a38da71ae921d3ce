(* What the thermal elements are expected to compute. *)
From Coq Require Import Reals.
From Verif Require Import Base RealBase MatModel IsoModel SpecIso ElemModel SpecElem ThermModel.
Local Open Scope R_scope.

(* all determinants of the integration points are positive *)
Definition good_quad (ord : nat) (pos : nat -> nat -> R) : Prop :=
  Forall (fun q => let '(r, s, w) := q in 0 < quad_det pos (dec r) (dec s)) (quad_quad (i_int ord)).
(* gradient component i of the temperature field at (r, s) *)
Definition grad (pos : nat -> nat -> R) (T : list R) (r s : R) (i : nat) : R := rsumn 4 (fun n => quad_nixj pos r s n i * nth n T 0).
(* the field itself *)
Definition field (T : list R) (r s : R) : R := rsumn 4 (fun n => quad_N r s n * nth n T 0).
(* neighbours of a corner *)
Definition next (n : nat) : nat := match n with 0%nat => 1%nat | 1%nat => 2%nat | 2%nat => 3%nat | _ => 0%nat end.
Definition prev (n : nat) : nat := match n with 0%nat => 3%nat | 1%nat => 0%nat | 2%nat => 1%nat | _ => 2%nat end.
(* half of the diagonal opposite to corner n, turned outwards: the part of the boundary that belongs to n *)
Definition share (pos : nat -> nat -> R) (n i : nat) : R :=
  match i with 0%nat => (pos (next n) 1%nat - pos (prev n) 1%nat) / 2 | _ => (pos (prev n) 0%nat - pos (next n) 0%nat) / 2 end.
(* a linear temperature field *)
Definition linear (c : R) (g : nat -> R) (pos : nat -> nat -> R) : list R := map (fun n => c + rsumn 2 (fun i => g i * pos n i)) (seq 0 4).
Definition total (n : nat) (l : list R) : R := rsumn n (fun i => nth i l 0).
