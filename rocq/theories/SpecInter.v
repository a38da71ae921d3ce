(* What the interface element is expected to compute. *)
From Coq Require Import Reals.
From Verif Require Import Base RealBase MatModel IsoModel ElemModel SpecElem InterModel.
Local Open Scope R_scope.

(* twice the area vector of the first triangle *)
Definition area_vec (pos : nat -> nat -> R) : nat -> R := cross (side1 pos) (side2 pos).
Definition area3 (pos : nat -> nat -> R) : R := norm3 (area_vec pos) / 2.
(* a proper triangle *)
Definition proper3 (pos : nat -> nat -> R) : Prop := exists i, (i < 3)%nat /\ area_vec pos i <> 0.
(* the first triangle counts positive, the second negative *)
Definition face (a : nat) : R := if (a <? 3)%nat then 1 else -1.
(* integral of L_a L_b over the reference triangle, by the table *)
Definition mass (a b : nat) : R := rsuml i3_points (fun q => i3_weight 1 q * (i3_L q a * i3_L q b)).
(* difference of the displacements of the faces at a point *)
Definition jump (U : nat -> nat -> R) (q : nat * nat) (i : nat) : R := rsumn 3 (fun a => i3_L q a * (U a i - U (3 + a)%nat i)).
(* K U, nodes and components *)
Definition force (K : nat -> nat -> R) (U : nat -> nat -> R) (a c : nat) : R :=
  rsumn 6 (fun b => rsumn 3 (fun d => K (3 * a + c)%nat (3 * b + d)%nat * U b d)).
Definition work3 (F V : nat -> nat -> R) : R := rsumn 6 (fun a => rsumn 3 (fun c => F a c * V a c)).
