(* Specification side: tensors as 3 x 3 matrices, energies, curves of deformations. *)
From Coq Require Import Reals.
Set Warnings "-ambiguous-paths".
From Coquelicot Require Import Coquelicot.
From Verif Require Import Base RealBase HyperModel.
Local Open Scope R_scope.

Definition mat3 := nat -> nat -> R.
(* position of the component (i, j) of a symmetric tensor in an array of 6 *)
Definition comp6 (i j : nat) : nat :=
  match Nat.min i j, Nat.max i j with
  | 0%nat, 0%nat => 0 | 0%nat, 1%nat => 1 | 0%nat, _ => 2 | 1%nat, 1%nat => 3 | 1%nat, _ => 4 | _, _ => 5
  end%nat.
Definition m3 (C : nat -> R) : mat3 := fun i j => C (comp6 i j).
Definition mmul (A B : mat3) : mat3 := fun i j => rsumn 3 (fun k => A i k * B k j).
Definition mtr (A : mat3) : mat3 := fun i j => A j i.
Definition trace (A : mat3) : R := rsumn 3 (fun i => A i i).
Definition ddot (A B : mat3) : R := rsumn 3 (fun i => rsumn 3 (fun j => A i j * B i j)).
Definition det3 (A : mat3) : R :=
  A 0%nat 0%nat * (A 1%nat 1%nat * A 2%nat 2%nat - A 1%nat 2%nat * A 2%nat 1%nat)
  - A 0%nat 1%nat * (A 1%nat 0%nat * A 2%nat 2%nat - A 1%nat 2%nat * A 2%nat 0%nat)
  + A 0%nat 2%nat * (A 1%nat 0%nat * A 2%nat 1%nat - A 1%nat 1%nat * A 2%nat 0%nat).
Definition meq (A B : mat3) : Prop := forall i j, (i < 3)%nat -> (j < 3)%nat -> A i j = B i j.

(* the deformation gradient of a displacement gradient G *)
Definition defgrad (G : mat3) : mat3 := fun i j => dlt i j + G i j.
Definition cauchy_green (F : mat3) : mat3 := mmul (mtr F) F.
(* true stress (1/J) F S F^T *)
Definition cauchy (F S : mat3) : mat3 := fun i j => / det3 F * mmul F (mmul S (mtr F)) i j.

(* volume ratio and the isochoric energy of a material at the strain C *)
Definition vol_ratio (C : nat -> R) : R := sqrt (det3 (m3 C)).
Definition iso_energy (m : hyper) (C : nat -> R) : R :=
  let J := vol_ratio C in
  let I1 := trace (m3 C) in
  let I2 := (trace (m3 C) * trace (m3 C) - trace (mmul (m3 C) (m3 C))) / 2 in
  hW m (Rpower J (- (2) / 3) * I1) (Rpower J (- (4) / 3) * I2) 1.

(* a curve of strains with derivative dC at t *)
Definition curve (C : R -> nat -> R) (t : R) (dC : nat -> R) : Prop :=
  forall k, (k < 6)%nat -> is_derive (fun s => C s k) t (dC k).
(* the three material laws of the library *)
Inductive known : hyper -> Prop :=
| known_nh : forall G K, known (neo_hookean G K)
| known_bid : forall C10 C20 C30 C01 K, known (biderman C10 C20 C30 C01 K)
| known_mr : forall C10 C01 K, known (mooney_rivlin C10 C01 K).
Definition stress (m : hyper) (C : nat -> R) (p : R) : mat3 := m3 (arr (getS_UP m defaultTensorComponents C p)).
(* the displacement gradient at a point: nx n j = dN_n/dX_j, nodal displacements U in the order of the equations *)
Definition grad3 (nx : nat -> nat -> R) (U : nat -> R) : mat3 := fun i j => rsumn 8 (fun n => nx n j * U (n * 3 + i)%nat).
Definition grad2 (nx : nat -> nat -> R) (U : nat -> R) : mat3 :=
  fun i j => if ((i <? 2) && (j <? 2))%nat then rsumn 4 (fun n => nx n j * U (n * 2 + i)%nat) else 0.
(* update followed by buildK at the state U, p *)
Definition s81_run (m : hyper) (geo : list (R * (nat -> nat -> R))) (U : list R) (p : R) : outcome mixed :=
  pts <- s81_update_all m geo U p ;; s81_buildK m p pts.
(* the six stored components of a symmetric tensor *)
Definition vec6 (A : mat3) (k : nat) : R :=
  match k with XX => A 0%nat 0%nat | XY => A 0%nat 1%nat | XZ => A 0%nat 2%nat | YY => A 1%nat 1%nat | YZ => A 1%nat 2%nat | ZZ => A 2%nat 2%nat | _ => 0 end.
(* second and first Piola-Kirchhoff stress of a material at the deformation gradient F and pressure p *)
Definition pk2 (m : hyper) (F : mat3) (p : R) : mat3 := stress m (vec6 (cauchy_green F)) p.
Definition pk1 (m : hyper) (F : mat3) (p : R) : mat3 := mmul F (pk2 m F p).
(* a query adds scale times the tensor A to its argument *)
Definition adds (t t' : list R) (scale : R) (A : mat3) : Prop :=
  length t' = 6%nat /\ forall i j, (i < 3)%nat -> (j < 3)%nat -> m3 (arr t') i j = m3 (arr t) i j + scale * A i j.
(* update followed by a tensor query at one integration point *)
Definition s81_query (m : hyper) (nx : nat -> nat -> R) (U : list R) (p : R) (q : tquery) (scale : R) (t : list R) : outcome (list R) :=
  pt <- s81_update m nx U p ;; s81_tensor p pt q scale t.
Definition p41_query (m : hyper) (nx : nat -> nat -> R) (U : nat -> R) (p : R) (q : tquery) (scale : R) (t : list R) : outcome (list R) :=
  p41_tensor m p (p41_update m nx U p) q scale t.
(* nodal coordinates X n i with sum_n nx n j = 0 and sum_n nx n j * X n i = dlt i j: what shape functions that reproduce
   constant and linear fields satisfy *)
Definition reproduces (nn nd : nat) (nx : nat -> nat -> R) (X : nat -> nat -> R) : Prop :=
  (forall j, (j < nd)%nat -> rsumn nn (fun n => nx n j) = 0) /\
  (forall i j, (i < nd)%nat -> (j < nd)%nat -> rsumn nn (fun n => nx n j * X n i) = dlt i j).
Definition orthogonal (nd : nat) (Q : mat3) : Prop :=
  forall i j, (i < nd)%nat -> (j < nd)%nat -> rsumn nd (fun k => Q k i * Q k j) = dlt i j.
(* update followed by a scalar query at one integration point *)
Definition s81_squery (m : hyper) (nx : nat -> nat -> R) (U : list R) (p : R) (q : squery) (scale x : R) : outcome R :=
  pt <- s81_update m nx U p ;; Ok (s81_scalar m p pt q scale x).
Definition s81_vquery (m : hyper) (nx : nat -> nat -> R) (U : list R) (p scale : R) (v : list R) : outcome (list R) :=
  pt <- s81_update m nx U p ;; Ok (s81_IC pt scale v).
Definition p41_vquery (m : hyper) (nx : nat -> nat -> R) (U : nat -> R) (p scale : R) (v : list (list R)) : outcome (list (list R)) :=
  p41_IC (p41_update m nx U p) scale v.
(* the invariants I1, I2, J of F^T F *)
Definition invariant (F : mat3) (k : nat) : R :=
  let C := cauchy_green F in
  match k with
  | 0%nat => trace C
  | 1%nat => (trace C * trace C - trace (mmul C C)) / 2
  | _ => Rabs (det3 F)
  end.
(* nodes (+-1, +-1, +-1) and the derivatives of the shape functions at the centre *)
Definition corner (n i : nat) : R := if Nat.testbit n i then 1 else -1.
Definition nx_cube (n j : nat) : R := corner n j / 8.
Definition nx_square (n j : nat) : R := corner n j / 4.
