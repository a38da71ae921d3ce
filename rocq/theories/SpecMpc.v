(* Rigid body kinematics: rotation by a rotation vector (Rodrigues), the constraint between a slave and the master. *)
From Coq Require Import Reals.
Set Warnings "-ambiguous-paths".
From Coquelicot Require Import Coquelicot.
From Verif Require Import Base RealBase DofModel AsmModel MpcModel.
Local Open Scope R_scope.

(* cross product matrix: (skew th) v = th x v *)
Definition skew (th : nat -> R) (i j : nat) : R :=
  match i, j with
  | 0%nat, 1%nat => - th 2%nat | 0%nat, 2%nat => th 1%nat
  | 1%nat, 0%nat => th 2%nat | 1%nat, 2%nat => - th 0%nat
  | 2%nat, 0%nat => - th 1%nat | 2%nat, 1%nat => th 0%nat
  | _, _ => 0
  end.
(* rotation with the axis and angle of the vector th: cos I + sin [n]x + (1 - cos) n n^T with n = th/|th| *)
Definition rotation (th : nat -> R) (i j : nat) : R :=
  let t := vnorm th in
  if Req_EM_T t 0 then dlt i j
  else cos t * dlt i j + sin t * (skew th i j / t) + (1 - cos t) * ((th i / t) * (th j / t)).

(* required displacement of a point at arm pq from the master: w + (R(th) - I) pq *)
Definition rigid_disp (th w pq : nat -> R) (i : nat) : R :=
  w i + rsumn 3 (fun j => (rotation th i j - dlt i j) * pq j).

(* state X node dof *)
Definition rotv (X : nat -> nat -> R) (m : nat) (i : nat) : R := X m (3 + i)%nat.
Definition transv (X : nat -> nat -> R) (m : nat) (i : nat) : R := X m i.
(* violation of the rigid connection of slave s in direction d *)
Definition gap (pos : nat -> nat -> R) (m s d : nat) (X : nat -> nat -> R) : R :=
  X s d - rigid_disp (rotv X m) (transv X m) (fun i => pos s i - pos m i) d.

(* left side of an MPC equation at values (increments) D *)
Definition mpc_lhs (e : mpc RNum) (D : nat -> nat -> R) : R :=
  rsuml (mp_terms e) (fun t => snd t * D (fst (fst t)) (snd (fst t))).
(* X is a curve of states with derivative D at t0 *)
Definition curve (X : R -> nat -> nat -> R) (t0 : R) (D : nat -> nat -> R) : Prop :=
  forall n d, is_derive (fun t : R => X t n d) t0 (D n d).
(* length of the arm in the 1-norm *)
Definition arm (pos : nat -> nat -> R) (m s : nat) : R := rsumn 3 (fun i => Rabs (pos s i - pos m i)).

(* an equation of slave s in direction d: right side b, coefficients c of the three rotations *)
Definition rb_entry (m s d : nat) (b : R) (c : nat -> R) : mpc RNum :=
  @mkMpc RNum b [(s, d, 1); (m, d, -1); (m, 3%nat, c 0%nat); (m, 4%nat, c 1%nat); (m, 5%nat, c 2%nat)].
(* one equation for every slave and every chosen direction, in this order *)
Definition rb_shape (r : rigid) (coll : list (mpc RNum)) : Prop :=
  Forall2 (fun sd e => exists b c, e = rb_entry (rb_master r) (fst sd) (snd sd) b c) (list_prod (rb_slaves r) (rb_dofs r)) coll.
(* determinant and Gram matrix of 3 x 3 matrices *)
Definition det33 (A : nat -> nat -> R) : R :=
  A 0%nat 0%nat * (A 1%nat 1%nat * A 2%nat 2%nat - A 1%nat 2%nat * A 2%nat 1%nat)
  - A 0%nat 1%nat * (A 1%nat 0%nat * A 2%nat 2%nat - A 1%nat 2%nat * A 2%nat 0%nat)
  + A 0%nat 2%nat * (A 1%nat 0%nat * A 2%nat 1%nat - A 1%nat 1%nat * A 2%nat 0%nat).
Definition gram (A : nat -> nat -> R) (i j : nat) : R := rsumn 3 (fun k => A k i * A k j).
(* Xc: a curve of states through X at t0 with derivative D *)
Definition through (X : nat -> nat -> R) (Xc : R -> nat -> nat -> R) (t0 : R) (D : nat -> nat -> R) : Prop :=
  (forall n d, Xc t0 n d = X n d) /\ curve Xc t0 D.
(* e is the Newton equation for gap = 0 at X: the left side is the derivative of the gap, the right side is - gap *)
Definition newton_equation (pos : nat -> nat -> R) (m s d : nat) (X : nat -> nat -> R) (e : mpc RNum) : Prop :=
  mp_b e = - gap pos m s d X
  /\ forall Xc t0 D, through X Xc t0 D -> is_derive (fun t : R => gap pos m s d (Xc t)) t0 (mpc_lhs e D).
(* the same up to relative errors eb and ec *)
Definition near_newton_equation (eb ec : R) (pos : nat -> nat -> R) (m s d : nat) (X : nat -> nat -> R) (e : mpc RNum) : Prop :=
  Rabs (mp_b e - - gap pos m s d X) <= eb * arm pos m s
  /\ forall Xc t0 D, through X Xc t0 D ->
       exists v, is_derive (fun t : R => gap pos m s d (Xc t)) t0 v
         /\ Rabs (mpc_lhs e D - v) <= ec * arm pos m s * rsumn 3 (fun l => Rabs (D m (3 + l)%nat)).
