(* Eigenvalues of a 3x3 matrix: Mat<3,3>::eigenvalues, src/lib/math/Mat.h:301-374, over the reals.
   M_PI is the number PI; results that are not finite (square root of a negative number, division by zero,
   acos outside [-1, 1]): Fatal. *)
From Coq Require Import Reals.
From Verif Require Import Base RealBase ElemModel.
Local Open Scope R_scope.

Definition rsqrt (x : R) : outcome R := if Rlt_dec x 0 then Fatal else Ok (sqrt x).
Definition racos (x : R) : outcome R := if Rlt_dec 1 (Rabs x) then Fatal else Ok (acos x).
(* Mat.h:305-309 *)
Definition eig_I1 (M : nat -> nat -> R) : R := M 0%nat 0%nat + M 1%nat 1%nat + M 2%nat 2%nat.
Definition eig_I2 (M : nat -> nat -> R) : R :=
  let m i j := M i j in
  m 0%nat 0%nat * m 1%nat 1%nat + m 1%nat 1%nat * m 2%nat 2%nat + m 0%nat 0%nat * m 2%nat 2%nat
  - m 0%nat 1%nat * m 0%nat 1%nat - m 0%nat 2%nat * m 0%nat 2%nat - m 1%nat 2%nat * m 1%nat 2%nat.
Definition eig_I3 (M : nat -> nat -> R) : R :=
  let m i j := M i j in
  m 0%nat 0%nat * m 1%nat 1%nat * m 2%nat 2%nat + 2 * m 0%nat 1%nat * m 1%nat 2%nat * m 0%nat 2%nat
  - m 0%nat 0%nat * m 1%nat 2%nat * m 1%nat 2%nat - m 1%nat 1%nat * m 0%nat 2%nat * m 0%nat 2%nat
  - m 2%nat 2%nat * m 0%nat 1%nat * m 0%nat 1%nat.
(* Mat.h:317-327 *)
Definition eig_p (a b : R) : R := b - a * a / 3.
Definition eig_q (a b c : R) : R := 2 * a * a * a / 27 - a * b / 3 + c.
Definition eig_roots (a b c : R) : outcome (R * R * R) :=
  let p := eig_p a b in
  let q := eig_q a b c in
  A <- rsqrt (- 4 * p / 3) ;;
  c3phi <- rdiv (- 4 * q) (A * A * A) ;;
  x <- racos c3phi ;;
  let phi := x / 3 in
  Ok (A * cos phi - a / 3, A * cos (phi + 2 * PI / 3) - a / 3, A * cos (phi - 2 * PI / 3) - a / 3).
(* Mat.h:330-372 *)
Definition rgt (x y : R) : bool := if Rlt_dec y x then true else false.
Definition eig_sort (r : R * R * R) : R * R * R :=
  let '(r1, r2, r3) := r in
  if rgt r1 r2 && rgt r1 r3 then if rgt r2 r3 then (r1, r2, r3) else (r1, r3, r2)
  else if rgt r2 r1 && rgt r2 r3 then if rgt r1 r3 then (r2, r1, r3) else (r2, r3, r1)
  else if rgt r1 r2 then (r3, r1, r2) else (r3, r2, r1).
Definition eigenvalues (M : nat -> nat -> R) : outcome (R * R * R) :=
  r <- eig_roots (- eig_I1 M) (eig_I2 M) (- eig_I3 M) ;; Ok (eig_sort r).
