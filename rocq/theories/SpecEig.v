(* Own notions for the eigenvalues of a 3x3 matrix *)
From Coq Require Import Reals.
From Verif Require Import Base.
Local Open Scope R_scope.
(* determinant of x I - M, first row expansion *)
Definition charpoly (M : nat -> nat -> R) (x : R) : R :=
  let m i j := (if Nat.eqb i j then x else 0) - M i j in
  m 0%nat 0%nat * (m 1%nat 1%nat * m 2%nat 2%nat - m 1%nat 2%nat * m 2%nat 1%nat)
  - m 0%nat 1%nat * (m 1%nat 0%nat * m 2%nat 2%nat - m 1%nat 2%nat * m 2%nat 0%nat)
  + m 0%nat 2%nat * (m 1%nat 0%nat * m 2%nat 1%nat - m 1%nat 1%nat * m 2%nat 0%nat).
Definition symmetric3 (M : nat -> nat -> R) : Prop := forall i j, M i j = M j i.
(* a multiple of the unit matrix *)
Definition spherical (M : nat -> nat -> R) (c : R) : Prop :=
  forall i j, (i < 3)%nat -> (j < 3)%nat -> M i j = if Nat.eqb i j then c else 0.
Definition matvec (M : nat -> nat -> R) (v : nat -> R) (i : nat) : R :=
  M i 0%nat * v 0%nat + M i 1%nat * v 1%nat + M i 2%nat * v 2%nat.
(* s lists the eigenvalues with their multiplicities, the greatest first *)
Definition ordered_roots (M : nat -> nat -> R) (s : R * R * R) : Prop :=
  let '(s1, s2, s3) := s in
  s1 >= s2 /\ s2 >= s3 /\ forall x, charpoly M x = (x - s1) * (x - s2) * (x - s3).
Definition eigenvector (M : nat -> nat -> R) (s : R) (v : nat -> R) : Prop :=
  (exists i, (i < 3)%nat /\ v i <> 0) /\ forall i, (i < 3)%nat -> matvec M v i = s * v i.
