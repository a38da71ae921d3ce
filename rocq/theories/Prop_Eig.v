(* C99: eigenvalues of symmetric 3x3 matrices.
   C100: eigenvalues of every 3x3 matrix with real eigenvalues. *)
From Coq Require Import Reals Lra.
From Verif Require Import Base RealBase ElemModel EigModel SpecEig EigProofs.
Local Open Scope R_scope.

Theorem C99_roots M : symmetric3 M -> (forall c, ~ spherical M c) ->
  exists s, eigenvalues M = Ok s /\ ordered_roots M s.
Proof. exact (eigen_ok M). Qed.
Print Assumptions C99_roots.

Theorem C99_vectors M s : symmetric3 M -> eigenvalues M = Ok s -> exists u v w,
  eigenvector M (fst (fst s)) u /\ eigenvector M (snd (fst s)) v /\ eigenvector M (snd s) w.
Proof. exact (eigen_vectors M s). Qed.
Print Assumptions C99_vectors.

Theorem C99_all_listed M s x v : symmetric3 M -> eigenvalues M = Ok s -> eigenvector M x v ->
  x = fst (fst s) \/ x = snd (fst s) \/ x = snd s.
Proof. exact (eigen_listed M s x v). Qed.
Print Assumptions C99_all_listed.

Definition diag3 (a b c : R) (i j : nat) : R :=
  if Nat.eqb i j then match i with 0%nat => a | 1%nat => b | _ => c end else 0.
Example C99_inhabited : symmetric3 (diag3 1 2 3) /\ (forall c, ~ spherical (diag3 1 2 3) c).
Proof.
  split.
  - intros i j. unfold diag3. rewrite Nat.eqb_sym. destruct (Nat.eqb_spec j i); [subst; reflexivity|reflexivity].
  - intros c H. pose proof (H 0%nat 0%nat ltac:(lia) ltac:(lia)) as A. pose proof (H 1%nat 1%nat ltac:(lia) ltac:(lia)) as B.
    cbn in A, B. lra.
Qed.

(* multiples of the unit matrix: 0 / 0 *)
Theorem C100_spherical_refuted M c : spherical M c -> eigenvalues M = Fatal /\ (forall x, charpoly M x = (x - c) * (x - c) * (x - c)).
Proof. exact (spherical_wrong M c). Qed.
Print Assumptions C100_spherical_refuted.
Example C100_spherical_inhabited : spherical (diag3 5 5 5) 5.
Proof. intros i j Hi Hj. destruct i as [|[|[|]]]; try lia; destruct j as [|[|[|]]]; try lia; reflexivity. Qed.

(* the entries below the diagonal are not read *)
Theorem C100_lower_triangle_refuted : exists M s, eigenvalues M = Ok s /\
  (forall x, charpoly M x = (x - 1) * (x - 2) * (x - 3)) /\ ~ ordered_roots M s.
Proof. exact lower_wrong. Qed.
Print Assumptions C100_lower_triangle_refuted.

Theorem C100_upper_partial M N : (forall i j, (i <= j)%nat -> M i j = N i j) -> eigenvalues M = eigenvalues N.
Proof. exact (eigen_upper M N). Qed.
Print Assumptions C100_upper_partial.
