(* Laws of the numbers and the meaning of a dense system *)
From Coq Require Import QArith Qcanon Qcabs Field_theory.
From Verif Require Import Base SparseModel SolveModel GaussModel.
Local Open Scope nat_scope.

(* an ordered field with absolute value, as far as needed *)
Record glaws (K : GNum) : Prop := {
  gl_ring : ring_theory (@r0 K) r1 radd rmul rsub ropp (@eq K);
  gl_div : forall a b : K, glt r0 (gabs b) = true -> rmul (gdiv a b) b = a;
  gl_abs0 : gabs r0 = @r0 K;
  gl_absabs : forall a : K, gabs (gabs a) = gabs a;
  gl_asym : forall a b : K, glt a b = true -> glt b a = false;
  gl_tiny : glt r0 (@gtiny K) = true;
  gl_trans : forall a b c : K, glt b a = false -> glt b c = true -> glt a c = true }.

Section Spec.
  Variable K : Num.
  Local Open Scope rng_scope.
  (* entry (i, j), counted from 0, of a dense n x n matrix stored by rows *)
  Definition dense (A : list K) (n i j : nat) : K := nth (i * n + j) A 0.
  (* row i of A times x *)
  Definition drow (A : list K) (n : nat) (x : nat -> K) (i : nat) : K :=
    sumof (fun j => dense A n i j * x j) (seq 0 n).
End Spec.
Arguments dense {K} _ _ _ _.
Arguments drow {K} _ _ _ _.

(* rational numbers *)
Definition Qc_ltb (a b : Qc) : bool := match Qccompare a b with Lt => true | _ => false end.
Definition q1e20 : Qc := Q2Qc (1 # (10 ^ 20)).
Definition QcG : GNum := mkGNum QcNum Qcdiv Qcabs Qc_ltb q1e20.

(* the Gauss solver as an equation solver; u n: contents of the vector of unknowns before the call *)
Definition gauss_slv {K : GNum} (u : nat -> list K) : eqsolver K :=
  fun m b => gauss_dense (u (si_nrows (sm_si m))) m b.
