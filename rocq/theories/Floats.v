(* IEEE-754 binary64 numbers (the C++ type double) as an instance of the number operations *)
From Coq Require Export PrimFloat.
From Verif Require Import Base.

Definition FNum : Num :=
  mkNum float zero one PrimFloat.add PrimFloat.mul PrimFloat.sub PrimFloat.opp.
Canonical FNum.
