(* What dumping and comparing is expected to do *)
From Coq Require Import QArith Qabs Qcanon.
From Verif Require Import Base SparseModel SpecSparse DumpModel.
Local Open Scope nat_scope.

(* a matrix obtained by any history of registrations, compression and value operations *)
Definition is_matrix (m : smat QcRng) : Prop :=
  (exists nr nc cap es os, filled nr nc cap es os = Ok m) \/ (exists n cap es os, filled_sym n cap es os = Ok m).
Definition stored (m : smat QcRng) (x : Qc) : Prop :=
  exists hdr recs e, mat_records m = Ok (hdr, recs) /\ In e recs /\ snd e = x.
(* reading gives a nearest number of the number type rep *)
Definition reads_nearest (rep : Qc -> Prop) (rd : Qc -> Qc) : Prop :=
  forall d x, rep x -> (Qabs (this (rd d) - this d) <= Qabs (this x - this d))%Q.
(* printed and read again *)
Definition again (rd : Qc -> Qc) (o : ostate) (x : Qc) : Qc := rd (print_num o x).
Definition within (th : Q) (a b : Qc) : Prop := (Qabs (this a - this b) <= th)%Q.
Definition smaller (b : Q) (x : Qc) : Prop := (Qabs (this x) < b)%Q.
