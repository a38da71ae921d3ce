(* Common definitions used by all models: outcomes of a call, array access,
   bundled rings and fields, finite sums. *)
From Coq Require Export List Arith ZArith Lia Bool.
From Coq Require Export Ring_theory Field_theory Ring Field.
From Coq Require Import QArith Qcanon.
Export ListNotations.
Close Scope Q_scope.
Close Scope Qc_scope.
Open Scope nat_scope.
#[global] Arguments Nat.ltb : simpl never.

(* ------------------------------------------------------------------ *)
(* Outcome of calling a C++ function.
   Ok a   : returned normally with result / new state a
   Fatal  : LOG(FATAL) or CHECK: the program is stopped with a message
   UB     : undefined behaviour (access outside an array, null pointer,
            violated assert, ...)
   Loop   : the fuel of a loop model was exhausted; fuel is always chosen
            so large that this means the real loop does not terminate *)
Inductive outcome (A : Type) : Type :=
| Ok (a : A)
| Fatal
| UB
| Loop.
Arguments Ok {A} a.
Arguments Fatal {A}.
Arguments UB {A}.
Arguments Loop {A}.

Definition obind {A B} (x : outcome A) (f : A -> outcome B) : outcome B :=
  match x with Ok a => f a | Fatal => Fatal | UB => UB | Loop => Loop end.

Notation "x <- e ;; k" := (obind e (fun x => k))
  (at level 61, e at next level, right associativity).

(* C++ assert; a violated assert is UB (with NDEBUG the code runs on) *)
Definition asserting {A} (b : bool) (k : outcome A) : outcome A :=
  if b then k else UB.
(* CHECK(b) *)
Definition checking {A} (b : bool) (k : outcome A) : outcome A :=
  if b then k else Fatal.

(* array read: outside the array it is UB *)
Definition aget {A} (l : list A) (i : nat) : outcome A :=
  match nth_error l i with Some a => Ok a | None => UB end.

Fixpoint upd {A} (l : list A) (i : nat) (a : A) : list A :=
  match l, i with
  | [], _ => []
  | _ :: t, 0 => a :: t
  | x :: t, S i' => x :: upd t i' a
  end.

(* array write: outside the array it is UB *)
Definition aset {A} (l : list A) (i : nat) (a : A) : outcome (list A) :=
  if i <? length l then Ok (upd l i a) else UB.

(* run a fallible step over a list, left to right *)
Fixpoint ofold {A S} (f : S -> A -> outcome S) (l : list A) (s : S) : outcome S :=
  match l with
  | [] => Ok s
  | a :: t => s' <- f s a ;; ofold f t s'
  end.

(* ------------------------------------------------------------------ *)
(* Number types.  Num: operations only (also instantiated at binary64);
   Rng: a commutative ring with Leibniz equality; Fld: a field. *)
Record Num := mkNum {
  car :> Type;
  r0 : car; r1 : car;
  radd : car -> car -> car;
  rmul : car -> car -> car;
  rsub : car -> car -> car;
  ropp : car -> car }.

Arguments r0 {_}.
Arguments r1 {_}.
Arguments radd {_} _ _.
Arguments rmul {_} _ _.
Arguments rsub {_} _ _.
Arguments ropp {_} _.

Record Rng := mkRng {
  rnum :> Num;
  rth : ring_theory (@r0 rnum) r1 radd rmul rsub ropp (@eq rnum) }.

Record Fld := mkFld {
  fr :> Rng;
  fdiv : fr -> fr -> fr;
  finv : fr -> fr;
  fth : field_theory (@r0 fr) r1 radd rmul rsub ropp fdiv finv (@eq fr) }.

Arguments fdiv {_} _ _.
Arguments finv {_} _.

Declare Scope rng_scope.
Delimit Scope rng_scope with rng.
Notation "a + b" := (radd a b) : rng_scope.
Notation "a * b" := (rmul a b) : rng_scope.
Notation "a - b" := (rsub a b) : rng_scope.
Notation "- a" := (ropp a) : rng_scope.
Notation "a / b" := (fdiv a b) : rng_scope.
Notation "0" := r0 : rng_scope.
Notation "1" := r1 : rng_scope.

Definition ZNum : Num := mkNum Z 0%Z 1%Z Z.add Z.mul Z.sub Z.opp.
Definition ZRng : Rng := mkRng ZNum Zth.
Definition QcNum : Num := mkNum Qc (Q2Qc 0) (Q2Qc 1) Qcplus Qcmult Qcminus Qcopp.
Definition QcRng : Rng := mkRng QcNum (F_R Qcft).
Definition QcFld : Fld := mkFld QcRng Qcdiv Qcinv Qcft.
Canonical ZNum.
Canonical QcNum.

(* ------------------------------------------------------------------ *)
(* Finite sums *)
Section Sums.
  Variable K : Num.
  Fixpoint rsum (l : list K) : K :=
    match l with [] => 0%rng | x :: t => (x + rsum t)%rng end.
  (* sum of f a over the elements of a list *)
  Definition sumof {A} (f : A -> K) (l : list A) : K := rsum (map f l).
End Sums.
Arguments rsum {K} l.
Arguments sumof {K A} f l.
