(* linear arithmetic over canonical rationals *)
From Coq Require Import QArith Qcanon Lqa.
From Verif Require Import Base.

Lemma this_Q2Qc q : (this (Q2Qc q) == q)%Q.
Proof. apply Qred_correct. Qed.
Lemma this_plus a b : (this (a + b)%Qc == this a + this b)%Q.
Proof. apply Qred_correct. Qed.
Lemma this_mult a b : (this (a * b)%Qc == this a * this b)%Q.
Proof. apply Qred_correct. Qed.
Lemma this_opp a : (this (- a)%Qc == - this a)%Q.
Proof. apply Qred_correct. Qed.
Lemma this_minus a b : (this (a - b)%Qc == this a - this b)%Q.
Proof. unfold Qcminus. rewrite this_plus, this_opp. reflexivity. Qed.
Lemma this_inv a : (this (/ a)%Qc == / this a)%Q.
Proof. apply Qred_correct. Qed.
Lemma this_div a b : (this (a / b)%Qc == this a / this b)%Q.
Proof. unfold Qcdiv. rewrite this_mult, this_inv. reflexivity. Qed.
Lemma Qc_eq_this a b : a = b <-> (this a == this b)%Q.
Proof. split; [intros ->; reflexivity|apply Qc_is_canon]. Qed.
Lemma Qclt_this a b : (a < b)%Qc -> (this a < this b)%Q.
Proof. auto. Qed.
Lemma Qcle_this a b : (a <= b)%Qc -> (this a <= this b)%Q.
Proof. auto. Qed.
Lemma Qceq_this a b : a = b -> (this a == this b)%Q.
Proof. apply Qc_eq_this. Qed.
Lemma this_Qclt a b : (this a < this b)%Q -> (a < b)%Qc.
Proof. auto. Qed.
Lemma this_Qcle a b : (this a <= this b)%Q -> (a <= b)%Qc.
Proof. auto. Qed.

(* turns Qc facts into facts about Q and calls lra *)
Ltac qc_unf := cbn [QcRng QcNum rnum car r0 r1 radd rmul rsub ropp] in *.
Ltac qc_push :=
  repeat match goal with
  | H : @eq ?T ?a ?b |- _ => first [constr_eq T Qc; fail 1 | unify T Qc; change (@eq Qc a b) in H]
  end;
  try match goal with |- @eq ?T ?a ?b => unify T Qc; change (@eq Qc a b) end;
  repeat match goal with
  | H : _ = _ :> Qc |- _ => apply Qceq_this in H
  | H : _ <> _ :> Qc |- _ => rewrite Qc_eq_this in H
  | H : (_ < _)%Qc |- _ => apply Qclt_this in H
  | H : (_ <= _)%Qc |- _ => apply Qcle_this in H
  end;
  try match goal with
  | |- _ = _ :> Qc => apply Qc_is_canon
  | |- (_ < _)%Qc => apply this_Qclt
  | |- (_ <= _)%Qc => apply this_Qcle
  end;
  repeat match goal with
  | H : context[this (Q2Qc _)] |- _ => rewrite this_Q2Qc in H
  | H : context[this (_ + _)%Qc] |- _ => rewrite this_plus in H
  | H : context[this (_ - _)%Qc] |- _ => rewrite this_minus in H
  | H : context[this (_ * _)%Qc] |- _ => rewrite this_mult in H
  | H : context[this (- _)%Qc] |- _ => rewrite this_opp in H
  end;
  repeat first [rewrite this_Q2Qc | rewrite this_plus | rewrite this_minus | rewrite this_mult | rewrite this_opp].
Ltac qclra := qc_push; lra.
