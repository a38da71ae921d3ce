(* The field of the classical reals as an instance of Fld, and sums over index ranges.
   Elements, materials and multi-point constraints are modelled over it: the C++ code computes in
   binary64; rounding is not modelled in these layers. *)
From Coq Require Import Reals Lra.
From Verif Require Import Base.
Local Open Scope nat_scope.

Definition RNum : Num := mkNum R 0%R 1%R Rplus Rmult Rminus Ropp.
Definition RRng : Rng := mkRng RNum (F_R Rfield).
Definition RFld : Fld := mkFld RRng Rdiv Rinv Rfield.

(* Σ over a list *)
Definition rsuml {A} (l : list A) (f : A -> R) : R := @sumof RNum A f l.
(* Σ_{k<n} f k *)
Definition rsumn (n : nat) (f : nat -> R) : R := rsuml (seq 0 n) f.

Lemma rsuml_nil : forall A (f : A -> R), rsuml [] f = 0%R.
Proof. reflexivity. Qed.
Lemma rsuml_cons : forall A (f : A -> R) a l, rsuml (a :: l) f = (f a + rsuml l f)%R.
Proof. reflexivity. Qed.

Lemma rsuml_ext : forall A (f g : A -> R) l, (forall a, In a l -> f a = g a) -> rsuml l f = rsuml l g.
Proof.
  induction l as [|a l IH]; intros E; [reflexivity|].
  rewrite !rsuml_cons. rewrite E by (left; reflexivity). rewrite IH; [reflexivity|].
  intros; apply E; right; assumption.
Qed.
Lemma rsuml_plus : forall A (f g : A -> R) l, rsuml l (fun a => f a + g a)%R = (rsuml l f + rsuml l g)%R.
Proof. induction l as [|a l IH]; [cbn; ring|]. rewrite !rsuml_cons, IH. ring. Qed.
Lemma rsuml_mul : forall A (f : A -> R) c l, rsuml l (fun a => c * f a)%R = (c * rsuml l f)%R.
Proof. induction l as [|a l IH]; [cbn; ring|]. rewrite !rsuml_cons, IH. ring. Qed.
Lemma rsuml_mulr : forall A (f : A -> R) c l, rsuml l (fun a => f a * c)%R = (rsuml l f * c)%R.
Proof. induction l as [|a l IH]; [cbn; ring|]. rewrite !rsuml_cons, IH. ring. Qed.
Lemma rsuml_zero : forall A (f : A -> R) l, (forall a, In a l -> f a = 0%R) -> rsuml l f = 0%R.
Proof.
  induction l as [|a l IH]; intros E; [reflexivity|].
  rewrite rsuml_cons, E by (left; reflexivity). rewrite IH; [ring|]. intros; apply E; right; assumption.
Qed.
Lemma rsuml_swap : forall A B (f : A -> B -> R) l m,
  rsuml l (fun a => rsuml m (f a)) = rsuml m (fun b => rsuml l (fun a => f a b)).
Proof.
  induction l as [|a l IH]; intros m.
  - cbn. symmetry. apply rsuml_zero. reflexivity.
  - rewrite rsuml_cons, IH, <- rsuml_plus. apply rsuml_ext. intros. rewrite rsuml_cons. reflexivity.
Qed.

Lemma rsumn_list : forall n f, rsumn n f = rsuml (seq 0 n) f.
Proof. reflexivity. Qed.
Lemma rsumn_ext : forall n f g, (forall k, k < n -> f k = g k) -> rsumn n f = rsumn n g.
Proof. intros n f g E. apply rsuml_ext. intros k Hk. apply in_seq in Hk. apply E. lia. Qed.
Lemma rsumn_plus : forall n f g, rsumn n (fun k => f k + g k)%R = (rsumn n f + rsumn n g)%R.
Proof. intros. apply rsuml_plus. Qed.
Lemma rsumn_mul : forall n c f, rsumn n (fun k => c * f k)%R = (c * rsumn n f)%R.
Proof. intros. apply rsuml_mul. Qed.
Lemma rsumn_mulr : forall n c f, rsumn n (fun k => f k * c)%R = (rsumn n f * c)%R.
Proof. intros. apply rsuml_mulr. Qed.
Lemma rsumn_swap : forall n m (f : nat -> nat -> R),
  rsumn n (fun i => rsumn m (f i)) = rsumn m (fun j => rsumn n (fun i => f i j)).
Proof. intros. apply rsuml_swap. Qed.
Lemma rsumn_zero : forall n f, (forall k, k < n -> f k = 0%R) -> rsumn n f = 0%R.
Proof. intros n f E. apply rsuml_zero. intros k Hk. apply in_seq in Hk. apply E. lia. Qed.

Lemma rsuml_shift : forall (f : nat -> R) n s, rsuml (seq (S s) n) f = rsuml (seq s n) (fun k => f (S k)).
Proof.
  intros f n. induction n as [|n IH]; intros s; [reflexivity|].
  cbn [seq]. rewrite !rsuml_cons, IH. reflexivity.
Qed.
Lemma rsumn_S : forall n f, rsumn (S n) f = (f 0%nat + rsumn n (fun k => f (S k)))%R.
Proof. intros. unfold rsumn. change (seq 0 (S n)) with (0 :: seq 1 n). rewrite rsuml_cons, rsuml_shift. reflexivity. Qed.
Lemma rsumn_last : forall n f, rsumn (S n) f = (rsumn n f + f n)%R.
Proof.
  induction n as [|n IH]; intros f; [cbn; ring|].
  rewrite rsumn_S, IH, rsumn_S. ring.
Qed.

(* Kronecker delta *)
Definition dlt (i j : nat) : R := if i =? j then 1%R else 0%R.
Lemma rsumn_dlt : forall n f i, i < n -> rsumn n (fun k => dlt i k * f k)%R = f i.
Proof.
  intros n. induction n as [|n IH]; intros f i Hi; [lia|].
  rewrite rsumn_last. destruct (Nat.eq_dec i n) as [->|Hn].
  - rewrite rsumn_zero. { unfold dlt. rewrite Nat.eqb_refl. ring. }
    intros k Hk. unfold dlt. replace (n =? k) with false by (symmetry; apply Nat.eqb_neq; lia). ring.
  - rewrite IH by lia. unfold dlt. replace (i =? n) with false by (symmetry; apply Nat.eqb_neq; lia). ring.
Qed.

(* decimal literals as quotients, for ring and field *)
Ltac decs := unfold Q2R in *; cbn [QArith_base.Qnum QArith_base.Qden] in *.
