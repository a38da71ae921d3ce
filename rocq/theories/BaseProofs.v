(* Lemmas about the definitions in Base.v *)
From Verif Require Export Base.
From Coq Require Import Permutation.

Lemma obind_ok {A B} (e : outcome A) (k : A -> outcome B) b :
  obind e k = Ok b -> exists a, e = Ok a /\ k a = Ok b.
Proof. destruct e; cbn; intros H; try discriminate; eauto. Qed.

Lemma asserting_ok {A} b (k : outcome A) a :
  asserting b k = Ok a -> b = true /\ k = Ok a.
Proof. destruct b; cbn; intros H; [auto|discriminate]. Qed.

Lemma upd_length {A} (l : list A) i a : length (upd l i a) = length l.
Proof. revert i; induction l as [|x l IH]; intros [|i]; cbn; auto. Qed.

Lemma nth_error_upd_same {A} (l : list A) i a :
  i < length l -> nth_error (upd l i a) i = Some a.
Proof. revert i; induction l as [|x l IH]; intros [|i] H; cbn in *; try lia; auto.
  apply IH; lia. Qed.

Lemma nth_error_upd_diff {A} (l : list A) i j a :
  i <> j -> nth_error (upd l i a) j = nth_error l j.
Proof. revert i j; induction l as [|x l IH]; intros [|i] [|j] H; cbn; auto; try lia. Qed.

Lemma nth_upd_same {A} (l : list A) i a d :
  i < length l -> nth i (upd l i a) d = a.
Proof. revert i; induction l as [|x l IH]; intros [|i] H; cbn in *; try lia; auto.
  apply IH; lia. Qed.

Lemma nth_upd_diff {A} (l : list A) i j a d :
  i <> j -> nth j (upd l i a) d = nth j l d.
Proof. revert i j; induction l as [|x l IH]; intros [|i] [|j] H; cbn; auto; try lia. Qed.

Lemma nth_upd {A} (l : list A) i j a d :
  i < length l -> nth j (upd l i a) d = if i =? j then a else nth j l d.
Proof.
  intros H. destruct (Nat.eqb_spec i j) as [->|N].
  - now apply nth_upd_same.
  - now apply nth_upd_diff.
Qed.

Lemma upd_out {A} (l : list A) i a : length l <= i -> upd l i a = l.
Proof. revert i; induction l as [|x l IH]; intros [|i] H; cbn in *; try lia; auto.
  now rewrite IH by lia. Qed.

Lemma aget_nth_error {A} (l : list A) i a : nth_error l i = Some a -> aget l i = Ok a.
Proof. unfold aget. now intros ->. Qed.

Lemma aget_nth {A} (l : list A) i d : i < length l -> aget l i = Ok (nth i l d).
Proof. intros H. unfold aget. now rewrite (nth_error_nth' l d H). Qed.

Lemma aset_ok {A} (l : list A) i a : i < length l -> aset l i a = Ok (upd l i a).
Proof. intros H. unfold aset. apply Nat.ltb_lt in H. now rewrite H. Qed.

Lemma ofold_app {A S} (f : S -> A -> outcome S) l1 l2 s :
  ofold f (l1 ++ l2) s = (s' <- ofold f l1 s ;; ofold f l2 s').
Proof. revert s; induction l1 as [|a l1 IH]; intros s; cbn; [reflexivity|].
  destruct (f s a); cbn; auto. Qed.

(* invariant rule for ofold that never fails *)
Lemma ofold_inv {A S} (f : S -> A -> outcome S) (I : S -> Prop) l s :
  I s -> (forall s a, In a l -> I s -> exists s', f s a = Ok s' /\ I s') ->
  exists s', ofold f l s = Ok s' /\ I s'.
Proof.
  revert s; induction l as [|a l IH]; intros s Hs Hf; cbn.
  - eauto.
  - destruct (Hf s a (or_introl eq_refl) Hs) as (s1 & E & H1). rewrite E; cbn.
    apply IH; auto. intros; apply Hf; auto. now right.
Qed.

Lemma ofold_inv_ok {A S} (f : S -> A -> outcome S) (I : S -> Prop) l s s' :
  ofold f l s = Ok s' -> I s ->
  (forall s a s', In a l -> I s -> f s a = Ok s' -> I s') -> I s'.
Proof.
  revert s; induction l as [|a l IH]; intros s; cbn.
  - intros [= <-] Hs _; auto.
  - intros H Hs Hf. apply obind_ok in H as (s1 & E & H).
    apply (IH s1); auto.
    + apply (Hf s a s1); cbn; auto.
    + intros t b t' Hb Ht Hbt. apply (Hf t b t'); cbn; auto.
Qed.

Lemma nth_error_repeat_lt {A} (a : A) n i :
  nth_error (repeat a n) i = if i <? n then Some a else None.
Proof. revert i; induction n as [|n IH]; intros [|i]; try reflexivity.
  cbn [repeat nth_error]. rewrite IH. reflexivity. Qed.

Lemma nth_error_map' {A B} (f : A -> B) l i :
  nth_error (map f l) i = option_map f (nth_error l i).
Proof. revert i; induction l; intros [|i]; cbn; auto. Qed.

(* list extensionality through nth_error *)
Lemma list_ext {A} (l1 l2 : list A) :
  (forall i, nth_error l1 i = nth_error l2 i) -> l1 = l2.
Proof.
  revert l2; induction l1 as [|x l1 IH]; intros [|y l2] H; auto.
  - specialize (H 0); discriminate.
  - specialize (H 0); discriminate.
  - f_equal. specialize (H 0); cbn in H; congruence.
    apply IH. intros i; apply (H (S i)).
Qed.

Lemma list_ext_nth {A} (d : A) (l1 l2 : list A) :
  length l1 = length l2 ->
  (forall i, i < length l1 -> nth i l1 d = nth i l2 d) -> l1 = l2.
Proof.
  revert l2; induction l1 as [|x l1 IH]; intros [|y l2] E H; cbn in *; try lia; auto.
  f_equal. apply (H 0); lia. apply IH; [lia|]. intros i Hi; apply (H (S i)); lia.
Qed.

Lemma nth_map_lt {A B} (f : A -> B) l i d d' :
  i < length l -> nth i (map f l) d = f (nth i l d').
Proof. revert i; induction l; intros [|i] H; cbn in *; try lia; auto. apply IHl; lia. Qed.

Lemma nth_map_seq {B} (f : nat -> B) s n i d :
  i < n -> nth i (map f (seq s n)) d = f (s + i).
Proof. intros H. rewrite (nth_map_lt _ _ _ _ 0) by (rewrite seq_length; auto).
  now rewrite seq_nth. Qed.

Lemma map_nth_seq {A} (l : list A) d : map (fun k => nth k l d) (seq 0 (length l)) = l.
Proof.
  apply (list_ext_nth d); rewrite ?map_length, ?seq_length; auto.
  intros i Hi. now rewrite nth_map_seq.
Qed.

Lemma NoDup_app_iff_aux {A} (l1 l2 : list A) :
  NoDup l1 -> NoDup l2 -> (forall x, In x l1 -> In x l2 -> False) -> NoDup (l1 ++ l2).
Proof.
  intros H1 H2 HD. induction H1 as [|x l1 Hx H1 IH]; cbn; auto. constructor.
  - rewrite in_app_iff. intros [C|C]; auto. apply (HD x); cbn; auto.
  - apply IH. intros y Hy. apply HD. now right.
Qed.

(* ------------------------------------------------------------------ *)
Section SumLemmas.
  Variable K : Rng.
  Add Ring Kring : (rth K).
  Local Open Scope rng_scope.

  Lemma rsum_app (l1 l2 : list K) : rsum (l1 ++ l2) = rsum l1 + rsum l2.
  Proof. induction l1 as [|x l1 IH]; cbn; [ring|rewrite IH; ring]. Qed.

  Lemma sumof_nil {A} (f : A -> K) : sumof f [] = 0.
  Proof. reflexivity. Qed.
  Lemma sumof_cons {A} (f : A -> K) a l : sumof f (a :: l) = f a + sumof f l.
  Proof. reflexivity. Qed.
  Lemma sumof_app {A} (f : A -> K) l1 l2 :
    sumof f (l1 ++ l2) = sumof f l1 + sumof f l2.
  Proof. unfold sumof. rewrite map_app. apply rsum_app. Qed.

  Lemma sumof_ext {A} (f g : A -> K) l :
    (forall a, In a l -> f a = g a) -> sumof f l = sumof g l.
  Proof. unfold sumof; intros H. f_equal. apply map_ext_in; auto. Qed.

  Lemma sumof_add {A} (f g : A -> K) l :
    sumof (fun a => f a + g a) l = sumof f l + sumof g l.
  Proof. induction l as [|a l IH]; unfold sumof in *; cbn; [ring|rewrite IH; ring]. Qed.

  Lemma sumof_sub {A} (f g : A -> K) l :
    sumof (fun a => f a - g a) l = sumof f l - sumof g l.
  Proof. induction l as [|a l IH]; unfold sumof in *; cbn; [ring|rewrite IH; ring]. Qed.

  Lemma sumof_scal {A} (c : K) (f : A -> K) l :
    sumof (fun a => c * f a) l = c * sumof f l.
  Proof. induction l as [|a l IH]; unfold sumof in *; cbn; [ring|rewrite IH; ring]. Qed.

  Lemma sumof_scal_r {A} (c : K) (f : A -> K) l :
    sumof (fun a => f a * c) l = sumof f l * c.
  Proof. induction l as [|a l IH]; unfold sumof in *; cbn; [ring|rewrite IH; ring]. Qed.

  Lemma sumof_zero {A} (f : A -> K) l :
    (forall a, In a l -> f a = 0) -> sumof f l = 0.
  Proof. intros H. induction l as [|a l IH]; unfold sumof in *; cbn; [reflexivity|].
    rewrite H by (now left). rewrite IH. ring. intros; apply H; now right. Qed.

  Lemma sumof_swap {A B} (f : A -> B -> K) la lb :
    sumof (fun a => sumof (f a) lb) la = sumof (fun b => sumof (fun a => f a b) la) lb.
  Proof.
    induction la as [|a la IH].
    - rewrite sumof_nil. symmetry. apply sumof_zero. intros; reflexivity.
    - rewrite sumof_cons, IH, <- sumof_add. apply sumof_ext. intros; reflexivity.
  Qed.

  Lemma sumof_map {A B} (g : A -> B) (f : B -> K) l :
    sumof f (map g l) = sumof (fun a => f (g a)) l.
  Proof. unfold sumof. now rewrite map_map. Qed.

  Lemma sumof_perm {A} (f : A -> K) l1 l2 :
    Permutation l1 l2 -> sumof f l1 = sumof f l2.
  Proof.
    unfold sumof. induction 1; cbn; try congruence. ring.
  Qed.

  (* picking one element out of a duplicate free list *)
  Lemma sumof_delta {A} (dec : forall x y : A, {x = y} + {x <> y}) (a : A) (f : A -> K) l :
    NoDup l -> In a l ->
    sumof (fun x => if dec x a then f x else 0) l = f a.
  Proof.
    induction l as [|x l IH]; intros ND HI; [destruct HI|].
    inversion ND as [|? ? N1 N2]; subst. rewrite sumof_cons.
    destruct (dec x a) as [->|NE].
    - rewrite sumof_zero; [ring|]. intros y Hy. destruct (dec y a); congruence.
    - destruct HI; [congruence|]. rewrite IH; auto. ring.
  Qed.

  Lemma sumof_delta_nat (n : nat) (f : nat -> K) l :
    NoDup l -> In n l ->
    sumof (fun x => if Nat.eqb x n then f x else 0) l = f n.
  Proof.
    intros ND HI. rewrite <- (sumof_delta Nat.eq_dec n f l ND HI).
    apply sumof_ext. intros a _. destruct (Nat.eqb_spec a n), (Nat.eq_dec a n); congruence.
  Qed.

  Lemma sumof_concat {A} (f : A -> K) (ll : list (list A)) :
    sumof f (concat ll) = sumof (fun l => sumof f l) ll.
  Proof. induction ll as [|l ll IH]; cbn [concat]; [reflexivity|].
    rewrite sumof_app, sumof_cons, IH. reflexivity. Qed.

  Lemma sumof_filter {A} (p : A -> bool) (f : A -> K) l :
    sumof f (filter p l) = sumof (fun a => if p a then f a else 0) l.
  Proof. induction l as [|a l IH]; cbn [filter]; [reflexivity|].
    rewrite sumof_cons. destruct (p a); rewrite ?sumof_cons, IH; ring. Qed.

  Lemma sumof_seq_S (f : nat -> K) s n :
    sumof f (seq s (S n)) = sumof f (seq s n) + f (s + n)%nat.
  Proof. rewrite seq_S, sumof_app. unfold sumof; cbn. ring. Qed.
End SumLemmas.
