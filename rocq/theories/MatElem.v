(* Determinant and inverse: the special cases of sizes 1-3 agree with the general expansion; inverse for sizes 1-3 *)
From Verif Require Import Base MatModel.
Local Open Scope nat_scope.

Section Step.
  Variable K : Rng.
  Add Ring Kr : (rth K).
  Open Scope rng_scope.
  Lemma mdet_step : forall n (A : nat -> nat -> K),
    mdet (S (S n)) A
    = fst (fold_left (fun s j => (fst s + snd s * A 0%nat j * mdet (S n) (cross_cut A 0 j), snd s * - (1)))
                     (seq 0 (S (S n))) (0, 1)).
  Proof.
    intros [|[|n]] A.
    - cbn. unfold det2, det1, cross_cut. cbn. ring.
    - cbn. unfold det2, det3, cross_cut. cbn. ring.
    - reflexivity.
  Qed.
End Step.

Section Inv.
  Variable K : Fld.
  Add Field Kf : (fth K).
  Open Scope rng_scope.
  Definition mmul (n : nat) (A B : nat -> nat -> K) (i j : nat) : K := sumof (fun k => A i k * B k j) (seq 0 n).
  Definition eye (i j : nat) : K := if (i =? j)%nat then 1 else 0.

  Lemma lt3 : forall i n, (i < n -> n <= 3 -> i = 0 \/ (i = 1 /\ 2 <= n) \/ (i = 2 /\ n = 3))%nat.
  Proof. intros; lia. Qed.

  Lemma minv_small : forall n (A : nat -> nat -> K), (1 <= n <= 3)%nat -> mdet n A <> 0 ->
    forall i j, (i < n)%nat -> (j < n)%nat ->
      mmul n A (minv n A (mdet n A)) i j = eye i j /\ mmul n (minv n A (mdet n A)) A i j = eye i j.
  Proof.
    intros n A Hn Hd i j Hi Hj.
    assert (n = 1 \/ n = 2 \/ n = 3)%nat as [->|[->| ->]] by lia.
    - assert (i = 0%nat) as -> by lia. assert (j = 0%nat) as -> by lia.
      cbv -[car r0 r1 radd rmul rsub ropp fdiv finv rnum fr] in *. split; field; exact Hd.
    - assert (i = 0 \/ i = 1)%nat as Ei by lia. assert (j = 0 \/ j = 1)%nat as Ej by lia.
      cbv -[car r0 r1 radd rmul rsub ropp fdiv finv rnum fr not] in Hd.
      destruct Ei as [-> | ->], Ej as [-> | ->];
      (split; cbv -[car r0 r1 radd rmul rsub ropp fdiv finv rnum fr]; field; exact Hd).
    - assert (i = 0 \/ i = 1 \/ i = 2)%nat as Ei by lia. assert (j = 0 \/ j = 1 \/ j = 2)%nat as Ej by lia.
      cbv -[car r0 r1 radd rmul rsub ropp fdiv finv rnum fr not] in Hd.
      destruct Ei as [-> | [-> | ->]], Ej as [-> | [-> | ->]];
      (split; cbv -[car r0 r1 radd rmul rsub ropp fdiv finv rnum fr]; field; exact Hd).
  Qed.
End Inv.
Arguments mmul {K} _ _ _ _ _.
Arguments eye {K} _ _.
