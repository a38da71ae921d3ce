(* Derivatives of the invariants, of the inverse and of the stresses along curves of strains. *)
From Coq Require Import Reals Lra Lia.
Set Warnings "-ambiguous-paths".
From Coquelicot Require Import Coquelicot.
From Verif Require Import Base RealBase MatModel ElemModel HyperModel SpecHyper.
Local Open Scope R_scope.

(* weight of a component of a symmetric tensor in a full contraction *)
Definition wt (k : nat) : R := match k with 0%nat => 1 | 3%nat => 1 | 5%nat => 1 | _ => 2 end.
Definition con (A D : nat -> R) : R := rsumn 6 (fun l => wt l * A l * D l).
Definition detC (C : nat -> R) : R :=
  C 0%nat * (C 3%nat * C 5%nat - C 4%nat * C 4%nat) - C 1%nat * (C 1%nat * C 5%nat - C 4%nat * C 2%nat)
  + C 2%nat * (C 1%nat * C 4%nat - C 3%nat * C 2%nat).

Lemma rs6 : forall f, rsumn 6 f = f 0%nat + f 1%nat + f 2%nat + f 3%nat + f 4%nat + f 5%nat.
Proof. intros. unfold rsumn, rsuml. cbn. ring. Qed.
Lemma rs3 : forall f, rsumn 3 f = f 0%nat + f 1%nat + f 2%nat.
Proof. intros. unfold rsumn, rsuml. cbn. ring. Qed.
Lemma J_det : forall C, J_C C = sqrt (detC C).
Proof. reflexivity. Qed.
Lemma det_m3 : forall C, det3 (m3 C) = detC C.
Proof. intros. unfold det3, m3, detC. cbn. ring. Qed.
Lemma ddot_m3 : forall A D, ddot (m3 A) (m3 D) = con A D.
Proof. intros. unfold ddot, con. rewrite !rs3, rs6. unfold m3, wt. cbn. ring. Qed.
Lemma JJ : forall C, 0 < detC C -> J_C C * J_C C = detC C.
Proof. intros. rewrite J_det. apply sqrt_sqrt. lra. Qed.
Lemma J_pos : forall C, 0 < detC C -> 0 < J_C C.
Proof. intros. rewrite J_det. apply sqrt_lt_R0. assumption. Qed.

Lemma der_eq : forall (f : R -> R) (x l l' : R), is_derive f x l -> l = l' -> is_derive f x l'.
Proof. intros; subst; assumption. Qed.

Lemma d_plus : forall (f g : R -> R) x a b, is_derive f x a -> is_derive g x b -> is_derive (fun s => f s + g s) x (a + b).
Proof. intros. apply (is_derive_plus f g x a b); assumption. Qed.
Lemma d_minus : forall (f g : R -> R) x a b, is_derive f x a -> is_derive g x b -> is_derive (fun s => f s - g s) x (a - b).
Proof. intros. apply (is_derive_minus f g x a b); assumption. Qed.
Lemma d_mult : forall (f g : R -> R) x a b, is_derive f x a -> is_derive g x b -> is_derive (fun s => f s * g s) x (a * g x + f x * b).
Proof. intros. apply (is_derive_mult f g x a b); try assumption. intros. apply Rmult_comm. Qed.
Lemma d_opp : forall (f : R -> R) x a, is_derive f x a -> is_derive (fun s => - f s) x (- a).
Proof. intros. apply (is_derive_opp f x a); assumption. Qed.
Lemma d_const : forall c x, is_derive (fun _ : R => c) x 0.
Proof. intros. apply (is_derive_const c x). Qed.
Lemma d_inv : forall (f : R -> R) x a, is_derive f x a -> f x <> 0 -> is_derive (fun s => / f s) x (- a / (f x * f x)).
Proof. intros. eapply der_eq; [apply (is_derive_inv f x a); assumption|]. field. assumption. Qed.
Lemma d_id : forall x, is_derive (fun s : R => s) x 1.
Proof. intros. apply (is_derive_id x). Qed.
(* derivative of a polynomial expression in functions whose derivatives are known *)
Ltac dknown := match goal with H : is_derive ?f ?x _ |- is_derive ?f ?x _ => exact H end.
Ltac dv :=
  first [dknown |
  lazymatch goal with
  | |- is_derive (fun _ => ?c) ?x _ => exact (d_const c x)
  | |- is_derive (fun s => @?f s + @?g s) ?x _ => eapply (d_plus f g x); [dv|dv]
  | |- is_derive (fun s => @?f s - @?g s) ?x _ => eapply (d_minus f g x); [dv|dv]
  | |- is_derive (fun s => @?f s * @?g s) ?x _ => eapply (d_mult f g x); [dv|dv]
  | |- is_derive (fun s => - @?f s) ?x _ => eapply (d_opp f x); dv
  | |- is_derive (fun s => @?f s / @?c s) ?x _ => eapply (d_mult f (fun s => / c s) x); [dv|dv]
  | |- is_derive (fun s => / @?f s) ?x _ => eapply (d_inv f x); [dv|]
  | |- is_derive (fun s => s) ?x _ => apply d_id
  end].

Section Curve.
  Variable (C : R -> nat -> R) (t : R) (dC : nat -> R).
  Hypothesis HC : curve C t dC.
  Hypothesis Hd : 0 < detC (C t).
  Let Ci := invC_C (C t) (J_C (C t)).
  Let X := con Ci dC.
  Let J := J_C (C t).
  Let pp := pow_m23 J.
  Let H0 : is_derive (fun s => C s 0%nat) t (dC 0%nat). Proof. apply HC; lia. Qed.
  Let H1 : is_derive (fun s => C s 1%nat) t (dC 1%nat). Proof. apply HC; lia. Qed.
  Let H2 : is_derive (fun s => C s 2%nat) t (dC 2%nat). Proof. apply HC; lia. Qed.
  Let H3 : is_derive (fun s => C s 3%nat) t (dC 3%nat). Proof. apply HC; lia. Qed.
  Let H4 : is_derive (fun s => C s 4%nat) t (dC 4%nat). Proof. apply HC; lia. Qed.
  Let H5 : is_derive (fun s => C s 5%nat) t (dC 5%nat). Proof. apply HC; lia. Qed.
  Ltac der := eapply der_eq; [dv|].

  Lemma der_det : is_derive (fun s => detC (C s)) t (detC (C t) * X).
  Proof.
    unfold detC at 1. der. unfold X, con, Ci. rewrite rs6. unfold invC_C, wt.
    pose proof (JJ _ Hd) as E. fold J in E |- *. rewrite <- E.
    assert (J <> 0) by (apply Rgt_not_eq, J_pos; exact Hd).
    field. assumption.
  Qed.
  Lemma der_J : is_derive (fun s => J_C (C s)) t (J * X / 2).
  Proof.
    eapply der_eq.
    - apply (is_derive_comp sqrt (fun s => detC (C s))); [|exact der_det].
      apply is_derive_Reals. apply derivable_pt_lim_sqrt. exact Hd.
    - unfold scal; cbn. unfold mult; cbn. rewrite <- J_det. fold J.
      pose proof (JJ _ Hd) as E. fold J in E. rewrite <- E.
      assert (J <> 0) by (apply Rgt_not_eq, J_pos; exact Hd). field. assumption.
  Qed.
  Lemma der_I1 : is_derive (fun s => IC_C (C s) 0) t (con mI dC).
  Proof. cbn [IC_C]. der. unfold con. rewrite rs6. unfold wt, mI. ring. Qed.
  Lemma der_I2 : is_derive (fun s => IC_C (C s) 1) t (con (fun l => IC_C (C t) 0 * mI l - C t l) dC).
  Proof. cbn [IC_C]. der. unfold con. rewrite rs6. unfold wt, mI. ring. Qed.
  Lemma der_pp : is_derive (fun s => pow_m23 (J_C (C s))) t (- pp * X / 3).
  Proof.
    assert (P : 0 < J) by (apply J_pos; exact Hd).
    unfold pow_m23, Rpower. eapply der_eq.
    - apply (is_derive_comp exp (fun s => - (2) / 3 * ln (J_C (C s)))).
      + apply is_derive_Reals. apply derivable_pt_lim_exp.
      + apply is_derive_scal. apply (is_derive_comp ln (fun s => J_C (C s))); [|exact der_J].
        apply is_derive_Reals. apply derivable_pt_lim_ln. exact P.
    - unfold scal; cbn. unfold mult; cbn. fold J. unfold pp, pow_m23, Rpower. field. lra.
  Qed.
  Lemma der_oo : is_derive (fun s => 1 / (J_C (C s) * J_C (C s))) t (- X / detC (C t)).
  Proof.
    assert (P : J <> 0) by (apply Rgt_not_eq, J_pos; exact Hd).
    pose proof der_J as Q. unfold Rdiv at 1. der.
    - fold J. apply Rmult_integral_contrapositive; split; assumption.
    - rewrite <- (JJ _ Hd). fold J. field. assumption.
  Qed.
  Lemma der_inv : forall k, (k < 6)%nat -> is_derive (fun s => invC_C (C s) (J_C (C s)) k) t (con (hIIt Ci k) dC).
  Proof.
    pose proof der_oo as Q. pose proof (JJ _ Hd) as E.
    intros k Hk.
    assert (K : (k = 0 \/ k = 1 \/ k = 2 \/ k = 3 \/ k = 4 \/ k = 5)%nat) by lia.
    destruct K as [-> | [-> | [-> | [-> | [-> | ->]]]]]; unfold invC_C;
    (der; unfold X, con; rewrite !rs6; unfold hIIt, Ci, invC_C, wt; rewrite !E;
     assert (D : detC (C t) <> 0) by lra; revert D; unfold detC; intros D; field; exact D).
  Qed.
  Let I1 s := IC_C (C s) 0.
  Let I2 s := IC_C (C s) 1.
  Let P s := pow_m23 (J_C (C s)).
  Lemma der_I1r : is_derive (fun s => IC_C (C s) 0 * pow_m23 (J_C (C s))) t (pp * con (hA (C t) Ci) dC).
  Proof.
    pose proof der_I1. pose proof der_pp. der.
    unfold X, con, hA; rewrite !rs6; fold J pp. field.
  Qed.
  Lemma der_I2r : is_derive (fun s => IC_C (C s) 1 * (pow_m23 (J_C (C s)) * pow_m23 (J_C (C s)))) t (pp * pp * con (hB (C t) Ci) dC).
  Proof.
    pose proof der_I2. pose proof der_pp. der.
    unfold X, con, hB; rewrite !rs6; fold J pp. field.
  Qed.
  Lemma pow3 : pp * (pp * pp) = 1 / (J * J).
  Proof.
    assert (Q : 0 < J) by (apply J_pos; exact Hd).
    unfold pp, pow_m23. rewrite <- !Rpower_plus.
    replace (- (2) / 3 + (- (2) / 3 + - (2) / 3)) with (- (1 + 1)) by lra.
    rewrite Rpower_Ropp, Rpower_plus, Rpower_1 by exact Q. field. lra.
  Qed.
End Curve.

(* the functions of a material are the derivatives of its energy *)
Record good (m : hyper) : Prop := mkGood {
  good_first : forall (x y : R -> R) (t dx dy z : R), is_derive x t dx -> is_derive y t dy ->
    is_derive (fun s => hW m (x s) (y s) z) t (al (W_first m (x t) (y t) z) AL_1 * dx + al (W_first m (x t) (y t) z) AL_2 * dy);
  good_second1 : forall (x y : R -> R) (t dx dy z z' : R), is_derive x t dx -> is_derive y t dy ->
    is_derive (fun s => al (W_first m (x s) (y s) z) AL_1) t (al (W_second m (x t) (y t) z') AL_11 * dx + al (W_second m (x t) (y t) z') AL_12 * dy);
  good_second2 : forall (x y : R -> R) (t dx dy z z' : R), is_derive x t dx -> is_derive y t dy ->
    is_derive (fun s => al (W_first m (x s) (y s) z) AL_2) t (al (W_second m (x t) (y t) z') AL_12 * dx + al (W_second m (x t) (y t) z') AL_22 * dy);
  good_same1 : forall x y z z', al (W_first m x y z) AL_1 = al (W_second m x y z') AL_1;
  good_same2 : forall x y z z', al (W_first m x y z) AL_2 = al (W_second m x y z') AL_2;
  good_zero : forall z, hW m 3 3 z = 0 }.

Lemma known_good : forall m, known m -> good m.
Proof.
  intros m [G K|C10 C20 C30 C01 K|C10 C01 K]; constructor; intros; cbn [neo_hookean biderman mooney_rivlin hW W_first W_second al nth];
    try reflexivity; try (eapply der_eq; [dv|]); ring.
Qed.

Section Stress.
  Variable m : hyper.
  Hypothesis Hm : good m.
  Variable (C : R -> nat -> R) (p : R -> R) (t : R) (dC : nat -> R) (dp : R).
  Hypothesis HC : curve C t dC.
  Hypothesis Hp : is_derive p t dp.
  Hypothesis Hd : 0 < detC (C t).

  Lemma der_energy : is_derive (fun s => hW m (IC_C (C s) 0 * pow_m23 (J_C (C s))) (IC_C (C s) 1 * (pow_m23 (J_C (C s)) * pow_m23 (J_C (C s)))) 1
                                         + p t * (J_C (C s) - 1)) t (1 / 2 * con (S_comp m (C t) (p t)) dC).
  Proof.
    pose proof (der_I1r C t dC HC Hd) as D1. pose proof (der_I2r C t dC HC Hd) as D2. pose proof (der_J C t dC HC Hd) as D3.
    pose proof (good_first m Hm _ _ _ _ _ 1 D1 D2) as D4.
    eapply der_eq.
    { apply d_plus; [exact D4|]. apply d_mult; [apply d_const|]. apply d_minus; [exact D3|apply d_const]. }
    cbv beta.
    rewrite (good_same1 m Hm _ _ 1 0), (good_same2 m Hm _ _ 1 0).
    rewrite <- (good_same1 m Hm _ _ 0 0), <- (good_same2 m Hm _ _ 0 0).
    unfold S_comp. cbn [IC_C]. fold (IC_C (C t) 0). fold (IC_C (C t) 1).
    set (a1 := al _ AL_1). set (a2 := al _ AL_2). unfold con. rewrite !rs6.
    set (J := J_C (C t)). set (pp := pow_m23 J). field.
  Qed.
  Lemma der_S : forall k, (k < 6)%nat ->
    is_derive (fun s => S_comp m (C s) (p s) k) t (con (D_comp m (C t) (p t) k) dC + dp * Dp_comp (C t) k).
  Proof.
    intros k Hk.
    pose proof (der_I1 C t dC HC) as E1. pose proof (der_I2 C t dC HC) as E2. pose proof (der_pp C t dC HC Hd) as E3.
    pose proof (der_J C t dC HC Hd) as E4. pose proof (der_inv C t dC HC Hd k Hk) as E5.
    pose proof (HC k Hk) as E6.
    pose proof (der_I1r C t dC HC Hd) as D1. pose proof (der_I2r C t dC HC Hd) as D2.
    pose proof (good_second1 m Hm _ _ _ _ _ 0 1 D1 D2) as F1. pose proof (good_second2 m Hm _ _ _ _ _ 0 1 D1 D2) as F2.
    clear D1 D2. cbv beta in F1, F2.
    set (J := fun s => J_C (C s)) in *. set (P := fun s => pow_m23 (J_C (C s))) in *.
    set (I1 := fun s => IC_C (C s) 0) in *. set (I2 := fun s => IC_C (C s) 1) in *.
    set (Ci := fun s => invC_C (C s) (J_C (C s)) k) in *. set (ck := fun s => C s k) in *.
    set (a1 := fun s => al (W_first m (IC_C (C s) 0 * pow_m23 (J_C (C s))) (IC_C (C s) 1 * (pow_m23 (J_C (C s)) * pow_m23 (J_C (C s)))) 0) AL_1) in *.
    set (a2 := fun s => al (W_first m (IC_C (C s) 0 * pow_m23 (J_C (C s))) (IC_C (C s) 1 * (pow_m23 (J_C (C s)) * pow_m23 (J_C (C s)))) 0) AL_2) in *.
    change (is_derive (fun s => 2 * a1 s * P s * (mI k - 1 / 3 * I1 s * Ci s) + 2 * a2 s * (P s * P s) * (I1 s * mI k - ck s - 2 / 3 * I2 s * Ci s)
                               + p s * J s * Ci s) t (con (D_comp m (C t) (p t) k) dC + dp * Dp_comp (C t) k)).
    change (is_derive (fun s => J s) t (J_C (C t) * con (invC_C (C t) (J_C (C t))) dC / 2)) in E4.
    change (is_derive (fun s => P s) t (- pow_m23 (J_C (C t)) * con (invC_C (C t) (J_C (C t))) dC / 3)) in E3.
    change (is_derive (fun s => I1 s) t (con mI dC)) in E1.
    change (is_derive (fun s => I2 s) t (con (fun l : nat => IC_C (C t) 0 * mI l - C t l) dC)) in E2.
    change (is_derive (fun s => Ci s) t (con (hIIt (invC_C (C t) (J_C (C t))) k) dC)) in E5.
    change (is_derive (fun s => ck s) t (dC k)) in E6.
    match type of F1 with is_derive _ _ ?d => change (is_derive (fun s => a1 s) t d) in F1 end.
    match type of F2 with is_derive _ _ ?d => change (is_derive (fun s => a2 s) t d) in F2 end.
    eapply der_eq; [dv|].
    pose proof (pow3 C t Hd) as Q.
    assert (K : dC k = con (mII k) dC).
    { unfold con. rewrite rs6.
      assert (K : (k = 0 \/ k = 1 \/ k = 2 \/ k = 3 \/ k = 4 \/ k = 5)%nat) by lia.
      destruct K as [-> | [-> | [-> | [-> | [-> | ->]]]]]; unfold mII, wt; field. }
    rewrite K. unfold D_comp, Dp_comp. cbv beta zeta. change (IC_C (C t) 2) with (J_C (C t)).
    rewrite <- Q.
    subst a1 a2 J P I1 I2 Ci ck. cbv beta.
    rewrite (good_same1 m Hm _ _ 0 1), (good_same2 m Hm _ _ 0 1).
    set (alpha := W_second m _ _ 1). set (a1 := al alpha AL_1). set (a2 := al alpha AL_2).
    set (a11 := al alpha AL_11). set (a12 := al alpha AL_12). set (a22 := al alpha AL_22).
    set (J := J_C (C t)). set (pp := pow_m23 J). set (Ci := invC_C (C t) J).
    unfold con. rewrite !rs6. unfold hA, hB.
    set (i1 := IC_C (C t) 0). set (i2 := IC_C (C t) 1).
    generalize (hIIt Ci k). generalize (mII k). intros II IIt. field.
  Qed.
End Stress.
