(* Derivatives of rotations along curves of rotation vectors. *)
From Coq Require Import Reals Lra Lia.
Set Warnings "-ambiguous-paths".
From Coquelicot Require Import Coquelicot.
From Verif Require Import Base RealBase HyperProofs AsmModel MpcModel SpecMpc MpcProofs.
Local Open Scope R_scope.

Lemma d_sin : forall (f : R -> R) x a, is_derive f x a -> is_derive (fun s => sin (f s)) x (a * cos (f x)).
Proof. intros. apply (is_derive_comp sin f x (cos (f x)) a); [apply is_derive_Reals; apply derivable_pt_lim_sin|assumption]. Qed.
Lemma d_cos : forall (f : R -> R) x a, is_derive f x a -> is_derive (fun s => cos (f s)) x (a * - sin (f x)).
Proof. intros. apply (is_derive_comp cos f x (- sin (f x)) a); [apply is_derive_Reals; apply derivable_pt_lim_cos|assumption]. Qed.

(* derivative of the i,j entry with respect to th_l *)
Definition cd (k : coefs) (th : nat -> R) (i j l : nat) : R :=
  dlt i j * (- k1 k) * th l + k3 k * th l * skew th i j + k1 k * LeviCivita i l j
  + k4 k * th l * th i * th j + k2 k * (dlt i l * th j + th i * dlt j l).
Lemma rb_cDeriv_cd : forall th i j l, (i < 3)%nat -> (j < 3)%nat -> (l < 3)%nat -> rb_cDeriv th i j l = cd (rb_coefs (vnorm th)) th i j l.
Proof. intros. unfold rb_cDeriv, cd. rewrite theta0Mat_skew, !Imat_dlt by assumption. reflexivity. Qed.

Section Curve.
  Variables (th : R -> nat -> R) (t0 : R) (D : nat -> R).
  Hypothesis H : forall k, (k < 3)%nat -> is_derive (fun s : R => th s k) t0 (D k).

  Lemma d_sq : is_derive (fun s => sq (th s)) t0 (2 * (th t0 0%nat * D 0%nat + th t0 1%nat * D 1%nat + th t0 2%nat * D 2%nat)).
  Proof.
    pose proof (H 0%nat ltac:(lia)) as H0. pose proof (H 1%nat ltac:(lia)) as H1. pose proof (H 2%nat ltac:(lia)) as H2.
    unfold sq. eapply der_eq; [dv|]. ring.
  Qed.
  Lemma d_norm : vnorm (th t0) <> 0 ->
    is_derive (fun s => vnorm (th s)) t0 ((th t0 0%nat * D 0%nat + th t0 1%nat * D 1%nat + th t0 2%nat * D 2%nat) / vnorm (th t0)).
  Proof.
    intros N. eapply der_eq.
    - apply (is_derive_sqrt (fun s => sq (th s))); [apply d_sq|]. rewrite <- norm_sq. pose proof (norm_pos (th t0)). nra.
    - change (sqrt (sq (th t0))) with (vnorm (th t0)). field. assumption.
  Qed.
  Lemma d_skew : forall i j, (i < 3)%nat -> (j < 3)%nat -> is_derive (fun s => skew (th s) i j) t0 (skew D i j).
  Proof.
    intros i j Hi Hj. pose proof (H 0%nat ltac:(lia)) as H0. pose proof (H 1%nat ltac:(lia)) as H1. pose proof (H 2%nat ltac:(lia)) as H2.
    c3 Hi; c3 Hj; cbn [skew]; first [apply d_const | assumption | apply d_opp; assumption].
  Qed.
  Lemma skew_LC : forall i j, (i < 3)%nat -> (j < 3)%nat -> skew D i j = rsumn 3 (fun l => LeviCivita i l j * D l).
  Proof. intros i j Hi Hj. rewrite rs3. c3 Hi; c3 Hj; cbn [skew LeviCivita]; ring. Qed.

  Lemma d_rotation : forall i j, (i < 3)%nat -> (j < 3)%nat -> vnorm (th t0) <> 0 ->
    is_derive (fun s => rotation (th s) i j) t0 (rsumn 3 (fun l => cd (ex_coefs (vnorm (th t0))) (th t0) i j l * D l)).
  Proof.
    intros i j Hi Hj N.
    apply (is_derive_ext (fun s => rot_form (cos (vnorm (th s))) (k1 (ex_coefs (vnorm (th s)))) (k2 (ex_coefs (vnorm (th s)))) (th s) i j)).
    { intros s. symmetry. apply rotation_form; assumption. }
    pose proof (d_norm N) as Hn. pose proof (d_skew i j Hi Hj) as Hs. pose proof (H i Hi) as Hti. pose proof (H j Hj) as Htj.
    set (dn := (th t0 0%nat * D 0%nat + th t0 1%nat * D 1%nat + th t0 2%nat * D 2%nat) / vnorm (th t0)) in *.
    pose proof (d_cos _ _ _ Hn) as Hc. pose proof (d_sin _ _ _ Hn) as Hsn. cbv beta in Hc, Hsn.
    unfold rot_form. cbn [k1 k2 ex_coefs].
    eapply der_eq.
    - pose proof (d_inv (fun s => vnorm (th s)) t0 dn Hn N) as Hi1. cbv beta in Hi1.
      assert (N2 : vnorm (th t0) * vnorm (th t0) <> 0) by (apply Rmult_integral_contrapositive; split; assumption).
      pose proof (d_mult _ _ _ _ _ Hn Hn) as Hnn. cbv beta in Hnn.
      pose proof (d_inv (fun s => vnorm (th s) * vnorm (th s)) t0 _ Hnn N2) as Hi2. cbv beta in Hi2.
      dv.
    - rewrite skew_LC by assumption. rewrite !rs3. unfold cd. cbn [k1 k2 k3 k4 ex_coefs]. unfold dn.
      set (n := vnorm (th t0)) in *. set (c := cos n). set (s := sin n). set (k := skew (th t0) i j).
      set (L0 := LeviCivita i 0 j). set (L1 := LeviCivita i 1 j). set (L2 := LeviCivita i 2 j).
      assert (Di : D i = dlt i 0 * D 0%nat + dlt i 1 * D 1%nat + dlt i 2 * D 2%nat) by (c3 Hi; dlts; ring).
      assert (Dj : D j = dlt j 0 * D 0%nat + dlt j 1 * D 1%nat + dlt j 2 * D 2%nat) by (c3 Hj; dlts; ring).
      rewrite Di, Dj. generalize (dlt i 0) (dlt i 1) (dlt i 2) (dlt j 0) (dlt j 1) (dlt j 2) (dlt i j). intros.
      clearbody n c s k L0 L1 L2. clear - N. field. assumption.
  Qed.
End Curve.
