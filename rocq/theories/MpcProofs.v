(* Rotations: algebra, derivatives, small angles. *)
From Coq Require Import Reals Lra Lia.
Set Warnings "-ambiguous-paths".
From Coquelicot Require Import Coquelicot.
From Verif Require Import Base RealBase HyperProofs AsmModel MpcModel SpecMpc.
Local Open Scope R_scope.

Lemma three' : forall i, (i < 3)%nat -> i = 0%nat \/ i = 1%nat \/ i = 2%nat.
Proof. lia. Qed.
Ltac c3 H := apply three' in H; destruct H as [-> | [-> | ->]].

Definition sq (th : nat -> R) : R := th 0%nat * th 0%nat + th 1%nat * th 1%nat + th 2%nat * th 2%nat.
Lemma sq_pos : forall th, 0 <= sq th.
Proof. intros. unfold sq. pose proof (Rle_0_sqr (th 0%nat)). pose proof (Rle_0_sqr (th 1%nat)). pose proof (Rle_0_sqr (th 2%nat)). unfold Rsqr in *. lra. Qed.
Lemma norm_sq : forall th, vnorm th * vnorm th = sq th.
Proof. intros. apply sqrt_sqrt. apply sq_pos. Qed.
Lemma norm_pos : forall th, 0 <= vnorm th.
Proof. intros. apply sqrt_pos. Qed.
Lemma norm_comp : forall th i, (i < 3)%nat -> Rabs (th i) <= vnorm th.
Proof.
  intros th i Hi. rewrite <- (Rabs_pos_eq (vnorm th)) by apply norm_pos. apply Rsqr_le_abs_0. unfold Rsqr. rewrite norm_sq. unfold sq.
  pose proof (Rle_0_sqr (th 0%nat)). pose proof (Rle_0_sqr (th 1%nat)). pose proof (Rle_0_sqr (th 2%nat)). unfold Rsqr in *. c3 Hi; lra.
Qed.
Lemma norm_0 : forall th, vnorm th = 0 -> forall i, (i < 3)%nat -> th i = 0.
Proof. intros th E i Hi. pose proof (norm_comp th i Hi) as A. rewrite E in A. pose proof (Rabs_pos (th i)). apply Rabs_eq_0. lra. Qed.

Lemma theta0Mat_skew : forall th i j, (i < 3)%nat -> (j < 3)%nat -> rb_theta0Mat th i j = skew th i j.
Proof. intros th i j Hi Hj. unfold rb_theta0Mat. c3 Hi; c3 Hj; cbn [LeviCivita skew]; ring. Qed.
Lemma Imat_dlt : forall i j, (i < 3)%nat -> (j < 3)%nat -> Imat i j = dlt i j.
Proof. intros i j Hi Hj. c3 Hi; c3 Hj; reflexivity. Qed.

(* c I + a [th]x + b th th^T *)
Definition rot_form (c a b : R) (th : nat -> R) (i j : nat) : R := c * dlt i j + a * skew th i j + b * (th i * th j).
Definition ex_coefs (t : R) : coefs :=
  mkCoefs (sin t / t) ((1 - cos t) / (t * t)) ((t * cos t - sin t) / (t * t * t)) ((t * sin t - 2 + 2 * cos t) / (t * t * t * t)).

Lemma rotation_form : forall th i j, (i < 3)%nat -> (j < 3)%nat ->
  rotation th i j = rot_form (cos (vnorm th)) (k1 (ex_coefs (vnorm th))) (k2 (ex_coefs (vnorm th))) th i j.
Proof.
  intros th i j Hi Hj. unfold rotation, rot_form. cbn [k1 k2 ex_coefs]. destruct (Req_EM_T (vnorm th) 0) as [E|N].
  - assert (Z : forall k, (k < 3)%nat -> th k = 0) by (apply norm_0; assumption).
    rewrite E, cos_0. assert (skew th i j = 0) as ->.
    { c3 Hi; c3 Hj; cbn [skew]; rewrite ?(Z 0%nat), ?(Z 1%nat), ?(Z 2%nat) by lia; ring. }
    rewrite (Z i) by assumption. ring.
  - field. assumption.
Qed.
Lemma rb_C_form : forall th i j, (i < 3)%nat -> (j < 3)%nat ->
  rb_C th i j = rot_form (cos (vnorm th)) (k1 (rb_coefs (vnorm th))) (k2 (rb_coefs (vnorm th))) th i j.
Proof. intros. unfold rb_C, rot_form. rewrite theta0Mat_skew, Imat_dlt by assumption. ring. Qed.
Lemma rb_coefs_large : forall t, small_angle <= t -> rb_coefs t = ex_coefs t.
Proof. intros t H. unfold rb_coefs. destruct (Rlt_dec t small_angle); [lra|reflexivity]. Qed.
Lemma rb_C_large : forall th i j, (i < 3)%nat -> (j < 3)%nat -> small_angle <= vnorm th -> rb_C th i j = rotation th i j.
Proof. intros. rewrite rb_C_form, rotation_form by assumption. rewrite rb_coefs_large by assumption. reflexivity. Qed.
Lemma rb_C_zero : forall th i j, (i < 3)%nat -> (j < 3)%nat -> vnorm th = 0 -> rb_C th i j = rotation th i j.
Proof.
  intros th i j Hi Hj E. rewrite rb_C_form, rotation_form by assumption. unfold rot_form.
  assert (Z : forall k, (k < 3)%nat -> th k = 0) by (apply norm_0; assumption).
  assert (skew th i j = 0) as ->.
  { c3 Hi; c3 Hj; cbn [skew]; rewrite ?(Z 0%nat), ?(Z 1%nat), ?(Z 2%nat) by lia; ring. }
  rewrite (Z i) by assumption. ring.
Qed.

(* orthogonality *)
Lemma dlt00 : dlt 0 0 = 1. Proof. reflexivity. Qed.
Lemma dlt01 : dlt 0 1 = 0. Proof. reflexivity. Qed.
Lemma dlt02 : dlt 0 2 = 0. Proof. reflexivity. Qed.
Lemma dlt10 : dlt 1 0 = 0. Proof. reflexivity. Qed.
Lemma dlt11 : dlt 1 1 = 1. Proof. reflexivity. Qed.
Lemma dlt12 : dlt 1 2 = 0. Proof. reflexivity. Qed.
Lemma dlt20 : dlt 2 0 = 0. Proof. reflexivity. Qed.
Lemma dlt21 : dlt 2 1 = 0. Proof. reflexivity. Qed.
Lemma dlt22 : dlt 2 2 = 1. Proof. reflexivity. Qed.
Ltac dlts := rewrite ?dlt00, ?dlt01, ?dlt02, ?dlt10, ?dlt11, ?dlt12, ?dlt20, ?dlt21, ?dlt22.

Lemma form_gram : forall c a b th i j, (i < 3)%nat -> (j < 3)%nat ->
  rsumn 3 (fun k => rot_form c a b th k i * rot_form c a b th k j)
  = (c * c + a * a * sq th) * dlt i j + (2 * c * b + b * b * sq th - a * a) * (th i * th j).
Proof.
  intros c a b th i j Hi Hj. rewrite rs3. unfold rot_form, sq. c3 Hi; c3 Hj; cbn [skew]; dlts; ring.
Qed.
Lemma form_det : forall c a b th, det33 (rot_form c a b th) = (c + b * sq th) * (c * c + a * a * sq th).
Proof. intros. unfold det33, rot_form, sq. cbn [skew]. dlts. ring. Qed.

Lemma ex_c1 : forall th, cos (vnorm th) * cos (vnorm th) + k1 (ex_coefs (vnorm th)) * k1 (ex_coefs (vnorm th)) * sq th = 1.
Proof.
  intros th. rewrite <- norm_sq. cbn [k1 ex_coefs]. destruct (Req_dec (vnorm th) 0) as [E|N].
  - rewrite E, cos_0. ring.
  - pose proof (sin2_cos2 (vnorm th)) as A. unfold Rsqr in A. rewrite <- A. field. assumption.
Qed.
Lemma ex_c2 : forall th i, (i < 3)%nat ->
  (2 * cos (vnorm th) * k2 (ex_coefs (vnorm th)) + k2 (ex_coefs (vnorm th)) * k2 (ex_coefs (vnorm th)) * sq th
   - k1 (ex_coefs (vnorm th)) * k1 (ex_coefs (vnorm th))) * th i = 0.
Proof.
  intros th i Hi. rewrite <- norm_sq. cbn [k1 k2 ex_coefs]. destruct (Req_dec (vnorm th) 0) as [E|N].
  - rewrite (norm_0 th E i Hi). ring.
  - apply Rmult_eq_0_compat_r. pose proof (sin2_cos2 (vnorm th)) as A. unfold Rsqr in A.
    set (t := vnorm th) in *. set (c := cos t) in *. set (s := sin t) in *.
    replace (2 * c * ((1 - c) / (t * t)) + (1 - c) / (t * t) * ((1 - c) / (t * t)) * (t * t) - s / t * (s / t))
      with ((1 - (s * s + c * c)) / (t * t)) by (field; assumption).
    rewrite A. field. assumption.
Qed.
Lemma ex_c3 : forall th, cos (vnorm th) + k2 (ex_coefs (vnorm th)) * sq th = 1.
Proof.
  intros th. rewrite <- norm_sq. cbn [k2 ex_coefs]. destruct (Req_dec (vnorm th) 0) as [E|N].
  - rewrite E, cos_0. ring.
  - field. assumption.
Qed.
Lemma rotation_orth : forall th i j, (i < 3)%nat -> (j < 3)%nat ->
  rsumn 3 (fun k => rotation th k i * rotation th k j) = dlt i j.
Proof.
  intros th i j Hi Hj.
  rewrite (rsumn_ext 3 _ (fun k => rot_form (cos (vnorm th)) (k1 (ex_coefs (vnorm th))) (k2 (ex_coefs (vnorm th))) th k i
     * rot_form (cos (vnorm th)) (k1 (ex_coefs (vnorm th))) (k2 (ex_coefs (vnorm th))) th k j)).
  2:{ intros k Hk. rewrite !rotation_form by assumption. reflexivity. }
  rewrite form_gram by assumption. rewrite ex_c1, <- Rmult_assoc, ex_c2 by assumption. ring.
Qed.
Lemma rotation_det : forall th, det33 (rotation th) = 1.
Proof.
  intros th. transitivity (det33 (rot_form (cos (vnorm th)) (k1 (ex_coefs (vnorm th))) (k2 (ex_coefs (vnorm th))) th)).
  - unfold det33. rewrite !rotation_form by lia. reflexivity.
  - rewrite form_det, ex_c1, ex_c3. ring.
Qed.
Lemma rotation_axis : forall th i, (i < 3)%nat -> rsumn 3 (fun j => rotation th i j * th j) = th i.
Proof.
  intros th i Hi.
  rewrite (rsumn_ext 3 _ (fun j => rot_form (cos (vnorm th)) (k1 (ex_coefs (vnorm th))) (k2 (ex_coefs (vnorm th))) th i j * th j)).
  2:{ intros k Hk. rewrite rotation_form by assumption. reflexivity. }
  transitivity ((cos (vnorm th) + k2 (ex_coefs (vnorm th)) * sq th) * th i).
  - rewrite rs3. unfold rot_form, sq. c3 Hi; cbn [skew]; dlts; ring.
  - rewrite ex_c3. ring.
Qed.

(* rotations about the same axis: angles add up *)
Lemma rotation_scaled : forall th x i j, (i < 3)%nat -> (j < 3)%nat -> vnorm th <> 0 ->
  rotation (fun k => x * th k) i j
  = rot_form (cos (x * vnorm th)) (sin (x * vnorm th) / vnorm th) ((1 - cos (x * vnorm th)) / (vnorm th * vnorm th)) th i j.
Proof.
  intros th x i j Hi Hj N. rewrite rotation_form by assumption.
  assert (E : vnorm (fun k => x * th k) = Rabs x * vnorm th).
  { unfold vnorm. rewrite <- (sqrt_Rsqr_abs x). rewrite <- sqrt_mult; [|apply Rle_0_sqr|apply sq_pos]. f_equal. unfold Rsqr. ring. }
  rewrite E. assert (S : skew (fun k => x * th k) i j = x * skew th i j) by (c3 Hi; c3 Hj; cbn [skew]; ring).
  unfold rot_form. rewrite S. cbn [k1 k2 ex_coefs].
  assert (C : cos (Rabs x * vnorm th) = cos (x * vnorm th)).
  { unfold Rabs. destruct (Rcase_abs x); [|reflexivity]. replace (- x * vnorm th) with (- (x * vnorm th)) by ring. apply cos_neg. }
  rewrite C. destruct (Req_dec x 0) as [->|Nx].
  - rewrite Rmult_0_l, sin_0, cos_0. unfold Rdiv. ring.
  - assert (Rabs x <> 0) by (apply Rabs_no_R0; assumption).
    assert (Sn : sin (Rabs x * vnorm th) / (Rabs x * vnorm th) * x = sin (x * vnorm th) / vnorm th).
    { unfold Rabs in *. destruct (Rcase_abs x).
      - replace (- x * vnorm th) with (- (x * vnorm th)) by ring. rewrite sin_neg. field. auto.
      - field. auto. }
    assert (XX : Rabs x * Rabs x = x * x) by (rewrite <- Rabs_mult; apply Rabs_pos_eq; apply Rle_0_sqr).
    rewrite <- Sn. replace (Rabs x * vnorm th * (Rabs x * vnorm th)) with (x * x * (vnorm th * vnorm th)) by (rewrite <- XX; ring).
    field. auto.
Qed.
Lemma form_comp : forall c a b c' a' b' th i j, (i < 3)%nat -> (j < 3)%nat ->
  rsumn 3 (fun k => rot_form c a b th i k * rot_form c' a' b' th k j)
  = rot_form (c * c' - a * a' * sq th) (c * a' + a * c') (c * b' + b * c' + b * b' * sq th + a * a') th i j.
Proof.
  intros c a b c' a' b' th i j Hi Hj. rewrite rs3. unfold rot_form, sq. c3 Hi; c3 Hj; cbn [skew]; dlts; ring.
Qed.
Lemma rotation_group : forall th x y i j, (i < 3)%nat -> (j < 3)%nat ->
  rsumn 3 (fun k => rotation (fun l => x * th l) i k * rotation (fun l => y * th l) k j) = rotation (fun l => (x + y) * th l) i j.
Proof.
  intros th x y i j Hi Hj. destruct (Req_dec (vnorm th) 0) as [E|N].
  - assert (Z : forall z k l, (k < 3)%nat -> (l < 3)%nat -> rotation (fun m => z * th m) k l = dlt k l).
    { intros z k l Hk Hl. unfold rotation.
      replace (vnorm (fun m => z * th m)) with 0.
      { destruct (Req_EM_T 0 0); [reflexivity|congruence]. }
      symmetry. unfold vnorm. rewrite !(norm_0 th E) by lia. transitivity (sqrt 0); [f_equal; ring | apply sqrt_0]. }
    rewrite (rsumn_ext 3 _ (fun k => dlt i k * dlt k j)) by (intros; rewrite !Z by assumption; reflexivity).
    rewrite rsumn_dlt by assumption. rewrite Z by assumption. reflexivity.
  - rewrite (rsumn_ext 3 _ (fun k => rot_form (cos (x * vnorm th)) (sin (x * vnorm th) / vnorm th) ((1 - cos (x * vnorm th)) / (vnorm th * vnorm th)) th i k
       * rot_form (cos (y * vnorm th)) (sin (y * vnorm th) / vnorm th) ((1 - cos (y * vnorm th)) / (vnorm th * vnorm th)) th k j)).
    2:{ intros k Hk. rewrite !rotation_scaled by assumption. reflexivity. }
    rewrite form_comp by assumption. rewrite rotation_scaled by assumption. rewrite <- norm_sq.
    rewrite Rmult_plus_distr_r, cos_plus, sin_plus. unfold rot_form. field. assumption.
Qed.
