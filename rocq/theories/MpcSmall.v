(* Small rotations: Taylor bounds, derivative at zero, error of the constants used below 1e-3. *)
From Coq Require Import Reals Lra Lia Psatz.
Set Warnings "-ambiguous-paths".
From Coquelicot Require Import Coquelicot.
From Verif Require Import Base RealBase HyperProofs AsmModel MpcModel SpecMpc MpcProofs MpcDer.
Local Open Scope R_scope.

Lemma PI_2' : 2 < PI.
Proof. pose proof PI2_1. lra. Qed.
Lemma sin_bd : forall t, 0 <= t <= 1 -> t - t ^ 3 / 6 <= sin t <= t - t ^ 3 / 6 + t ^ 5 / 120.
Proof.
  intros t Ht. pose proof (pre_sin_bound t 0 ltac:(lra) ltac:(lra)) as A.
  unfold sin_approx, sin_term in A. cbn [Nat.mul Nat.add sum_f_R0 fact pow INR] in A.
  replace (1 + 1 + 1 + 1 + 1 + 1) with 6 in A by ring. lra.
Qed.
Lemma cos_bd : forall t, 0 <= t <= 1 -> 1 - t ^ 2 / 2 + t ^ 4 / 24 - t ^ 6 / 720 <= cos t <= 1 - t ^ 2 / 2 + t ^ 4 / 24.
Proof.
  intros t Ht. pose proof (pre_cos_bound t 0 ltac:(lra) ltac:(lra)) as A. pose proof (pre_cos_bound t 1 ltac:(lra) ltac:(lra)) as B.
  unfold cos_approx, cos_term in A, B. cbn [Nat.mul Nat.add sum_f_R0 pow] in A, B.
  replace (INR (fact 0)) with 1 in A, B by reflexivity.
  replace (INR (fact 2)) with 2 in A, B by (cbn; ring).
  replace (INR (fact 4)) with 24 in A, B by (cbn; ring).
  assert (F6 : INR (fact 6) = 720) by (rewrite INR_IZR_INZ; reflexivity). rewrite F6 in B.
  destruct A as [_ A]. destruct B as [B _]. lra.
Qed.
Lemma small_coefs : forall t, 0 < t <= 1 ->
  Rabs (1 - k1 (ex_coefs t)) <= t ^ 2 / 6 /\ Rabs (1 / 2 - k2 (ex_coefs t)) <= t ^ 2 / 24
  /\ Rabs (- 1 / 3 - k3 (ex_coefs t)) <= t ^ 2 / 24 /\ Rabs (- 1 / 12 - k4 (ex_coefs t)) <= t ^ 2 / 120.
Proof.
  intros t Ht. pose proof (sin_bd t ltac:(lra)) as S. pose proof (cos_bd t ltac:(lra)) as C. cbn [k1 k2 k3 k4 ex_coefs].
  assert (T2 : 0 < t ^ 2) by (apply pow_lt; lra). assert (T3 : 0 < t ^ 3) by (apply pow_lt; lra).
  assert (T4 : 0 < t ^ 4) by (apply pow_lt; lra). assert (T5 : 0 < t ^ 5) by (apply pow_lt; lra). assert (T6 : 0 < t ^ 6) by (apply pow_lt; lra).
  assert (T7 : 0 < t ^ 7) by (apply pow_lt; lra).
  assert (L64 : t ^ 6 <= t ^ 4) by (replace (t ^ 6) with (t ^ 4 * t ^ 2) by ring; nra).
  assert (L53 : t ^ 5 <= t ^ 3) by (replace (t ^ 5) with (t ^ 3 * t ^ 2) by ring; nra).
  assert (L75 : t ^ 7 <= t ^ 5) by (replace (t ^ 7) with (t ^ 5 * t ^ 2) by ring; nra).
  assert (Q : forall x a b, 0 < a -> - (b * a) <= x <= b * a -> Rabs (x / a) <= b).
  { intros x a b Ha Hx. unfold Rdiv. apply Rabs_le. split.
    - apply Rmult_le_reg_r with a; [assumption|]. rewrite Rmult_assoc, Rinv_l by lra. lra.
    - apply Rmult_le_reg_r with a; [assumption|]. rewrite Rmult_assoc, Rinv_l by lra. lra. }
  repeat split.
  - replace (1 - sin t / t) with ((t - sin t) / t) by (field; lra). apply Q; [lra|].
    replace (t ^ 2 / 6 * t) with (t ^ 3 / 6) by field. lra.
  - replace (1 / 2 - (1 - cos t) / (t * t)) with ((t ^ 2 / 2 - 1 + cos t) / (t * t)) by (field; lra). apply Q; [nra|].
    replace (t ^ 2 / 24 * (t * t)) with (t ^ 4 / 24) by field. lra.
  - replace (- 1 / 3 - (t * cos t - sin t) / (t * t * t)) with ((- t ^ 3 / 3 - t * cos t + sin t) / (t * t * t)) by (field; lra).
    apply Q; [nra|]. replace (t ^ 2 / 24 * (t * t * t)) with (t ^ 5 / 24) by field.
    assert (t * (1 - t ^ 2 / 2 + t ^ 4 / 24 - t ^ 6 / 720) <= t * cos t <= t * (1 - t ^ 2 / 2 + t ^ 4 / 24)) by (split; apply Rmult_le_compat_l; lra).
    replace (t * (1 - t ^ 2 / 2 + t ^ 4 / 24 - t ^ 6 / 720)) with (t - t ^ 3 / 2 + t ^ 5 / 24 - t ^ 7 / 720) in * by field.
    replace (t * (1 - t ^ 2 / 2 + t ^ 4 / 24)) with (t - t ^ 3 / 2 + t ^ 5 / 24) in * by field. lra.
  - replace (- 1 / 12 - (t * sin t - 2 + 2 * cos t) / (t * t * t * t)) with ((- t ^ 4 / 12 - t * sin t + 2 - 2 * cos t) / (t ^ 4)) by (field; lra).
    apply Q; [assumption|]. replace (t ^ 2 / 120 * t ^ 4) with (t ^ 6 / 120) by field.
    assert (t * (t - t ^ 3 / 6) <= t * sin t <= t * (t - t ^ 3 / 6 + t ^ 5 / 120)) by (split; apply Rmult_le_compat_l; lra).
    replace (t * (t - t ^ 3 / 6)) with (t ^ 2 - t ^ 4 / 6) in * by field.
    replace (t * (t - t ^ 3 / 6 + t ^ 5 / 120)) with (t ^ 2 - t ^ 4 / 6 + t ^ 6 / 120) in * by field. lra.
Qed.

Lemma skew_le : forall th i j, (i < 3)%nat -> (j < 3)%nat -> Rabs (skew th i j) <= vnorm th.
Proof.
  intros th i j Hi Hj. pose proof (norm_comp th 0 ltac:(lia)). pose proof (norm_comp th 1 ltac:(lia)). pose proof (norm_comp th 2 ltac:(lia)).
  pose proof (norm_pos th). c3 Hi; c3 Hj; cbn [skew]; rewrite ?Rabs_Ropp, ?Rabs_R0; assumption.
Qed.
Lemma dlt_le : forall i j, Rabs (dlt i j) <= 1.
Proof. intros. unfold dlt. destruct (i =? j)%nat; [rewrite Rabs_R1|rewrite Rabs_R0]; lra. Qed.
Lemma mul_le : forall a b A B, Rabs a <= A -> Rabs b <= B -> Rabs (a * b) <= A * B.
Proof. intros. rewrite Rabs_mult. apply Rmult_le_compat; try assumption; apply Rabs_pos. Qed.
Lemma add_le : forall a b A B, Rabs a <= A -> Rabs b <= B -> Rabs (a + b) <= A + B.
Proof. intros. pose proof (Rabs_triang a b). lra. Qed.
Lemma sub_le : forall a b A B, Rabs a <= A -> Rabs b <= B -> Rabs (a - b) <= A + B.
Proof. intros. unfold Rminus. apply add_le; [assumption|]. rewrite Rabs_Ropp. assumption. Qed.

(* the matrix used for small angles, against the rotation *)
Lemma small_C : forall th i j, (i < 3)%nat -> (j < 3)%nat -> 0 < vnorm th < small_angle ->
  Rabs (rb_C th i j - rotation th i j) <= vnorm th ^ 3 / 5.
Proof.
  intros th i j Hi Hj Ht. rewrite rb_C_form, rotation_form by assumption. unfold rot_form, rb_coefs.
  destruct (Rlt_dec (vnorm th) small_angle) as [_|]; [|lra]. unfold small_angle in Ht.
  pose proof (small_coefs (vnorm th) ltac:(lra)) as (A1 & A2 & _ & _). set (t := vnorm th) in *. cbn [k1 k2].
  replace (cos t * dlt i j + 1 * skew th i j + 1 / 2 * (th i * th j) -
    (cos t * dlt i j + k1 (ex_coefs t) * skew th i j + k2 (ex_coefs t) * (th i * th j)))
    with ((1 - k1 (ex_coefs t)) * skew th i j + (1 / 2 - k2 (ex_coefs t)) * (th i * th j)) by ring.
  eapply Rle_trans; [apply add_le; apply mul_le; [exact A1|apply skew_le; assumption|exact A2|apply mul_le; apply norm_comp; assumption]|].
  fold t. assert (0 < t ^ 3) by (apply pow_lt; lra). assert (t ^ 4 <= t ^ 3 / 1000) by (replace (t ^ 4) with (t ^ 3 * t) by ring; nra).
  replace (t ^ 2 / 6 * t + t ^ 2 / 24 * (t * t)) with (t ^ 3 / 6 + t ^ 4 / 24) by field. lra.
Qed.
Lemma LC_le : forall i j k, Rabs (LeviCivita i j k) <= 1.
Proof.
  intros i j k. unfold LeviCivita.
  destruct i as [|[|[|?]]], j as [|[|[|?]]], k as [|[|[|?]]]; rewrite ?Rabs_R0, ?Rabs_R1; try lra; rewrite Rabs_left; lra.
Qed.
Lemma small_cd : forall th i j l, (i < 3)%nat -> (j < 3)%nat -> (l < 3)%nat -> 0 < vnorm th < small_angle ->
  Rabs (rb_cDeriv th i j l - cd (ex_coefs (vnorm th)) th i j l) <= vnorm th ^ 2 / 5.
Proof.
  intros th i j l Hi Hj Hl Ht. rewrite rb_cDeriv_cd by assumption. unfold rb_coefs.
  destruct (Rlt_dec (vnorm th) small_angle) as [_|]; [|lra]. unfold small_angle in Ht.
  pose proof (small_coefs (vnorm th) ltac:(lra)) as (A1 & A2 & A3 & A4). set (t := vnorm th) in *. unfold cd. cbn [k1 k2 k3 k4].
  set (e := ex_coefs t) in *.
  match goal with |- Rabs ?x <= _ => replace x with
    ((1 - k1 e) * (LeviCivita i l j - dlt i j * th l) + (- 1 / 3 - k3 e) * (th l * skew th i j)
     + (- 1 / 12 - k4 e) * (th l * (th i * th j)) + (1 / 2 - k2 e) * (dlt i l * th j + th i * dlt j l)) by ring end.
  assert (B1 : Rabs (LeviCivita i l j - dlt i j * th l) <= 1 + 1 * t).
  { apply sub_le; [apply LC_le|apply mul_le; [apply dlt_le|apply norm_comp; assumption]]. }
  assert (B2 : Rabs (th l * skew th i j) <= t * t) by (apply mul_le; [apply norm_comp; assumption|apply skew_le; assumption]).
  assert (B3 : Rabs (th l * (th i * th j)) <= t * (t * t)) by (apply mul_le; [|apply mul_le]; apply norm_comp; assumption).
  assert (B4 : Rabs (dlt i l * th j + th i * dlt j l) <= 1 * t + t * 1).
  { apply add_le; apply mul_le; first [apply dlt_le|apply norm_comp; assumption]. }
  eapply Rle_trans; [apply add_le; [apply add_le; [apply add_le|]|]; apply mul_le;
    [exact A1|exact B1|exact A3|exact B2|exact A4|exact B3|exact A2|exact B4]|].
  assert (0 < t ^ 2) by (apply pow_lt; lra). assert (t ^ 3 <= t ^ 2 / 1000) by (replace (t ^ 3) with (t ^ 2 * t) by ring; nra).
  assert (t ^ 4 <= t ^ 2 / 1000) by (replace (t ^ 4) with (t ^ 2 * (t * t)) by ring; assert (t * t <= 1 / 1000) by nra; nra).
  assert (t ^ 5 <= t ^ 2 / 1000) by (replace (t ^ 5) with (t ^ 2 * (t * t * t)) by ring; assert (t * t * t <= 1 / 1000) by (assert (0 <= t * t <= 1) by nra; nra); nra).
  replace (t ^ 2 / 6 * (1 + 1 * t) + t ^ 2 / 24 * (t * t) + t ^ 2 / 120 * (t * (t * t)) + t ^ 2 / 24 * (1 * t + t * 1))
    with (t ^ 2 / 6 + t ^ 3 / 6 + t ^ 4 / 24 + t ^ 5 / 120 + t ^ 3 / 12) by field. lra.
Qed.

(* derivative at zero *)
Lemma squeeze : forall (f g : R -> R) x d, is_derive g x 0 -> f x = 0 -> g x = 0 -> 0 < d ->
  (forall s, Rabs (s - x) < d -> Rabs (f s) <= Rabs (g s)) -> is_derive f x 0.
Proof.
  intros f g x d Hg Fx Gx Hd B. apply is_derive_Reals. apply is_derive_Reals in Hg. intros eps He.
  destruct (Hg eps He) as [del Hdel].
  assert (M : 0 < Rmin d del) by (apply Rmin_pos; [assumption|apply cond_pos]).
  exists (mkposreal _ M). intros h Hh Hs. cbn in Hs.
  specialize (Hdel h Hh (Rlt_le_trans _ _ _ Hs (Rmin_r _ _))). rewrite Rminus_0_r in *. rewrite Fx, Rminus_0_r. rewrite Gx, Rminus_0_r in Hdel.
  unfold Rdiv in *. rewrite Rabs_mult in *. eapply Rle_lt_trans; [|exact Hdel]. apply Rmult_le_compat_r; [apply Rabs_pos|].
  apply B. replace (x + h - x) with h by ring. eapply Rlt_le_trans; [exact Hs|apply Rmin_l].
Qed.
Lemma remainder : forall th i j, (i < 3)%nat -> (j < 3)%nat -> vnorm th <= 1 ->
  Rabs (rotation th i j - (dlt i j + skew th i j)) <= 2 * sq th.
Proof.
  intros th i j Hi Hj Ht. destruct (Req_dec (vnorm th) 0) as [E|N].
  - assert (Z : forall k, (k < 3)%nat -> th k = 0) by (apply norm_0; assumption).
    unfold rotation. destruct (Req_EM_T (vnorm th) 0); [|congruence].
    assert (skew th i j = 0) as ->.
    { c3 Hi; c3 Hj; cbn [skew]; rewrite ?(Z 0%nat), ?(Z 1%nat), ?(Z 2%nat) by lia; ring. }
    replace (dlt i j - (dlt i j + 0)) with 0 by ring. rewrite Rabs_R0. pose proof (sq_pos th). lra.
  - pose proof (norm_pos th). rewrite rotation_form by assumption. unfold rot_form. rewrite <- norm_sq.
    pose proof (small_coefs (vnorm th) ltac:(lra)) as (A1 & A2 & _ & _). set (t := vnorm th) in *. set (e := ex_coefs t) in *.
    pose proof (cos_bd t ltac:(lra)) as C.
    replace (cos t * dlt i j + k1 e * skew th i j + k2 e * (th i * th j) - (dlt i j + skew th i j))
      with ((cos t - 1) * dlt i j - (1 - k1 e) * skew th i j + (1 / 2 - (1 / 2 - k2 e)) * (th i * th j)) by ring.
    assert (0 < t ^ 2) by (apply pow_lt; lra).
    assert (t ^ 3 <= t ^ 2) by (replace (t ^ 3) with (t ^ 2 * t) by ring; nra).
    assert (0 < t ^ 4) by (apply pow_lt; lra). assert (0 < t ^ 6) by (apply pow_lt; lra).
    assert (t ^ 4 <= t ^ 2) by (replace (t ^ 4) with (t ^ 2 * (t * t)) by ring; assert (t * t <= 1) by nra; nra).
    assert (t ^ 6 <= t ^ 4) by (replace (t ^ 6) with (t ^ 4 * (t * t)) by ring; assert (t * t <= 1) by nra; nra).
    assert (B0 : Rabs (cos t - 1) <= t ^ 2 / 2) by (apply Rabs_le; lra).
    assert (B1 : Rabs (1 / 2) <= 1 / 2) by (rewrite Rabs_pos_eq; lra).
    eapply Rle_trans; [apply add_le; [apply sub_le; apply mul_le; [exact B0|apply dlt_le|exact A1|apply skew_le; assumption]|
      apply mul_le; [apply sub_le; [exact B1|exact A2]|apply mul_le; apply norm_comp; assumption]]|].
    fold t. replace (t * t) with (t ^ 2) by ring.
    replace (t ^ 2 / 2 * 1 + t ^ 2 / 6 * t + (1 / 2 + t ^ 2 / 24) * t ^ 2) with (t ^ 2 / 2 + t ^ 3 / 6 + t ^ 2 / 2 + t ^ 4 / 24) by field. lra.
Qed.
Lemma d_rotation0 : forall (th : R -> nat -> R) t0 D, (forall k, (k < 3)%nat -> is_derive (fun s : R => th s k) t0 (D k)) ->
  forall i j, (i < 3)%nat -> (j < 3)%nat -> vnorm (th t0) = 0 ->
  is_derive (fun s => rotation (th s) i j) t0 (rsumn 3 (fun l => LeviCivita i l j * D l)).
Proof.
  intros th t0 D H i j Hi Hj E.
  assert (Z : forall k, (k < 3)%nat -> th t0 k = 0) by (apply norm_0; assumption).
  apply (is_derive_ext (fun s => (rotation (th s) i j - (dlt i j + skew (th s) i j)) + (dlt i j + skew (th s) i j))).
  { intros s. match goal with |- ?a = ?b => change (@eq R a b) end. ring. }
  rewrite <- (skew_LC D i j Hi Hj).
  eapply der_eq; [apply (d_plus (fun s => rotation (th s) i j - (dlt i j + skew (th s) i j)) (fun s => dlt i j + skew (th s) i j) t0 0 (0 + skew D i j))|ring].
  2:{ apply d_plus; [apply d_const|apply d_skew; assumption]. }
  assert (S0 : sq (th t0) = 0) by (unfold sq; rewrite !Z by lia; ring).
  assert (DS : is_derive (fun s => 2 * sq (th s)) t0 0).
  { eapply der_eq; [apply (d_mult (fun _ => 2) (fun s => sq (th s)) t0 0); [apply d_const|apply d_sq; exact H]|]. cbv beta. rewrite !Z by lia. ring. }
  assert (L : exists d, 0 < d /\ forall s, Rabs (s - t0) < d -> vnorm (th s) <= 1).
  { pose proof DS as DS'. apply is_derive_Reals in DS'. destruct (DS' 1 Rlt_0_1) as [del Hdel].
    exists (Rmin 1 del). split; [apply Rmin_pos; [lra|apply cond_pos]|]. intros s Hs.
    destruct (Req_dec s t0) as [->|Ns]; [rewrite E; lra|].
    assert (Hh : s - t0 <> 0) by lra.
    specialize (Hdel (s - t0) Hh (Rlt_le_trans _ _ _ Hs (Rmin_r _ _))). replace (t0 + (s - t0)) with s in Hdel by ring.
    rewrite S0, Rmult_0_r, !Rminus_0_r in Hdel. unfold Rdiv in Hdel. rewrite Rabs_mult, Rabs_inv in Hdel.
    pose proof (Rlt_le_trans _ _ _ Hs (Rmin_l _ _)) as H1. assert (P : 0 < Rabs (s - t0)) by (apply Rabs_pos_lt; assumption).
    assert (Q : Rabs (2 * sq (th s)) < Rabs (s - t0)).
    { apply Rmult_lt_reg_r with (/ Rabs (s - t0)); [apply Rinv_0_lt_compat; assumption|]. rewrite Rinv_r by lra. assumption. }
    rewrite Rabs_pos_eq in Q by (pose proof (sq_pos (th s)); lra).
    pose proof (norm_sq (th s)). pose proof (norm_pos (th s)). nra. }
  destruct L as (d & Hd & L).
  apply (squeeze _ (fun s => 2 * sq (th s)) t0 d); [exact DS| | |exact Hd|].
  - unfold rotation. destruct (Req_EM_T (vnorm (th t0)) 0); [|congruence].
    assert (skew (th t0) i j = 0) as ->; [|ring].
    c3 Hi; c3 Hj; cbn [skew]; rewrite ?(Z 0%nat), ?(Z 1%nat), ?(Z 2%nat) by lia; ring.
  - rewrite S0. ring.
  - intros s Hs. rewrite (Rabs_pos_eq (2 * sq (th s))) by (pose proof (sq_pos (th s)); lra). apply remainder; try assumption. apply L. assumption.
Qed.
