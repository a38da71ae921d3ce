(* Proofs about the eigenvalues *)
From Coq Require Import Reals Lra Psatz.
From Verif Require Import Base RealBase ElemModel EigModel SpecEig.
Local Open Scope R_scope.

Section Six.
  Variables a b c d e f : R.   (* diagonal a b c; 01 d, 12 e, 02 f *)
  Let i1 := a + b + c.
  Let i2 := a * b + b * c + a * c - d * d - f * f - e * e.
  Let i3 := a * b * c + 2 * d * e * f - a * e * e - b * f * f - c * d * d.
  Lemma disc_p : - 3 * eig_p (- i1) i2 = ((a - b)^2 + (b - c)^2 + (a - c)^2) / 2 + 3 * (d * d + e * e + f * f).
  Proof. unfold eig_p, i1, i2. field. Qed.
  (* Gram determinant of I, M, M^2: entries of M^2 *)
  Let a2 := a * a + d * d + f * f.
  Let b2 := b * b + d * d + e * e.
  Let c2 := c * c + e * e + f * f.
  Let d2 := a * d + d * b + f * e.
  Let e2 := d * f + b * e + e * c.
  Let f2 := a * f + d * e + f * c.
  Let m2 u v x y := u * y - v * x.
  (* minors with two resp. three entries of the diagonal *)
  Let m3 := (b * c2 - c * b2) - (a * c2 - c * a2) + (a * b2 - b * a2).
  Lemma disc_q : - 4 * (eig_p (- i1) i2)^3 - 27 * (eig_q (- i1) i2 (- i3))^2 =
    m3^2
    + 2 * (((b - a) * d2 - d * (b2 - a2))^2 + ((c - a) * d2 - d * (c2 - a2))^2 + ((c - b) * d2 - d * (c2 - b2))^2)
    + 2 * (((b - a) * e2 - e * (b2 - a2))^2 + ((c - a) * e2 - e * (c2 - a2))^2 + ((c - b) * e2 - e * (c2 - b2))^2)
    + 2 * (((b - a) * f2 - f * (b2 - a2))^2 + ((c - a) * f2 - f * (c2 - a2))^2 + ((c - b) * f2 - f * (c2 - b2))^2)
    + 12 * ((d * e2 - e * d2)^2 + (d * f2 - f * d2)^2 + (e * f2 - f * e2)^2).
  Proof. unfold eig_p, eig_q, m3, i1, i2, i3, a2, b2, c2, d2, e2, f2. field. Qed.
End Six.

Lemma roots_ok a b c : eig_p a b < 0 -> 27 * (eig_q a b c)^2 <= - 4 * (eig_p a b)^3 ->
  exists r1 r2 r3, eig_roots a b c = Ok (r1, r2, r3) /\ r1 >= r3 /\ r3 >= r2 /\
    forall x, x * x * x + a * x * x + b * x + c = (x - r1) * (x - r2) * (x - r3).
Proof.
  intros Hp Hd. unfold eig_roots. cbv zeta. set (p := eig_p a b) in *. set (q := eig_q a b c) in *.
  unfold rsqrt. destruct Rlt_dec as [n|_]; [lra|]. cbn [obind].
  set (A := sqrt (-4 * p / 3)).
  assert (HA : 0 < A) by (apply sqrt_lt_R0; lra).
  assert (HA2 : A * A = - 4 * p / 3) by (apply sqrt_sqrt; lra).
  assert (HA3 : 0 < A * A * A) by (repeat apply Rmult_lt_0_compat; assumption).
  unfold rdiv. destruct Req_EM_T as [e|_]; [lra|]. cbn [obind].
  set (k := -4 * q / (A * A * A)).
  assert (Ek : k * (A * A * A) = - 4 * q) by (unfold k; field; lra).
  assert (K2 : k * k <= 1).
  { assert (E : k * k * ((A * A) * (A * A) * (A * A)) = 16 * (q * q)) by (transitivity ((k * (A * A * A)) * (k * (A * A * A))); [ring|rewrite Ek; ring]).
    rewrite HA2 in E.
    assert (0 < - p * (- p) * (- p)) by (repeat apply Rmult_lt_0_compat; lra).
    assert (E' : k * k * (4 * (- p * (- p) * (- p))) = 27 * q^2) by (apply (Rmult_eq_reg_r (16 / 27)); [|lra]; rewrite <- (Rmult_1_r (27 * q^2 * (16 / 27))); field_simplify in E; field_simplify; lra).
    apply (Rmult_le_reg_r (4 * (- p * (- p) * (- p)))); [lra|]. rewrite E', Rmult_1_l. replace (4 * (- p * - p * - p)) with (-4 * p^3) by ring. exact Hd. }
  assert (K1 : -1 <= k <= 1) by (split; nra).
  unfold racos. destruct Rlt_dec as [n|_]; [exfalso; revert n; unfold Rabs; destruct Rcase_abs; lra|]. cbn [obind].
  set (phi := acos k / 3).
  pose proof (acos_bound k) as AB.
  assert (F0 : 0 <= phi <= PI / 3) by (unfold phi; lra).
  pose proof PI_RGT_0 as PI0.
  eexists _, _, _. split; [reflexivity|]. split; [|split].
  { apply Rle_ge, Rplus_le_compat_r, Rmult_le_compat_l; [lra|]. rewrite <- cos_neg. apply cos_decr_1; lra. }
  { apply Rle_ge, Rplus_le_compat_r, Rmult_le_compat_l; [lra|]. rewrite <- (cos_neg (phi - _)). apply cos_decr_1; lra. }
  intro x.
  assert (E3 : cos (3 * phi) = k) by (unfold phi; replace (3 * (acos k / 3)) with (acos k) by field; apply cos_acos; exact K1).
  assert (T : cos (3 * phi) = 4 * (cos phi * cos phi * cos phi) - 3 * cos phi).
  { replace (3 * phi) with (2 * phi + phi) by ring. rewrite cos_plus, cos_2a, sin_2a. pose proof (sin2_cos2 phi) as S. unfold Rsqr in S.
    replace ((cos phi * cos phi - sin phi * sin phi) * cos phi - 2 * sin phi * cos phi * sin phi)
      with (cos phi * cos phi * cos phi - 3 * (sin phi * sin phi) * cos phi) by ring.
    replace (sin phi * sin phi) with (1 - cos phi * cos phi) by lra. ring. }
  rewrite cos_plus, cos_minus.
  assert (EC : cos (2 * PI / 3) = - (1 / 2)) by (replace (2 * PI / 3) with (2 * (PI / 3)) by field; rewrite cos_2a_cos, cos_PI3; field).
  assert (ES : sin (2 * PI / 3) * sin (2 * PI / 3) = 3 / 4).
  { pose proof (sin2_cos2 (2 * PI / 3)) as S. unfold Rsqr in S. rewrite EC in S. lra. }
  rewrite EC. set (h := sin (2 * PI / 3)) in *. set (C := cos phi) in *. set (S := sin phi) in *.
  assert (SC : S * S = 1 - C * C) by (pose proof (sin2_cos2 phi) as X; unfold Rsqr in X; fold C S in X; lra).
  assert (P1 : A * A * A * (4 * (C * C * C) - 3 * C) = - 4 * q) by (rewrite <- T, E3, <- Ek; ring).
  set (y := x + a / 3).
  transitivity (y * y * y + p * y + q); [unfold y, p, q, eig_p, eig_q; field|].
  transitivity ((y - A * C) * ((y + A * C / 2) * (y + A * C / 2) - A * A * (h * h) * (S * S))); [|unfold y; field].
  rewrite ES, SC. 
  assert (Hp' : p = - 3 * (A * A) / 4) by lra.
  assert (Hq' : q = - (A * A * A * (4 * (C * C * C) - 3 * C)) / 4) by lra.
  rewrite Hp', Hq'. field.
Qed.

Lemma sort_ok (P : R -> R -> R -> Prop) r1 r2 r3 : r1 >= r3 -> r3 >= r2 -> P r1 r2 r3 ->
  (forall x y z, P x y z -> P y x z) -> (forall x y z, P x y z -> P x z y) ->
  let '(s1, s2, s3) := eig_sort (r1, r2, r3) in s1 >= s2 /\ s2 >= s3 /\ P s1 s2 s3.
Proof.
  intros G1 G2 H S1 S2. unfold eig_sort, rgt.
  repeat (destruct Rlt_dec; cbn [andb]); (split; [lra|split; [lra|auto 10]]).
Qed.

Lemma charpoly_sym M x : symmetric3 M ->
  charpoly M x = x * x * x + - eig_I1 M * x * x + eig_I2 M * x + - eig_I3 M.
Proof.
  intro H. unfold charpoly, eig_I1, eig_I2, eig_I3. cbn [Nat.eqb]. cbv zeta.
  rewrite (H 1%nat 0%nat), (H 2%nat 0%nat), (H 2%nat 1%nat). ring.
Qed.

Lemma sq_pos x : x <> 0 -> 0 < x * x. Proof. intro. apply Rsqr_pos_lt. assumption. Qed.
Lemma not_spherical M : symmetric3 M -> (forall c, ~ spherical M c) -> eig_p (- eig_I1 M) (eig_I2 M) < 0.
Proof.
  intros Sy H.
  pose proof (disc_p (M 0%nat 0%nat) (M 1%nat 1%nat) (M 2%nat 2%nat) (M 0%nat 1%nat) (M 1%nat 2%nat) (M 0%nat 2%nat)) as E.
  change (M 0%nat 0%nat + M 1%nat 1%nat + M 2%nat 2%nat) with (eig_I1 M) in E.
  change (-3 * eig_p (- eig_I1 M) (eig_I2 M) = ((M 0%nat 0%nat - M 1%nat 1%nat)^2 + (M 1%nat 1%nat - M 2%nat 2%nat)^2 + (M 0%nat 0%nat - M 2%nat 2%nat)^2) / 2
    + 3 * (M 0%nat 1%nat * M 0%nat 1%nat + M 1%nat 2%nat * M 1%nat 2%nat + M 0%nat 2%nat * M 0%nat 2%nat)) in E.
  apply Rnot_le_lt. intro N.
  pose proof (pow2_ge_0 (M 0%nat 0%nat - M 1%nat 1%nat)) as A1. pose proof (pow2_ge_0 (M 1%nat 1%nat - M 2%nat 2%nat)) as A2.
  pose proof (pow2_ge_0 (M 0%nat 0%nat - M 2%nat 2%nat)) as A3.
  pose proof (Rle_0_sqr (M 0%nat 1%nat)) as B1. pose proof (Rle_0_sqr (M 1%nat 2%nat)) as B2. pose proof (Rle_0_sqr (M 0%nat 2%nat)) as B3.
  unfold Rsqr in *.
  assert (Z : forall x, x * x = 0 -> x = 0) by (intros y Hy; apply Rmult_integral in Hy; tauto).
  assert (Z1 : M 0%nat 0%nat - M 1%nat 1%nat = 0) by (apply Z; lra). assert (Z2 : M 1%nat 1%nat - M 2%nat 2%nat = 0) by (apply Z; lra).
  assert (Y1 : M 0%nat 1%nat = 0) by (apply Z; lra). assert (Y2 : M 1%nat 2%nat = 0) by (apply Z; lra). assert (Y3 : M 0%nat 2%nat = 0) by (apply Z; lra).
  apply (H (M 0%nat 0%nat)). intros i j Hi Hj.
  destruct i as [|[|[|]]]; try lia; destruct j as [|[|[|]]]; try lia; cbn [Nat.eqb]; try assumption; try lra; rewrite Sy; assumption.
Qed.

Lemma eigen_ok M : symmetric3 M -> (forall c, ~ spherical M c) -> exists s, eigenvalues M = Ok s /\ ordered_roots M s.
Proof.
  intros Sy H. unfold eigenvalues.
  destruct (roots_ok (- eig_I1 M) (eig_I2 M) (- eig_I3 M)) as [r1 [r2 [r3 [E [G1 [G2 F]]]]]].
  - apply not_spherical; assumption.
  - pose proof (disc_q (M 0%nat 0%nat) (M 1%nat 1%nat) (M 2%nat 2%nat) (M 0%nat 1%nat) (M 1%nat 2%nat) (M 0%nat 2%nat)) as D.
    cbv zeta in D.
    match type of D with _ = ?r => assert (0 <= r) as P end.
    { repeat match goal with
        | |- 0 <= _ + _ => apply Rplus_le_le_0_compat
        | |- 0 <= _ ^ 2 => apply pow2_ge_0
        | |- 0 <= _ * _ => apply Rmult_le_pos; [lra|]
        end. }
    rewrite <- D in P. unfold eig_I1, eig_I2, eig_I3. cbv zeta.
    match type of P with 0 <= _ - 27 * (?a)^2 => match goal with |- 27 * (?b)^2 <= _ => change b with a end end. lra.
  - rewrite E. cbn [obind]. eexists; split; [reflexivity|]. unfold ordered_roots.
    pose proof (sort_ok (fun a b c => forall x, charpoly M x = (x - a) * (x - b) * (x - c)) r1 r2 r3) as S.
    apply S; try assumption.
    + intro x. rewrite charpoly_sym by assumption. apply F.
    + intros x y z G w. rewrite (G w). ring.
    + intros x y z G w. rewrite (G w). ring.
Qed.

(* only the upper triangle is read *)
Lemma eigen_upper M N : (forall i j, (i <= j)%nat -> M i j = N i j) -> eigenvalues M = eigenvalues N.
Proof.
  intro H. unfold eigenvalues, eig_I1, eig_I2, eig_I3. cbv zeta.
  rewrite (H 0%nat 0%nat), (H 1%nat 1%nat), (H 2%nat 2%nat), (H 0%nat 1%nat), (H 0%nat 2%nat), (H 1%nat 2%nat) by lia. reflexivity.
Qed.
Lemma eigen_spherical M c : spherical M c -> eigenvalues M = Fatal.
Proof.
  intro H. unfold eigenvalues, eig_I1, eig_I2, eig_I3. cbv zeta.
  rewrite !(H 0%nat _), !(H 1%nat _), !(H 2%nat _) by lia. cbn [Nat.eqb].
  unfold eig_roots. cbv zeta.
  replace (eig_p _ _) with 0 by (unfold eig_p; field).
  unfold rsqrt. destruct Rlt_dec as [n|_]; [lra|]. cbn [obind]. replace (-4 * 0 / 3) with 0 by field. rewrite sqrt_0.
  unfold rdiv. destruct Req_EM_T as [_|n]; [reflexivity|]. exfalso; apply n; ring.
Qed.

(* a singular matrix has a null vector *)
Definition v3 (x y z : R) (i : nat) : R := match i with 0%nat => x | 1%nat => y | _ => z end.
Section Null.
  Variables a b c d e f g h k : R.
  Hypothesis D : a * (e * k - f * h) - b * (d * k - f * g) + c * (d * h - e * g) = 0.
  Let null x y z := a * x + b * y + c * z = 0 /\ d * x + e * y + f * z = 0 /\ g * x + h * y + k * z = 0.
  Let nz x y z := x <> 0 \/ y <> 0 \/ z <> 0.
  Lemma adj_null x y z : (x = e * k - f * h /\ y = f * g - d * k /\ z = d * h - e * g)
    \/ (x = c * h - b * k /\ y = a * k - c * g /\ z = b * g - a * h)
    \/ (x = b * f - c * e /\ y = c * d - a * f /\ z = a * e - b * d) -> null x y z.
  Proof.
    unfold null.
    intros [[-> [-> ->]]|[[-> [-> ->]]|[-> [-> ->]]]]; (split; [|split]);
      match goal with |- ?t = 0 => first [ring | transitivity (a * (e * k - f * h) - b * (d * k - f * g) + c * (d * h - e * g)); [ring|exact D]] end.
  Qed.
  Lemma null_exists : exists x y z, null x y z /\ nz x y z.
  Proof.
    assert (Dec : forall x : R, x = 0 \/ x <> 0) by (intro x; destruct (Req_dec x 0); tauto).
    destruct (Dec (e * k - f * h)) as [m1|n]; [|exists (e * k - f * h), (f * g - d * k), (d * h - e * g); split; [apply adj_null; auto|left; exact n]].
    destruct (Dec (f * g - d * k)) as [m2|n]; [|exists (e * k - f * h), (f * g - d * k), (d * h - e * g); split; [apply adj_null; auto|right; left; exact n]].
    destruct (Dec (d * h - e * g)) as [m3|n]; [|exists (e * k - f * h), (f * g - d * k), (d * h - e * g); split; [apply adj_null; auto|right; right; exact n]].
    destruct (Dec (c * h - b * k)) as [m4|n]; [|exists (c * h - b * k), (a * k - c * g), (b * g - a * h); split; [apply adj_null; auto|left; exact n]].
    destruct (Dec (a * k - c * g)) as [m5|n]; [|exists (c * h - b * k), (a * k - c * g), (b * g - a * h); split; [apply adj_null; auto|right; left; exact n]].
    destruct (Dec (b * g - a * h)) as [m6|n]; [|exists (c * h - b * k), (a * k - c * g), (b * g - a * h); split; [apply adj_null; auto|right; right; exact n]].
    destruct (Dec (b * f - c * e)) as [m7|n]; [|exists (b * f - c * e), (c * d - a * f), (a * e - b * d); split; [apply adj_null; auto|left; exact n]].
    destruct (Dec (c * d - a * f)) as [m8|n]; [|exists (b * f - c * e), (c * d - a * f), (a * e - b * d); split; [apply adj_null; auto|right; left; exact n]].
    destruct (Dec (a * e - b * d)) as [m9|n]; [|exists (b * f - c * e), (c * d - a * f), (a * e - b * d); split; [apply adj_null; auto|right; right; exact n]].
    unfold null, nz.
    destruct (Dec a) as [a0|n]; [|exists (- b), a, 0; split; [lra|auto]].
    destruct (Dec b) as [b0|n]; [|exists 0, (- c), b; split; [lra|auto]].
    destruct (Dec c) as [c0|n]; [|exists c, 0, (- a); split; [lra|auto]].
    destruct (Dec d) as [d0|n]; [|exists (- e), d, 0; split; [lra|auto]].
    destruct (Dec e) as [e0|n]; [|exists 0, (- f), e; split; [lra|auto]].
    destruct (Dec f) as [f0|n]; [|exists f, 0, (- d); split; [lra|auto]].
    destruct (Dec g) as [g0|n]; [|exists (- h), g, 0; split; [lra|auto]].
    destruct (Dec h) as [h0|n]; [|exists 0, (- k), h; split; [lra|auto]].
    destruct (Dec k) as [k0|n]; [|exists k, 0, (- g); split; [lra|auto]].
    exists 1, 0, 0. split; [subst; lra|left; lra].
  Qed.
End Null.

Lemma root_vector M s : charpoly M s = 0 -> exists v, eigenvector M s v.
Proof.
  intro H. unfold charpoly in H. cbn [Nat.eqb] in H. cbv zeta in H.
  destruct (null_exists _ _ _ _ _ _ _ _ _ H) as [x [y [z [[E1 [E2 E3]] N]]]].
  exists (v3 x y z). split.
  - destruct N as [N|[N|N]]; [exists 0%nat|exists 1%nat|exists 2%nat]; (split; [lia|exact N]).
  - intros i Hi. destruct i as [|[|[|]]]; [| | |lia]; unfold matvec; cbn [v3]; lra.
Qed.
Lemma vectors M s : ordered_roots M s -> exists u v w,
  eigenvector M (fst (fst s)) u /\ eigenvector M (snd (fst s)) v /\ eigenvector M (snd s) w.
Proof.
  destruct s as [[s1 s2] s3]. cbn [fst snd]. intros [_ [_ H]].
  destruct (root_vector M s1) as [u Hu]; [rewrite H; ring|].
  destruct (root_vector M s2) as [v Hv]; [rewrite H; ring|].
  destruct (root_vector M s3) as [w Hw]; [rewrite H; ring|].
  exists u, v, w. auto.
Qed.
(* conversely: every eigenvalue is listed *)
Lemma listed M s x v : ordered_roots M s -> eigenvector M x v -> x = fst (fst s) \/ x = snd (fst s) \/ x = snd s.
Proof.
  destruct s as [[s1 s2] s3]. cbn [fst snd]. intros [_ [_ H]] [[i [Hi N]] E].
  assert (Z : charpoly M x = 0).
  { pose proof (E 0%nat ltac:(lia)) as E0. pose proof (E 1%nat ltac:(lia)) as E1. pose proof (E 2%nat ltac:(lia)) as E2. unfold matvec in *.
    assert (W : forall j, (j < 3)%nat -> charpoly M x * v j = 0); [|specialize (W i Hi); apply Rmult_integral in W; tauto].
    unfold charpoly. cbn [Nat.eqb]. cbv zeta. intros j Hj.
    set (m00 := x - M 0%nat 0%nat) in *. set (m11 := x - M 1%nat 1%nat) in *. set (m22 := x - M 2%nat 2%nat) in *.
    assert (F0 : m00 * v 0%nat + (0 - M 0%nat 1%nat) * v 1%nat + (0 - M 0%nat 2%nat) * v 2%nat = 0) by (unfold m00; lra).
    assert (F1 : (0 - M 1%nat 0%nat) * v 0%nat + m11 * v 1%nat + (0 - M 1%nat 2%nat) * v 2%nat = 0) by (unfold m11; lra).
    assert (F2 : (0 - M 2%nat 0%nat) * v 0%nat + (0 - M 2%nat 1%nat) * v 1%nat + m22 * v 2%nat = 0) by (unfold m22; lra).
    set (m01 := 0 - M 0%nat 1%nat) in *. set (m02 := 0 - M 0%nat 2%nat) in *. set (m10 := 0 - M 1%nat 0%nat) in *.
    set (m12 := 0 - M 1%nat 2%nat) in *. set (m20 := 0 - M 2%nat 0%nat) in *. set (m21 := 0 - M 2%nat 1%nat) in *.
    destruct j as [|[|[|]]]; [| | |lia].
    - transitivity ((m11 * m22 - m12 * m21) * (m00 * v 0%nat + m01 * v 1%nat + m02 * v 2%nat)
        + (m02 * m21 - m01 * m22) * (m10 * v 0%nat + m11 * v 1%nat + m12 * v 2%nat)
        + (m01 * m12 - m02 * m11) * (m20 * v 0%nat + m21 * v 1%nat + m22 * v 2%nat)); [ring|rewrite F0, F1, F2; ring].
    - transitivity ((m12 * m20 - m10 * m22) * (m00 * v 0%nat + m01 * v 1%nat + m02 * v 2%nat)
        + (m00 * m22 - m02 * m20) * (m10 * v 0%nat + m11 * v 1%nat + m12 * v 2%nat)
        + (m02 * m10 - m00 * m12) * (m20 * v 0%nat + m21 * v 1%nat + m22 * v 2%nat)); [ring|rewrite F0, F1, F2; ring].
    - transitivity ((m10 * m21 - m11 * m20) * (m00 * v 0%nat + m01 * v 1%nat + m02 * v 2%nat)
        + (m01 * m20 - m00 * m21) * (m10 * v 0%nat + m11 * v 1%nat + m12 * v 2%nat)
        + (m00 * m11 - m01 * m10) * (m20 * v 0%nat + m21 * v 1%nat + m22 * v 2%nat)); [ring|rewrite F0, F1, F2; ring]. }
  rewrite H in Z. apply Rmult_integral in Z. destruct Z as [Z|Z]; [apply Rmult_integral in Z; destruct Z as [Z|Z]|]; [left|right; left|right; right]; lra.
Qed.

Lemma ok_not_spherical M s : eigenvalues M = Ok s -> forall c, ~ spherical M c.
Proof. intros H c S. rewrite (eigen_spherical M c S) in H. discriminate. Qed.
Lemma eigen_roots M s : symmetric3 M -> eigenvalues M = Ok s -> ordered_roots M s.
Proof.
  intros Sy H. destruct (eigen_ok M Sy (ok_not_spherical M s H)) as [t [E O]]. rewrite H in E. injection E as ->. exact O.
Qed.
Lemma eigen_vectors M s : symmetric3 M -> eigenvalues M = Ok s -> exists u v w,
  eigenvector M (fst (fst s)) u /\ eigenvector M (snd (fst s)) v /\ eigenvector M (snd s) w.
Proof. intros Sy H. apply vectors, eigen_roots; assumption. Qed.
Lemma eigen_listed M s x v : symmetric3 M -> eigenvalues M = Ok s -> eigenvector M x v ->
  x = fst (fst s) \/ x = snd (fst s) \/ x = snd s.
Proof. intros Sy H. apply listed, eigen_roots; assumption. Qed.
Lemma spherical_wrong M c : spherical M c -> eigenvalues M = Fatal /\ (forall x, charpoly M x = (x - c) * (x - c) * (x - c)).
Proof.
  intro H. split; [exact (eigen_spherical M c H)|]. intro x. unfold charpoly. cbn [Nat.eqb]. cbv zeta.
  rewrite !(H 0%nat _), !(H 1%nat _), !(H 2%nat _) by lia. cbn [Nat.eqb]. ring.
Qed.
(* upper triangular with a non-zero entry: eigenvalues 1 2 3; read as symmetric: trace of the square 14 + 2 *)
Definition upper_ex (i j : nat) : R := match i, j with 0%nat, 0%nat => 1 | 1%nat, 1%nat => 2 | 2%nat, 2%nat => 3 | 0%nat, 1%nat => 1 | _, _ => 0 end.
Definition sym_ex (i j : nat) : R := match i, j with 0%nat, 0%nat => 1 | 1%nat, 1%nat => 2 | 2%nat, 2%nat => 3 | 0%nat, 1%nat => 1 | 1%nat, 0%nat => 1 | _, _ => 0 end.
Lemma lower_wrong : exists M s, eigenvalues M = Ok s /\
  (forall x, charpoly M x = (x - 1) * (x - 2) * (x - 3)) /\ ~ ordered_roots M s.
Proof.
  destruct (eigen_ok sym_ex) as [s [E O]].
  - intros [|[|[|i]]] [|[|[|j]]]; reflexivity.
  - intros c H. pose proof (H 0%nat 1%nat ltac:(lia) ltac:(lia)) as A. cbn in A. lra.
  - exists upper_ex, s. split; [rewrite <- E; apply eigen_upper; intros [|[|[|i]]] [|[|[|j]]] L; try reflexivity; lia|].
    split; [intro x; unfold charpoly, upper_ex; cbn [Nat.eqb]; cbv zeta; ring|].
    intro U. destruct s as [[s1 s2] s3]. destruct O as [_ [_ O]]. destruct U as [_ [_ U]].
    specialize (O 0). rewrite <- (U 0) in O. revert O. unfold charpoly, upper_ex, sym_ex. cbn [Nat.eqb]. cbv zeta. lra.
Qed.
