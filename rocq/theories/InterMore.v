(* Forces, energy, results of the interface element. *)
From Coq Require Import Reals Lra.
From Verif Require Import Base BaseProofs RealBase MatModel MatProofs MatElem IsoModel SpecIso IsoProofs ElemModel SpecElem ElemBase ElemProofs ElemMore InterModel SpecInter InterProofs.
Local Open Scope R_scope.

Lemma sum6 (f : nat -> R) : rsumn 6 f = rsumn 3 (fun b => f b + f (3 + b)%nat).
Proof. rewrite rs3. unfold rsumn, rsuml. cbn. ring. Qed.
Lemma L_sum q : rsumn 3 (i3_L q) = 1.
Proof. rewrite rs3. unfold i3_L. ring. Qed.
Lemma w_det det q : i3_weight det q = det * i3_weight 1 q.
Proof. unfold i3_weight. ring. Qed.

Lemma rsuml_nonneg A (f : A -> R) l : (forall a, In a l -> 0 <= f a) -> 0 <= rsuml l f.
Proof.
  induction l as [|a l IH]; intros H; [rewrite rsuml_nil; lra|]. rewrite rsuml_cons. assert (0 <= f a) by (apply H; now left).
  assert (0 <= rsuml l f) by (apply IH; intros; apply H; now right). lra.
Qed.
(* unit normal *)
Lemma unit3_sq n : norm3 n <> 0 -> unit3 n 0%nat * unit3 n 0%nat + unit3 n 1%nat * unit3 n 1%nat + unit3 n 2%nat * unit3 n 2%nat = 1.
Proof.
  intros H. unfold unit3. transitivity ((n 0%nat ^ 2 + n 1%nat ^ 2 + n 2%nat ^ 2) / (norm3 n * norm3 n)); [field; auto|].
  unfold norm3 in *. rewrite sqrt_sqrt; [field|nra]. intros E. rewrite E, sqrt_0 in H. lra.
Qed.
(* energy of a jump v: ks along the surface, kn across *)
Lemma interface_energy ks kn n v : rsumn 3 (fun c => v c * rsumn 3 (fun d => interface ks kn n c d * v d)) =
  let p := rsumn 3 (fun c => unit3 n c * v c) in ks * (rsumn 3 (fun c => v c * v c) - p * p) + kn * (p * p).
Proof. cbn zeta. rewrite !rs3. unfold interface, dlt. cbn [Nat.eqb]. ring. Qed.
Lemma cauchy3 (u v : nat -> R) : u 0%nat * u 0%nat + u 1%nat * u 1%nat + u 2%nat * u 2%nat = 1 ->
  rsumn 3 (fun c => u c * v c) * rsumn 3 (fun c => u c * v c) <= rsumn 3 (fun c => v c * v c).
Proof.
  intros H. rewrite !rs3. pose proof (Rle_0_sqr (u 0%nat * v 1%nat - u 1%nat * v 0%nat)) as A. pose proof (Rle_0_sqr (u 0%nat * v 2%nat - u 2%nat * v 0%nat)) as B.
  pose proof (Rle_0_sqr (u 1%nat * v 2%nat - u 2%nat * v 1%nat)) as C. unfold Rsqr in *.
  replace (v 0%nat * v 0%nat + v 1%nat * v 1%nat + v 2%nat * v 2%nat) with ((u 0%nat * u 0%nat + u 1%nat * u 1%nat + u 2%nat * u 2%nat) * (v 0%nat * v 0%nat + v 1%nat * v 1%nat + v 2%nat * v 2%nat)) by (rewrite H; ring).
  lra.
Qed.
Lemma interface_pos ks kn n v : norm3 n <> 0 -> 0 <= ks -> 0 <= kn -> 0 <= rsumn 3 (fun c => v c * rsumn 3 (fun d => interface ks kn n c d * v d)).
Proof.
  intros H A B. rewrite interface_energy. cbn zeta. pose proof (cauchy3 (unit3 n) v (unit3_sq n H)) as C. set (p := rsumn 3 _) in *. set (s := rsumn 3 (fun c => v c * v c)) in *.
  pose proof (Rle_0_sqr p) as D. unfold Rsqr in D. assert (0 <= ks * (s - p * p)) by (apply Rmult_le_pos; lra). assert (0 <= kn * (p * p)) by (apply Rmult_le_pos; lra). lra.
Qed.
Lemma interface_zero ks kn n v : norm3 n <> 0 -> 0 < ks -> 0 < kn -> rsumn 3 (fun c => v c * rsumn 3 (fun d => interface ks kn n c d * v d)) = 0 -> forall c, (c < 3)%nat -> v c = 0.
Proof.
  intros H A B. rewrite interface_energy. cbn zeta. pose proof (cauchy3 (unit3 n) v (unit3_sq n H)) as C. set (p := rsumn 3 _) in *. set (s := rsumn 3 (fun c => v c * v c)) in *.
  intros E. pose proof (Rle_0_sqr p) as D. unfold Rsqr in D. assert (X : 0 <= ks * (s - p * p)) by (apply Rmult_le_pos; lra). assert (Y : 0 <= kn * (p * p)) by (apply Rmult_le_pos; lra).
  assert (Z : p * p = 0) by (apply (Rmult_eq_reg_l kn); lra). assert (W : s - p * p = 0) by (apply (Rmult_eq_reg_l ks); lra).
  assert (S : s = 0) by lra. unfold s in S. rewrite rs3 in S. intros c Hc.
  pose proof (Rle_0_sqr (v 0%nat)). pose proof (Rle_0_sqr (v 1%nat)). pose proof (Rle_0_sqr (v 2%nat)). unfold Rsqr in *.
  assert (Q : forall x, x * x = 0 -> x = 0) by (intros x Hx; apply Rmult_integral in Hx; tauto).
  destruct c as [|[|[|c]]]; try lia; apply Q; lra.
Qed.
Lemma i3_weight_pos q : In q i3_points -> 0 < i3_weight 1 q.
Proof.
  unfold i3_points. cbn. unfold i3_weight, i3_L, rado_AJ, rado_AS, rado_H, rado_AI, d10.
  intros H. repeat (destruct H as [<-|H]; [cbn; lra|]). destruct H.
Qed.
(* a jump that vanishes in the integration points vanishes in the nodes *)
Lemma points_span (x : nat -> R) : (forall q, In q i3_points -> rsumn 3 (fun a => i3_L q a * x a) = 0) -> forall a, (a < 3)%nat -> x a = 0.
Proof.
  intros H. assert (A := H (0, 0)%nat ltac:(cbn; auto 12)). assert (B := H (0, 2)%nat ltac:(cbn; auto 12)). assert (C := H (2, 0)%nat ltac:(cbn; auto 12)). clear H.
  rewrite rs3 in A, B, C. unfold i3_L, rado_AJ, rado_AI, d10 in *. cbn [fst snd nth] in *. intros a Ha. destruct a as [|[|[|a]]]; try lia; lra.
Qed.

Section Work.
  Variables (ks kn area : R) (n : nat -> R) (K : nat -> nat -> R).
  Hypothesis HK : forall a b c d, (a < 6)%nat -> (b < 6)%nat -> (c < 3)%nat -> (d < 3)%nat ->
    K (3 * a + c)%nat (3 * b + d)%nat = face a * face b * (2 * area * mass (a mod 3) (b mod 3)) * interface ks kn n c d.
  Lemma force_ok U a c : (a < 6)%nat -> (c < 3)%nat ->
    force K U a c = face a * (2 * area) * rsuml i3_points (fun q => i3_weight 1 q * (i3_L q (a mod 3) * rsumn 3 (fun d => interface ks kn n c d * jump U q d))).
  Proof.
    intros Ha Hc. unfold force.
    transitivity (rsumn 6 (fun b => rsumn 3 (fun d => face a * face b * (2 * area * mass (a mod 3) (b mod 3)) * interface ks kn n c d * U b d))).
    { apply rsumn_ext. intros b Hb. apply rsumn_ext. intros d Hd. rewrite HK by auto. reflexivity. }
    generalize (interface ks kn n c). intros I.
    transitivity (rsumn 3 (fun b => face a * (2 * area) * (mass (a mod 3) b * rsumn 3 (fun d => I d * (U b d - U (3 + b)%nat d))))).
    { rewrite sum6. apply rsumn_ext. intros b Hb. replace (b mod 3)%nat with b by (symmetry; apply Nat.mod_small; auto).
      replace ((3 + b) mod 3)%nat with b by (destruct b as [|[|[|b]]]; try lia; reflexivity).
      replace (face b) with 1 by (unfold face; destruct b as [|[|[|b]]]; try lia; reflexivity).
      replace (face (3 + b)) with (-1) by (unfold face; destruct b as [|[|[|b]]]; try lia; reflexivity).
      rewrite !rs3. ring. }
    rewrite (rsumn_mul 3 (face a * (2 * area))). f_equal. unfold mass, jump.
    generalize i3_points. induction l as [|q l IH].
    - rewrite rsuml_nil. apply rsumn_zero. intros b _. rewrite rsuml_nil. ring.
    - rewrite rsuml_cons, <- IH. rewrite (rsumn_ext 3 _ (fun b => (i3_weight 1 q * (i3_L q (a mod 3) * i3_L q b) + rsuml l (fun q0 => i3_weight 1 q0 * (i3_L q0 (a mod 3) * i3_L q0 b))) * rsumn 3 (fun d => I d * (U b d - U (3 + b)%nat d)))) by (intros; now rewrite rsuml_cons).
      rewrite !rs3. ring.
  Qed.
  Lemma work_ok U V : work3 (force K U) V = 2 * area * rsuml i3_points (fun q => i3_weight 1 q * rsumn 3 (fun c => jump V q c * rsumn 3 (fun d => interface ks kn n c d * jump U q d))).
  Proof.
    unfold work3.
    transitivity (rsumn 3 (fun a => rsumn 3 (fun c => 2 * area * (rsuml i3_points (fun q => i3_weight 1 q * (i3_L q a * rsumn 3 (fun d => interface ks kn n c d * jump U q d))) * (V a c - V (3 + a)%nat c))))).
    { rewrite sum6. apply rsumn_ext. intros a Ha.
      assert (Q : forall c, (c < 3)%nat -> force K U a c * V a c + force K U (3 + a) c * V (3 + a)%nat c = 2 * area * (rsuml i3_points (fun q => i3_weight 1 q * (i3_L q a * rsumn 3 (fun d => interface ks kn n c d * jump U q d))) * (V a c - V (3 + a)%nat c))).
      { intros c Hc. rewrite !force_ok by (auto; lia). replace (a mod 3)%nat with a by (symmetry; apply Nat.mod_small; auto).
        replace ((3 + a) mod 3)%nat with a by (destruct a as [|[|[|a]]]; try lia; reflexivity).
        replace (face a) with 1 by (unfold face; destruct a as [|[|[|a]]]; try lia; reflexivity).
        replace (face (3 + a)) with (-1) by (unfold face; destruct a as [|[|[|a]]]; try lia; reflexivity). ring. }
      rewrite !rs3. rewrite <- !Q by lia. ring. }
    generalize (interface ks kn n). intros I. unfold jump at 2. generalize (jump U). intros J. generalize i3_points. intros l.
    rewrite (rsumn_ext 3 _ (fun a => 2 * area * rsumn 3 (fun c => rsuml l (fun q => i3_weight 1 q * (i3_L q a * rsumn 3 (fun d => I c d * J q d))) * (V a c - V (3 + a)%nat c)))) by (intros; rewrite rsumn_mul; reflexivity).
    rewrite rsumn_mul. f_equal. induction l as [|q l IH].
    - rewrite rsuml_nil. apply rsumn_zero. intros a _. apply rsumn_zero. intros c _. rewrite rsuml_nil. ring.
    - rewrite rsuml_cons, <- IH. rewrite !rs3. rewrite !rsuml_cons. rewrite !rs3. ring.
  Qed.
  (* faces that move together *)
  Lemma together U : (forall a i, (a < 3)%nat -> (i < 3)%nat -> U (3 + a)%nat i = U a i) -> forall a c, (a < 6)%nat -> (c < 3)%nat -> force K U a c = 0.
  Proof.
    intros H a c Ha Hc. rewrite force_ok by auto. rewrite (rsuml_ext _ _ (fun _ => 0)).
    - rewrite rsuml_zero by auto. ring.
    - intros q _. rewrite (rsumn_zero 3); [ring|]. intros d Hd. unfold jump. rewrite rs3. rewrite !H by lia. ring.
  Qed.
  (* a uniform jump: traction times area *)
  Lemma uniform_force U v c : (c < 3)%nat -> (forall a i, (a < 3)%nat -> (i < 3)%nat -> U a i - U (3 + a)%nat i = v i) ->
    rsumn 3 (fun a => force K U a c) = 2 * i3_area * area * rsumn 3 (fun d => interface ks kn n c d * v d) /\
    rsumn 3 (fun a => force K U (3 + a) c) = - (2 * i3_area * area * rsumn 3 (fun d => interface ks kn n c d * v d)).
  Proof.
    intros Hc H. assert (J : forall q d, (d < 3)%nat -> jump U q d = v d).
    { intros q d Hd. unfold jump. transitivity (rsumn 3 (fun a => v d * i3_L q a)); [apply rsumn_ext; intros a Ha; rewrite H by auto; ring|]. rewrite rsumn_mul, L_sum. ring. }
    set (t := rsumn 3 (fun d => interface ks kn n c d * v d)).
    assert (F : forall a, (a < 6)%nat -> force K U a c = face a * (2 * area) * (t * rsuml i3_points (fun q => i3_weight 1 q * i3_L q (a mod 3)))).
    { intros a Ha. rewrite force_ok by auto. f_equal. rewrite <- rsuml_mul. apply rsuml_ext. intros q _.
      rewrite (rsumn_ext 3 _ (fun d => interface ks kn n c d * v d)) by (intros d Hd; now rewrite J). fold t. ring. }
    assert (S : rsuml i3_points (fun q => i3_weight 1 q * i3_L q 0) + rsuml i3_points (fun q => i3_weight 1 q * i3_L q 1) + rsuml i3_points (fun q => i3_weight 1 q * i3_L q 2) = i3_area).
    { unfold i3_area. rewrite <- !rsuml_plus. apply rsuml_ext. intros q _. pose proof (L_sum q) as X. rewrite rs3 in X.
      transitivity (i3_weight 1 q * (i3_L q 0 + i3_L q 1 + i3_L q 2)); [ring|]. rewrite X. ring. }
    rewrite !rs3, !F by lia. change (0 mod 3)%nat with 0%nat. change (1 mod 3)%nat with 1%nat. change (2 mod 3)%nat with 2%nat.
    change ((3 + 0) mod 3)%nat with 0%nat. change ((3 + 1) mod 3)%nat with 1%nat. change ((3 + 2) mod 3)%nat with 2%nat.
    change (face 0) with 1. change (face 1) with 1. change (face 2) with 1. change (face (3 + 0)) with (-1). change (face (3 + 1)) with (-1). change (face (3 + 2)) with (-1).
    rewrite <- S. split; ring.
  Qed.
  Lemma work_pos U : norm3 n <> 0 -> 0 < area -> 0 <= ks -> 0 <= kn -> 0 <= work3 (force K U) U.
  Proof.
    intros Hn Ha A B. rewrite work_ok. apply Rmult_le_pos; [lra|]. apply rsuml_nonneg. intros q Hq. apply Rmult_le_pos; [left; now apply i3_weight_pos|]. now apply interface_pos.
  Qed.
  Lemma work_zero U : norm3 n <> 0 -> 0 < area -> 0 < ks -> 0 < kn -> work3 (force K U) U = 0 -> forall a i, (a < 3)%nat -> (i < 3)%nat -> U a i = U (3 + a)%nat i.
  Proof.
    intros Hn Ha A B. rewrite work_ok. intros E. apply Rmult_integral in E as [E|E]; [lra|].
    assert (Z : forall q, In q i3_points -> forall c, (c < 3)%nat -> jump U q c = 0).
    { intros q Hq. apply (interface_zero ks kn n (jump U q) Hn A B). 
      assert (X : forall l, (forall p, In p l -> In p i3_points) -> rsuml l (fun q => i3_weight 1 q * rsumn 3 (fun c => jump U q c * rsumn 3 (fun d => interface ks kn n c d * jump U q d))) = 0 ->
        In q l -> rsumn 3 (fun c => jump U q c * rsumn 3 (fun d => interface ks kn n c d * jump U q d)) = 0).
      { induction l as [|p l IH]; [intros _ _ []|]. intros Hl E' I'. rewrite rsuml_cons in E'.
        assert (P0 : 0 < i3_weight 1 p) by (apply i3_weight_pos, Hl; now left).
        assert (P1 : 0 <= rsumn 3 (fun c => jump U p c * rsumn 3 (fun d => interface ks kn n c d * jump U p d))) by (apply interface_pos; auto; lra).
        assert (P2 : 0 <= rsuml l (fun q => i3_weight 1 q * rsumn 3 (fun c => jump U q c * rsumn 3 (fun d => interface ks kn n c d * jump U q d)))).
        { apply rsuml_nonneg. intros r Hr. apply Rmult_le_pos; [left; apply i3_weight_pos, Hl; now right|]. apply interface_pos; auto; lra. }
        assert (P3 : 0 <= i3_weight 1 p * rsumn 3 (fun c => jump U p c * rsumn 3 (fun d => interface ks kn n c d * jump U p d))) by (apply Rmult_le_pos; lra).
        destruct I' as [->|I'].
        - apply (Rmult_eq_reg_l (i3_weight 1 q)); lra.
        - apply IH; auto; [|lra]. intros r Hr. apply Hl. now right. }
      apply (X i3_points); auto. }
    intros a i Hai Hi. apply Rminus_diag_uniq. apply (points_span (fun a => U a i - U (3 + a)%nat i)); auto. intros q Hq. exact (Z q Hq i Hi).
  Qed.
End Work.

(* ---- update ---- *)
Lemma det_sq (T : nat -> nat -> R) : (forall k l, (k < 3)%nat -> (l < 3)%nat -> rsumn 3 (fun i => T i k * T i l) = dlt k l) -> @mdet RRng 3 T * @mdet RRng 3 T = 1.
Proof.
  intros H. pose proof (H 0 0 ltac:(lia) ltac:(lia))%nat as A. pose proof (H 1 1 ltac:(lia) ltac:(lia))%nat as B. pose proof (H 2 2 ltac:(lia) ltac:(lia))%nat as C.
  pose proof (H 0 1 ltac:(lia) ltac:(lia))%nat as D. pose proof (H 0 2 ltac:(lia) ltac:(lia))%nat as E. pose proof (H 1 2 ltac:(lia) ltac:(lia))%nat as F. clear H.
  rewrite rs3 in *. unfold dlt in *. cbn [Nat.eqb] in *. cbn. unfold det3. cbn.
  transitivity ((T 0%nat 0%nat * T 0%nat 0%nat + T 1%nat 0%nat * T 1%nat 0%nat + T 2%nat 0%nat * T 2%nat 0%nat) *
     ((T 0%nat 1%nat * T 0%nat 1%nat + T 1%nat 1%nat * T 1%nat 1%nat + T 2%nat 1%nat * T 2%nat 1%nat) * (T 0%nat 2%nat * T 0%nat 2%nat + T 1%nat 2%nat * T 1%nat 2%nat + T 2%nat 2%nat * T 2%nat 2%nat)
      - (T 0%nat 1%nat * T 0%nat 2%nat + T 1%nat 1%nat * T 1%nat 2%nat + T 2%nat 1%nat * T 2%nat 2%nat) * (T 0%nat 1%nat * T 0%nat 2%nat + T 1%nat 1%nat * T 1%nat 2%nat + T 2%nat 1%nat * T 2%nat 2%nat))
     - (T 0%nat 0%nat * T 0%nat 1%nat + T 1%nat 0%nat * T 1%nat 1%nat + T 2%nat 0%nat * T 2%nat 1%nat) *
       ((T 0%nat 0%nat * T 0%nat 1%nat + T 1%nat 0%nat * T 1%nat 1%nat + T 2%nat 0%nat * T 2%nat 1%nat) * (T 0%nat 2%nat * T 0%nat 2%nat + T 1%nat 2%nat * T 1%nat 2%nat + T 2%nat 2%nat * T 2%nat 2%nat)
        - (T 0%nat 1%nat * T 0%nat 2%nat + T 1%nat 1%nat * T 1%nat 2%nat + T 2%nat 1%nat * T 2%nat 2%nat) * (T 0%nat 0%nat * T 0%nat 2%nat + T 1%nat 0%nat * T 1%nat 2%nat + T 2%nat 0%nat * T 2%nat 2%nat))
     + (T 0%nat 0%nat * T 0%nat 2%nat + T 1%nat 0%nat * T 1%nat 2%nat + T 2%nat 0%nat * T 2%nat 2%nat) *
       ((T 0%nat 0%nat * T 0%nat 1%nat + T 1%nat 0%nat * T 1%nat 1%nat + T 2%nat 0%nat * T 2%nat 1%nat) * (T 0%nat 1%nat * T 0%nat 2%nat + T 1%nat 1%nat * T 1%nat 2%nat + T 2%nat 1%nat * T 2%nat 2%nat)
        - (T 0%nat 1%nat * T 0%nat 1%nat + T 1%nat 1%nat * T 1%nat 1%nat + T 2%nat 1%nat * T 2%nat 1%nat) * (T 0%nat 0%nat * T 0%nat 2%nat + T 1%nat 0%nat * T 1%nat 2%nat + T 2%nat 0%nat * T 2%nat 2%nat))).
  - ring.
  - rewrite A, B, C, D, E, F. ring.
Qed.
(* the inverse of T is its transpose *)
Lemma inv_T (T : nat -> nat -> R) : (forall i j, (i < 3)%nat -> (j < 3)%nat -> rsumn 3 (fun k => T i k * T j k) = dlt i j) -> @mdet RRng 3 T <> 0 ->
  forall k i, (k < 3)%nat -> (i < 3)%nat -> @minv RFld 3 T (@mdet RRng 3 T) k i = T i k :> R.
Proof.
  intros H D k i Hk Hi.
  assert (I : forall a b, (a < 3)%nat -> (b < 3)%nat -> rsumn 3 (fun l => @minv RFld 3 T (@mdet RRng 3 T) a l * T l b) = dlt a b).
  { intros a b Ha Hb. exact (proj2 (minv_small RFld 3 T ltac:(lia) D a b Ha Hb)). }
  revert I. generalize (@minv RFld 3 T (@mdet RRng 3 T) : nat -> nat -> R). intros M I.
  transitivity (rsumn 3 (fun l => M k l * rsumn 3 (fun b => T l b * T i b))).
  - rewrite (rsumn_ext 3 _ (fun l => dlt i l * M k l)); [symmetry; apply dlt_sum; auto|]. intros l Hl. rewrite H by auto. unfold dlt. rewrite (Nat.eqb_sym l i). ring.
  - transitivity (rsumn 3 (fun b => dlt k b * T i b)); [|apply dlt_sum; auto].
    transitivity (rsumn 3 (fun b => rsumn 3 (fun l => M k l * T l b) * T i b)); [rewrite !rs3; ring|]. apply rsumn_ext. intros b Hb. rewrite I by auto. reflexivity.
Qed.
(* strains: the integral of the jump over the surface; stress: the interface law applied to it *)
Theorem update_ok pos det ks kn U : proper3 pos -> exists e s, inter3_update pos det ks kn U = Ok (e, s) /\
  (forall i, (i < 3)%nat -> e i = - (det * rsuml i3_points (fun q => i3_weight 1 q * jump U q i))) /\
  (forall i, (i < 3)%nat -> s i = rsumn 3 (fun d => interface ks kn (area_vec pos) i d * e d)).
Proof.
  intros P. destruct (T_ok pos P) as (T & ET & TN & TR & TC). unfold inter3_update. rewrite ET. cbn [obind].
  assert (D : @mdet RRng 3 T <> 0). { intros E. pose proof (det_sq T TC) as X. rewrite E in X. revert X. cbn. lra. }
  destruct (Req_EM_T (@mdet RRng 3 T) 0) as [E|_]; [contradiction|]. cbn [asserting].
  do 2 eexists. split; [reflexivity|].
  assert (I := inv_T T TR D). set (M := @minv RFld 3 T (@mdet RRng 3 T)) in *.
  set (US := fun (off k : nat) => rsuml i3_points (fun q => i3_weight det q * rsumn 3 (fun a => i3_L q a * rsumn 3 (fun i => M k i * U (off + a)%nat i)))).
  assert (EK : forall k, (k < 3)%nat -> US 3%nat k - US 0%nat k = rsumn 3 (fun i => T i k * (- (det * rsuml i3_points (fun q => i3_weight 1 q * jump U q i))))).
  { intros k Hk. rewrite rs3. unfold US, jump. generalize i3_points. induction l as [|q l IH].
    - rewrite !rsuml_nil. ring.
    - rewrite !rsuml_cons. rewrite (w_det det q).
      match goal with |- (?a + ?x) - (?b + ?y) = _ => transitivity ((a - b) + (x - y)); [ring|] end. rewrite IH. rewrite !rs3. rewrite !I by lia. cbn [Nat.add]. ring. }
  assert (EE : forall i, (i < 3)%nat -> rsumn 3 (fun k => T i k * (US 3%nat k - US 0%nat k)) = - (det * rsuml i3_points (fun q => i3_weight 1 q * jump U q i))).
  { intros i Hi. set (z := fun i => - (det * rsuml i3_points (fun q => i3_weight 1 q * jump U q i))) in *. change (rsumn 3 (fun k => T i k * (US 3%nat k - US 0%nat k)) = z i).
    rewrite (rsumn_ext 3 _ (fun k => T i k * rsumn 3 (fun j => T j k * z j))) by (intros k Hk; rewrite EK by auto; reflexivity).
    rewrite <- (dlt_sum i z Hi). rewrite (rsumn_ext 3 (fun k => dlt i k * z k) (fun j => rsumn 3 (fun k => T i k * T j k) * z j)) by (intros j Hj; rewrite TR by auto; reflexivity).
    rewrite !rs3. ring. }
  split; [exact EE|]. intros i Hi.
  enough (W : forall e : nat -> R, rsumn 3 (fun k => T i k * (inter3_D ks kn k * e k)) = rsumn 3 (fun d => interface ks kn (area_vec pos) i d * rsumn 3 (fun k => T d k * e k)))
    by exact (W (fun k => US 3%nat k - US 0%nat k)). intros e.
  transitivity (rsumn 3 (fun k => rsumn 3 (fun d => interface ks kn (area_vec pos) i d * T d k) * e k)); [|rewrite !rs3; ring].
  apply rsumn_ext. intros k Hk. 
  assert (X : rsumn 3 (fun d => interface ks kn (area_vec pos) i d * T d k) = T i k * inter3_D ks kn k).
  { unfold interface. rewrite (rsumn_ext 3 _ (fun d => ks * (dlt i d * T d k) + (kn - ks) * T i 2%nat * (T d k * T d 2%nat))) by (intros d Hd; rewrite <- !TN; ring).
    transitivity (ks * rsumn 3 (fun d => dlt i d * T d k) + (kn - ks) * T i 2%nat * rsumn 3 (fun d => T d k * T d 2%nat)); [rewrite !rs3; ring|].
    rewrite (dlt_sum i (fun d => T d k)) by auto. rewrite TC by auto. destruct k as [|[|[|k]]]; try lia; unfold dlt; cbn; ring. }
  rewrite X. ring.
Qed.
