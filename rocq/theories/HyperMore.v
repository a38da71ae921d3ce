(* Stresses and tangent as tensors; deformation measures; what SOLID81 and PLANE41 store. *)
From Coq Require Import Reals Lra Lia.
Set Warnings "-ambiguous-paths".
From Coquelicot Require Import Coquelicot.
From Verif Require Import Base RealBase MatModel AsmModel SpecAsm AsmLists MatProofs ElemModel SpecElem ElemBase HyperModel SpecHyper HyperProofs.
Local Open Scope R_scope.

Lemma six : forall k, (k < 6)%nat -> (k = 0 \/ k = 1 \/ k = 2 \/ k = 3 \/ k = 4 \/ k = 5)%nat.
Proof. intros; lia. Qed.
Lemma three : forall k, (k < 3)%nat -> (k = 0 \/ k = 1 \/ k = 2)%nat.
Proof. intros; lia. Qed.
Ltac case3 H := apply three in H; destruct H as [-> | [-> | ->]].
Ltac case6 H := apply six in H; destruct H as [-> | [-> | [-> | [-> | [-> | ->]]]]].
Lemma comp6_lt : forall i j, (comp6 i j < 6)%nat.
Proof. intros i j. unfold comp6. destruct (Nat.min i j) as [|[|a]], (Nat.max i j) as [|[|b]]; lia. Qed.

Lemma S_nth : forall m C p k, (k < 6)%nat -> arr (getS_UP m defaultTensorComponents C p) k = S_comp m C p k.
Proof. intros m C p k Hk. case6 Hk; reflexivity. Qed.
Lemma stress_m3 : forall m C p i j, stress m C p i j = S_comp m C p (comp6 i j).
Proof. intros. unfold stress, m3. apply S_nth, comp6_lt. Qed.

(* ---- energy *)
Lemma iso_energy_eq : forall m C,
  iso_energy m C = hW m (IC_C C 0 * pow_m23 (J_C C)) (IC_C C 1 * (pow_m23 (J_C C) * pow_m23 (J_C C))) 1.
Proof.
  intros m C. unfold iso_energy. unfold vol_ratio. rewrite det_m3, <- J_det. cbv zeta.
  f_equal.
  - rewrite Rmult_comm. f_equal. unfold trace. rewrite rs3. reflexivity.
  - unfold pow_m23. rewrite <- Rpower_plus. replace (- (2) / 3 + - (2) / 3) with (- (4) / 3) by lra.
    rewrite Rmult_comm. f_equal. unfold trace, mmul. rewrite !rs3. unfold m3, IC_C. cbn. field.
Qed.
Lemma energy_stress : forall m, known m -> forall C t dC p, curve C t dC -> 0 < det3 (m3 (C t)) ->
  is_derive (fun s => iso_energy m (C s) + p * (vol_ratio (C s) - 1)) t (1 / 2 * ddot (stress m (C t) p) (m3 dC)).
Proof.
  intros m Hm C t dC p HC Hd. rewrite det_m3 in Hd.
  pose proof (der_energy m (known_good m Hm) C (fun _ => p) t dC HC Hd) as D.
  eapply is_derive_ext; [|eapply der_eq; [exact D|]].
  - intros s. rewrite iso_energy_eq. unfold vol_ratio. rewrite det_m3. reflexivity.
  - f_equal. unfold stress. rewrite ddot_m3. unfold con. apply rsumn_ext. intros k Hk. rewrite S_nth by exact Hk. reflexivity.
Qed.
Lemma identity6 : forall i j, (i < 3)%nat -> (j < 3)%nat -> m3 mI i j = dlt i j.
Proof. intros i j Hi Hj. case3 Hi; case3 Hj; reflexivity. Qed.
Lemma ref_J : J_C mI = 1.
Proof. rewrite J_det. replace (detC mI) with 1 by (unfold detC, mI; ring). apply sqrt_1. Qed.
Lemma ref_pp : pow_m23 1 = 1.
Proof. unfold pow_m23, Rpower. rewrite ln_1, Rmult_0_r. apply exp_0. Qed.
Lemma stress_ref : forall m p i j, (i < 3)%nat -> (j < 3)%nat -> stress m mI p i j = p * dlt i j.
Proof.
  intros m p i j Hi Hj. rewrite stress_m3, <- identity6 by assumption. unfold S_comp, m3. cbv zeta.
  change (IC_C mI 2) with (J_C mI). rewrite ref_J, ref_pp.
  generalize (al (W_first m (IC_C mI 0 * 1) (IC_C mI 1 * (1 * 1)) 0) AL_1) as a1.
  generalize (al (W_first m (IC_C mI 0 * 1) (IC_C mI 1 * (1 * 1)) 0) AL_2) as a2. intros a2 a1.
  assert (Q : forall k, (k < 6)%nat -> invC_C mI 1 k = mI k /\ hA mI (invC_C mI 1) k = 0 /\ hB mI (invC_C mI 1) k = 0).
  { intros k Hk. unfold hA, hB, IC_C, invC_C. case6 Hk; cbn [mI]; repeat split; field. }
  destruct (Q _ (comp6_lt i j)) as (-> & -> & ->). ring.
Qed.
Lemma iso_energy_ref : forall m, known m -> iso_energy m mI = 0.
Proof.
  intros m Hm. rewrite iso_energy_eq, ref_J, ref_pp.
  replace (IC_C mI 0 * 1) with 3 by (unfold IC_C, mI; ring). replace (IC_C mI 1 * (1 * 1)) with 3 by (unfold IC_C, mI; ring).
  apply (good_zero m (known_good m Hm)).
Qed.
(* S : C = 3 p J: the pressure is the mean true stress *)
Lemma stress_mean : forall m C p, 0 < det3 (m3 C) -> ddot (stress m C p) (m3 C) = 3 * (p * vol_ratio C).
Proof.
  intros m C p Hd. rewrite det_m3 in Hd. unfold vol_ratio. rewrite det_m3, <- J_det. unfold stress. rewrite ddot_m3.
  unfold con. rewrite rs6, !S_nth by lia. unfold S_comp. cbv zeta. change (IC_C C 2) with (J_C C).
  set (a1 := 2 * al _ AL_1 * _). set (a2 := 2 * al _ AL_2 * _). unfold hA, hB.
  assert (Q : con (invC_C C (J_C C)) C = 3).
  { unfold con. rewrite rs6. unfold invC_C, wt. rewrite !(JJ C Hd).
    assert (D : detC C <> 0) by lra. revert D. unfold detC. intros D. field. exact D. }
  unfold con in Q. rewrite rs6 in Q. revert Q. generalize (invC_C C (J_C C)) as Ci. generalize (J_C C) as J. intros J Ci Q.
  unfold wt in *.
  transitivity (a1 * (IC_C C 0 - 1 / 3 * IC_C C 0 * (1 * Ci 0%nat * C 0%nat + 2 * Ci 1%nat * C 1%nat + 2 * Ci 2%nat * C 2%nat + 1 * Ci 3%nat * C 3%nat + 2 * Ci 4%nat * C 4%nat + 1 * Ci 5%nat * C 5%nat))
    + a2 * (2 * IC_C C 1 - 2 / 3 * IC_C C 1 * (1 * Ci 0%nat * C 0%nat + 2 * Ci 1%nat * C 1%nat + 2 * Ci 2%nat * C 2%nat + 1 * Ci 3%nat * C 3%nat + 2 * Ci 4%nat * C 4%nat + 1 * Ci 5%nat * C 5%nat))
    + p * J * (1 * Ci 0%nat * C 0%nat + 2 * Ci 1%nat * C 1%nat + 2 * Ci 2%nat * C 2%nat + 1 * Ci 3%nat * C 3%nat + 2 * Ci 4%nat * C 4%nat + 1 * Ci 5%nat * C 5%nat)).
  - unfold IC_C, mI. field.
  - rewrite Q. field.
Qed.

(* ---- tangent *)
Lemma tails_length : forall A B (f : A -> A -> B) l, length (flat_map (fun t => map (f (fst t)) (snd t)) (tails l)) = tri (length l).
Proof.
  intros A B f. induction l as [|x l IH]; [reflexivity|].
  cbn [tails flat_map]. rewrite app_length, IH, map_length. cbn [fst snd length].
  pose proof (tri_double (length l)). pose proof (tri_double (S (length l))). nia.
Qed.
Lemma sym_comp_S : forall n i j, (i <= j < n)%nat -> sym_comp (S n) (S i) (S j) = (S n + sym_comp n i j)%nat.
Proof.
  intros n i j H. unfold sym_comp. rewrite !Nat.min_l, !Nat.max_r by lia.
  pose proof (double_tri i) as D1. pose proof (double_tri (S i)) as D2.
  replace (S i - 1)%nat with i in * by lia.
  assert (E : (i * S i / 2 = (i - 1) * i / 2 + i)%nat) by (destruct i; [reflexivity|nia]).
  rewrite E. assert ((i - 1) * i / 2 <= n * i)%nat by nia.
  replace (S n * S i)%nat with (n * i + n + i + 1)%nat by nia. lia.
Qed.
Lemma tails_nth : forall A B (f : A -> A -> B) d d' l i j, (i <= j < length l)%nat ->
  nth (sym_comp (length l) i j) (flat_map (fun t => map (f (fst t)) (snd t)) (tails l)) d' = f (nth i l d) (nth j l d).
Proof.
  intros A B f d d'. induction l as [|x l IH]; intros i j H; [cbn in H; lia|].
  cbn [tails flat_map fst snd].
  destruct i as [|i].
  - unfold sym_comp. rewrite Nat.min_l, Nat.max_r by lia. cbn [Nat.sub]. rewrite Nat.mul_0_r, Nat.mul_0_l. cbn [Nat.div Nat.divmod fst Nat.sub Nat.add].
    change (0 / 2)%nat with 0%nat. rewrite Nat.sub_0_r. cbn [Nat.add]. rewrite app_nth1 by (rewrite map_length; cbn [length] in *; lia).
    rewrite (nth_indep _ d' (f x d)) by (rewrite map_length; lia). rewrite map_nth. reflexivity.
  - destruct j as [|j]; [lia|]. cbn [length] in *. rewrite sym_comp_S by lia.
    rewrite app_nth2 by (rewrite map_length; cbn [length]; lia). rewrite map_length. cbn [length].
    replace (S (length l) + sym_comp (length l) i j - S (length l))%nat with (sym_comp (length l) i j) by lia.
    apply IH. lia.
Qed.
Lemma hIIt_sym : forall Ci i j, (i < 6)%nat -> (j < 6)%nat -> hIIt Ci i j = hIIt Ci j i.
Proof. intros Ci i j Hi Hj. case6 Hi; case6 Hj; unfold hIIt; ring. Qed.
Lemma mII_sym : forall i j, (i < 6)%nat -> (j < 6)%nat -> mII i j = mII j i.
Proof. intros i j Hi Hj. case6 Hi; case6 Hj; reflexivity. Qed.
Lemma D_sym : forall m C p i j, (i < 6)%nat -> (j < 6)%nat -> D_comp m C p i j = D_comp m C p j i.
Proof. intros m C p i j Hi Hj. unfold D_comp. cbv zeta. rewrite (hIIt_sym _ i j), (mII_sym i j) by assumption. generalize (1 / (IC_C C 2 * IC_C C 2)). intros oo. field. Qed.
Lemma sym_comp_comm : forall n i j, sym_comp n i j = sym_comp n j i.
Proof. intros. unfold sym_comp. rewrite (Nat.min_comm i j), (Nat.max_comm i j). reflexivity. Qed.
Lemma Dd_nth : forall m comps C p i j, Forall (fun k => (k < 6)%nat) comps -> (i < length comps)%nat -> (j < length comps)%nat ->
  nth (sym_comp (length comps) i j) (fst (getDdDp_UP m comps C p)) 0 = D_comp m C p (nth i comps 0%nat) (nth j comps 0%nat).
Proof.
  intros m comps C p i j F Hi Hj. unfold getDdDp_UP. cbn [fst].
  destruct (Nat.le_gt_cases i j) as [L|L].
  - apply (tails_nth nat R (D_comp m C p)). lia.
  - rewrite sym_comp_comm, (tails_nth nat R (D_comp m C p) 0%nat) by lia.
    rewrite Forall_forall in F. apply D_sym; apply F; apply nth_In; assumption.
Qed.
Lemma Dp_nth : forall m comps C p i, (i < length comps)%nat ->
  nth i (snd (getDdDp_UP m comps C p)) 0 = Dp_comp C (nth i comps 0%nat).
Proof.
  intros m comps C p i Hi. unfold getDdDp_UP. cbn [snd].
  rewrite (nth_indep _ 0 (Dp_comp C 0%nat)) by (rewrite map_length; exact Hi). apply map_nth.
Qed.

(* the 6 x 6 array as a tensor of rank 4 *)
Lemma tangent : forall m, known m -> forall C p t dC dp, curve C t dC -> is_derive p t dp -> 0 < det3 (m3 (C t)) ->
  forall i j, (i < 3)%nat -> (j < 3)%nat ->
  is_derive (fun s => stress m (C s) (p s) i j) t
    (ddot (fun k l => nth (sym_comp 6 (comp6 i j) (comp6 k l)) (fst (getDdDp_UP m defaultTensorComponents (C t) (p t))) 0) (m3 dC)
     + dp * m3 (arr (snd (getDdDp_UP m defaultTensorComponents (C t) (p t)))) i j).
Proof.
  intros m Hm C p t dC dp HC Hp Hd i j Hi Hj. rewrite det_m3 in Hd.
  pose proof (der_S m (known_good m Hm) C p t dC dp HC Hp Hd (comp6 i j) (comp6_lt i j)) as D.
  eapply is_derive_ext; [|eapply der_eq; [exact D|]].
  - intros s. cbv beta. symmetry. apply stress_m3.
  - assert (E : forall k, (k < 6)%nat -> nth k defaultTensorComponents 0%nat = k) by (intros k Hk; case6 Hk; reflexivity).
    f_equal.
    + rewrite <- ddot_m3. unfold ddot. apply rsumn_ext. intros k Hk. apply rsumn_ext. intros l Hl. f_equal.
      change 6%nat with (length defaultTensorComponents).
      rewrite Dd_nth; [|repeat constructor|apply comp6_lt..]. rewrite !E by apply comp6_lt. reflexivity.
    + f_equal. unfold m3, arr. rewrite Dp_nth by apply comp6_lt. rewrite E by apply comp6_lt. reflexivity.
Qed.
(* a part of the components: only those components vary *)
Definition along (comps : list nat) (h : nat -> R) (k : nat) : R :=
  rsumn (length comps) (fun j => if (nth j comps 0 =? k)%nat then h j else 0).
Lemma con_along : forall D comps h, Forall (fun k => (k < 6)%nat) comps ->
  con D (along comps h) = rsumn (length comps) (fun j => wt (nth j comps 0%nat) * D (nth j comps 0%nat) * h j).
Proof.
  intros D comps h F. unfold con, along.
  rewrite (rsumn_ext 6 _ (fun l => rsumn (length comps) (fun j => wt l * D l * (if (nth j comps 0 =? l)%nat then h j else 0)))).
  2: { intros l Hl. rewrite rsumn_mul. reflexivity. }
  rewrite rsumn_swap. apply rsumn_ext. intros j Hj.
  rewrite Forall_forall in F. assert (L : (nth j comps 0 < 6)%nat) by (apply F, nth_In, Hj).
  rewrite rs6. revert L. generalize (nth j comps 0%nat). intros k L. case6 L; cbn [Nat.eqb]; ring.
Qed.
Lemma tangent_part : forall m, known m -> forall comps C p t h dp, Forall (fun k => (k < 6)%nat) comps ->
  curve C t (along comps h) -> is_derive p t dp -> 0 < det3 (m3 (C t)) ->
  forall i, (i < length comps)%nat ->
  is_derive (fun s => nth i (getS_UP m comps (C s) (p s)) 0) t
    (rsumn (length comps) (fun j => wt (nth j comps 0%nat)
        * nth (sym_comp (length comps) i j) (fst (getDdDp_UP m comps (C t) (p t))) 0 * h j)
     + dp * nth i (snd (getDdDp_UP m comps (C t) (p t))) 0).
Proof.
  intros m Hm comps C p t h dp F HC Hp Hd i Hi. rewrite det_m3 in Hd.
  pose proof F as F'. rewrite Forall_forall in F'.
  assert (L : (nth i comps 0 < 6)%nat) by (apply F', nth_In, Hi).
  pose proof (der_S m (known_good m Hm) C p t _ dp HC Hp Hd _ L) as D.
  eapply is_derive_ext; [|eapply der_eq; [exact D|]].
  - intros s. unfold getS_UP. rewrite (nth_indep _ 0 (S_comp m (C s) (p s) 0%nat)) by (rewrite map_length; exact Hi).
    symmetry. apply (map_nth (S_comp m (C s) (p s))).
  - rewrite con_along by exact F. f_equal.
    + apply rsumn_ext. intros j Hj. rewrite Dd_nth by assumption. reflexivity.
    + rewrite Dp_nth by exact Hi. reflexivity.
Qed.

(* ---- deformation measures *)
Lemma det_mul : forall A B, det3 (mmul A B) = det3 A * det3 B.
Proof. intros. unfold det3, mmul. rewrite !rs3. ring. Qed.
Lemma det_tr : forall A, det3 (mtr A) = det3 A.
Proof. intros. unfold det3, mtr. ring. Qed.
Lemma det3_ext : forall A B, meq A B -> det3 A = det3 B.
Proof. intros A B E. unfold det3. rewrite !E by lia. reflexivity. Qed.
Lemma J_F : forall C F, meq (m3 C) (cauchy_green F) -> J_C C = Rabs (det3 F).
Proof.
  intros C F E. rewrite J_det, <- det_m3, (det3_ext _ _ E). unfold cauchy_green. rewrite det_mul, det_tr. apply sqrt_Rsqr_abs.
Qed.
Lemma inv_C : forall C, 0 < det3 (m3 C) -> meq (mmul (m3 C) (m3 (invC_C C (J_C C)))) dlt.
Proof.
  intros C Hd i j Hi Hj. rewrite det_m3 in Hd. unfold mmul. rewrite rs3. unfold m3.
  assert (D : detC C <> 0) by lra.
  case3 Hi; case3 Hj; cbn [comp6 Nat.min Nat.max]; unfold invC_C, dlt; cbn [Nat.eqb]; rewrite (JJ C Hd); revert D; unfold detC; intros D; field; exact D.
Qed.
Lemma inv_C' : forall C, 0 < det3 (m3 C) -> meq (mmul (m3 (invC_C C (J_C C))) (m3 C)) dlt.
Proof.
  intros C Hd i j Hi Hj. rewrite det_m3 in Hd. unfold mmul. rewrite rs3. unfold m3.
  assert (D : detC C <> 0) by lra.
  case3 Hi; case3 Hj; cbn [comp6 Nat.min Nat.max]; unfold invC_C, dlt; cbn [Nat.eqb]; rewrite (JJ C Hd); revert D; unfold detC; intros D; field; exact D.
Qed.
Lemma invariants : forall C, IC_C C 0 = trace (m3 C) /\ IC_C C 1 = (trace (m3 C) * trace (m3 C) - trace (mmul (m3 C) (m3 C))) / 2
  /\ IC_C C 2 = sqrt (det3 (m3 C)).
Proof.
  intros C. split; [|split].
  - unfold trace. rewrite rs3. reflexivity.
  - unfold trace, mmul. rewrite !rs3. unfold m3. cbn. field.
  - rewrite det_m3. reflexivity.
Qed.

(* ---- SOLID81 *)
Lemma B_NL_eq : forall nx, s81_B_NL nx = map (fun q =>
  let k := (q / 24)%nat in let c := (q mod 24)%nat in
  if (k / 3 =? c mod 3)%nat then nx (c / 3)%nat (k mod 3)%nat else 0) (seq 0 216).
Proof. reflexivity. Qed.
