(* Refutations and the remaining facts about SOLID81 and PLANE41. *)
From Coq Require Import Reals Lra Lia.
Set Warnings "-ambiguous-paths".
From Coquelicot Require Import Coquelicot.
From Verif Require Import Base RealBase MatModel AsmModel SpecAsm AsmLists MatProofs ElemModel SpecElem ElemBase HyperModel SpecHyper HyperProofs HyperMore HyperElem HyperTangent HyperPlane HyperBalance HyperBalance2 HyperQuery.
Local Open Scope R_scope.

Definition zero6 : list R := repeat 0 6.
Lemma adds_unique : forall t t' s A B, adds t t' s A -> adds t t' s B -> forall i j, (i < 3)%nat -> (j < 3)%nat -> s * A i j = s * B i j.
Proof. intros t t' s A B [_ HA] [_ HB] i j Hi Hj. pose proof (HA i j Hi Hj). pose proof (HB i j Hi Hj). lra. Qed.

Lemma s81_couchy_wrong : forall m nx U p scale t, length U = 24%nat -> length t = 6%nat -> 0 < det3 (defgrad (grad3 nx (arr U))) ->
  p <> 0 -> scale <> 0 -> exists t', s81_query m nx U p COUCHY scale t = Ok t' /\
    ~ adds t t' scale (cauchy (defgrad (grad3 nx (arr U))) (pk2 m (defgrad (grad3 nx (arr U))) p)).
Proof.
  intros m nx U p scale t LU Lt Hd Hp Hs. destruct (s81_COUCHY m nx U p scale t LU Lt) as (t' & E & W); [lra|exact Hd|].
  exists t'. split; [exact E|]. intros V. pose proof (adds_unique _ _ _ _ _ W V 0 0 ltac:(lia) ltac:(lia)) as Q. cbv beta in Q.
  unfold dlt in Q at 1. cbn [Nat.eqb] in Q.
  apply (Rmult_eq_reg_l scale) in Q; [|exact Hs]. lra.
Qed.
Lemma s81_couchy_p0 : forall m nx U scale t, length U = 24%nat -> length t = 6%nat -> 0 < det3 (defgrad (grad3 nx (arr U))) ->
  exists t', s81_query m nx U 0 COUCHY scale t = Ok t' /\
    adds t t' scale (cauchy (defgrad (grad3 nx (arr U))) (pk2 m (defgrad (grad3 nx (arr U))) 0)).
Proof.
  intros m nx U scale t LU Lt Hd. destruct (s81_COUCHY m nx U 0 scale t LU Lt) as (t' & E & W); [lra|exact Hd|].
  exists t'. split; [exact E|]. eapply adds_ext; [|exact W]. intros i j Hi Hj. cbv beta. ring.
Qed.
Lemma s81_pk2_wrong : forall m nx U p scale t, length U = 24%nat -> length t = 6%nat -> det3 (defgrad (grad3 nx (arr U))) <> 0 ->
  p <> 0 -> scale <> 0 -> exists t', s81_query m nx U p PK2 scale t = Ok t' /\
    ~ adds t t' scale (pk2 m (defgrad (grad3 nx (arr U))) p).
Proof.
  intros m nx U p scale t LU Lt Hd Hp Hs. destruct (s81_PK2 m nx U p scale t LU Lt Hd) as (t' & Ci & E & HC & W).
  exists t'. split; [exact E|]. intros V. set (F := defgrad (grad3 nx (arr U))) in *.
  assert (Z : forall k, (k < 3)%nat -> Ci 0%nat k = 0).
  { intros k Hk. pose proof (adds_unique _ _ _ _ _ W V 0%nat k ltac:(lia) Hk) as Q. cbv beta in Q.
    apply (Rmult_eq_reg_l scale) in Q; [|exact Hs]. assert (Q' : p * Rabs (det3 F) * Ci 0%nat k = 0) by lra.
    apply Rmult_integral in Q'. destruct Q' as [Q'|Q']; [|exact Q']. apply Rmult_integral in Q'. destruct Q' as [Q'|Q']; [contradiction|].
    apply Rabs_no_R0 in Hd. contradiction. }
  pose proof (HC 0%nat 0%nat ltac:(lia) ltac:(lia)) as Q. unfold mmul at 1 in Q. rewrite rs3, !Z in Q by lia. unfold dlt in Q. cbn [Nat.eqb] in Q. lra.
Qed.

(* ---- the neo-Hookean stress at C = [1 1; 1 2] (simple shear) *)
Definition shear (c : nat) : R := if Nat.even c then corner (c / 2)%nat 1 else 0.
Lemma shear_F : forall i j, (i < 3)%nat -> (j < 3)%nat ->
  defgrad (grad2 nx_square shear) i j = if ((i =? 0) && (j =? 1))%nat then 1 else dlt i j.
Proof.
  intros i j Hi Hj. unfold defgrad, grad2. case3 Hi; case3 Hj; cbv [Nat.ltb Nat.leb andb dlt Nat.eqb]; try ring;
  rewrite rs4; unfold nx_square, shear, corner; cbv [Nat.mul Nat.add Nat.even Nat.div Nat.divmod fst Nat.testbit Nat.odd negb Nat.div2]; field.
Qed.
Lemma shear_det : det3 (defgrad (grad2 nx_square shear)) = 1.
Proof. unfold det3. rewrite !shear_F by lia. cbv [Nat.eqb andb dlt]. ring. Qed.
Lemma shear_C : forall k, (k < 6)%nat -> vec6 (cauchy_green (defgrad (grad2 nx_square shear))) k = nth k [1; 1; 0; 2; 0; 1] 0.
Proof.
  intros k Hk. case6 Hk; cbn [vec6]; unfold cauchy_green, mmul, mtr; rewrite rs3, !shear_F by lia; cbv [Nat.eqb andb dlt nth]; ring.
Qed.
Lemma shear_S : forall i j, (i < 2)%nat -> (j < 2)%nat ->
  pk2 (neo_hookean 1 1) (defgrad (grad2 nx_square shear)) 0 i j = dlt i j - 4 / 3 * nth (i + j) [2; -1; 1] 0.
Proof.
  intros i j Hi Hj. unfold pk2. rewrite stress_m3. rewrite (S_comp_ext _ _ (fun k => nth k [1; 1; 0; 2; 0; 1] 0) 0 _ shear_C (comp6_lt i j)).
  set (C := fun k => nth k [1; 1; 0; 2; 0; 1] 0).
  assert (J1 : J_C C = 1). { rewrite J_det. replace (detC C) with 1 by (unfold detC, C; cbn [nth]; ring). apply sqrt_1. }
  unfold S_comp. cbv zeta. change (IC_C C 2) with (J_C C). rewrite J1, ref_pp.
  unfold hA, hB, neo_hookean, W_first, al. cbn [nth].
  case2 Hi; case2 Hj; unfold IC_C, invC_C, mI, C, dlt; cbv [comp6 Nat.min Nat.max Nat.eqb Nat.add]; cbn [nth]; field.
Qed.
Lemma p41_couchy_wrong : exists nx U t', 0 < det3 (defgrad (grad2 nx U)) /\
  p41_query (neo_hookean 1 1) nx U 0 COUCHY 1 zero6 = Ok t' /\
  ~ adds zero6 t' 1 (cauchy (defgrad (grad2 nx U)) (pk2 (neo_hookean 1 1) (defgrad (grad2 nx U)) 0)).
Proof.
  exists nx_square, shear. destruct (p41_COUCHY (neo_hookean 1 1) nx_square shear 0 1 zero6 eq_refl) as (t' & E & W).
  { rewrite shear_det. lra. }
  exists t'. split; [rewrite shear_det; lra|]. split; [exact E|]. intros V.
  pose proof (adds_unique _ _ _ _ _ W V 0 0 ltac:(lia) ltac:(lia)) as Q. unfold cauchy in Q. rewrite det_tr, shear_det in Q.
  unfold mmul, mtr in Q. rewrite !rs3 in Q. rewrite !shear_F in Q by lia. rewrite (shear_S 0 0), (shear_S 0 1), (shear_S 1 0), (shear_S 1 1) in Q by lia. revert Q.
  cbv [Nat.eqb andb dlt Nat.add]. cbn [nth]. intros Q.
  match type of Q with ?a = ?b => assert (N : b - a = 7 / 3) by field end. lra.
Qed.
(* the mean: every point is added with weight 1 *)
Lemma mean_unscaled : forall P (get : P -> R -> list R -> outcome (list R)) (A : P -> mat3) pts scale t, length t = 6%nat ->
  (forall w q s t, In (w, q) pts -> length t = 6%nat -> exists t', get q s t = Ok t' /\ adds t t' 1 (A q)) ->
  exists t', mean_tensor get pts scale t = Ok t' /\ adds t t' 1 (fun i j => rsuml pts (fun wq => A (snd wq) i j)).
Proof.
  intros P get A pts scale t Lt H. unfold mean_tensor. cbv zeta. generalize (rsuml pts fst) as W. intros W.
  revert t Lt. induction pts as [|[w q] pts IH]; intros t Lt.
  - exists t. split; [reflexivity|]. split; [exact Lt|]. intros i j Hi Hj. rewrite rsuml_nil. ring.
  - cbn [ofold fst snd]. destruct (H w q (w / W * scale) t (or_introl eq_refl) Lt) as (t1 & E1 & L1 & W1). rewrite E1. cbn [obind].
    destruct (IH (fun w q s t I L => H w q s t (or_intror I) L) t1 L1) as (t' & E' & L' & W'). exists t'. split; [exact E'|]. split; [exact L'|].
    intros i j Hi Hj. rewrite W', W1, rsuml_cons by assumption. cbn [fst snd]. ring.
Qed.
Lemma rest_F : forall nx i j, (i < 3)%nat -> (j < 3)%nat -> defgrad (grad2 nx (fun _ => 0)) i j = dlt i j.
Proof. intros nx i j Hi Hj. unfold defgrad, grad2. destruct ((i <? 2) && (j <? 2))%nat; [rewrite rs4|]; ring. Qed.
Lemma rest_S : forall m nx p i j, (i < 3)%nat -> (j < 3)%nat -> pk2 m (defgrad (grad2 nx (fun _ => 0))) p i j = p * dlt i j.
Proof.
  intros m nx p i j Hi Hj. unfold pk2. rewrite stress_m3. rewrite (S_comp_ext _ _ mI).
  - rewrite <- stress_m3. apply stress_ref; assumption.
  - intros k Hk. case6 Hk; cbn [vec6 mI]; unfold cauchy_green, mmul, mtr; rewrite rs3, !rest_F by lia; cbv [dlt Nat.eqb]; ring.
  - apply comp6_lt.
Qed.
Lemma p41_mean_wrong : forall nx w, 0 < w -> exists t',
  mean_tensor (fun nx s t => p41_query (neo_hookean 1 1) nx (fun _ => 0) 1 COUCHY s t) [(w, nx); (w, nx); (w, nx); (w, nx)] 1 zero6 = Ok t' /\
  adds zero6 t' 4 (cauchy (defgrad (grad2 nx (fun _ => 0))) (pk2 (neo_hookean 1 1) (defgrad (grad2 nx (fun _ => 0))) 1)) /\
  ~ adds zero6 t' 1 (cauchy (defgrad (grad2 nx (fun _ => 0))) (pk2 (neo_hookean 1 1) (defgrad (grad2 nx (fun _ => 0))) 1)).
Proof.
  intros nx w Hw.
  assert (D : forall nx, det3 (defgrad (grad2 nx (fun _ => 0))) = 1).
  { intros y. unfold det3. rewrite !rest_F by lia. cbv [dlt Nat.eqb]. ring. }
  assert (G : forall y i j, (i < 3)%nat -> (j < 3)%nat -> cauchy (defgrad (grad2 y (fun _ => 0))) (pk2 (neo_hookean 1 1) (defgrad (grad2 y (fun _ => 0))) 1) i j = dlt i j /\
      cauchy (mtr (defgrad (grad2 y (fun _ => 0)))) (pk2 (neo_hookean 1 1) (defgrad (grad2 y (fun _ => 0))) 1) i j = dlt i j).
  { intros y i j Hi Hj. unfold cauchy. rewrite det_tr, D. unfold mmul, mtr. rewrite !rs3; try rewrite !rs3. rewrite !rest_F, !rest_S by lia.
    case3 Hi; case3 Hj; cbv [dlt Nat.eqb]; split; field. }
  destruct (mean_unscaled _ (fun nx s t => p41_query (neo_hookean 1 1) nx (fun _ => 0) 1 COUCHY s t)
              (fun nx => cauchy (mtr (defgrad (grad2 nx (fun _ => 0)))) (pk2 (neo_hookean 1 1) (defgrad (grad2 nx (fun _ => 0))) 1))
              [(w, nx); (w, nx); (w, nx); (w, nx)] 1 zero6 eq_refl) as (t' & E & L & W).
  { intros w' y s t _ Lt. apply p41_COUCHY; [exact Lt|]. rewrite D. lra. }
  exists t'. split; [exact E|]. split.
  - split; [exact L|]. intros i j Hi Hj. rewrite W, !rsuml_cons, rsuml_nil by assumption. cbn [snd]. destruct (G nx i j Hi Hj) as [-> ->]. ring.
  - intros [_ V]. pose proof (W 0%nat 0%nat ltac:(lia) ltac:(lia)) as Q. rewrite (V 0%nat 0%nat ltac:(lia) ltac:(lia)) in Q.
    rewrite !rsuml_cons, rsuml_nil in Q. cbn [snd] in Q. destruct (G nx 0%nat 0%nat ltac:(lia) ltac:(lia)) as [G1 G2]. rewrite G1, G2 in Q.
    unfold dlt in Q. cbn [Nat.eqb] in Q. lra.
Qed.

(* ---- scalar and vector queries *)
Lemma s81_scalars : forall m nx U p scale x, length U = 24%nat ->
  s81_squery m nx U p SP scale x = Ok (x + scale * p) /\
  s81_squery m nx U p WP scale x = Ok (x + scale * (hK m / 2 * (Rabs (det3 (defgrad (grad3 nx (arr U)))) - 1) ^ 2)).
Proof.
  intros m nx U p scale x L. unfold s81_squery. rewrite (proj1 (s81_pt_ok m nx U p L)). cbn [obind s81_scalar].
  rewrite (J_F _ _ (s81_cg m nx U p L)). split; f_equal; [ring|field].
Qed.
Lemma inv_F : forall C F k, meq (m3 C) (cauchy_green F) -> (k < 3)%nat -> IC_C C k = invariant F k.
Proof.
  intros C F k H Hk. destruct (invariants C) as (I0 & I1 & _).
  assert (T : trace (m3 C) = trace (cauchy_green F)). { unfold trace. rewrite !rs3, !H by lia. reflexivity. }
  assert (T2 : trace (mmul (m3 C) (m3 C)) = trace (mmul (cauchy_green F) (cauchy_green F))). { unfold trace, mmul at 1 2. apply rsumn_ext. intros i Hi. apply rsumn_ext. intros j Hj. rewrite !H by assumption. reflexivity. }
  case3 Hk; cbn [invariant].
  - rewrite I0. exact T.
  - rewrite I1, T, T2. reflexivity.
  - exact (J_F C F H).
Qed.
Lemma s81_invariants : forall m nx U p scale v, length U = 24%nat ->
  exists v', s81_vquery m nx U p scale v = Ok v' /\ length v' = 3%nat /\
    forall k, (k < 3)%nat -> nth k v' 0 = nth k v 0 + scale * invariant (defgrad (grad3 nx (arr U))) k.
Proof.
  intros m nx U p scale v L. unfold s81_vquery. rewrite (proj1 (s81_pt_ok m nx U p L)). cbn [obind]. eexists. split; [reflexivity|].
  split; [reflexivity|]. intros k Hk. unfold s81_IC. rewrite nth_map_seq by exact Hk. rewrite (inv_F _ _ k (s81_cg m nx U p L) Hk). ring.
Qed.
Lemma p41_invariants : forall m nx U p scale v, p41_vquery m nx U p scale v = UB.
Proof. reflexivity. Qed.
(* the energy query: right for isochoric deformations *)
Lemma s81_WU_iso : forall m nx U p scale x, known m -> length U = 24%nat -> Rabs (det3 (defgrad (grad3 nx (arr U)))) = 1 ->
  s81_squery m nx U p WU scale x = Ok (x + scale * iso_energy m (vec6 (cauchy_green (defgrad (grad3 nx (arr U)))))).
Proof.
  intros m nx U p scale x Hm L D. unfold s81_squery. rewrite (proj1 (s81_pt_ok m nx U p L)). cbn [obind s81_scalar].
  set (F := defgrad (grad3 nx (arr U))) in *. f_equal. rewrite !Rmult_1_r, !Rplus_0_l. rewrite Rmult_comm. f_equal. f_equal.
  assert (Sy : forall i j, cauchy_green F i j = cauchy_green F j i) by (intros i j; unfold cauchy_green, mmul, mtr; apply rsumn_ext; intros; ring).
  rewrite iso_energy_eq. pose proof (m3_vec6 _ Sy) as HC. rewrite (J_F _ _ HC), D, ref_pp.
  rewrite !(inv_F _ F _ (s81_cg m nx U p L)), !(inv_F _ F _ HC) by lia. rewrite !Rmult_1_r.
  destruct Hm; cbn [hW neo_hookean biderman mooney_rivlin]; ring.
Qed.
Definition double (c : nat) : R := corner (c / 3)%nat (c mod 3)%nat.
Lemma double_F : forall i j, (i < 3)%nat -> (j < 3)%nat -> defgrad (grad3 nx_cube (arr (map double (seq 0 24)))) i j = 2 * dlt i j.
Proof.
  intros i j Hi Hj. unfold defgrad, grad3, nx_cube, arr. 
  rewrite (rsumn_ext 8 _ (fun n => corner n j * corner n i / 8)).
  - unfold rsumn. cbn [seq]. rewrite !rsuml_cons, rsuml_nil. unfold corner. case3 Hi; case3 Hj; cbv [Nat.testbit Nat.odd Nat.even negb Nat.div2 dlt Nat.eqb]; field.
  - intros n Hn. rewrite nth_map_seq by lia. unfold double. rewrite Nat.div_add_l, (Nat.div_small i), Nat.add_0_r by lia.
    rewrite (Nat.add_comm (n * 3)), Nat.mod_add, (Nat.mod_small i) by lia. field.
Qed.
Lemma s81_WU_wrong : exists m nx U, known m /\ length U = 24%nat /\ 0 < det3 (defgrad (grad3 nx (arr U))) /\
  s81_squery m nx U 0 WU 1 0 = Ok (9 / 2) /\ iso_energy m (vec6 (cauchy_green (defgrad (grad3 nx (arr U))))) = 0.
Proof.
  exists (neo_hookean 1 1), nx_cube, (map double (seq 0 24)). split; [constructor|]. split; [reflexivity|].
  set (U := map double (seq 0 24)). assert (LU : length U = 24%nat) by reflexivity.
  set (F := defgrad (grad3 nx_cube (arr U))).
  assert (HF : forall i j, (i < 3)%nat -> (j < 3)%nat -> F i j = 2 * dlt i j) by exact double_F.
  assert (HD : det3 F = 8). { unfold det3. rewrite !HF by lia. cbv [dlt Nat.eqb]. ring. }
  assert (HT : trace (cauchy_green F) = 12). { unfold trace, cauchy_green, mmul, mtr. rewrite !rs3, !HF by lia. cbv [dlt Nat.eqb]. ring. }
  split; [rewrite HD; lra|]. split.
  - unfold s81_squery. rewrite (proj1 (s81_pt_ok (neo_hookean 1 1) nx_cube U 0 LU)). cbn [obind s81_scalar]. f_equal.
    rewrite !(inv_F _ F _ (s81_cg (neo_hookean 1 1) nx_cube U 0 LU)) by lia. cbn [hW neo_hookean invariant]. rewrite HT. field.
  - assert (Sy : forall i j, cauchy_green F i j = cauchy_green F j i) by (intros i j; unfold cauchy_green, mmul, mtr; apply rsumn_ext; intros; ring).
    pose proof (m3_vec6 _ Sy) as HC. rewrite iso_energy_eq. rewrite (J_F _ _ HC), !(inv_F _ F _ HC) by lia. cbn [hW neo_hookean invariant]. rewrite HT, HD.
    rewrite Rabs_pos_eq by lra. replace (pow_m23 8) with (1 / 4); [field|]. unfold pow_m23.
    replace 8 with (Rpower 2 3). 2: { replace 3 with (INR 3) by (cbn; ring). rewrite Rpower_pow by lra. cbn. ring. }
    rewrite Rpower_mult. replace (3 * (- (2) / 3)) with (- (INR 2)) by (cbn; field). rewrite Rpower_Ropp, Rpower_pow by lra. cbn. field.
Qed.
