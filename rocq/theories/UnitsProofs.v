From Coq Require Import Reals Lra Lia.
From Verif Require Import Base BaseProofs RealBase MatModel SparseModel BlockModel DofModel SpecDof NumberingProofs AsmModel SpecAsm AsmLists AsmProofs AsmRun AsmFinal
  SolveModel SpecSolve SolveProofs LinearProofs GaussModel SpecGauss GaussProofs IsoModel SpecIso IsoProofs ElemModel SpecElem ElemBase ElemProofs ElemMore SpecBal BalProofs BalMore
  StructModel SpecStruct StructProofs StructFinal StructMore SpecTurned TurnedProofs TurnedHeat SpecTurnedSolid TurnedSolid SpecUnits.
Local Open Scope R_scope.

Section U.
  Variables (l f : R).
  Hypotheses (Hl : 0 < l).
  Lemma units_nodes m : m_nodes (in_units l f m) = m_nodes m.
  Proof. destruct m; reflexivity. Qed.
  Lemma units_new ms : Forall new ms -> Forall new (map (in_units l f) ms).
  Proof. intros H. apply Forall_map. eapply Forall_impl; [|exact H]. intros [? ? ? ?|] Hb; exact Hb. Qed.
  Lemma units_node ms n : s_node (map (in_units l f) ms) n <-> s_node ms n.
  Proof.
    unfold s_node. split.
    - intros (m & Hm & Hn). apply in_map_iff in Hm. destruct Hm as (m0 & <- & H0). rewrite units_nodes in Hn. eauto.
    - intros (m & Hm & Hn). exists (in_units l f m). rewrite units_nodes. split; [now apply in_map|exact Hn].
  Qed.
  Variables (pos pos' : nat -> nat -> R).
  Lemma dist_units a b : (forall i, (i < 3)%nat -> pos' a i = l * pos a i) -> (forall i, (i < 3)%nat -> pos' b i = l * pos b i) ->
    dist3 (pos' a) (pos' b) = l * dist3 (pos a) (pos b).
  Proof.
    intros A B. unfold dist3. rewrite !A, !B by lia.
    replace ((l * pos b 0%nat - l * pos a 0%nat) ^ 2 + (l * pos b 1%nat - l * pos a 1%nat) ^ 2 + (l * pos b 2%nat - l * pos a 2%nat) ^ 2)
      with ((l * l) * ((pos b 0%nat - pos a 0%nat) ^ 2 + (pos b 1%nat - pos a 1%nat) ^ 2 + (pos b 2%nat - pos a 2%nat) ^ 2)) by ring.
    rewrite (sqrt_mult_alt (l * l)) by exact (Rle_0_sqr l). rewrite (sqrt_square l) by lra. reflexivity.
  Qed.
  Lemma ratio x d : l * x / (l * d) = x / d.
  Proof. unfold Rdiv. rewrite Rinv_mult. transitivity (x * / d * (l * / l)); [ring|]. rewrite Rinv_r by lra. ring. Qed.
  Lemma stress_units m v v' : scaled_nodes l (m_nodes m) pos pos' -> (forall n i, In n (m_nodes m) -> (i < 3)%nat -> v' (KNode, n, i) = l * v (KNode, n, i)) ->
    bar_stress pos' v' (in_units l f m) = f / (l * l) * bar_stress pos v m.
  Proof.
    intros P V. destruct m as [A E a b|]; [|cbn [in_units bar_stress]; ring]. cbn [m_nodes] in *. cbn [in_units bar_stress stretch].
    rewrite (dist_units a b) by (intros i Hi; apply P; [cbn; auto|exact Hi]). rewrite !r3.
    rewrite !V by (cbn; auto). rewrite !P by (cbn; auto).
    rewrite <- !Rmult_minus_distr_l, !ratio. rewrite !Rmult_assoc, <- !Rmult_plus_distr_l, ratio. ring.
  Qed.
  Lemma pull_units m S n i : scaled_nodes l (m_nodes m) pos pos' -> (i < 3)%nat -> pull pos' (in_units l f m) (f / (l * l) * S) n i = f * pull pos m S n i.
  Proof.
    intros P Hi. destruct m as [A E a b|]; [|cbn [in_units pull]; ring]. cbn [m_nodes] in P. cbn [in_units pull]. unfold axis, at_nodes. cbn [nth].
    rewrite (dist_units a b) by (intros j Hj; apply P; [cbn; auto|exact Hj]). rewrite !P by (cbn; auto). rewrite <- Rmult_minus_distr_l, ratio.
    generalize ((pos b i - pos a i) / dist3 (pos a) (pos b)). intros r. field. lra.
  Qed.
  Lemma sum_scale {A} (g : A -> R) c0 (x : list A) : @sumof RNum A (fun m => c0 * g m) x = c0 * @sumof RNum A g x.
  Proof. induction x as [|y x IH]; [rewrite !sumR_nil; req; ring|]. rewrite !sumR_cons, IH. req. ring. Qed.
  Lemma sum_map {A B} (h : A -> B) (g : B -> R) (x : list A) : @sumof RNum B g (map h x) = @sumof RNum A (fun a => g (h a)) x.
  Proof. induction x as [|y x IH]; [rewrite sumR_nil; exact (sumR_nil g)|]. cbn [map]. rewrite !sumR_cons, IH. reflexivity. Qed.
  (* tetrahedra *)
  Section Tet.
    Variables (p p' V V' : nat -> nat -> R) (e : tetra0).
    Hypothesis H : forall n j, (n < 4)%nat -> (j < 3)%nat -> p' n j = l * p n j.
    Hypothesis HV : forall n j, (n < 4)%nat -> (j < 3)%nat -> V' n j = l * V n j.
    Let e' := mkTetra0 (f / (l * l) * t0_E e) (t0_my e) (t0_alpha e) (t0_T e) (t0_stress e) (t0_strains e) (t0_vol e).
    Lemma vol_u : tet_vol p' = l * l * l * tet_vol p.
    Proof. rewrite !tet_vol_eq. unfold tetra_volume, triple. cbv zeta. rewrite !H by lia. field. Qed.
    Lemma normal_u n i : (i < 3)%nat -> normal p' n i = l * l * normal p n i.
    Proof.
      intros Hi. destruct (normal_bcd p' n) as (B' & C' & D'). destruct (normal_bcd p n) as (B & C & D).
      destruct i as [|[|[|]]]; try lia; [rewrite <- B, <- B'; unfold tet_b|rewrite <- C, <- C'; unfold tet_c|rewrite <- D, <- D'; unfold tet_d];
        destruct n as [|[|[|n]]]; cbn [Nat.sub]; rewrite !H by lia; ring.
    Qed.
    Lemma bt_u n i : (i < 3)%nat -> bt p' n i = / l * bt p n i.
    Proof.
      intros Hi. unfold bt. rewrite vol_u, normal_u by exact Hi. unfold Rdiv. rewrite !Rinv_mult.
      transitivity (/ l * (normal p n i * (-1 * / 6 * / tet_vol p)) * (l * / l) * (l * / l)); [ring|]. rewrite Rinv_r by lra. ring.
    Qed.
    Lemma cA_u : cA e' = f / (l * l) * cA e.
    Proof. unfold cA, e'. cbn [t0_E t0_my]. unfold Rdiv. ring. Qed.
    Lemma tetf_u a i : (i < 3)%nat -> tetf p' e' V' a i = f * tetf p e V a i.
    Proof.
      intros Hi. unfold tetf, cl, cm. rewrite cA_u, vol_u. cbn [t0_my e']. unfold d3. rewrite !rs4, !r3. rewrite !bt_u, !HV by lia. field. lra.
    Qed.
    Lemma tetl_u a i : (i < 3)%nat -> tetl p' e' a i = f * tetl p e a i.
    Proof. intros Hi. unfold tetl, cl, cm. rewrite cA_u, vol_u. cbn [t0_my t0_alpha t0_T e']. rewrite !bt_u by lia. field. lra. Qed.
    Lemma st_u i j : (i < 3)%nat -> (j < 3)%nat -> st p' V' i j = st p V i j.
    Proof. intros Hi Hj. unfold st. rewrite !rs4. rewrite !bt_u, !HV by lia. field. lra. Qed.
  End Tet.
  Lemma at_u (nodes : list nat) : scaled_nodes l nodes pos pos' -> length nodes = 4%nat -> forall n j, (n < 4)%nat -> (j < 3)%nat -> at_nodes pos' nodes n j = l * at_nodes pos nodes n j.
  Proof. intros P L n j Hn Hj. unfold at_nodes. apply P; [apply nth_In; lia|exact Hj]. Qed.
  Definition scaled_at (nodes : list nat) (v v' : key -> R) : Prop := forall n i, In n nodes -> (i < 3)%nat -> v' (KNode, n, i) = l * v (KNode, n, i).
  Lemma vals_u v v' (nodes : list nat) : scaled_at nodes v v' -> length nodes = 4%nat -> forall n j, (n < 4)%nat -> (j < 3)%nat -> vals v' nodes n j = l * vals v nodes n j.
  Proof. intros P L n j Hn Hj. unfold vals. apply P; [apply nth_In; lia|exact Hj]. Qed.
  Lemma mstiff_u m v v' n i : scaled_nodes l (m_nodes m) pos pos' -> scaled_at (m_nodes m) v v' -> (i < 3)%nat -> mstiff pos' v' (in_units l f m) n i = f * mstiff pos v m n i.
  Proof.
    intros P V Hi. destruct m as [A E a b|e a b c d].
    - cbn [mstiff in_units]. pose proof (stress_units (Bar A E a b) v v' P V) as S. cbn [in_units] in S. rewrite S. exact (pull_units (Bar A E a b) _ n i P Hi).
    - cbn [mstiff in_units m_nodes] in *. rewrite !rs4. rewrite !(tetf_u _ _ _ _ e (at_u _ P eq_refl) (vals_u v v' _ V eq_refl)) by exact Hi.
      repeat match goal with |- context [if ?b then _ else _] => destruct b end; ring.
  Qed.
  Lemma mload_u m n i : scaled_nodes l (m_nodes m) pos pos' -> (i < 3)%nat -> mload pos' (in_units l f m) n i = f * mload pos m n i.
  Proof.
    intros P Hi. destruct m as [A E a b|e a b c d]; cbn [mload in_units m_nodes] in *; [ring|]. rewrite !rs4. rewrite !(tetl_u _ _ e (at_u _ P eq_refl)) by exact Hi.
    repeat match goal with |- context [if ?b then _ else _] => destruct b end; ring.
  Qed.
  Lemma six (h c0 : R) (a b : list R) : h <> 0 -> length a = 6%nat -> length b = 6%nat -> (forall i j, (i < 3)%nat -> (j < 3)%nat -> tensor6 h b i j = c0 * tensor6 h a i j) -> b = map (fun s => c0 * s) a.
  Proof.
    intros Hh La Lb T. do 7 (destruct a as [|? a]; try discriminate La). do 7 (destruct b as [|? b]; try discriminate Lb).
    pose proof (T 0 0 ltac:(lia) ltac:(lia))%nat as T0. pose proof (T 1 1 ltac:(lia) ltac:(lia))%nat as T1. pose proof (T 2 2 ltac:(lia) ltac:(lia))%nat as T2.
    pose proof (T 0 1 ltac:(lia) ltac:(lia))%nat as T3. pose proof (T 1 2 ltac:(lia) ltac:(lia))%nat as T4. pose proof (T 0 2 ltac:(lia) ltac:(lia))%nat as T5.
    unfold tensor6 in *. cbn [Nat.eqb Nat.add nth] in *. cbn [map].
    assert (X : forall x y, h * x = c0 * (h * y) -> x = c0 * y) by (intros x y E; apply (Rmult_eq_reg_l h); [rewrite E; ring|exact Hh]).
    apply X in T3, T4, T5. congruence.
  Qed.
  Lemma update_u nn nn' m b b' v v' r r' : m_ok nn pos m -> m_ok nn' pos' (in_units l f m) -> scaled_nodes l (m_nodes m) pos pos' -> scaled_at (m_nodes m) v v' ->
    build_member pos m = Ok b -> build_member pos' (in_units l f m) = Ok b' -> update_member pos v (fst b) = Ok r -> update_member pos' v' (fst b') = Ok r' -> result_in_units l f r r'.
  Proof.
    intros M M' P V B B' U U'. destruct m as [A E a d|e a d g k].
    - cbn [build_member in_units] in B, B'. injection B as <-. injection B' as <-. cbn [fst update_member m_nodes] in U, U'. injection U as <-. injection U' as <-. cbn [result_in_units].
      etransitivity; [exact (bar_stress_ok nn' pos' _ _ a d v' M')|]. etransitivity; [exact (stress_units (Bar A E a d) v v' P V)|].
      apply f_equal2; [reflexivity|]. symmetry. exact (bar_stress_ok nn pos A E a d v M).
    - cbn [build_member m_nodes in_units] in *. destruct M as (_ & _ & OE & _). destruct M' as (_ & _ & OE' & _).
      destruct (tet0_buildK_ok (at_nodes pos [a; d; g; k]) e OE) as (e1 & Ke & Fe & EK & V1 & E1 & My1 & _).
      destruct (tet0_buildK_ok (at_nodes pos' [a; d; g; k]) _ OE') as (e1' & Ke' & Fe' & EK' & V1' & E1' & My1' & _).
      rewrite EK in B. rewrite EK' in B'. cbn [obind] in B, B'. injection B as <-. injection B' as <-. cbn [fst update_member m_nodes] in U, U'.
      pose proof (at_u [a; d; g; k] P eq_refl) as H. pose proof (vals_u v v' [a; d; g; k] V eq_refl) as HV.
      destruct (update_tensor (at_nodes pos [a; d; g; k]) e1 (m_values v (Tet e1 a d g k)) (vals v [a; d; g; k]) V1 eq_refl) as (e2 & U2 & W2 & L2 & K2 & T2).
      { intros j Hj. do 12 (destruct j as [|j]; [reflexivity|]). lia. }
      destruct (update_tensor (at_nodes pos' [a; d; g; k]) e1' (m_values v' (Tet e1' a d g k)) (vals v' [a; d; g; k]) V1' eq_refl) as (e2' & U2' & W2' & L2' & K2' & T2').
      { intros j Hj. do 12 (destruct j as [|j]; [reflexivity|]). lia. }
      rewrite U2 in U. rewrite U2' in U'. cbn [obind] in U, U'. injection U as <-. injection U' as <-. cbn [result_in_units].
      split; [rewrite W2, W2', V1, V1'; exact (vol_u _ _ H)|]. cbn [t0_E t0_my] in E1', My1'.
      split.
      + rewrite (six (1 / 2) 1 (t0_strains e2) (t0_strains e2') ltac:(lra) L2 L2').
        * rewrite <- (map_id (t0_strains e2)) at 2. apply map_ext. intros s. ring.
        * intros i j Hi Hj. rewrite (proj1 (T2' i j Hi Hj)), (proj1 (T2 i j Hi Hj)), (st_u _ _ _ _ H HV i j Hi Hj). ring.
      + apply (six 1 (f / (l * l)) _ _ ltac:(lra) K2 K2'). intros i j Hi Hj. rewrite (proj2 (T2' i j Hi Hj)), (proj2 (T2 i j Hi Hj)). unfold hk.
        rewrite !(st_u _ _ _ _ H HV) by lia. unfold cl, cm, cA. rewrite E1, E1', My1, My1'. unfold Rdiv. ring.
  Qed.
End U.

Section Run.
  Variables (big big' : R -> bool) (u u' : nat -> list R).
  Hypotheses (HU : forall n, length (u n) = n) (HU' : forall n, length (u' n) = n).
  Let gs : eqsolver RNum := gauss_slv (K := RG) u.
  Let gs' : eqsolver RNum := gauss_slv (K := RG) u'.
  Variables (nn nn' : nat) (l f : R) (pos pos' : nat -> nat -> R) (ms : list member) (loads fixes loads' fixes' : list (bc RNum)).
  Let ms' := map (in_units l f) ms.
  Variables (st st' : sol RNum) (rs rs' : list result).
  Hypotheses (Hl : 0 < l) (TP : scaled_nodes l (flat_map m_nodes ms) pos pos') (TS : scaled_supports l fixes fixes').
  Hypothesis TL : forall k, (total_load (K := RNum) loads' k : R) = f * total_load (K := RNum) loads k.
  Hypotheses (OK : struct_ok nn pos ms loads fixes) (OK' : struct_ok nn' pos' ms' loads' fixes') (PF : plain_fixes big fixes) (PF' : plain_fixes big' fixes') (IB : Forall new ms).
  Hypotheses (HS : struct_solve big gs nn pos ms loads fixes = Ok (st, rs)) (HS' : struct_solve big' gs' nn' pos' ms' loads' fixes' = Ok (st', rs')).

  Let IB' : Forall new ms' := units_new l f ms IB.
  Let mf (q : nat -> nat -> R) (v : key -> R) (n i : nat) (m : member) : R := mstiff q v m n i - mload q m n i.
  Let tu (k : key) : R := l * disp st k.
  Lemma u_nodes m : In m ms -> scaled_nodes l (m_nodes m) pos pos'.
  Proof. intros H n i Hn Hi. apply TP; [|exact Hi]. apply in_flat_map. eauto. Qed.
  Lemma units_force n i : s_node ms n -> (i < 3)%nat -> @sumof RNum _ (mf pos' tu n i) ms' = f * ext st (KNode, n, i).
  Proof.
    intros Hn Hi. unfold ms'. rewrite sum_map. transitivity (@sumof RNum _ (fun m => f * mf pos (disp st) n i m) ms).
    - apply sumR_ext. intros m Hm. unfold mf. rewrite (mstiff_u l f Hl pos pos' m (disp st) tu n i (u_nodes m Hm)) by (exact Hi || (intros ? ? _ _; reflexivity)).
      rewrite (mload_u l f Hl pos pos' m n i (u_nodes m Hm) Hi). symmetry. apply Rmult_minus_distr_l.
    - rewrite sum_scale. apply f_equal2; [reflexivity|].
      exact (nodal_sum nn ms IB pos loads fixes big u st rs n i OK PF HU HS Hn Hi).
  Qed.
  Lemma units_nodal n i : s_node ms' n -> (i < 3)%nat -> @sumof RNum _ (mf pos' (disp st') n i) ms' = ext st' (KNode, n, i).
  Proof. intros Hn Hi. exact (nodal_sum nn' ms' IB' pos' loads' fixes' big' u' st' rs' n i OK' PF' HU' HS' Hn Hi). Qed.
  Lemma units_disp k : s_key ms' k -> disp st' k = tu k.
  Proof.
    intros Hk. destruct (solved big' nn' pos' ms' loads' fixes' gs' st' rs' HS') as (b & B & E2 & _).
    destruct (struct_nodal big' nn' pos' ms' loads' fixes' OK' PF' gs' st' (gs_exact u' HU') b B E2) as (N1 & N2 & N3).
    destruct (solved big nn pos ms loads fixes gs st rs HS) as (b0 & B0 & E0 & _).
    destruct (struct_nodal big nn pos ms loads fixes OK PF gs st (gs_exact u HU) b0 B0 E0) as (M1 & M2 & M3).
    destruct (struct_good nn' pos' ms' loads' fixes' b OK' B) as [GL DN].
    apply Rminus_diag_uniq. apply (held RG RG_laws big' u' HU' nn' _ _ _ loads' fixes' st' GL DN E2 (fun k => disp st' k - tu k)); [| |now apply s_keys].
    - intros x Fx Hx. specialize (TS x). destruct (last_fix fixes x) as [y|] eqn:EF; [|exfalso; apply Fx; exact TS].
      rewrite (N3 _ _ TS). unfold tu. rewrite (M3 _ _ EF). change (@eq R (l * y - l * y) 0). ring.
    - intros x Hx Fx. apply s_keys in Hx. destruct x as [[[|] n] i]; [destruct Hx|]. pose proof Hx as [Hn Hi].
      match type of Fx with ?a = None => change a with (last_fix (K := RNum) fixes' (KNode, n, i)) in Fx end.
      erewrite (contribs_sum nn' pos' ms' b _ (fun m => mstiff pos' (fun k => disp st' k - tu k) m n i) (sk_members _ _ _ _ _ OK') B).
      2:{ intros en m m' c0 Hm E. pose proof (sk_members _ _ _ _ _ OK') as M. pose proof IB' as IB0. rewrite Forall_forall in M, IB0.
          apply (member_forces nn' pos' m m' c0 en n i _ (M m Hm) (IB0 m Hm) E Hi). }
      transitivity (@sumof RNum _ (fun m => mf pos' (disp st') n i m - mf pos' tu n i m) ms').
      { apply sumR_ext. intros m _. apply mstiff_minus. }
      rewrite sum_minus. change (fun m => mf pos' (disp st') n i m) with (mf pos' (disp st') n i). change (fun m => mf pos' tu n i m) with (mf pos' tu n i). pose proof (proj1 (units_node l f ms n) Hn) as Hn0. rewrite (units_force n i Hn0 Hi).
      rewrite (units_nodal n i Hn Hi), (N2 _ Hx Fx), (TL (KNode, n, i)).
      specialize (TS (KNode, n, i)). rewrite Fx in TS. destruct (last_fix fixes (KNode, n, i)) eqn:EF; [discriminate TS|].
      rewrite (M2 (KNode, n, i) (conj Hn0 Hi) EF).
      match goal with |- context [f * ?t] => change (@eq R (f * t - f * t) 0) end. ring.
  Qed.
  Lemma structure_units : (forall n i, s_node ms n -> (i < 3)%nat -> disp st' (KNode, n, i) = l * disp st (KNode, n, i) /\ ext st' (KNode, n, i) = f * ext st (KNode, n, i)) /\
    Forall2 (result_in_units l f) rs rs'.
  Proof.
    assert (V : forall n i, s_node ms n -> (i < 3)%nat -> disp st' (KNode, n, i) = l * disp st (KNode, n, i)).
    { intros n i Hn Hi. apply (units_disp (KNode, n, i)). split; [apply units_node, Hn|exact Hi]. }
    assert (V' : forall m, In m ms -> scaled_at l (m_nodes m) (disp st) (disp st')) by (intros m Hm n i Hn Hi; apply V; [exists m; auto|exact Hi]).
    split.
    - intros n i Hn Hi. split; [apply V; assumption|].
      rewrite <- (units_nodal n i (proj2 (units_node l f ms n) Hn) Hi), <- (units_force n i Hn Hi).
      unfold ms'. rewrite !sum_map. apply sumR_ext. intros m Hm. unfold mf. f_equal.
      rewrite (mstiff_u l f Hl pos pos' m (disp st) (disp st') n i (u_nodes m Hm) (V' m Hm) Hi). symmetry.
      apply (mstiff_u l f Hl pos pos' m (disp st) tu n i (u_nodes m Hm)); [intros ? ? _ _; reflexivity|exact Hi].
    - destruct (solved big' nn' pos' ms' loads' fixes' gs' st' rs' HS') as (b' & B' & _ & R').
      destruct (solved big nn pos ms loads fixes gs st rs HS) as (b & B & _ & R0).
      pose proof (sk_members _ _ _ _ _ OK) as M. pose proof (sk_members _ _ _ _ _ OK') as M'. unfold ms' in B', M'.
      pose proof u_nodes as IN. clear - Hl B B' R0 R' M M' V' IN. revert b b' rs rs' B B' R0 R'. induction ms as [|m x IH]; intros b b' rs0 rs1 B B' R0 R1.
      + cbn [map] in B'. inversion B; subst. inversion B'; subst. inversion R0; subst. inversion R1; subst. constructor.
      + cbn [map] in B', M'. inversion B as [|? y ? yl E1 E2]; subst. inversion B' as [|? y' ? yl' E1' E2']; subst. cbn [map] in R0, R1. inversion R0 as [|? r ? rl F1 F2]; subst. inversion R1 as [|? r' ? rl' F1' F2']; subst.
        inversion M as [|? ? Mm Ml]; subst. inversion M' as [|? ? Mm' Ml']; subst. constructor.
        * exact (update_u l f Hl pos pos' nn nn' m y y' _ _ r r' Mm Mm' (IN m ltac:(now left)) (V' m ltac:(now left)) E1 E1' F1 F1').
        * apply (IH (fun z Hz => V' z (or_intror Hz)) Ml Ml' (fun z Hz => IN z (or_intror Hz)) yl yl'); assumption.
  Qed.
End Run.
