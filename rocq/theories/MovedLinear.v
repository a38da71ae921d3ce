From Coq Require Import FunctionalExtensionality Reals Lra Lia.
From Verif Require Import Base BaseProofs RealBase MatModel SparseModel BlockModel DofModel SpecDof AsmModel SpecAsm
  SolveModel GaussModel TransModel IsoModel IsoProofs ElemModel SpecIso SpecElem ElemProofs ThermModel StructModel SpecStruct HeatModel HeatTransModel BodyModel SpecMoved MovedProofs.
Local Open Scope R_scope.
Local Open Scope list_scope.

Section E.
  Variables (c : nat -> R) (nn : nat) (p p' : nat -> nat -> R).
  Hypothesis H : forall n j, (n < nn)%nat -> (j < 3)%nat -> p' n j = p n j + c j.

  Lemma vlen_moved : (2 <= nn)%nat -> vlen 3 (fun j => p' 1%nat j - p' 0%nat j) = vlen 3 (fun j => p 1%nat j - p 0%nat j).
  Proof.
    intros L. unfold vlen, rsumn. f_equal. apply rsuml_ext. intros j Hj. apply in_seq in Hj. rewrite !H by lia. ring.
  Qed.
  Lemma truss_T_moved k i : (2 <= nn)%nat -> truss_T p' k i = truss_T p k i.
  Proof.
    intros L. unfold truss_T. rewrite (vlen_moved L). destruct k as [|[|k]]; destruct i as [|[|[|[|[|[|i]]]]]]; try reflexivity; rewrite !H by lia; f_equal; ring.
  Qed.
  Lemma truss_K_moved A E k i : (2 <= nn)%nat -> truss_K A E p' k i = truss_K A E p k i.
  Proof. intros L. unfold truss_K. rewrite (vlen_moved L). reflexivity. Qed.
  Lemma truss_Ke_moved A E i j : (2 <= nn)%nat -> truss_Ke A E p' i j = truss_Ke A E p i j.
  Proof.
    intros L. unfold truss_Ke. destruct (i <=? j)%nat; [|reflexivity]. apply rsuml_ext. intros l _. rewrite truss_T_moved by exact L. f_equal.
    apply rsuml_ext. intros k _. rewrite truss_T_moved, truss_K_moved by exact L. reflexivity.
  Qed.
  Lemma truss_stress_moved E U : (2 <= nn)%nat -> truss_stress E p' U = truss_stress E p U.
  Proof.
    intros L. unfold truss_stress. rewrite (vlen_moved L). f_equal. apply rsuml_ext. intros i _. f_equal. apply rsuml_ext. intros k _. rewrite truss_T_moved by exact L. reflexivity.
  Qed.
  Lemma tet_b_moved i : (4 <= nn)%nat -> tet_b p' i = tet_b p i.
  Proof. intros L. unfold tet_b. destruct i as [|[|[|i]]]; cbn [Nat.sub]; rewrite !H by lia; ring. Qed.
  Lemma tet_c_moved i : (4 <= nn)%nat -> tet_c p' i = tet_c p i.
  Proof. intros L. unfold tet_c. destruct i as [|[|[|i]]]; cbn [Nat.sub]; rewrite !H by lia; ring. Qed.
  Lemma tet_d_moved i : (4 <= nn)%nat -> tet_d p' i = tet_d p i.
  Proof. intros L. unfold tet_d. destruct i as [|[|[|i]]]; cbn [Nat.sub]; rewrite !H by lia; ring. Qed.
  Lemma tet_vol_moved : (4 <= nn)%nat -> tet_vol p' = tet_vol p.
  Proof. intros L. rewrite !tet_vol_eq. unfold tetra_volume, triple. cbv zeta. rewrite !H by lia. f_equal. ring. Qed.
  Lemma tet0_B_moved v : (4 <= nn)%nat -> tet0_B p' v = tet0_B p v.
  Proof. intros L. unfold tet0_B. cbv zeta. f_equal. apply flat_map_ext. intros i. rewrite tet_b_moved, tet_c_moved, tet_d_moved by exact L. reflexivity. Qed.
  Lemma tet1_B_moved v : (4 <= nn)%nat -> tet1_B p' v = tet1_B p v.
  Proof.
    intros L. unfold tet1_B. cbv zeta. f_equal; [|f_equal]; apply map_ext; intros i.
    - rewrite tet_b_moved by exact L. reflexivity.
    - rewrite tet_c_moved by exact L. reflexivity.
    - rewrite tet_d_moved by exact L. reflexivity.
  Qed.
  Lemma tet0_build_moved e : (4 <= nn)%nat -> tet0_buildK p' e = tet0_buildK p e.
  Proof. intros L. unfold tet0_buildK. rewrite tet_vol_moved, tet0_B_moved by exact L. reflexivity. Qed.
  Lemma tet0_update_moved e U : (4 <= nn)%nat -> tet0_update p' e U = tet0_update p e U.
  Proof. intros L. unfold tet0_update. rewrite tet0_B_moved by exact L. reflexivity. Qed.
  Lemma tet1_build_moved k : (4 <= nn)%nat -> tet1_buildK p' k = tet1_buildK p k.
  Proof. intros L. unfold tet1_buildK. rewrite tet_vol_moved, tet1_B_moved by exact L. reflexivity. Qed.
  Lemma tet1_update_moved k U : (4 <= nn)%nat -> tet1_update p' k U = tet1_update p k U.
  Proof. intros L. unfold tet1_update. rewrite tet_vol_moved, tet1_B_moved by exact L. reflexivity. Qed.
  Lemma quad_moved r s : (4 <= nn)%nat -> quad_det p' r s = quad_det p r s /\ quad_nixj p' r s = quad_nixj p r s.
  Proof.
    intros L. pose proof (jac_moved 4 2 (quad_dN r s) c p p' (quad_dN_sum _ _) ltac:(intros; apply H; lia)) as J.
    unfold quad_det, quad_nixj, nixj, jinv, jdet. rewrite (det2_ext _ _ J), (inv2_ext _ _ _ J). split; reflexivity.
  Qed.
  Lemma quadth_K_moved ord k vf : (4 <= nn)%nat -> quadth_K ord k vf p' = quadth_K ord k vf p.
  Proof.
    intros L. unfold quadth_K. f_equal. apply functional_extensionality. intros KF. apply functional_extensionality. intros [[r s] w].
    destruct (quad_moved (dec r) (dec s) L) as (E1 & E2). unfold quadth_B. rewrite E1, E2. reflexivity.
  Qed.
  Lemma quadth_C_moved ord rho cc : (4 <= nn)%nat -> quadth_C ord rho cc p' = quadth_C ord rho cc p.
  Proof.
    intros L. unfold quadth_C. f_equal. apply functional_extensionality. intros KF. apply functional_extensionality. intros [[r s] w].
    destruct (quad_moved (dec r) (dec s) L) as (E1 & E2). rewrite E1. reflexivity.
  Qed.
  Lemma lineth_K_moved ord flux htc e : (2 <= nn)%nat -> lineth_K ord flux htc e p' = lineth_K ord flux htc e p.
  Proof. intros L. unfold lineth_K, line_points, line_weight, line_det. rewrite (vlen_moved L). reflexivity. Qed.
End E.

Lemma each_ext {A B} (f g : A -> outcome B) l : (forall x, In x l -> f x = g x) -> each f l = each g l.
Proof. induction l as [|x l IH]; intros H; [reflexivity|]. cbn [each]. rewrite (H x), IH; [reflexivity| |now left]. intros y Hy. apply H. now right. Qed.
Lemma at_moved_all c nodes pos pos' : moved_all c nodes pos pos' ->
  forall n j, (n < length nodes)%nat -> (j < 3)%nat -> at_nodes pos' nodes n j = at_nodes pos nodes n j + c j.
Proof. intros M n j Hn Hj. unfold at_nodes. apply M; [apply nth_In; exact Hn|exact Hj]. Qed.

Lemma build_member_moved c pos pos' m : moved_all c (m_nodes m) pos pos' -> build_member pos' m = build_member pos m.
Proof.
  intros M. pose proof (at_moved_all c _ pos pos' M) as H. unfold build_member. destruct m; cbn [m_nodes length] in *.
  - do 4 f_equal. apply map_ext. intros i. apply map_ext. intros j. apply (truss_Ke_moved c 2); [exact H|lia].
  - rewrite (tet0_build_moved c 4 _ _ H e) by lia. reflexivity.
Qed.
Lemma update_member_moved c pos pos' v m : moved_all c (m_nodes m) pos pos' -> update_member pos' v m = update_member pos v m.
Proof.
  intros M. pose proof (at_moved_all c _ pos pos' M) as H. unfold update_member. destruct m; cbn [m_nodes length] in *.
  - rewrite (truss_stress_moved c 2 _ _ H) by lia. reflexivity.
  - rewrite (tet0_update_moved c 4 _ _ H) by lia. reflexivity.
Qed.
Lemma build_nodes pos m r : build_member pos m = Ok r -> m_nodes (fst r) = m_nodes m.
Proof.
  unfold build_member. destruct m; [intros Q; injection Q as <-; reflexivity|]. destruct (tet0_buildK _ e) as [[[e' Ke] Fe]| | |]; cbn [obind]; try discriminate. intros Q. injection Q as <-. reflexivity.
Qed.
Lemma each_in {A B} (f : A -> outcome B) l : forall r y, each f l = Ok r -> In y r -> exists x, In x l /\ f x = Ok y.
Proof.
  induction l as [|x l IH]; intros r y E Hy; cbn [each] in E; [injection E as <-; destruct Hy|].
  destruct (f x) as [y0| | |] eqn:F; cbn [obind] in E; try discriminate. destruct (each f l) as [r0| | |] eqn:R; cbn [obind] in E; try discriminate. injection E as <-.
  destruct Hy as [<-|Hy]; [exists x; split; [now left|exact F]|]. destruct (IH r0 y eq_refl Hy) as (z & Z1 & Z2). exists z. split; [now right|exact Z2].
Qed.

Lemma struct_moved big slv nn c pos pos' ms loads fixes : moved_all c (flat_map m_nodes ms) pos pos' ->
  struct_solve big slv nn pos' ms loads fixes = struct_solve big slv nn pos ms loads fixes.
Proof.
  intros M. assert (M1 : forall m, In m ms -> moved_all c (m_nodes m) pos pos').
  { intros m Hm n i Hn. apply M. apply in_flat_map. eauto. }
  unfold struct_solve. rewrite (each_ext (build_member pos') (build_member pos) ms) by (intros m Hm; apply (build_member_moved c), M1, Hm).
  destruct (each (build_member pos) ms) as [b| | |] eqn:B; cbn [obind]; [|reflexivity|reflexivity|reflexivity]. cbn [obind].
  match goal with |- obind ?a _ = _ => destruct a as [st| | |]; cbn [obind]; [|reflexivity|reflexivity|reflexivity] end. cbn [obind]. rewrite (each_ext _ (update_member pos (fun k => nth (eqn (g_num (so_g st)) k - 1) (so_U st) 0)) (map fst b)); [reflexivity|].
  intros m Hm. apply (update_member_moved c). apply in_map_iff in Hm as (r & <- & Hr). destruct (each_in _ _ _ r B Hr) as (x & X1 & X2). rewrite (build_nodes _ _ _ X2). apply M1, X1.
Qed.

Lemma h_build_moved c pos pos' m : moved_all c (h_nodes m) pos pos' -> h_build pos' m = h_build pos m.
Proof.
  intros M. pose proof (at_moved_all c _ pos pos' M) as H. unfold h_build. destruct m; cbn [h_nodes length] in *.
  - rewrite (tet1_build_moved c 4 _ _ H) by lia. reflexivity.
  - rewrite (quadth_K_moved c 4 _ _ H) by lia. reflexivity.
  - rewrite (lineth_K_moved c 2 _ _ H) by lia. reflexivity.
Qed.
Lemma h_update_moved c pos pos' v m : moved_all c (h_nodes m) pos pos' -> h_update pos' v m = h_update pos v m.
Proof.
  intros M. pose proof (at_moved_all c _ pos pos' M) as H. unfold h_update. destruct m; cbn [h_nodes length] in *; [|reflexivity|reflexivity].
  rewrite (tet1_update_moved c 4 _ _ H) by lia. reflexivity.
Qed.
Lemma h_damp_moved c pos pos' x : moved_all c (h_nodes (th_m x)) pos pos' -> h_damp pos' x = h_damp pos x.
Proof.
  intros M. pose proof (at_moved_all c _ pos pos' M) as H. unfold h_damp. destruct (th_m x); cbn [h_nodes length] in *; [reflexivity| |reflexivity].
  rewrite (quadth_C_moved c 4 _ _ H) by lia. reflexivity.
Qed.
Lemma heat_moved big slv nn c pos pos' ms loads fixes : moved_all c (flat_map h_nodes ms) pos pos' ->
  heat_solve big slv nn pos' ms loads fixes = heat_solve big slv nn pos ms loads fixes.
Proof.
  intros M. assert (M1 : forall m, In m ms -> moved_all c (h_nodes m) pos pos').
  { intros m Hm n i Hn. apply M. apply in_flat_map. eauto. }
  unfold heat_solve. rewrite (each_ext (h_build pos') (h_build pos) ms) by (intros m Hm; apply (h_build_moved c), M1, Hm).
  destruct (each (h_build pos) ms) as [b| | |]; cbn [obind]; [|reflexivity|reflexivity|reflexivity]. cbn [obind].
  match goal with |- obind ?a _ = _ => destruct a as [st| | |]; cbn [obind]; [|reflexivity|reflexivity|reflexivity] end. cbn [obind].
  rewrite (each_ext _ (h_update pos (fun k => nth (eqn (g_num (so_g st)) k - 1) (so_U st) 0)) ms); [reflexivity|]. intros m Hm. apply (h_update_moved c), M1, Hm.
Qed.
Lemma heat_trans_moved big slv fuel cfg nn c pos pos' xs loads fixes : moved_all c (flat_map h_nodes (map th_m xs)) pos pos' ->
  heat_trans big slv fuel cfg nn pos' xs loads fixes = heat_trans big slv fuel cfg nn pos xs loads fixes.
Proof.
  intros M. assert (M1 : forall m, In m (map th_m xs) -> moved_all c (h_nodes m) pos pos').
  { intros m Hm n i Hn. apply M. apply in_flat_map. eauto. }
  unfold heat_trans. rewrite (each_ext (h_build pos') (h_build pos) (map th_m xs)) by (intros m Hm; apply (h_build_moved c), M1, Hm).
  rewrite (each_ext (h_damp pos') (h_damp pos) xs) by (intros x Hx; apply (h_damp_moved c), M1, in_map, Hx). reflexivity.
Qed.
