From Coq Require Import FunctionalExtensionality Reals Lra Lia.
From Verif Require Import Base BaseProofs RealBase MatModel SparseModel BlockModel DofModel SpecDof AsmModel SpecAsm MatProofs
  SolveModel SpecSolve GaussModel IsoModel SpecIso IsoProofs ElemModel SpecElem ElemBase ElemProofs ThermModel ThermProofs StructModel SpecStruct HeatModel HeatTransModel MovedLinear SpecTurned TurnedProofs.
Local Open Scope R_scope.
Local Open Scope list_scope.

(* the matrix of the minors of a rotation *)
Section Q.
  Variables (Q : nat -> nat -> R) (c : nat -> R).
  Hypothesis RQ : rotation Q.
  Lemma ortho i j : (i < 3)%nat -> (j < 3)%nat -> Q 0%nat i * Q 0%nat j + Q 1%nat i * Q 1%nat j + Q 2%nat i * Q 2%nat j = if (i =? j)%nat then 1 else 0.
  Proof. intros Hi Hj. rewrite <- (proj1 RQ i j Hi Hj), r3. reflexivity. Qed.
  Definition minor (k i : nat) : R :=
    match k, i with
    | 0%nat, 0%nat => Q 1%nat 1%nat * Q 2%nat 2%nat - Q 1%nat 2%nat * Q 2%nat 1%nat
    | 0%nat, 1%nat => Q 1%nat 2%nat * Q 2%nat 0%nat - Q 1%nat 0%nat * Q 2%nat 2%nat
    | 0%nat, _ => Q 1%nat 0%nat * Q 2%nat 1%nat - Q 1%nat 1%nat * Q 2%nat 0%nat
    | 1%nat, 0%nat => Q 2%nat 1%nat * Q 0%nat 2%nat - Q 2%nat 2%nat * Q 0%nat 1%nat
    | 1%nat, 1%nat => Q 2%nat 2%nat * Q 0%nat 0%nat - Q 2%nat 0%nat * Q 0%nat 2%nat
    | 1%nat, _ => Q 2%nat 0%nat * Q 0%nat 1%nat - Q 2%nat 1%nat * Q 0%nat 0%nat
    | _, 0%nat => Q 0%nat 1%nat * Q 1%nat 2%nat - Q 0%nat 2%nat * Q 1%nat 1%nat
    | _, 1%nat => Q 0%nat 2%nat * Q 1%nat 0%nat - Q 0%nat 0%nat * Q 1%nat 2%nat
    | _, _ => Q 0%nat 0%nat * Q 1%nat 1%nat - Q 0%nat 1%nat * Q 1%nat 0%nat
    end.
  Lemma minor_Q k j : (k < 3)%nat -> (j < 3)%nat -> minor k j = Q k j.
  Proof.
    intros Hk Hj. symmetry. transitivity (Q k j * triple (Q 0%nat) (Q 1%nat) (Q 2%nat)); [rewrite (proj2 RQ); ring|].
    transitivity (minor k 0 * (Q 0%nat 0%nat * Q 0%nat j + Q 1%nat 0%nat * Q 1%nat j + Q 2%nat 0%nat * Q 2%nat j)
      + minor k 1 * (Q 0%nat 1%nat * Q 0%nat j + Q 1%nat 1%nat * Q 1%nat j + Q 2%nat 1%nat * Q 2%nat j)
      + minor k 2 * (Q 0%nat 2%nat * Q 0%nat j + Q 1%nat 2%nat * Q 1%nat j + Q 2%nat 2%nat * Q 2%nat j)).
    - destruct k as [|[|[|]]]; try lia; destruct j as [|[|[|]]]; try lia; unfold minor, triple; ring.
    - rewrite !ortho by lia. destruct j as [|[|[|]]]; try lia; cbn [Nat.eqb]; ring.
  Qed.
  Definition cross (a b : nat -> R) (i : nat) : R :=
    match i with
    | 0%nat => a 1%nat * b 2%nat - a 2%nat * b 1%nat
    | 1%nat => a 2%nat * b 0%nat - a 0%nat * b 2%nat
    | _ => a 0%nat * b 1%nat - a 1%nat * b 0%nat
    end.
  Lemma cross_turn a b i : (i < 3)%nat -> cross (turn Q a) (turn Q b) i = turn Q (cross a b) i.
  Proof.
    intros Hi. unfold turn at 3. rewrite r3. rewrite <- !minor_Q by lia. destruct i as [|[|[|]]]; try lia; cbn [cross minor]; unfold turn; rewrite !r3; ring.
  Qed.
  Lemma triple_turn a b d : triple (turn Q a) (turn Q b) (turn Q d) = triple a b d.
  Proof.
    assert (T : forall x y z, triple x y z = rsumn 3 (fun i => x i * cross y z i)) by (intros; rewrite r3; unfold triple; cbn [cross]; ring).
    rewrite !T. rewrite <- (turn_dot Q (proj1 RQ) a (cross b d)). rewrite !r3. rewrite !cross_turn by lia. reflexivity.
  Qed.

  Section El.
    Variables (nn : nat) (p p' : nat -> nat -> R).
    Hypothesis H : forall n j, (n < nn)%nat -> (j < 3)%nat -> p' n j = c j + turn Q (p n) j.
    Lemma vlen_turned : (2 <= nn)%nat -> vlen 3 (fun j => p' 1%nat j - p' 0%nat j) = vlen 3 (fun j => p 1%nat j - p 0%nat j).
    Proof.
      intros L. unfold vlen. f_equal. rewrite <- (turn_dot Q (proj1 RQ) (fun j => p 1%nat j - p 0%nat j) (fun j => p 1%nat j - p 0%nat j)). apply rsumn_ext. intros j Hj. rewrite !H by lia. rewrite <- turn_minus. ring.
    Qed.
    Lemma lineth_turned ord flux htc e : (2 <= nn)%nat -> lineth_K ord flux htc e p' = lineth_K ord flux htc e p.
    Proof. intros L. unfold lineth_K, line_points, line_weight, line_det. rewrite (vlen_turned L). reflexivity. Qed.
    Lemma edge a b j : (a < nn)%nat -> (b < nn)%nat -> (j < 3)%nat -> p' a j - p' b j = turn Q (fun k => p a k - p b k) j.
    Proof. intros. rewrite !H by lia. rewrite <- turn_minus. ring. Qed.
    Lemma tet_vol_turned : (4 <= nn)%nat -> tet_vol p' = tet_vol p.
    Proof.
      intros L. rewrite !tet_vol_eq. unfold tetra_volume. cbv zeta. f_equal. match goal with |- _ = triple ?a ?b ?d => rewrite <- (triple_turn a b d) end. unfold triple. rewrite !edge by lia. reflexivity.
    Qed.
    (* normals of the faces *)
    Definition normal (q : nat -> nat -> R) (n : nat) : nat -> R :=
      match n with
      | 0%nat => cross (fun k => q 3%nat k - q 1%nat k) (fun k => q 2%nat k - q 1%nat k)
      | 1%nat => cross (fun k => q 2%nat k - q 0%nat k) (fun k => q 3%nat k - q 2%nat k)
      | 2%nat => cross (fun k => q 1%nat k - q 3%nat k) (fun k => q 0%nat k - q 3%nat k)
      | _ => cross (fun k => q 0%nat k - q 2%nat k) (fun k => q 1%nat k - q 0%nat k)
      end.
    Lemma normal_bcd q n : tet_b q n = normal q n 0%nat /\ tet_c q n = normal q n 1%nat /\ tet_d q n = normal q n 2%nat.
    Proof. destruct n as [|[|[|n]]]; unfold tet_b, tet_c, tet_d, normal, cross; cbn [Nat.sub]; repeat split; ring. Qed.
    Lemma cross_ext a b a' b' i : (forall j, (j < 3)%nat -> a j = a' j) -> (forall j, (j < 3)%nat -> b j = b' j) -> cross a b i = cross a' b' i.
    Proof. intros A B. unfold cross. destruct i as [|[|i]]; rewrite !A, !B by lia; reflexivity. Qed.
    Lemma normal_turned n i : (4 <= nn)%nat -> (i < 3)%nat -> normal p' n i = turn Q (normal p n) i.
    Proof.
      intros L Hi. destruct n as [|[|[|n]]]; unfold normal; rewrite <- cross_turn by exact Hi; apply cross_ext; intros j Hj; rewrite edge by lia; reflexivity.
    Qed.
    Definition bt (q : nat -> nat -> R) (n i : nat) : R := normal q n i * (-1 / 6 / tet_vol q).
    Lemma bt_entry q n i : (n < 4)%nat -> (i < 3)%nat -> nth (i * 4 + n) (tet1_B q (tet_vol q)) 0 = bt q n i.
    Proof.
      intros Hn Hi. unfold tet1_B, bt. cbv zeta. destruct (normal_bcd q n) as (B & C & D).
      destruct i as [|[|[|]]]; try lia; rewrite <- ?B, <- ?C, <- ?D; destruct n as [|[|[|[|]]]]; try lia; reflexivity.
    Qed.
    Lemma bt_turned n i : (4 <= nn)%nat -> (i < 3)%nat -> bt p' n i = turn Q (bt p n) i.
    Proof. intros L Hi. unfold bt. rewrite tet_vol_turned, normal_turned by assumption. unfold turn. rewrite !r3. ring. Qed.
  End El.
  Lemma sym4 (A B : list R) : length A = 10%nat -> length B = 10%nat -> (forall i j, (i < 4)%nat -> (j < 4)%nat -> nth (sym_comp 4 i j) A 0 = nth (sym_comp 4 i j) B 0) -> A = B.
  Proof.
    intros LA LB E. apply nth_ext with (d := 0) (d' := 0); [congruence|]. intros n Hn. rewrite LA in Hn.
    assert (X : exists i j, (i < 4)%nat /\ (j < 4)%nat /\ n = sym_comp 4 i j).
    { destruct n as [|[|[|[|[|[|[|[|[|[|]]]]]]]]]]; try lia; [exists 0%nat, 0%nat|exists 0%nat, 1%nat|exists 0%nat, 2%nat|exists 0%nat, 3%nat|exists 1%nat, 1%nat|exists 1%nat, 2%nat|exists 1%nat, 3%nat|exists 2%nat, 2%nat|exists 2%nat, 3%nat|exists 3%nat, 3%nat]; repeat split; lia || reflexivity. }
    destruct X as (i & j & Hi & Hj & ->). apply E; assumption.
  Qed.
  Lemma tet1_D_entry k a b : (a < 3)%nat -> (b < 3)%nat -> nth (sym_comp 3 a b) (tet1_C k) 0 = if (a =? b)%nat then - k else 0.
  Proof. intros Ha Hb. destruct a as [|[|[|]]]; try lia; destruct b as [|[|[|]]]; try lia; reflexivity. Qed.
  Lemma tet1_build_turned p p' k : (forall n j, (n < 4)%nat -> (j < 3)%nat -> p' n j = c j + turn Q (p n) j) -> tet1_buildK p' k = tet1_buildK p k.
  Proof.
    intros H. unfold tet1_buildK.
    destruct (btdb_R 3 4 (tet1_B p (tet_vol p)) (tet1_C k) (tet_vol p) eq_refl eq_refl) as (A & EA & LA & WA).
    destruct (btdb_R 3 4 (tet1_B p' (tet_vol p')) (tet1_C k) (tet_vol p') eq_refl eq_refl) as (B & EB & LB & WB).
    change (tri 4) with 10%nat in *. rewrite EA, EB. f_equal. apply sym4; [exact LB|exact LA|]. intros i j Hi Hj. rewrite WA, WB by assumption.
    assert (S : forall q, rsumn 3 (fun a => rsumn 3 (fun b => nth (a * 4 + i) (tet1_B q (tet_vol q)) 0 * nth (sym_comp 3 a b) (tet1_C k) 0 * nth (b * 4 + j) (tet1_B q (tet_vol q)) 0))
      = - k * rsumn 3 (fun a => bt q i a * bt q j a)).
    { intros q. rewrite !r3. rewrite !bt_entry, !tet1_D_entry by lia. cbn [Nat.eqb]. ring. }
    rewrite !S, (tet_vol_turned 4 p p' H) by lia. f_equal. f_equal. rewrite <- (turn_dot Q (proj1 RQ) (bt p i) (bt p j)). apply rsumn_ext. intros a Ha.
    rewrite !(bt_turned 4 p p' H) by lia. reflexivity.
  Qed.
  Lemma tet1_update_turned p p' k U : (forall n j, (n < 4)%nat -> (j < 3)%nat -> p' n j = c j + turn Q (p n) j) -> length U = 4%nat ->
    tet1_update p' k U = obind (tet1_update p k U) (fun f => Ok (turned_flux Q f)).
  Proof.
    intros H LU. unfold tet1_update. rewrite !bv_R by (try reflexivity; exact LU). cbn [obind]. f_equal. unfold turned_flux. rewrite map_length, seq_length.
    apply map_ext_in. intros i Hi. apply in_seq in Hi. unfold turn. rewrite r3. rewrite !nth_map_seq by lia. rewrite !nth_repeat.
    assert (S : forall q a, (a < 3)%nat -> rsumn 4 (fun j => nth (a * 4 + j) (tet1_B q (tet_vol q)) 0 * nth j U 0) = rsumn 4 (fun j => bt q j a * nth j U 0)).
    { intros q a Ha. apply rsumn_ext. intros j Hj. rewrite bt_entry by lia. reflexivity. }
    rewrite !S by lia. rewrite !rsumn_S. unfold rsumn. cbn [seq]. rewrite !rsuml_nil. rewrite !(bt_turned 4 p p' H) by lia. unfold turn. rewrite !r3. ring.
  Qed.

  (* QUADTH *)
  Hypothesis KP : Q 0%nat 2%nat = 0 /\ Q 1%nat 2%nat = 0 /\ Q 2%nat 2%nat = 1.
  Lemma plane : Q 0%nat 0%nat = Q 1%nat 1%nat /\ Q 0%nat 1%nat = - Q 1%nat 0%nat /\ Q 1%nat 1%nat * Q 1%nat 1%nat + Q 1%nat 0%nat * Q 1%nat 0%nat = 1.
  Proof.
    destruct KP as (A & B & C). pose proof (minor_Q 0 0 ltac:(lia) ltac:(lia)) as M1. pose proof (minor_Q 0 1 ltac:(lia) ltac:(lia)) as M2. cbn [minor] in M1, M2.
    pose proof (ortho 0 2 ltac:(lia) ltac:(lia)) as O1. pose proof (ortho 1 2 ltac:(lia) ltac:(lia)) as O2. pose proof (minor_Q 2 2 ltac:(lia) ltac:(lia)) as M3. cbn [minor Nat.eqb] in *.
    rewrite A, B, C in *. assert (E1 : Q 0%nat 0%nat = Q 1%nat 1%nat) by lra. assert (E2 : Q 0%nat 1%nat = - Q 1%nat 0%nat) by lra. rewrite E1, E2 in M3. repeat split; lra.
  Qed.
  Lemma quad_dN_sum' r s i : quad_dN r s 0 i + quad_dN r s 1 i + quad_dN r s 2 i + quad_dN r s 3 i = 0.
  Proof. destruct i; cbn [quad_dN]; lra. Qed.
  Lemma jac_turned p p' r s i j : (forall n j, (n < 4)%nat -> (j < 3)%nat -> p' n j = c j + turn Q (p n) j) -> (j < 2)%nat ->
    jac 4 (quad_dN r s) p' i j = Q j 0%nat * jac 4 (quad_dN r s) p i 0%nat + Q j 1%nat * jac 4 (quad_dN r s) p i 1%nat.
  Proof.
    intros H Hj. unfold jac. rewrite !rsumn_S. unfold rsumn. cbn [seq]. rewrite !rsuml_nil. rewrite !H by lia. unfold turn. rewrite !r3.
    assert (Z : Q j 2%nat = 0) by (destruct j as [|[|]]; try lia; apply KP). rewrite Z. pose proof (quad_dN_sum' r s i) as S.
    assert (S' : quad_dN r s 0 i = - (quad_dN r s 1 i + quad_dN r s 2 i + quad_dN r s 3 i)) by lra. rewrite S'. ring.
  Qed.
  Lemma quad_turned p p' r s : (forall n j, (n < 4)%nat -> (j < 3)%nat -> p' n j = c j + turn Q (p n) j) ->
    quad_det p' r s = quad_det p r s /\
    forall m n, rsumn 2 (fun a => quad_nixj p' r s m a * quad_nixj p' r s n a) = rsumn 2 (fun a => quad_nixj p r s m a * quad_nixj p r s n a).
  Proof.
    intros H. destruct plane as (E1 & E2 & E3).
    assert (D : forall q, quad_det q r s = jac 4 (quad_dN r s) q 0 0 * jac 4 (quad_dN r s) q 1 1 - jac 4 (quad_dN r s) q 0 1 * jac 4 (quad_dN r s) q 1 0) by (intros q; reflexivity).
    assert (DD : quad_det p' r s = quad_det p r s).
    { rewrite !D, !(jac_turned p p' r s) by (auto; lia). rewrite E1, E2.
      transitivity ((jac 4 (quad_dN r s) p 0 0 * jac 4 (quad_dN r s) p 1 1 - jac 4 (quad_dN r s) p 0 1 * jac 4 (quad_dN r s) p 1 0) * (Q 1%nat 1%nat * Q 1%nat 1%nat + Q 1%nat 0%nat * Q 1%nat 0%nat)); [ring|rewrite E3; ring]. }
    split; [exact DD|]. intros m n.
    assert (N : forall q w, quad_nixj q r s w 0%nat = (jac 4 (quad_dN r s) q 1 1 * quad_dN r s w 0 - jac 4 (quad_dN r s) q 0 1 * quad_dN r s w 1) * (1 / quad_det q r s) /\
                            quad_nixj q r s w 1%nat = (jac 4 (quad_dN r s) q 0 0 * quad_dN r s w 1 - jac 4 (quad_dN r s) q 1 0 * quad_dN r s w 0) * (1 / quad_det q r s)).
    { intros q w. unfold quad_nixj, nixj. rewrite !rsumn_S. unfold rsumn. cbn [seq]. rewrite !rsuml_nil. unfold jinv, quad_det. cbn [minv row3]. set (d := jdet 4 2 (quad_dN r s) q).
      split; cbn; ring. }
    rewrite !rsumn_S. unfold rsumn. cbn [seq]. rewrite !rsuml_nil. rewrite !(proj1 (N _ _)), !(proj2 (N _ _)), DD, !(jac_turned p p' r s) by (auto; lia). rewrite E1, E2.
    set (d := 1 / quad_det p r s). set (a := Q 1%nat 1%nat) in *. set (b := Q 1%nat 0%nat) in *.
    match goal with |- _ = ?x => transitivity (x * (a * a + b * b)); [ring|rewrite E3; ring] end.
  Qed.
  Lemma quadth_turned p p' ord k vf : (forall n j, (n < 4)%nat -> (j < 3)%nat -> p' n j = c j + turn Q (p n) j) -> quadth_K ord k vf p' = quadth_K ord k vf p.
  Proof.
    intros H. unfold quadth_K.
    destruct (quadth_fold k vf p (quad_quad (i_int ord)) (repeat 0 10) (repeat 0 4) eq_refl eq_refl) as (K1 & F1 & E1 & L1 & M1 & W1 & V1).
    destruct (quadth_fold k vf p' (quad_quad (i_int ord)) (repeat 0 10) (repeat 0 4) eq_refl eq_refl) as (K2 & F2 & E2 & L2 & M2 & W2 & V2).
    cbv zeta in *. rewrite E1, E2. do 2 f_equal.
    - apply sym4; [exact L2|exact L1|]. intros i j Hi Hj. rewrite W1, W2 by assumption. f_equal. apply rsuml_ext. intros [[r s] w] _.
      destruct (quad_turned p p' (dec r) (dec s) H) as [D N]. rewrite D, N. reflexivity.
    - apply nth_ext with (d := 0) (d' := 0); [congruence|]. intros i Hi. rewrite M2 in Hi. rewrite V1, V2 by exact Hi. f_equal. apply rsuml_ext. intros [[r s] w] _.
      destruct (quad_turned p p' (dec r) (dec s) H) as [D _]. rewrite D. reflexivity.
  Qed.
  Lemma quadth_C_turned p p' ord rho cc : (forall n j, (n < 4)%nat -> (j < 3)%nat -> p' n j = c j + turn Q (p n) j) -> quadth_C ord rho cc p' = quadth_C ord rho cc p.
  Proof.
    intros H. unfold quadth_C. f_equal. apply functional_extensionality. intros KF. apply functional_extensionality. intros [[r s] w].
    destruct (quad_turned p p' (dec r) (dec s) H) as (E1 & _). rewrite E1. reflexivity.
  Qed.
End Q.

Lemma at_turned Q c nodes pos pos' : turned_nodes Q c nodes pos pos' ->
  forall n j, (n < length nodes)%nat -> (j < 3)%nat -> at_nodes pos' nodes n j = c j + turn Q (at_nodes pos nodes n) j.
Proof. intros M n j Hn Hj. unfold at_nodes. rewrite (M (nth n nodes 0%nat) j) by (auto; apply nth_In; exact Hn). reflexivity. Qed.
Lemma h_build_turned Q c pos pos' m : rotation Q -> fits Q m -> turned_nodes Q c (h_nodes m) pos pos' -> h_build pos' m = h_build pos m.
Proof.
  intros RQ Fi M. pose proof (at_turned Q c _ pos pos' M) as H. unfold h_build. destruct m; cbn [h_nodes length fits] in *.
  - rewrite (tet1_build_turned Q c RQ _ _ _ H). reflexivity.
  - rewrite (quadth_turned Q c RQ Fi _ _ _ _ _ H). reflexivity.
  - rewrite (lineth_turned Q c RQ 2 _ _ H) by lia. reflexivity.
Qed.
Lemma h_update_turned Q c pos pos' v m : rotation Q -> turned_nodes Q c (h_nodes m) pos pos' ->
  h_update pos' v m = obind (h_update pos v m) (fun f => Ok (turned_flux Q f)).
Proof.
  intros RQ M. pose proof (at_turned Q c _ pos pos' M) as H. unfold h_update. destruct m; cbn [h_nodes length] in *; [|reflexivity|reflexivity].
  apply (tet1_update_turned Q c RQ); [exact H|reflexivity].
Qed.
Lemma h_damp_turned Q c pos pos' x : rotation Q -> fits Q (th_m x) -> turned_nodes Q c (h_nodes (th_m x)) pos pos' -> h_damp pos' x = h_damp pos x.
Proof.
  intros RQ Fi M. pose proof (at_turned Q c _ pos pos' M) as H. unfold h_damp. destruct (th_m x); cbn [h_nodes length fits] in *; [reflexivity| |reflexivity].
  rewrite (quadth_C_turned Q c RQ Fi _ _ _ _ _ H). reflexivity.
Qed.
Lemma each_map {A B C} (f : A -> outcome B) (g : A -> outcome C) (h : B -> C) l : (forall x, In x l -> g x = obind (f x) (fun y => Ok (h y))) ->
  each g l = obind (each f l) (fun ys => Ok (map h ys)).
Proof.
  induction l as [|x l IH]; intros H; [reflexivity|]. cbn [each]. rewrite (H x) by now left. rewrite IH by (intros y Hy; apply H; now right).
  destruct (f x) as [y| | |]; cbn [obind]; [|reflexivity|reflexivity|reflexivity]. destruct (each f l) as [ys| | |]; cbn [obind]; reflexivity.
Qed.
Lemma heat_turned big slv nn Q c pos pos' ms loads fixes : rotation Q -> Forall (fits Q) ms -> turned_nodes Q c (flat_map h_nodes ms) pos pos' ->
  heat_solve big slv nn pos' ms loads fixes = obind (heat_solve big slv nn pos ms loads fixes) (fun sr => Ok (fst sr, map (turned_flux Q) (snd sr))).
Proof.
  intros RQ Fi M. rewrite Forall_forall in Fi. assert (M1 : forall m, In m ms -> turned_nodes Q c (h_nodes m) pos pos').
  { intros m Hm n i Hn. apply M. apply in_flat_map. eauto. }
  unfold heat_solve. rewrite (each_ext (h_build pos') (h_build pos) ms) by (intros m Hm; apply (h_build_turned Q c); auto).
  destruct (each (h_build pos) ms) as [b| | |]; cbn [obind]; [|reflexivity|reflexivity|reflexivity]. cbn [obind].
  match goal with |- obind ?a _ = _ => destruct a as [st| | |]; cbn [obind]; [|reflexivity|reflexivity|reflexivity] end. cbn [obind].
  rewrite (each_map (h_update pos (fun k => nth (eqn (g_num (so_g st)) k - 1) (so_U st) 0)) _ (turned_flux Q) ms) by (intros m Hm; apply (h_update_turned Q c); auto).
  match goal with |- obind (obind ?a _) _ = _ => destruct a as [ys| | |]; cbn [obind]; reflexivity end.
Qed.
Lemma heat_trans_turned big slv fuel cfg nn Q c pos pos' xs loads fixes : rotation Q -> Forall (fits Q) (map th_m xs) -> turned_nodes Q c (flat_map h_nodes (map th_m xs)) pos pos' ->
  heat_trans big slv fuel cfg nn pos' xs loads fixes = heat_trans big slv fuel cfg nn pos xs loads fixes.
Proof.
  intros RQ Fi M. rewrite Forall_forall in Fi. assert (M1 : forall m, In m (map th_m xs) -> turned_nodes Q c (h_nodes m) pos pos').
  { intros m Hm n i Hn. apply M. apply in_flat_map. eauto. }
  unfold heat_trans. rewrite (each_ext (h_build pos') (h_build pos) (map th_m xs)) by (intros m Hm; apply (h_build_turned Q c); auto).
  rewrite (each_ext (h_damp pos') (h_damp pos) xs) by (intros x Hx; apply (h_damp_turned Q c); auto using in_map). reflexivity.
Qed.
