(* C55-C60, C76-C79: linear elements *)
From Coq Require Import Reals Lra Lia.
From Verif Require Import Base RealBase SpecIso ElemModel SpecElem ElemProofs ElemMore.
Local Open Scope R_scope.

(* ---------------- C55: TRUSS3 ---------------- *)
(* assembleK reads the upper triangle; Ke U is the axial force E A / L * elongation along the axis *)
Theorem C55_force : forall A E pos U, (exists i, (i < 3)%nat /\ pos 1%nat i <> pos 0%nat i) ->
  forall i, (i < 6)%nat ->
  rsumn 6 (fun j => upper (truss_Ke A E pos) i j * U j)
  = (if (i <? 3)%nat then -1 else 1) * (E * A / dist3 (pos 0%nat) (pos 1%nat) * elongation pos U) * axis pos (i mod 3).
Proof. exact truss_force. Qed.
Print Assumptions C55_force.
Theorem C55_stress : forall E pos U, (exists i, (i < 3)%nat /\ pos 1%nat i <> pos 0%nat i) ->
  truss_stress E pos U = E * (elongation pos U / dist3 (pos 0%nat) (pos 1%nat)).
Proof. exact truss_stress_ok. Qed.
Print Assumptions C55_stress.
Theorem C55_rigid_motion : forall A E pos c W, (exists i, (i < 3)%nat /\ pos 1%nat i <> pos 0%nat i) -> antisym W ->
  forall i, (i < 6)%nat ->
  rsumn 6 (fun j => upper (truss_Ke A E pos) i j * lin 3 c W (pos (j / 3)%nat) (j mod 3)) = 0.
Proof. exact truss_rigid. Qed.
Print Assumptions C55_rigid_motion.
Example C55_example : exists i, (i < 3)%nat /\ dlt 1 i <> dlt 3 i.
Proof. exists 1%nat. split; [lia|]. unfold dlt. cbn. lra. Qed.

(* ---------------- C56: TETRA0 ---------------- *)
Theorem C56_volume : forall pos, tet_vol pos = tetra_volume pos.
Proof. exact tet_vol_eq. Qed.
Print Assumptions C56_volume.
Theorem C56_strains_and_stresses : forall pos e c G, tetra0_ok e -> tetra_volume pos <> 0 ->
  1 + t0_my e <> 0 -> 1 - 2 * t0_my e <> 0 ->
  exists e1 Ke Fe e2, tet0_buildK pos e = Ok (e1, Ke, Fe) /\ tet0_update pos e1 (nodal 4 3 (lin 3 c G) pos) = Ok e2
    /\ t0_strains e2 = strain6 G /\ t0_stress e2 = stress6 (t0_E e) (t0_my e) G.
Proof. exact tet0_update_ok. Qed.
Print Assumptions C56_strains_and_stresses.
(* the stiffness matrix: virtual work of the nodal forces = volume * stress : virtual strain *)
Theorem C56_virtual_work : forall pos e c G d H, tetra0_ok e -> tetra_volume pos <> 0 ->
  1 + t0_my e <> 0 -> 1 - 2 * t0_my e <> 0 ->
  exists e1 Ke Fe, tet0_buildK pos e = Ok (e1, Ke, Fe) /\
    dot 12 (kmul 12 Ke (nodal 4 3 (lin 3 c G) pos)) (nodal 4 3 (lin 3 d H) pos)
    = tetra_volume pos * work (hooke (t0_E e) (t0_my e) (eps G)) (eps H).
Proof. exact tet0_work. Qed.
Print Assumptions C56_virtual_work.
(* no loss of generality: all nodal values belong to a linear field *)
Theorem C56_all_nodal_values : forall pos U, tetra_volume pos <> 0 -> length U = 12%nat ->
  exists c G, U = nodal 4 3 (lin 3 c G) pos.
Proof. exact tet0_all_fields. Qed.
Print Assumptions C56_all_nodal_values.
Theorem C56_rigid_motion : forall pos e c W, tetra0_ok e -> tetra_volume pos <> 0 -> antisym W ->
  exists e1 Ke Fe, tet0_buildK pos e = Ok (e1, Ke, Fe) /\
    forall i, (i < 12)%nat -> kmul 12 Ke (nodal 4 3 (lin 3 c W) pos) i = 0.
Proof. exact tet0_rigid. Qed.
Print Assumptions C56_rigid_motion.
Theorem C56_positive : forall pos e c G, tetra0_ok e -> 0 < tetra_volume pos -> 0 < t0_E e -> -1 < t0_my e < 1 / 2 ->
  exists e1 Ke Fe, tet0_buildK pos e = Ok (e1, Ke, Fe) /\
    let U := nodal 4 3 (lin 3 c G) pos in
    0 <= dot 12 (kmul 12 Ke U) U /\
    (dot 12 (kmul 12 Ke U) U = 0 -> forall i j, (i < 3)%nat -> (j < 3)%nat -> G i j = - G j i).
Proof. exact tet0_energy. Qed.
Print Assumptions C56_positive.
(* the unit tetrahedron *)
Definition tet1 (n i : nat) : R := dlt n (S i).
Example C56_example : tetra_volume tet1 = 1 / 6 /\ tetra0_ok (mkTetra0 1 0 1 1 (repeat 0 6) (repeat 0 6) 0).
Proof. split; [|split; reflexivity]. unfold tetra_volume, triple, tet1, dlt. cbn [Nat.eqb]. field. Qed.

(* ---------------- C57: free thermal expansion is the solution ---------------- *)
Theorem C57_equilibrium : forall pos e c W, fresh e -> tetra_volume pos <> 0 -> antisym W ->
  exists e1 Ke Fe, tet0_buildK pos e = Ok (e1, Ke, Fe) /\
    forall i, (i < 12)%nat ->
      kmul 12 Ke (nodal 4 3 (lin 3 c (expansion (t0_alpha e * t0_T e) W)) pos) i = load Fe i.
Proof. exact tet0_free_expansion. Qed.
Print Assumptions C57_equilibrium.
Example C57_example : fresh (mkTetra0 1 0 1 1 (repeat 0 6) (repeat 0 6) 0).
Proof. split; reflexivity. Qed.

(* ---------------- C76: what the element reports, assembling twice ---------------- *)
Theorem C76_reported_stress_refuted : ~ (forall pos e c W e1 Ke Fe e2, fresh e -> tetra_volume pos <> 0 -> antisym W ->
  tet0_buildK pos e = Ok (e1, Ke, Fe) ->
  tet0_update pos e1 (nodal 4 3 (lin 3 c (expansion (t0_alpha e * t0_T e) W)) pos) = Ok e2 ->
  t0_stress e2 = repeat 0 6).
Proof.
  intros H. set (e := mkTetra0 1 0 1 1 (repeat 0 6) (repeat 0 6) 0).
  assert (V : tetra_volume tet1 <> 0) by (rewrite (proj1 C56_example); lra).
  destruct (C56_strains_and_stresses tet1 e (fun _ => 0) (expansion (1 * 1) (fun _ _ => 0))) as (e1 & Ke & Fe & e2 & B & U & _ & S);
    [split; reflexivity|exact V|cbn; lra|cbn; lra|].
  assert (Z : t0_stress e2 = repeat 0 6).
  { apply (H tet1 e (fun _ => 0) (fun _ _ => 0) e1 Ke Fe e2); try assumption; [split; reflexivity|].
    intros i j. ring. }
  rewrite S in Z. cbn [e t0_E t0_my] in Z. unfold stress6, hooke, lame_l, lame_m, eps, expansion, dlt in Z. cbn [Nat.eqb repeat] in Z.
  injection Z as Z _ _ _ _ _. lra.
Qed.
Print Assumptions C76_reported_stress_refuted.
(* each further buildK adds the thermal strain once more *)
Theorem C76_second_assembly : forall pos e, fresh e -> t0_alpha e <> 0 -> t0_T e <> 0 ->
  exists e1 K1 F1 e2 K2 F2, tet0_buildK pos e = Ok (e1, K1, F1) /\ tet0_buildK pos e1 = Ok (e2, K2, F2) /\
    forall i, (i < 12)%nat -> load F2 i = 2 * load F1 i.
Proof. exact tet0_twice. Qed.
Print Assumptions C76_second_assembly.
Theorem C76_assembling_twice_refuted : ~ (forall pos e e1 K1 F1 e2 K2 F2, fresh e -> tetra_volume pos <> 0 ->
  tet0_buildK pos e = Ok (e1, K1, F1) -> tet0_buildK pos e1 = Ok (e2, K2, F2) ->
  forall i, (i < 12)%nat -> load F2 i = load F1 i).
Proof.
  intros H. set (e := mkTetra0 1 0 1 1 (repeat 0 6) (repeat 0 6) 0).
  assert (V : tetra_volume tet1 = 1 / 6) by apply (proj1 C56_example).
  assert (V' : tetra_volume tet1 <> 0) by lra.
  assert (F : fresh e) by (split; reflexivity).
  destruct (C76_second_assembly tet1 e F) as (e1 & K1 & F1 & e2 & K2 & F2 & B1 & B2 & D); [cbn; lra|cbn; lra|].
  assert (Z : forall i, (i < 12)%nat -> load F1 i = 0).
  { intros i Hi. pose proof (H tet1 e e1 K1 F1 e2 K2 F2 F V' B1 B2 i Hi). pose proof (D i Hi). lra. }
  destruct (C57_equilibrium tet1 e (fun _ => 0) (fun _ _ => 0) F V') as (e1' & K1' & F1' & B1' & Q); [intros i j; ring|].
  rewrite B1 in B1'. injection B1' as <- <- <-.
  destruct (C56_virtual_work tet1 e (fun _ => 0) (expansion (1 * 1) (fun _ _ => 0)) (fun _ => 0) (expansion (1 * 1) (fun _ _ => 0)))
    as (e1'' & K1'' & F1'' & B1'' & W); [split; reflexivity|exact V'|cbn; lra|cbn; lra|].
  rewrite B1 in B1''. injection B1'' as <- <- <-.
  rewrite V in W. unfold dot in W. rewrite rsumn_zero in W.
  2: { intros i Hi. change (1 * 1) with (t0_alpha e * t0_T e). rewrite (Q i Hi), (Z i Hi). ring. }
  unfold work in W. rewrite !rs3 in W. cbn [e t0_E t0_my] in W.
  unfold hooke, lame_l, lame_m, eps, expansion, dlt in W. cbn [Nat.eqb] in W. lra.
Qed.
Print Assumptions C76_assembling_twice_refuted.

(* ---------------- C58: TETRA1 ---------------- *)
Theorem C58_flux : forall pos k c g scale, tetra_volume pos <> 0 ->
  exists flux, tet1_update pos k (nodal1 4 (lin1 c g) pos) = Ok flux /\
    tet1_FLUX flux scale = map (fun i => - k * g i * scale) (seq 0 3).
Proof.
  intros pos k c g scale Hv. destruct (tet1_flux pos k c g scale Hv) as (f & E & F & _). exists f. split; assumption.
Qed.
Print Assumptions C58_flux.
(* the matrix, as a bilinear form *)
Theorem C58_matrix : forall pos k c g d h, tetra_volume pos <> 0 ->
  exists Ke, tet1_buildK pos k = Ok Ke /\
    dot 4 (kmul 4 Ke (nodal1 4 (lin1 c g) pos)) (nodal1 4 (lin1 d h) pos)
    = - (tetra_volume pos * k * rsumn 3 (fun i => g i * h i)).
Proof. exact tet1_work. Qed.
Print Assumptions C58_matrix.
Theorem C58_all_nodal_values : forall pos T, tetra_volume pos <> 0 -> length T = 4%nat -> exists c g, T = nodal1 4 (lin1 c g) pos.
Proof. exact tet1_all_fields. Qed.
Print Assumptions C58_all_nodal_values.

(* ---------------- C77: sign of the matrix, GRADT ---------------- *)
Theorem C77_GRADT_partial : forall pos k c g scale, tetra_volume pos <> 0 -> k <> 0 ->
  exists flux, tet1_update pos k (nodal1 4 (lin1 c g) pos) = Ok flux /\
    tet1_GRADT k flux scale = map (fun i => - g i * scale) (seq 0 3).
Proof.
  intros pos k c g scale Hv Hk. destruct (tet1_flux pos k c g scale Hv) as (f & E & _ & F). exists f. split; [assumption|auto].
Qed.
Print Assumptions C77_GRADT_partial.
Theorem C77_GRADT_refuted : ~ (forall pos k c g flux, tetra_volume pos <> 0 -> k <> 0 ->
  tet1_update pos k (nodal1 4 (lin1 c g) pos) = Ok flux -> tet1_GRADT k flux 1 = map g (seq 0 3)).
Proof.
  intros H. assert (V : tetra_volume tet1 <> 0) by (rewrite (proj1 C56_example); lra).
  destruct (C77_GRADT_partial tet1 1 0 (fun _ => 1) 1 V) as (f & E & G); [lra|].
  rewrite (H tet1 1 0 (fun _ => 1) f V) in G; [|lra|exact E]. cbn [map seq] in G. injection G as G _. lra.
Qed.
Print Assumptions C77_GRADT_refuted.
Theorem C77_semidefinite_refuted : ~ (forall pos k T Ke, 0 < tetra_volume pos -> 0 < k -> length T = 4%nat ->
  tet1_buildK pos k = Ok Ke -> 0 <= dot 4 (kmul 4 Ke T) T).
Proof.
  intros H. assert (V : tetra_volume tet1 = 1 / 6) by apply (proj1 C56_example).
  destruct (C58_matrix tet1 1 0 (fun _ => 1) 0 (fun _ => 1)) as (Ke & E & W); [lra|].
  specialize (H tet1 1 (nodal1 4 (lin1 0 (fun _ => 1)) tet1) Ke). rewrite W, V, rs3 in H.
  assert (0 < 1 / 6) by lra. specialize (H ltac:(lra) ltac:(lra) eq_refl E). lra.
Qed.
Print Assumptions C77_semidefinite_refuted.

(* ---------------- C59: TRIANGLE4 ---------------- *)
Theorem C59_area : forall pos, tri_area pos = triangle_area pos.
Proof. exact tri_area_eq. Qed.
Print Assumptions C59_area.
Theorem C59_strains_and_stresses : forall pos E my c G, triangle_area pos <> 0 -> 1 + my <> 0 -> 1 - 2 * my <> 0 -> 1 - my <> 0 ->
  tri_update pos PStrain E my (repeat 0 3, repeat 0 3) (nodal 3 2 (lin 2 c G) pos) = Ok (strain3 G, stress3 E my G).
Proof. exact tri_update_ok. Qed.
Print Assumptions C59_strains_and_stresses.
Theorem C59_virtual_work : forall pos E my c G d H, triangle_area pos <> 0 -> 1 + my <> 0 -> 1 - 2 * my <> 0 -> 1 - my <> 0 ->
  exists Ke, tri_buildK pos PStrain E my = Ok Ke /\
    dot 6 (kmul 6 Ke (nodal 3 2 (lin 2 c G) pos)) (nodal 3 2 (lin 2 d H) pos)
    = triangle_area pos * work (hooke E my (eps (plane G))) (eps (plane H)).
Proof. exact tri_work. Qed.
Print Assumptions C59_virtual_work.
Theorem C59_rigid_motion : forall pos st E my c W, triangle_area pos <> 0 -> antisym W ->
  exists Ke, tri_buildK pos st E my = Ok Ke /\
    forall i, (i < 6)%nat -> kmul 6 Ke (nodal 3 2 (lin 2 c W) pos) i = 0.
Proof. exact tri_rigid. Qed.
Print Assumptions C59_rigid_motion.
Theorem C59_all_nodal_values : forall pos U, triangle_area pos <> 0 -> length U = 6%nat -> exists c G, U = nodal 3 2 (lin 2 c G) pos.
Proof. exact tri_all_fields. Qed.
Print Assumptions C59_all_nodal_values.
Example C59_example : triangle_area tet1 = 1 / 2.
Proof. unfold triangle_area, tet1, dlt. cbn [Nat.eqb]. field. Qed.

(* ---------------- C78: plane stress, repeated update ---------------- *)
(* from zero strains and stresses the reported stress is the right one times (1 - my^2)^2 *)
Theorem C78_plane_stress_partial : forall pos E my c G, triangle_area pos <> 0 -> 1 + my <> 0 -> 1 - 2 * my <> 0 -> 1 - my <> 0 ->
  tri_update pos PStress E my (repeat 0 3, repeat 0 3) (nodal 3 2 (lin 2 c G) pos)
  = Ok (strain3 G, map (fun s => (1 - my * my) ^ 2 * s) (stress3' E my G)).
Proof.
  intros pos E my c G Hv H1 H2 H3. rewrite tri_update_gen by (reflexivity || assumption). cbn [fst snd].
  do 2 f_equal; apply list3_ext; try reflexivity; intros k Hk; rewrite ElemBase.nth_map_seq by exact Hk; rewrite nth_repeat.
  - ring.
  - transitivity (rsumn 3 (fun l => nth (SpecAsm.sym_comp 3 k l) (tri_C PStress E my) 0 * nth l (strain3 G) 0)).
    { rewrite Rplus_0_l. apply rsumn_ext. intros l Hl. rewrite nth_repeat. ring. }
    rewrite tri_C_plane_stress by assumption. destruct k as [|[|[|k]]]; try lia; reflexivity.
Qed.
Print Assumptions C78_plane_stress_partial.
Theorem C78_plane_stress_refuted : ~ (forall pos E my c G, triangle_area pos <> 0 -> 0 < E -> -1 < my < 1 / 2 ->
  tri_update pos PStress E my (repeat 0 3, repeat 0 3) (nodal 3 2 (lin 2 c G) pos) = Ok (strain3 G, stress3' E my G)).
Proof.
  intros H. assert (V : triangle_area tet1 <> 0) by (rewrite C59_example; lra).
  specialize (H tet1 1 (1 / 4) (fun _ => 0) (fun i j => if (i =? 0)%nat && (j =? 0)%nat then 1 else 0) V).
  rewrite C78_plane_stress_partial in H by (assumption || lra).
  specialize (H ltac:(lra) ltac:(lra)). injection H as H _ _.
  unfold hooke, plane_stress_33, lame_l, lame_m, eps, plane, dlt in H. cbv [Nat.eqb andb Nat.ltb Nat.leb] in H. lra.
Qed.
Print Assumptions C78_plane_stress_refuted.
(* repeated update with the same displacements *)
Theorem C78_second_update : forall pos st E my c G s, triangle_area pos <> 0 ->
  tri_update pos st E my (repeat 0 3, repeat 0 3) (nodal 3 2 (lin 2 c G) pos) = Ok s ->
  exists s', tri_update pos st E my s (nodal 3 2 (lin 2 c G) pos) = Ok s' /\ fst s' = map (fun e => 2 * e) (fst s)
    /\ snd s' = map (fun t => 3 * t) (snd s).
Proof.
  intros pos st E my c G s Hv H. rewrite tri_update_gen in H by (reflexivity || assumption).
  match type of H with Ok ?x = Ok s => assert (x = s) as <- by congruence end. clear H.
  rewrite tri_update_gen by (reflexivity || assumption). eexists. split; [reflexivity|]. cbn [fst snd].
  split; rewrite map_map; apply map_ext_in; intros k Hk; apply in_seq in Hk.
  - rewrite !ElemBase.nth_map_seq by lia. rewrite nth_repeat. ring.
  - rewrite !ElemBase.nth_map_seq by lia. rewrite nth_repeat, !rs3. rewrite !ElemBase.nth_map_seq by lia. rewrite !nth_repeat. ring.
Qed.
Print Assumptions C78_second_update.
Theorem C78_repeated_update_refuted : ~ (forall pos st E my c G s s', triangle_area pos <> 0 ->
  tri_update pos st E my (repeat 0 3, repeat 0 3) (nodal 3 2 (lin 2 c G) pos) = Ok s ->
  tri_update pos st E my s (nodal 3 2 (lin 2 c G) pos) = Ok s' -> s' = s).
Proof.
  intros H. assert (V : triangle_area tet1 <> 0) by (rewrite C59_example; lra).
  pose proof (C59_strains_and_stresses tet1 1 0 (fun _ => 0) (fun _ _ => 1) V ltac:(lra) ltac:(lra) ltac:(lra)) as U.
  destruct (C78_second_update _ _ _ _ _ _ _ V U) as (s' & U' & F & _).
  rewrite (H _ _ _ _ _ _ _ _ V U U') in F. unfold strain3, eps in F. cbn [fst map] in F. injection F as F _. lra.
Qed.
Print Assumptions C78_repeated_update_refuted.

(* ---------------- C60: INTER0 ---------------- *)
Theorem C60_stiffness : forall ks kn n, ~ (n 0%nat = 0 /\ n 1%nat = n 2%nat) ->
  exists Ke, inter_Ke ks kn n = Ok Ke /\
    (forall i, fst Ke i = unit3 n i) /\
    (forall i j, (i < 3)%nat -> (j < 3)%nat ->
       snd Ke i j = interface ks kn n i j /\ snd Ke (3 + i)%nat (3 + j)%nat = interface ks kn n i j /\
       snd Ke i (3 + j)%nat = - interface ks kn n i j /\ snd Ke (3 + i)%nat j = - interface ks kn n i j).
Proof. exact inter_ok. Qed.
Print Assumptions C60_stiffness.
Example C60_example : ~ (dlt 2 0 = 0 /\ dlt 2 1 = dlt 2 2).
Proof. unfold dlt. cbn. lra. Qed.

(* ---------------- C79: every nonzero normal ---------------- *)
Theorem C79_every_normal_refuted : ~ (forall ks kn n, (exists i, (i < 3)%nat /\ n i <> 0) -> inter_Ke ks kn n <> Fatal).
Proof.
  intros H. apply (H 1 1 (vec3 0 1 1)); [exists 1%nat; split; [lia|cbn; lra]|]. apply inter_degenerate.
Qed.
Print Assumptions C79_every_normal_refuted.
(* exactly the normals along (0,1,1) fail *)
Theorem C79_failing_normals_partial : forall ks kn n, inter_Ke ks kn n = Fatal -> n 0%nat = 0 /\ n 1%nat = n 2%nat.
Proof.
  intros ks kn n H. destruct (Req_EM_T (n 0%nat) 0) as [Z|Z]; [destruct (Req_EM_T (n 1%nat) (n 2%nat)) as [Z'|Z']; [auto|]|];
    destruct (inter_ok ks kn n) as (Ke & E & _); try tauto; congruence.
Qed.
Print Assumptions C79_failing_normals_partial.
