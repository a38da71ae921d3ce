(* TRUSS3, TETRA1, TRIANGLE4, INTER0. *)
From Coq Require Import Reals Lra Lia Nsatz.
From Verif Require Import Base RealBase MatModel AsmModel SpecAsm IsoModel SpecIso IsoProofs ElemModel SpecElem ElemBase ElemProofs.
Local Open Scope R_scope.

(* ---- TRUSS3 *)
Theorem truss_force : forall A E pos U, (exists i, (i < 3)%nat /\ pos 1%nat i <> pos 0%nat i) ->
  forall i, (i < 6)%nat ->
  rsumn 6 (fun j => upper (truss_Ke A E pos) i j * U j)
  = (if (i <? 3)%nat then -1 else 1) * (E * A / dist3 (pos 0%nat) (pos 1%nat) * elongation pos U) * axis pos (i mod 3).
Proof.
  intros A E pos U (k0 & Hk0 & Hd) i Hi. unfold elongation, axis. rewrite <- vlen_dist.
  assert (HL : 0 < vlen 3 (fun j => pos 1%nat j - pos 0%nat j)) by (apply vlen_pos; exists k0; split; [exact Hk0|lra]).
  rewrite rs6, rs3. unfold upper, truss_Ke.
  set (L := vlen 3 (fun j => pos 1%nat j - pos 0%nat j)) in *.
  destruct i as [|[|[|[|[|[|i]]]]]]; try lia;
    cbv [Nat.min Nat.max Nat.leb Nat.ltb Nat.modulo Nat.divmod Nat.sub snd fst Nat.add]; rewrite !rs2;
    unfold truss_T, truss_K; cbn [Nat.eqb]; fold L; field; lra.
Qed.
Theorem truss_stress_ok : forall E pos U, (exists i, (i < 3)%nat /\ pos 1%nat i <> pos 0%nat i) ->
  truss_stress E pos U = E * (elongation pos U / dist3 (pos 0%nat) (pos 1%nat)).
Proof.
  intros E pos U (k0 & Hk0 & Hd). unfold elongation, axis. rewrite <- vlen_dist.
  assert (HL : 0 < vlen 3 (fun j => pos 1%nat j - pos 0%nat j)) by (apply vlen_pos; exists k0; split; [exact Hk0|lra]).
  unfold truss_stress. rewrite rs6, rs3, !rs2.
  unfold truss_T. set (L := vlen 3 (fun j => pos 1%nat j - pos 0%nat j)) in *. cbn [Nat.add]. field. lra.
Qed.
Theorem truss_rigid : forall A E pos c W, (exists i, (i < 3)%nat /\ pos 1%nat i <> pos 0%nat i) -> antisym W ->
  forall i, (i < 6)%nat ->
  rsumn 6 (fun j => upper (truss_Ke A E pos) i j * lin 3 c W (pos (j / 3)%nat) (j mod 3)) = 0.
Proof.
  intros A E pos c W H HW i Hi. rewrite truss_force by assumption.
  assert (elongation pos (fun j => lin 3 c W (pos (j / 3)%nat) (j mod 3)) = 0) as ->; [|ring].
  unfold elongation, axis. rewrite rs3. cbv [Nat.modulo Nat.div Nat.divmod Nat.sub snd fst Nat.add].
  unfold lin. rewrite !rs3. rewrite (HW 1%nat 0%nat), (HW 2%nat 0%nat), (HW 2%nat 1%nat).
  assert (W 0%nat 0%nat = 0) as -> by (pose proof (HW 0%nat 0%nat); lra).
  assert (W 1%nat 1%nat = 0) as -> by (pose proof (HW 1%nat 1%nat); lra).
  assert (W 2%nat 2%nat = 0) as -> by (pose proof (HW 2%nat 2%nat); lra).
  unfold Rdiv. ring.
Qed.

(* ---- TETRA1 *)
Lemma tet1_BU : forall pos c g k, tetra_volume pos <> 0 -> (k < 3)%nat ->
  row 4 (tet1_B pos (tetra_volume pos)) (nodal1 4 (lin1 c g) pos) k = - g k.
Proof.
  intros pos c g k Hv Hk. unfold row. rewrite rs4. unfold tet1_B, nodal1. set (v := tetra_volume pos) in *.
  pose proof (tet_b_lin pos c g) as Hb. pose proof (tet_c_lin pos c g) as Hc. pose proof (tet_d_lin pos c g) as Hd.
  rewrite rs4 in Hb, Hc, Hd. fold v in Hb, Hc, Hd.
  assert (F : forall t, -1 / 6 / v * (6 * v * t) = - t) by (intros; field; exact Hv).
  destruct k as [|[|[|k]]]; try lia; cbn [nth app map seq Nat.mul Nat.add];
    rewrite <- F; [rewrite <- Hb|rewrite <- Hc|rewrite <- Hd]; ring.
Qed.
Theorem tet1_flux : forall pos k c g scale, tetra_volume pos <> 0 ->
  exists flux, tet1_update pos k (nodal1 4 (lin1 c g) pos) = Ok flux /\
    tet1_FLUX flux scale = map (fun i => - k * g i * scale) (seq 0 3) /\
    (k <> 0 -> tet1_GRADT k flux scale = map (fun i => - g i * scale) (seq 0 3)).
Proof.
  intros pos k c g scale Hv. unfold tet1_update. rewrite tet_vol_eq. rewrite bv_R by reflexivity.
  eexists. split; [reflexivity|]. unfold tet1_FLUX, tet1_GRADT. rewrite !map_map.
  assert (R : forall i, (i < 3)%nat -> rsumn 4 (fun j => nth (i * 4 + j) (tet1_B pos (tetra_volume pos)) 0 * nth j (nodal1 4 (lin1 c g) pos) 0) = - g i)
    by (intros i Hi; apply tet1_BU; assumption).
  split; [|intros Hk]; apply map_ext_in; intros i Hi; apply in_seq in Hi; rewrite R by lia; rewrite nth_repeat.
  - ring.
  - field. exact Hk.
Qed.
Theorem tet1_work : forall pos k c g d h, tetra_volume pos <> 0 ->
  exists Ke, tet1_buildK pos k = Ok Ke /\
    dot 4 (kmul 4 Ke (nodal1 4 (lin1 c g) pos)) (nodal1 4 (lin1 d h) pos)
    = - (tetra_volume pos * k * rsumn 3 (fun i => g i * h i)).
Proof.
  intros pos k c g d h Hv. unfold tet1_buildK. rewrite tet_vol_eq.
  destruct (btdb_R 3 4 (tet1_B pos (tetra_volume pos)) (tet1_C k) (tetra_volume pos)) as (Ke & E & L & W);
    [reflexivity|reflexivity|]. exists Ke. split; [exact E|].
  rewrite (work_R 3 4 _ _ _ Ke _ _ (fun k => - g k) (fun k => - h k) W).
  2,3: intros l Hl; apply tet1_BU; assumption.
  rewrite !rs3.
  change (tet1_C k) with [- k; 0; 0; - k; 0; - k].
  cbv [sym_comp Nat.min Nat.max Nat.div Nat.divmod Nat.sub Nat.mul Nat.add fst snd]. cbn [nth]. ring.
Qed.
Theorem tet1_all_fields : forall pos T, tetra_volume pos <> 0 -> length T = 4%nat -> exists c g, T = nodal1 4 (lin1 c g) pos.
Proof.
  intros pos T Hv L. destruct (tet_interp pos (fun n => nth n T 0) Hv) as (c & g & H). exists c, g.
  do 4 (destruct T as [|? T]; [discriminate|]). destruct T; [|discriminate].
  unfold nodal1. cbn [map seq]. rewrite !H by lia. reflexivity.
Qed.

(* ---- TRIANGLE4 *)
Lemma tri_area_eq : forall pos, tri_area pos = triangle_area pos.
Proof. intros. unfold tri_area, triangle_area, tri_S, mdet, det3. cbn -[Rplus Rmult Rminus Ropp IZR Rdiv]. field. Qed.
Lemma tri_BU : forall pos c G k, triangle_area pos <> 0 -> (k < 3)%nat ->
  row 6 (tri_B pos (triangle_area pos)) (nodal 3 2 (lin 2 c G) pos) k = nth k (strain3 G) 0.
Proof.
  intros pos c G k Hv Hk. unfold row. rewrite rs6. revert Hv. unfold tri_B.
  remember (triangle_area pos) as a eqn:Ea. intros Hv.
  assert (Ha : 2 * a = (pos 1%nat 0%nat - pos 0%nat 0%nat) * (pos 2%nat 1%nat - pos 0%nat 1%nat) - (pos 2%nat 0%nat - pos 0%nat 0%nat) * (pos 1%nat 1%nat - pos 0%nat 1%nat))
    by (rewrite Ea; unfold triangle_area; field).
  clear Ea.
  unfold nodal, strain3. destruct k as [|[|[|k]]]; try lia;
    cbn [filled fold_left put fst snd upd repeat nth Nat.mul Nat.add flat_map map seq app]; unfold lin, eps; rewrite !rs2.
  - transitivity (G 0%nat 0%nat * (2 * a) / 2 / a); [rewrite Ha; field; exact Hv|field; exact Hv].
  - transitivity (G 1%nat 1%nat * (2 * a) / 2 / a); [rewrite Ha; field; exact Hv|field; exact Hv].
  - transitivity ((G 0%nat 1%nat + G 1%nat 0%nat) * (2 * a) / 2 / a); [rewrite Ha; field; exact Hv|field; exact Hv].
Qed.
Lemma tri_C_strain : forall E my, tri_C PStrain E my =
  let A := E * (1 - my) / ((1 + my) * (1 - 2 * my)) in
  [1 * A; my / (1 - my) * A; 0; 1 * A; 0; (1 - 2 * my) / (2 * (1 - my)) * A].
Proof. reflexivity. Qed.
Lemma tri_C_stress : forall E my, tri_C PStress E my =
  let A := E * (1 - my * my) in [1 * A; my * A; 0; 1 * A; 0; (1 - my) / 2 * A].
Proof. reflexivity. Qed.
Lemma tri_C_hooke : forall E my G k, 1 + my <> 0 -> 1 - 2 * my <> 0 -> 1 - my <> 0 -> (k < 3)%nat ->
  rsumn 3 (fun l => nth (sym_comp 3 k l) (tri_C PStrain E my) 0 * nth l (strain3 G) 0) = nth k (stress3 E my G) 0.
Proof.
  intros E my G k H1 H2 H3 Hk. rewrite tri_C_strain, rs3.
  destruct k as [|[|[|k]]]; try lia;
    cbv [sym_comp Nat.min Nat.max Nat.div Nat.divmod Nat.sub Nat.mul Nat.add fst snd]; unfold stress3, strain3; cbn [nth];
    unfold hooke, lame_l, lame_m, dlt; cbn [Nat.eqb]; unfold eps, plane; cbv [Nat.ltb Nat.leb andb]; field; auto.
Qed.
(* what the element uses for plane stress is the right matrix times (1 - my^2)^2 *)
Lemma tri_C_plane_stress : forall E my G k, 1 + my <> 0 -> 1 - 2 * my <> 0 -> 1 - my <> 0 -> (k < 3)%nat ->
  rsumn 3 (fun l => nth (sym_comp 3 k l) (tri_C PStress E my) 0 * nth l (strain3 G) 0) = (1 - my * my) ^ 2 * nth k (stress3' E my G) 0.
Proof.
  intros E my G k H1 H2 H3 Hk. rewrite tri_C_stress, rs3.
  destruct k as [|[|[|k]]]; try lia;
    cbv [sym_comp Nat.min Nat.max Nat.div Nat.divmod Nat.sub Nat.mul Nat.add fst snd]; unfold stress3', strain3; cbn [nth];
    unfold hooke, lame_l, lame_m, dlt, plane_stress_33; cbv [Nat.eqb andb]; unfold eps, plane; cbv [Nat.ltb Nat.leb andb]; field; auto.
Qed.
Lemma list3_ext : forall l l' : list R, length l = 3%nat -> length l' = 3%nat -> (forall k, (k < 3)%nat -> nth k l 0 = nth k l' 0) -> l = l'.
Proof. intros l l' L L' H. apply nth_ext with (d := 0) (d' := 0); [congruence|]. intros n Hn. apply H. lia. Qed.
(* general: what update computes, for both states *)
Lemma tri_update_gen : forall pos st E my c G s, triangle_area pos <> 0 -> length (fst s) = 3%nat -> length (snd s) = 3%nat ->
  tri_update pos st E my s (nodal 3 2 (lin 2 c G) pos)
  = Ok (map (fun k => nth k (fst s) 0 + nth k (strain3 G) 0) (seq 0 3),
        map (fun k => nth k (snd s) 0 + rsumn 3 (fun l => nth (sym_comp 3 k l) (tri_C st E my) 0 * (nth l (fst s) 0 + nth l (strain3 G) 0))) (seq 0 3)).
Proof.
  intros pos st E my c G s Hv L1 L2. unfold tri_update. rewrite tri_area_eq, bv_R by (reflexivity || assumption). cbn [obind].
  match goal with |- context [@matSymBVprod _ _ _ ?t _ _] => assert (Et : t = map (fun k => nth k (fst s) 0 + nth k (strain3 G) 0) (seq 0 3)) end.
  { apply map_ext_in. intros k Hk. apply in_seq in Hk.
    change (rsumn 6 _) with (row 6 (tri_B pos (triangle_area pos)) (nodal 3 2 (lin 2 c G) pos) k).
    rewrite tri_BU by (assumption || lia). rewrite Rmult_1_l. reflexivity. }
  rewrite Et. rewrite sbv_R; [|destruct st; reflexivity|reflexivity|reflexivity|assumption]. cbn [obind].
  do 2 f_equal. apply map_ext. intros k. f_equal. rewrite Rmult_1_l. apply rsumn_ext. intros l Hl. rewrite nth_map_seq by exact Hl. reflexivity.
Qed.
Theorem tri_update_ok : forall pos E my c G, triangle_area pos <> 0 -> 1 + my <> 0 -> 1 - 2 * my <> 0 -> 1 - my <> 0 ->
  tri_update pos PStrain E my (repeat 0 3, repeat 0 3) (nodal 3 2 (lin 2 c G) pos) = Ok (strain3 G, stress3 E my G).
Proof.
  intros pos E my c G Hv H1 H2 H3. rewrite tri_update_gen by (reflexivity || assumption). cbn [fst snd].
  do 2 f_equal; apply list3_ext; try reflexivity; intros k Hk; rewrite nth_map_seq by exact Hk; rewrite nth_repeat.
  - ring.
  - rewrite Rplus_0_l, <- tri_C_hooke by assumption. apply rsumn_ext. intros l Hl. rewrite nth_repeat. ring.
Qed.
Definition work2 (s e : nat -> nat -> R) : R := rsumn 2 (fun i => rsumn 2 (fun j => s i j * e i j)).
Theorem tri_work : forall pos E my c G d H, triangle_area pos <> 0 -> 1 + my <> 0 -> 1 - 2 * my <> 0 -> 1 - my <> 0 ->
  exists Ke, tri_buildK pos PStrain E my = Ok Ke /\
    dot 6 (kmul 6 Ke (nodal 3 2 (lin 2 c G) pos)) (nodal 3 2 (lin 2 d H) pos)
    = triangle_area pos * work (hooke E my (eps (plane G))) (eps (plane H)).
Proof.
  intros pos E my c G d H Hv H1 H2 H3. unfold tri_buildK. rewrite tri_area_eq.
  destruct (btdb_R 3 6 (tri_B pos (triangle_area pos)) (tri_C PStrain E my) (triangle_area pos)) as (Ke & EK & L & W);
    [reflexivity|reflexivity|]. exists Ke. split; [exact EK|].
  rewrite (work_R 3 6 _ _ _ Ke _ _ (fun k => nth k (strain3 G) 0) (fun k => nth k (strain3 H) 0) W).
  2,3: intros l Hl; apply tri_BU; assumption.
  f_equal. rewrite rs3. rewrite !tri_C_hooke by (assumption || lia).
  unfold work. rewrite !rs3. unfold stress3, strain3. cbn [nth]. unfold hooke, dlt. cbn [Nat.eqb].
  unfold eps, plane. cbv [Nat.ltb Nat.leb andb]. field.
Qed.
Theorem tri_rigid : forall pos st E my c W, triangle_area pos <> 0 -> antisym W ->
  exists Ke, tri_buildK pos st E my = Ok Ke /\
    forall i, (i < 6)%nat -> kmul 6 Ke (nodal 3 2 (lin 2 c W) pos) i = 0.
Proof.
  intros pos st E my c W Hv HW. unfold tri_buildK. rewrite tri_area_eq.
  destruct (btdb_R 3 6 (tri_B pos (triangle_area pos)) (tri_C st E my) (triangle_area pos)) as (Ke & EK & L & WK);
    [reflexivity|destruct st; reflexivity|]. exists Ke. split; [exact EK|].
  intros i Hi. apply (kmul_zero 3 6 _ _ _ Ke _ WK); [|exact Hi].
  intros l Hl. change (rsumn 6 _) with (row 6 (tri_B pos (triangle_area pos)) (nodal 3 2 (lin 2 c W) pos) l).
  rewrite tri_BU by assumption. unfold strain3, eps.
  destruct l as [|[|[|l]]]; try lia; cbn [nth]; match goal with |- context [W ?i ?j + W ?j ?i] => pose proof (HW i j) end; lra.
Qed.
Theorem tri_all_fields : forall pos U, triangle_area pos <> 0 -> length U = 6%nat -> exists c G, U = nodal 3 2 (lin 2 c G) pos.
Proof.
  intros pos U Hv L.
  do 6 (destruct U as [|? U]; [discriminate|]). destruct U; [|discriminate].
  remember (2 * triangle_area pos) as D eqn:ED.
  assert (HD : D <> 0) by lra.
  set (gx := fun u0 u1 u2 => ((pos 1%nat 1%nat - pos 2%nat 1%nat) * u0 + (pos 2%nat 1%nat - pos 0%nat 1%nat) * u1 + (pos 0%nat 1%nat - pos 1%nat 1%nat) * u2) / D).
  set (gy := fun u0 u1 u2 => ((pos 2%nat 0%nat - pos 1%nat 0%nat) * u0 + (pos 0%nat 0%nat - pos 2%nat 0%nat) * u1 + (pos 1%nat 0%nat - pos 0%nat 0%nat) * u2) / D).
  exists (vec3 (r - gx r r1 r3 * pos 0%nat 0%nat - gy r r1 r3 * pos 0%nat 1%nat)
               (r0 - gx r0 r2 r4 * pos 0%nat 0%nat - gy r0 r2 r4 * pos 0%nat 1%nat) 0),
    (fun i j => match i, j with 0%nat, 0%nat => gx r r1 r3 | 0%nat, _ => gy r r1 r3 | _, 0%nat => gx r0 r2 r4 | _, _ => gy r0 r2 r4 end).
  unfold nodal. cbn [flat_map map seq app]. unfold lin. rewrite !rs2. unfold vec3, gx, gy.
  assert (HD' : D = (pos 1%nat 0%nat - pos 0%nat 0%nat) * (pos 2%nat 1%nat - pos 0%nat 1%nat) - (pos 2%nat 0%nat - pos 0%nat 0%nat) * (pos 1%nat 1%nat - pos 0%nat 1%nat))
    by (rewrite ED; unfold triangle_area; field).
  clear ED. repeat f_equal; symmetry; subst D; field; exact HD.
Qed.

(* ---- INTER0 *)
Lemma rdiv_ok : forall a b, b <> 0 -> rdiv a b = Ok (a / b).
Proof. intros. unfold rdiv. destruct (Req_EM_T b 0); [contradiction|reflexivity]. Qed.
Lemma rdiv_zero : forall a b, b = 0 -> rdiv a b = Fatal.
Proof. intros. unfold rdiv. destruct (Req_EM_T b 0); [reflexivity|contradiction]. Qed.
Lemma vlen_sq : forall v, vlen 3 v * vlen 3 v = v 0%nat * v 0%nat + v 1%nat * v 1%nat + v 2%nat * v 2%nat.
Proof. intros. unfold vlen. rewrite rs3. apply sqrt_sqrt. nra. Qed.
Lemma vlen_norm : forall v, vlen 3 v = norm3 v.
Proof. intros. unfold vlen, norm3. rewrite rs3. f_equal. ring. Qed.

(* an orthogonal triple n, a, n x a *)
Lemma triad : forall n0 n1 n2 a0 a1 a2 : R, a0 * n0 + a1 * n1 + a2 * n2 = 0 ->
  let N := n0 * n0 + n1 * n1 + n2 * n2 in let A := a0 * a0 + a1 * a1 + a2 * a2 in
  let c0 := n1 * a2 - n2 * a1 in let c1 := n2 * a0 - n0 * a2 in let c2 := n0 * a1 - n1 * a0 in
  c0 * c0 + c1 * c1 + c2 * c2 = N * A
  /\ N * a0 * a0 + c0 * c0 + A * n0 * n0 = N * A /\ N * a1 * a1 + c1 * c1 + A * n1 * n1 = N * A
  /\ N * a2 * a2 + c2 * c2 + A * n2 * n2 = N * A
  /\ N * a0 * a1 + c0 * c1 + A * n0 * n1 = 0 /\ N * a0 * a2 + c0 * c2 + A * n0 * n2 = 0 /\ N * a1 * a2 + c1 * c2 + A * n1 * n2 = 0.
Proof. intros n0 n1 n2 a0 a1 a2 H. cbv zeta. repeat split; nsatz. Qed.

Theorem inter_ok : forall ks kn n, ~ (n 0%nat = 0 /\ n 1%nat = n 2%nat) ->
  exists Ke, inter_Ke ks kn n = Ok (Ke) /\
    (forall i, fst Ke i = unit3 n i) /\
    (forall i j, (i < 3)%nat -> (j < 3)%nat ->
       snd Ke i j = interface ks kn n i j /\ snd Ke (3 + i)%nat (3 + j)%nat = interface ks kn n i j /\
       snd Ke i (3 + j)%nat = - interface ks kn n i j /\ snd Ke (3 + i)%nat j = - interface ks kn n i j).
Proof.
  intros ks kn n Hn.
  set (N := n 0%nat * n 0%nat + n 1%nat * n 1%nat + n 2%nat * n 2%nat).
  assert (HN : 0 < N).
  { unfold N. destruct (Req_EM_T (n 0%nat) 0) as [Z|Z]; [|nra].
    destruct (Req_EM_T (n 1%nat) 0) as [Z1|Z1]; [|nra]. destruct (Req_EM_T (n 2%nat) 0) as [Z2|Z2]; [|nra].
    exfalso. apply Hn. split; [exact Z|congruence]. }
  unfold inter_Ke, inter_basis. rewrite rs3. fold N. rewrite rdiv_ok by lra. cbn [obind].
  set (q := (vec3 (n 0%nat) (n 1%nat + 1) (n 2%nat + 1) 0%nat * n 0%nat
      + vec3 (n 0%nat) (n 1%nat + 1) (n 2%nat + 1) 1%nat * n 1%nat + vec3 (n 0%nat) (n 1%nat + 1) (n 2%nat + 1) 2%nat * n 2%nat) / N).
  set (a := fun i => vec3 (n 0%nat) (n 1%nat + 1) (n 2%nat + 1) i - n i * q).
  set (c := vec3 (n 1%nat * a 2%nat - n 2%nat * a 1%nat) (n 2%nat * a 0%nat - n 0%nat * a 2%nat) (n 0%nat * a 1%nat - n 1%nat * a 0%nat)).
  change (fun i => vec3 (n 0%nat) (n 1%nat + 1) (n 2%nat + 1) i - n i * q) with a.
  change (vec3 (n 1%nat * (vec3 (n 0%nat) (n 1%nat + 1) (n 2%nat + 1) 2%nat - n 2%nat * q) - _) _ _) with c.
  assert (Hq : q * N = n 0%nat * n 0%nat + (n 1%nat + 1) * n 1%nat + (n 2%nat + 1) * n 2%nat) by (unfold q, vec3; field; lra).
  assert (Hq' : n 0%nat * n 0%nat + (n 1%nat + 1) * n 1%nat + (n 2%nat + 1) * n 2%nat = N + (n 1%nat + n 2%nat)) by (unfold N; ring).
  assert (Ho : a 0%nat * n 0%nat + a 1%nat * n 1%nat + a 2%nat * n 2%nat = 0).
  { unfold a, vec3. transitivity (n 0%nat * n 0%nat + (n 1%nat + 1) * n 1%nat + (n 2%nat + 1) * n 2%nat - q * N); [unfold N; ring|lra]. }
  destruct (triad (n 0%nat) (n 1%nat) (n 2%nat) (a 0%nat) (a 1%nat) (a 2%nat) Ho) as (TC & T00 & T11 & T22 & T01 & T02 & T12).
  fold N in TC, T00, T11, T22, T01, T02, T12.
  set (A := a 0%nat * a 0%nat + a 1%nat * a 1%nat + a 2%nat * a 2%nat) in *.
  assert (HA : 0 < A).
  { assert (0 <= A) by (unfold A; nra). destruct (Req_EM_T A 0) as [Z|Z]; [|lra]. exfalso.
    assert (S : forall x y z, x * x + y * y + z * z = 0 -> x = 0 /\ y = 0 /\ z = 0) by (intros; repeat split; nra).
    apply S in Z as (Z0 & Z1 & Z2). unfold a, vec3 in Z0, Z1, Z2. apply Hn.
    assert (D : (q - 1) * N = n 1%nat + n 2%nat) by lra.
    assert (B0 : n 0%nat * (q - 1) = 0) by lra. assert (B1 : n 1%nat * (q - 1) = 1) by lra. assert (B2 : n 2%nat * (q - 1) = 1) by lra.
    assert (q - 1 <> 0) by (intros E; rewrite E in B1; lra).
    split; [apply (Rmult_eq_reg_r (q - 1)); lra|apply (Rmult_eq_reg_r (q - 1)); lra]. }
  pose proof (vlen_sq n) as Ln. fold N in Ln. pose proof (vlen_sq a) as La. fold A in La.
  pose proof (vlen_sq c) as Lc. unfold c in Lc. cbn [vec3] in Lc. fold c in Lc. rewrite TC in Lc.
  set (ln := vlen 3 n) in *. set (la := vlen 3 a) in *. set (lc := vlen 3 c) in *.
  assert (ln <> 0) by (intros E; rewrite E in Ln; lra). assert (la <> 0) by (intros E; rewrite E in La; lra).
  assert (lc <> 0) by (intros E; rewrite E in Lc; nra).
  assert (norm3 n = ln) as Enorm by (symmetry; apply vlen_norm).
  rewrite !rdiv_ok by assumption. cbn [obind].
  eexists. split; [reflexivity|]. cbn [fst snd].
  split. { intros i. unfold unit3. rewrite Enorm. field. assumption. }
  assert (Kij : forall i j, (i < 3)%nat -> (j < 3)%nat ->
    N * a i * a j + c i * c j + A * n i * n j = N * A * dlt i j ->
    a i * (1 / la) * ks * (a j * (1 / la)) + c i * (1 / lc) * ks * (c j * (1 / lc)) + n i * (1 / ln) * kn * (n j * (1 / ln)) = interface ks kn n i j).
  { intros i j Hi Hj T. unfold interface, unit3. rewrite Enorm.
    transitivity (ks * (a i * a j / (la * la) + c i * c j / (lc * lc)) + kn * (n i * n j / (ln * ln))); [field; repeat split; assumption|].
    transitivity (ks * (dlt i j - n i * n j / (ln * ln)) + kn * (n i * n j / (ln * ln))); [|field; assumption].
    f_equal. f_equal. rewrite La, Lc, Ln.
    transitivity ((N * a i * a j + c i * c j) / (N * A)); [field; lra|].
    transitivity ((N * A * dlt i j - A * n i * n j) / (N * A)); [|field; lra].
    f_equal. lra. }
  assert (TT : forall i j, (i < 3)%nat -> (j < 3)%nat -> N * a i * a j + c i * c j + A * n i * n j = N * A * dlt i j).
  { intros i j Hi Hj. unfold dlt. unfold c, vec3.
    destruct i as [|[|[|i]]], j as [|[|[|j]]]; try lia; cbn [Nat.eqb]; lra. }
  intros i j Hi Hj. specialize (Kij i j Hi Hj (TT i j Hi Hj)).
  rewrite !rs3.
  assert (F1 : ((3 + i) mod 3 = i)%nat) by (destruct i as [|[|[|i]]]; try lia; reflexivity).
  assert (F2 : ((3 + j) mod 3 = j)%nat) by (destruct j as [|[|[|j]]]; try lia; reflexivity).
  assert (F3 : (i mod 3 = i)%nat) by (apply Nat.mod_small; exact Hi).
  assert (F4 : (j mod 3 = j)%nat) by (apply Nat.mod_small; exact Hj).
  assert (G1 : (i <? 3)%nat = true) by (apply Nat.ltb_lt; exact Hi). assert (G2 : (j <? 3)%nat = true) by (apply Nat.ltb_lt; exact Hj).
  assert (G3 : (3 + i <? 3)%nat = false) by (apply Nat.ltb_ge; lia). assert (G4 : (3 + j <? 3)%nat = false) by (apply Nat.ltb_ge; lia).
  rewrite F1, F2, F3, F4, G1, G2, G3, G4. cbn [xorb].
  repeat split; try exact Kij; f_equal; exact Kij.
Qed.
Theorem inter_degenerate : forall ks kn a, inter_Ke ks kn (vec3 0 a a) = Fatal.
Proof.
  intros ks kn a. unfold inter_Ke, inter_basis. rewrite rs3. cbn [vec3].
  destruct (Req_EM_T a 0) as [Z|Z].
  - rewrite rdiv_zero; [reflexivity|]. rewrite Z. ring.
  - assert (0 < a * a) by nra. rewrite rdiv_ok by nra. cbn [obind].
    rewrite rdiv_ok. 2: { apply Rgt_not_eq. apply vlen_pos. exists 1%nat. split; [lia|exact Z]. }
    cbn [obind]. rewrite rdiv_zero; [reflexivity|].
    apply vlen_zero. intros i Hi. destruct i as [|[|[|i]]]; try lia; cbn [vec3]; field; lra.
Qed.
