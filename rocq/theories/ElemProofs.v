(* Proofs about the linear elements. *)
From Coq Require Import Reals Lra Lia.
From Verif Require Import Base RealBase MatModel AsmModel SpecAsm IsoModel SpecIso ElemModel SpecElem ElemBase.
Local Open Scope R_scope.

Lemma rs2 : forall f, rsumn 2 f = f 0%nat + f 1%nat.
Proof. intros. unfold rsumn. cbn [seq]. rewrite !rsuml_cons, rsuml_nil. ring. Qed.
Lemma rs3 : forall f, rsumn 3 f = f 0%nat + f 1%nat + f 2%nat.
Proof. intros. unfold rsumn. cbn [seq]. rewrite !rsuml_cons, rsuml_nil. ring. Qed.
Lemma rs4 : forall f, rsumn 4 f = f 0%nat + f 1%nat + f 2%nat + f 3%nat.
Proof. intros. unfold rsumn. cbn [seq]. rewrite !rsuml_cons, rsuml_nil. ring. Qed.
Lemma rs6 : forall f, rsumn 6 f = f 0%nat + f 1%nat + f 2%nat + f 3%nat + f 4%nat + f 5%nat.
Proof. intros. unfold rsumn. cbn [seq]. rewrite !rsuml_cons, rsuml_nil. ring. Qed.
Lemma rs12 : forall f, rsumn 12 f = f 0%nat + f 1%nat + f 2%nat + f 3%nat + f 4%nat + f 5%nat
  + f 6%nat + f 7%nat + f 8%nat + f 9%nat + f 10%nat + f 11%nat.
Proof. intros. unfold rsumn. cbn [seq]. rewrite !rsuml_cons, rsuml_nil. ring. Qed.

(* ---- tetrahedra *)
Lemma tet_vol_eq : forall pos, tet_vol pos = tetra_volume pos.
Proof.
  intros pos. unfold tet_vol, tetra_volume, triple, tet_S, mdet, fold_left, seq, det3, cross_cut.
  cbn -[Rplus Rmult Rminus Ropp IZR Rdiv]. field.
Qed.

Lemma tet_b_lin : forall pos c g, rsumn 4 (fun n => tet_b pos n * lin1 c g (pos n)) = 6 * tetra_volume pos * g 0%nat.
Proof. intros. rewrite rs4. unfold tet_b, lin1, tetra_volume, triple. rewrite !rs3. cbn [Nat.sub]. field. Qed.
Lemma tet_c_lin : forall pos c g, rsumn 4 (fun n => tet_c pos n * lin1 c g (pos n)) = 6 * tetra_volume pos * g 1%nat.
Proof. intros. rewrite rs4. unfold tet_c, lin1, tetra_volume, triple. rewrite !rs3. cbn [Nat.sub]. field. Qed.
Lemma tet_d_lin : forall pos c g, rsumn 4 (fun n => tet_d pos n * lin1 c g (pos n)) = 6 * tetra_volume pos * g 2%nat.
Proof. intros. rewrite rs4. unfold tet_d, lin1, tetra_volume, triple. rewrite !rs3. cbn [Nat.sub]. field. Qed.

(* row k of B times the nodal values *)
Definition row (N : nat) (B U : list R) (k : nat) : R := rsumn N (fun j => nth (k * N + j) B 0 * nth j U 0).

Ltac expl := cbv -[Rplus Rmult Rminus Rdiv Ropp Rinv IZR tet_b tet_c tet_d tetra_volume lin1 eps].

Lemma tet0_B_list : forall pos vol, tet0_B pos vol =
  let A := -1 / 6 / vol in
  let r (f g h : nat -> R) := flat_map (fun i => [f i; g i; h i]) (seq 0 4) in
  let b i := tet_b pos i * A in let c i := tet_c pos i * A in let d i := tet_d pos i * A in let o (i : nat) := 0 in
  r b o o ++ r o c o ++ r o o d ++ r c b o ++ r o d c ++ r d o b.
Proof. reflexivity. Qed.
Lemma tet0_B_length : forall pos vol, length (tet0_B pos vol) = 72%nat.
Proof. reflexivity. Qed.
Lemma nodal_length : forall u pos, length (nodal 4 3 u pos) = 12%nat.
Proof. reflexivity. Qed.

Lemma lin_lin1 : forall c G x i, lin 3 c G x i = lin1 (c i) (G i) x.
Proof. reflexivity. Qed.

Lemma tet0_BU : forall pos c G k, tetra_volume pos <> 0 -> (k < 6)%nat ->
  row 12 (tet0_B pos (tetra_volume pos)) (nodal 4 3 (lin 3 c G) pos) k = - nth k (strain6 G) 0.
Proof.
  intros pos c G k Hv Hk. unfold row. rewrite tet0_B_list, rs12. set (v := tetra_volume pos) in *.
  pose proof (fun i => tet_b_lin pos (c i) (G i)) as Hb. pose proof (fun i => tet_c_lin pos (c i) (G i)) as Hc.
  pose proof (fun i => tet_d_lin pos (c i) (G i)) as Hd. fold v in Hb, Hc, Hd.
  assert (R4 : forall f g : nat -> R, rsumn 4 (fun n => f n * g n) = f 0%nat * g 0%nat + f 1%nat * g 1%nat + f 2%nat * g 2%nat + f 3%nat * g 3%nat)
    by (intros; apply rs4).
  assert (F : forall t, -1 / 6 / v * (6 * v * t) = - t) by (intros; field; exact Hv).
  destruct k as [|[|[|[|[|[|k]]]]]]; try lia; unfold nodal; cbn [strain6 nth]; unfold eps;
    cbn [nth app flat_map map seq Nat.mul Nat.add]; rewrite !lin_lin1.
  - transitivity (- (G 0%nat 0%nat)); [|field]. rewrite <- F, <- (Hb 0%nat), R4. ring.
  - transitivity (- (G 1%nat 1%nat)); [|field]. rewrite <- F, <- (Hc 1%nat), R4. ring.
  - transitivity (- (G 2%nat 2%nat)); [|field]. rewrite <- F, <- (Hd 2%nat), R4. ring.
  - transitivity (- (G 0%nat 1%nat) + - (G 1%nat 0%nat)); [|field]. rewrite <- !F, <- (Hc 0%nat), <- (Hb 1%nat), !R4. ring.
  - transitivity (- (G 1%nat 2%nat) + - (G 2%nat 1%nat)); [|field]. rewrite <- !F, <- (Hd 1%nat), <- (Hc 2%nat), !R4. ring.
  - transitivity (- (G 0%nat 2%nat) + - (G 2%nat 0%nat)); [|field]. rewrite <- !F, <- (Hd 0%nat), <- (Hb 2%nat), !R4. ring.
Qed.

Lemma tet0_C_list : forall E my, tet0_C E my =
  let A := E / ((1 + my) * (1 - 2 * my)) in let d := (1 - my) * A in let o := my * A in let s := (1 / 2 - my) * A in
  [d; o; o; 0; 0; 0; d; o; 0; 0; 0; d; 0; 0; 0; s; 0; 0; s; 0; s].
Proof. reflexivity. Qed.

(* C times the strain list is Hooke's stress *)
Lemma tet0_C_hooke : forall E my G k, 1 + my <> 0 -> 1 - 2 * my <> 0 -> (k < 6)%nat ->
  rsumn 6 (fun l => nth (sym_comp 6 k l) (tet0_C E my) 0 * nth l (strain6 G) 0) = nth k (stress6 E my G) 0.
Proof.
  intros E my G k H1 H2 Hk. rewrite tet0_C_list, rs6. 
  destruct k as [|[|[|[|[|[|k]]]]]]; try lia;
    cbv [sym_comp Nat.min Nat.max Nat.div Nat.divmod Nat.sub Nat.mul Nat.add fst snd]; unfold stress6, strain6; cbn [nth];
    unfold hooke, lame_l, lame_m, dlt; cbn [Nat.eqb]; unfold eps; field; auto.
Qed.

Lemma tet0_Ke : forall pos e, exists Ke, @matBTDBprod RNum 6 12 (tet0_B pos (tet_vol pos)) (tet0_C (t0_E e) (t0_my e)) (tet_vol pos) (repeat 0 78) = Ok Ke
  /\ forall i j, (i < 12)%nat -> (j < 12)%nat -> nth (sym_comp 12 i j) Ke 0
      = tet_vol pos * rsumn 6 (fun k => rsumn 6 (fun l => nth (k * 12 + i) (tet0_B pos (tet_vol pos)) 0
          * nth (sym_comp 6 k l) (tet0_C (t0_E e) (t0_my e)) 0 * nth (l * 12 + j) (tet0_B pos (tet_vol pos)) 0)).
Proof.
  intros pos e. destruct (btdb_R 6 12 (tet0_B pos (tet_vol pos)) (tet0_C (t0_E e) (t0_my e)) (tet_vol pos)) as (Ke & E & L & W);
    [apply tet0_B_length|reflexivity|]. exists Ke. split; [exact E|exact W].
Qed.
Lemma comp16_6 : forall k l, (k < 6)%nat -> (l < 6)%nat -> comp16 6 k l = sym_comp 6 k l.
Proof.
  intros k l Hk Hl.
  destruct k as [|[|[|[|[|[|k]]]]]]; try lia; destruct l as [|[|[|[|[|[|l]]]]]]; try lia; reflexivity.
Qed.

Definition tet0_BTC pos vol E my : list R :=
  map (fun q => rsumn 6 (fun l => nth (l * 12 + q / 6) (tet0_B pos vol) 0 * cmat (tet0_C E my) l (q mod 6))) (seq 0 72).
Lemma tet0_Fe : forall pos vol E my s, length s = 6%nat ->
  exists Fe, @matBVprod RNum 12 6 (tet0_BTC pos vol E my) s (- vol) (repeat 0 12) = Ok Fe /\ length Fe = 12%nat /\
    forall i, (i < 12)%nat -> nth i Fe 0 =
      - vol * rsumn 6 (fun k => nth (k * 12 + i) (tet0_B pos vol) 0 * rsumn 6 (fun l => nth (sym_comp 6 k l) (tet0_C E my) 0 * nth l s 0)).
Proof.
  intros pos vol E my s Ls.
  assert (L72 : length (tet0_BTC pos vol E my) = (12 * 6)%nat) by (unfold tet0_BTC; rewrite map_length, seq_length; reflexivity).
  rewrite (bv_R 12 6 _ s (- vol) (repeat 0 12) L72 Ls (repeat_length _ _)).
  eexists. split; [reflexivity|]. split; [rewrite map_length, seq_length; reflexivity|].
  intros i Hi. rewrite nth_map_seq by exact Hi. rewrite nth_repeat.
  rewrite Rplus_0_l. f_equal.
  rewrite (rsumn_ext 6 _ (fun j => rsumn 6 (fun k => nth (k * 12 + i) (tet0_B pos vol) 0 * nth (sym_comp 6 k j) (tet0_C E my) 0 * nth j s 0))).
  2: { intros j Hj. unfold tet0_BTC. rewrite nth_map_seq by lia.
       rewrite Nat.div_add_l, (Nat.div_small j), Nat.add_0_r by lia.
       replace ((i * 6 + j) mod 6)%nat with j by (rewrite Nat.add_comm, Nat.mod_add, Nat.mod_small; lia).
       rewrite <- rsumn_mulr. apply rsumn_ext. intros l Hl. unfold cmat. rewrite comp16_6 by lia. ring. }
  rewrite rsumn_swap. apply rsumn_ext. intros k Hk. rewrite <- rsumn_mul. apply rsumn_ext. intros l Hl. ring.
Qed.

(* the strains used for the load vector *)
Definition tet0_loadstrain (e : tetra0) : list R :=
  let thermal := nonzero (t0_alpha e) && nonzero (t0_T e) in
  let C := tet0_C (t0_E e) (t0_my e) in
  let strains :=
      if nonzero (qlength (t0_stress e))
      then map (fun k => rsumn 6 (fun l => @minv RFld 6 (cmat C) (@mdet RRng 6 (cmat C)) k l * nth l (t0_stress e) 0)) (seq 0 6)
      else t0_strains e in
    let a := t0_alpha e * t0_T e in
    if thermal then vadd strains [a; a; a; 0; 0; 0] else strains.
Lemma loadstrain_length : forall e, tetra0_ok e -> length (tet0_loadstrain e) = 6%nat.
Proof.
  intros e [H1 H2]. unfold tet0_loadstrain.
  destruct (nonzero (qlength (t0_stress e))), (nonzero (t0_alpha e) && nonzero (t0_T e)); unfold vadd;
    rewrite ?map_length, ?combine_length, ?map_length, ?seq_length, ?H1; reflexivity.
Qed.
Lemma nonzero_false : forall a, nonzero a = false <-> a = 0.
Proof. intros a. unfold nonzero. destruct (Req_EM_T a 0); split; congruence. Qed.
Lemma nonzero_true : forall a, nonzero a = true <-> a <> 0.
Proof. intros a. unfold nonzero. destruct (Req_EM_T a 0); split; congruence. Qed.
Lemma qlength_zero : forall v, qlength v = 0 -> forall i, nth i v 0 = 0.
Proof.
  intros v. assert (P : forall v, 0 <= qlength v).
  { induction v0 as [|a v0 IH]; [unfold qlength; rewrite rsuml_nil; lra|]. unfold qlength in *. rewrite rsuml_cons. nra. }
  induction v as [|a v IH]; intros H i; [destruct i; reflexivity|].
  unfold qlength in *. rewrite rsuml_cons in H. pose proof (P v) as Pv. unfold qlength in Pv.
  assert (a * a = 0) by nra. assert (a = 0) by nra.
  destruct i; [assumption|]. apply IH. nra.
Qed.

Lemma tet0_buildK_ok : forall pos e, tetra0_ok e -> exists e' Ke Fe, tet0_buildK pos e = Ok (e', Ke, Fe)
  /\ t0_vol e' = tet_vol pos /\ t0_E e' = t0_E e /\ t0_my e' = t0_my e /\ t0_alpha e' = t0_alpha e /\ t0_T e' = t0_T e
  /\ t0_stress e' = t0_stress e /\ t0_strains e' = tet0_loadstrain e /\ length Ke = tri 12
  /\ (forall i j, (i < 12)%nat -> (j < 12)%nat -> nth (sym_comp 12 i j) Ke 0
      = tet_vol pos * rsumn 6 (fun k => rsumn 6 (fun l => nth (k * 12 + i) (tet0_B pos (tet_vol pos)) 0
          * nth (sym_comp 6 k l) (tet0_C (t0_E e) (t0_my e)) 0 * nth (l * 12 + j) (tet0_B pos (tet_vol pos)) 0)))
  /\ (forall i, (i < 12)%nat -> load Fe i =
      - tet_vol pos * rsumn 6 (fun k => nth (k * 12 + i) (tet0_B pos (tet_vol pos)) 0
          * rsumn 6 (fun l => nth (sym_comp 6 k l) (tet0_C (t0_E e) (t0_my e)) 0 * nth l (tet0_loadstrain e) 0))).
Proof.
  intros pos e He. unfold tet0_buildK.
  destruct (btdb_R 6 12 (tet0_B pos (tet_vol pos)) (tet0_C (t0_E e) (t0_my e)) (tet_vol pos)) as (Ke & EK & LK & WK);
    [apply tet0_B_length|reflexivity|].
  change (repeat 0 78) with (repeat 0 (tri 12)). rewrite EK. cbn [obind].
  destruct (tet0_Fe pos (tet_vol pos) (t0_E e) (t0_my e) (tet0_loadstrain e) (loadstrain_length e He)) as (Fe & EF & LF & WF).
  fold (tet0_BTC pos (tet_vol pos) (t0_E e) (t0_my e)).
  set (c := nonzero (t0_alpha e) && nonzero (t0_T e)) in *.
  destruct (c || nonzero (qlength (t0_strains e)) || nonzero (qlength (t0_stress e))) eqn:Ec.
  - change (@matBVprod RNum 12 6 (tet0_BTC pos (tet_vol pos) (t0_E e) (t0_my e)) _ (- tet_vol pos) (repeat 0 12))
      with (@matBVprod RNum 12 6 (tet0_BTC pos (tet_vol pos) (t0_E e) (t0_my e)) (tet0_loadstrain e) (- tet_vol pos) (repeat 0 12)).
    rewrite EF. cbn [obind]. do 3 eexists. split; [reflexivity|]. cbn [t0_vol t0_E t0_my t0_alpha t0_T t0_stress t0_strains].
    repeat (split; [reflexivity || exact LK|]). split; [exact WK|]. exact WF.
  - apply Bool.orb_false_iff in Ec as (Ec & E2). apply Bool.orb_false_iff in Ec as (E0 & E1).
    do 3 eexists. split; [reflexivity|]. cbn [t0_vol t0_E t0_my t0_alpha t0_T t0_stress t0_strains].
    assert (EL : tet0_loadstrain e = t0_strains e) by (unfold tet0_loadstrain; fold c; rewrite E2, E0; reflexivity).
    do 5 (split; [reflexivity|]). split; [reflexivity|]. split; [symmetry; exact EL|]. split; [exact LK|]. split; [exact WK|].
    intros i Hi. cbn [load]. rewrite EL. apply nonzero_false in E1.
    rewrite rsumn_zero; [ring|]. intros k Hk. rewrite (rsumn_zero 6); [ring|]. intros l Hl.
    rewrite (qlength_zero _ E1). ring.
Qed.

Local Opaque tet0_B tet0_C.
Lemma strain6_length : forall G, length (strain6 G) = 6%nat.
Proof. reflexivity. Qed.
Lemma list6_ext : forall l l' : list R, length l = 6%nat -> length l' = 6%nat -> (forall k, (k < 6)%nat -> nth k l 0 = nth k l' 0) -> l = l'.
Proof. intros l l' L L' H. apply nth_ext with (d := 0) (d' := 0); [congruence|]. intros n Hn. apply H. lia. Qed.

Theorem tet0_update_ok : forall pos e c G, tetra0_ok e -> tetra_volume pos <> 0 ->
  1 + t0_my e <> 0 -> 1 - 2 * t0_my e <> 0 ->
  exists e1 Ke Fe e2, tet0_buildK pos e = Ok (e1, Ke, Fe) /\ tet0_update pos e1 (nodal 4 3 (lin 3 c G) pos) = Ok e2
    /\ t0_strains e2 = strain6 G /\ t0_stress e2 = stress6 (t0_E e) (t0_my e) G.
Proof.
  intros pos e c G He Hv H1 H2.
  destruct (tet0_buildK_ok pos e He) as (e1 & Ke & Fe & EK & V & E1 & E2 & _).
  exists e1, Ke, Fe. unfold tet0_update. rewrite V, E1, E2, tet_vol_eq.
  rewrite bv_R by (reflexivity || apply tet0_B_length).
  cbn [obind].
  match goal with |- context [@matSymBVprod _ _ _ ?s _ _] => set (st := s) end.
  assert (Es : st = strain6 G).
  { apply list6_ext; [unfold st; rewrite map_length, seq_length; reflexivity|reflexivity|].
    intros k Hk. unfold st. rewrite nth_map_seq by exact Hk. rewrite nth_repeat.
    change (rsumn 12 _) with (row 12 (tet0_B pos (tetra_volume pos)) (nodal 4 3 (lin 3 c G) pos) k).
    rewrite tet0_BU by assumption. ring. }
  rewrite sbv_R; [|reflexivity|reflexivity|unfold st; rewrite map_length, seq_length; reflexivity|reflexivity].
  cbn [obind]. eexists. split; [exact EK|]. split; [reflexivity|]. cbn [t0_strains t0_stress].
  split; [exact Es|]. apply list6_ext; [rewrite map_length, seq_length; reflexivity|reflexivity|].
  intros k Hk. rewrite nth_map_seq by exact Hk. rewrite nth_repeat, Es, tet0_C_hooke by assumption. ring.
Qed.

Lemma strain_stress_work : forall E my G H,
  rsumn 6 (fun k => nth k (strain6 H) 0 * nth k (stress6 E my G) 0) = work (hooke E my (eps G)) (eps H).
Proof.
  intros. rewrite rs6. unfold work. rewrite !rs3. unfold stress6, strain6. cbn [nth]. unfold hooke, dlt. cbn [Nat.eqb].
  unfold eps. field.
Qed.
Theorem tet0_work : forall pos e c G d H, tetra0_ok e -> tetra_volume pos <> 0 ->
  1 + t0_my e <> 0 -> 1 - 2 * t0_my e <> 0 ->
  exists e1 Ke Fe, tet0_buildK pos e = Ok (e1, Ke, Fe) /\
    dot 12 (kmul 12 Ke (nodal 4 3 (lin 3 c G) pos)) (nodal 4 3 (lin 3 d H) pos)
    = tetra_volume pos * work (hooke (t0_E e) (t0_my e) (eps G)) (eps H).
Proof.
  intros pos e c G d H He Hv H1 H2.
  destruct (tet0_buildK_ok pos e He) as (e1 & Ke & Fe & EK & _ & _ & _ & _ & _ & _ & _ & _ & W & _).
  exists e1, Ke, Fe. split; [exact EK|]. rewrite tet_vol_eq in W.
  rewrite (work_R 6 12 _ _ _ Ke _ _ (fun k => - nth k (strain6 G) 0) (fun k => - nth k (strain6 H) 0) W).
  2,3: intros l Hl; apply tet0_BU; assumption.
  f_equal. rewrite <- strain_stress_work. apply rsumn_ext. intros k Hk.
  rewrite <- tet0_C_hooke by assumption.
  rewrite (rsumn_ext 6 _ (fun l => -1 * (nth (sym_comp 6 k l) (tet0_C (t0_E e) (t0_my e)) 0 * nth l (strain6 G) 0))) by (intros; ring).
  rewrite rsumn_mul. ring.
Qed.
Lemma antisym_strain : forall G k, antisym G -> nth k (strain6 G) 0 = 0.
Proof.
  intros G k A. unfold strain6, eps.
  do 6 (destruct k as [|k]; [cbn [nth]; match goal with |- context [G ?i ?j + G ?j ?i] => pose proof (A i j) end; lra|]).
  destruct k; reflexivity.
Qed.
Theorem tet0_rigid : forall pos e c W, tetra0_ok e -> tetra_volume pos <> 0 -> antisym W ->
  exists e1 Ke Fe, tet0_buildK pos e = Ok (e1, Ke, Fe) /\
    forall i, (i < 12)%nat -> kmul 12 Ke (nodal 4 3 (lin 3 c W) pos) i = 0.
Proof.
  intros pos e c W He Hv HW.
  destruct (tet0_buildK_ok pos e He) as (e1 & Ke & Fe & EK & _ & _ & _ & _ & _ & _ & _ & _ & WK & _).
  exists e1, Ke, Fe. split; [exact EK|]. rewrite tet_vol_eq in WK.
  intros i Hi. apply (kmul_zero 6 12 _ _ _ Ke _ WK); [|exact Hi].
  intros l Hl. change (rsumn 12 _) with (row 12 (tet0_B pos (tetra_volume pos)) (nodal 4 3 (lin 3 c W) pos) l).
  rewrite tet0_BU by assumption. rewrite antisym_strain by exact HW. ring.
Qed.

(* every vector of nodal values is that of a linear field *)
Lemma tet_interp : forall pos (u : nat -> R), tetra_volume pos <> 0 ->
  exists c g, forall n, (n < 4)%nat -> lin1 c g (pos n) = u n.
Proof.
  intros pos u Hv.
  set (g := vec3 (rsumn 4 (fun n => tet_b pos n * u n) / (6 * tetra_volume pos))
                 (rsumn 4 (fun n => tet_c pos n * u n) / (6 * tetra_volume pos))
                 (rsumn 4 (fun n => tet_d pos n * u n) / (6 * tetra_volume pos))).
  exists (u 0%nat - rsumn 3 (fun j => g j * pos 0%nat j)), g.
  intros n Hn. unfold lin1, g. rewrite !rs3, !rs4. unfold vec3.
  unfold tet_b, tet_c, tet_d. cbn [Nat.sub].
  assert (Hv' : 6 * tetra_volume pos <> 0) by lra. revert Hv'. unfold tetra_volume, triple.
  destruct n as [|[|[|[|n]]]]; try lia; intros Hv'; field; lra.
Qed.
Theorem tet0_all_fields : forall pos U, tetra_volume pos <> 0 -> length U = 12%nat ->
  exists c G, U = nodal 4 3 (lin 3 c G) pos.
Proof.
  intros pos U Hv L.
  destruct (tet_interp pos (fun n => nth (3 * n + 0) U 0) Hv) as (c0 & g0 & H0).
  destruct (tet_interp pos (fun n => nth (3 * n + 1) U 0) Hv) as (c1 & g1 & H1).
  destruct (tet_interp pos (fun n => nth (3 * n + 2) U 0) Hv) as (c2 & g2 & H2).
  exists (vec3 c0 c1 c2), (fun i => match i with 0%nat => g0 | 1%nat => g1 | _ => g2 end).
  do 12 (destruct U as [|? U]; [discriminate|]). destruct U; [|discriminate].
  unfold nodal. cbn [flat_map map seq app]. rewrite !lin_lin1. unfold vec3.
  rewrite !H0, !H1, !H2 by lia. reflexivity.
Qed.

(* energy *)
Lemma work_pos : forall E my e, 0 < E -> -1 < my < 1 / 2 -> (forall i j, e i j = e j i) ->
  0 <= work (hooke E my e) e /\ (work (hooke E my e) e = 0 -> forall i j, (i < 3)%nat -> (j < 3)%nat -> e i j = 0).
Proof.
  intros E my e HE [M1 M2] S.
  assert (Hw : work (hooke E my e) e =
     E / (2 * (1 + my)) * (2 * (e 0%nat 0%nat ^ 2 + e 1%nat 1%nat ^ 2 + e 2%nat 2%nat ^ 2) + 4 * (e 0%nat 1%nat ^ 2 + e 1%nat 2%nat ^ 2 + e 0%nat 2%nat ^ 2)
       - 2 / 3 * (e 0%nat 0%nat + e 1%nat 1%nat + e 2%nat 2%nat) ^ 2)
     + E / (1 - 2 * my) / 3 * (e 0%nat 0%nat + e 1%nat 1%nat + e 2%nat 2%nat) ^ 2).
  { unfold work. rewrite !rs3. unfold hooke, lame_l, lame_m, dlt. cbn [Nat.eqb].
    rewrite (S 1%nat 0%nat), (S 2%nat 0%nat), (S 2%nat 1%nat). field. lra. }
  assert (P1 : 0 < E / (2 * (1 + my))) by (apply Rdiv_lt_0_compat; lra).
  assert (P2 : 0 < E / (1 - 2 * my) / 3) by (apply Rdiv_lt_0_compat; [apply Rdiv_lt_0_compat|]; lra).
  set (p := E / (2 * (1 + my))) in *. set (q := E / (1 - 2 * my) / 3) in *. clearbody p q.
  set (a := e 0%nat 0%nat) in *. set (b := e 1%nat 1%nat) in *. set (d := e 2%nat 2%nat) in *.
  set (x := e 0%nat 1%nat) in *. set (y := e 1%nat 2%nat) in *. set (z := e 0%nat 2%nat) in *.
  assert (Q : 2 * (a ^ 2 + b ^ 2 + d ^ 2) + 4 * (x ^ 2 + y ^ 2 + z ^ 2) - 2 / 3 * (a + b + d) ^ 2
    = 2 / 3 * ((a - b) ^ 2 + (b - d) ^ 2 + (a - d) ^ 2) + 4 * (x ^ 2 + y ^ 2 + z ^ 2)) by field.
  rewrite Q in Hw. clear Q.
  assert (SQ : forall t : R, 0 <= t ^ 2) by (intros; apply pow2_ge_0).
  pose proof (SQ (a - b)) as Q1. pose proof (SQ (b - d)) as Q2. pose proof (SQ (a - d)) as Q3. pose proof (SQ x) as Q4. pose proof (SQ y) as Q5.
  pose proof (SQ z) as Q6. pose proof (SQ (a + b + d)) as Q7.
  set (s1 := 2 / 3 * ((a - b) ^ 2 + (b - d) ^ 2 + (a - d) ^ 2) + 4 * (x ^ 2 + y ^ 2 + z ^ 2)) in *.
  assert (0 <= s1) by (unfold s1; lra).
  split; [rewrite Hw; apply Rplus_le_le_0_compat; apply Rmult_le_pos; lra|].
  intros W0. rewrite Hw in W0.
  assert (A1 : 0 <= p * s1) by (apply Rmult_le_pos; lra).
  assert (A2 : 0 <= q * (a + b + d) ^ 2) by (apply Rmult_le_pos; lra).
  assert (Z1 : s1 = 0) by (apply (Rmult_eq_reg_l p); lra).
  assert (Z2 : (a + b + d) ^ 2 = 0) by (apply (Rmult_eq_reg_l q); lra).
  assert (SZ : forall t : R, t ^ 2 = 0 -> t = 0) by (intros t Ht; nra).
  unfold s1 in Z1.
  assert (Zab : a - b = 0) by (apply SZ; lra). assert (Zbd : b - d = 0) by (apply SZ; lra).
  assert (Zx : x = 0) by (apply SZ; lra). assert (Zy : y = 0) by (apply SZ; lra). assert (Zz : z = 0) by (apply SZ; lra).
  apply SZ in Z2. assert (Za : a = 0) by lra. assert (Zb : b = 0) by lra. assert (Zd : d = 0) by lra.
  intros i j Hi Hj. destruct i as [|[|[|i]]], j as [|[|[|j]]]; try lia; try assumption; rewrite S; assumption.
Qed.
Lemma eps_sym : forall G i j, eps G i j = eps G j i.
Proof. intros. unfold eps. field. Qed.
Theorem tet0_energy : forall pos e c G, tetra0_ok e -> 0 < tetra_volume pos -> 0 < t0_E e -> -1 < t0_my e < 1 / 2 ->
  exists e1 Ke Fe, tet0_buildK pos e = Ok (e1, Ke, Fe) /\
    let U := nodal 4 3 (lin 3 c G) pos in
    0 <= dot 12 (kmul 12 Ke U) U /\
    (dot 12 (kmul 12 Ke U) U = 0 -> forall i j, (i < 3)%nat -> (j < 3)%nat -> G i j = - G j i).
Proof.
  intros pos e c G He Hv HE HM.
  destruct (tet0_work pos e c G c G He) as (e1 & Ke & Fe & EK & W); try lra.
  exists e1, Ke, Fe. split; [exact EK|]. cbv zeta. rewrite W.
  destruct (work_pos (t0_E e) (t0_my e) (eps G) HE HM (eps_sym G)) as (P & Z).
  split; [apply Rmult_le_pos; lra|]. intros H0 i j Hi Hj.
  assert (work (hooke (t0_E e) (t0_my e) (eps G)) (eps G) = 0) as H1 by (apply (Rmult_eq_reg_l (tetra_volume pos)); lra).
  specialize (Z H1 i j Hi Hj). unfold eps in Z. lra.
Qed.

(* free expansion *)
Lemma fresh_loadstrain : forall e, fresh e -> 
  forall k, (k < 6)%nat -> nth k (tet0_loadstrain e) 0 = nth k (strain6 (expansion (t0_alpha e * t0_T e) (fun _ _ => 0))) 0.
Proof.
  intros e [F1 F2] k Hk. unfold tet0_loadstrain. rewrite F2.
  replace (nonzero (qlength (repeat 0 6))) with false.
  2: { symmetry. apply nonzero_false. unfold qlength. cbn [repeat]. rewrite !rsuml_cons, rsuml_nil. ring. }
  rewrite F1. unfold strain6, eps, expansion, dlt. cbn [Nat.eqb].
  destruct (nonzero (t0_alpha e) && nonzero (t0_T e)) eqn:Et.
  - unfold vadd. cbn [repeat combine map fst snd].
    do 6 (destruct k as [|k]; [cbn [nth]; field|]). lia.
  - assert (t0_alpha e * t0_T e = 0) as Z.
    { apply Bool.andb_false_iff in Et as [Et|Et]; apply nonzero_false in Et; rewrite Et; ring. }
    rewrite Z. cbn [repeat]. do 6 (destruct k as [|k]; [cbn [nth]; field|]). lia.
Qed.
Lemma expansion_strain : forall a W k, antisym W -> nth k (strain6 (expansion a W)) 0 = nth k (strain6 (expansion a (fun _ _ => 0))) 0.
Proof.
  intros a W k A. unfold strain6, eps, expansion.
  do 6 (destruct k as [|k]; [cbn [nth]; match goal with |- context [_ + W ?i ?j + (_ + W ?j ?i)] => pose proof (A i j) end; lra|]).
  destruct k; reflexivity.
Qed.
Theorem tet0_free_expansion : forall pos e c W, fresh e -> tetra_volume pos <> 0 -> antisym W ->
  exists e1 Ke Fe, tet0_buildK pos e = Ok (e1, Ke, Fe) /\
    forall i, (i < 12)%nat ->
      kmul 12 Ke (nodal 4 3 (lin 3 c (expansion (t0_alpha e * t0_T e) W)) pos) i = load Fe i.
Proof.
  intros pos e c W F Hv HW.
  assert (He : tetra0_ok e) by (destruct F as [F1 F2]; split; [rewrite F1|rewrite F2]; reflexivity).
  destruct (tet0_buildK_ok pos e He) as (e1 & Ke & Fe & EK & _ & _ & _ & _ & _ & _ & _ & _ & WK & WF).
  exists e1, Ke, Fe. split; [exact EK|]. intros i Hi. rewrite tet_vol_eq in *.
  rewrite WF by exact Hi.
  rewrite (kmul_R 6 12 _ _ _ Ke _ (fun k => - nth k (strain6 (expansion (t0_alpha e * t0_T e) (fun _ _ => 0))) 0) WK).
  2: { intros l Hl. rewrite <- (expansion_strain _ W l HW). apply tet0_BU; assumption. }
  2: exact Hi.
  rewrite (rsumn_ext 6 (fun k => nth (k * 12 + i) (tet0_B pos (tetra_volume pos)) 0 * _)
     (fun k => -1 * (nth (k * 12 + i) (tet0_B pos (tetra_volume pos)) 0 *
        rsumn 6 (fun l => nth (sym_comp 6 k l) (tet0_C (t0_E e) (t0_my e)) 0 * nth l (tet0_loadstrain e) 0)))).
  { rewrite rsumn_mul. ring. }
  intros k Hk.
  rewrite (rsumn_ext 6 _ (fun l => -1 * (nth (sym_comp 6 k l) (tet0_C (t0_E e) (t0_my e)) 0 * nth l (tet0_loadstrain e) 0))).
  { rewrite rsumn_mul. ring. }
  intros l Hl. rewrite fresh_loadstrain by assumption. ring.
Qed.
(* the second assembly *)
Theorem tet0_twice : forall pos e, fresh e -> t0_alpha e <> 0 -> t0_T e <> 0 ->
  exists e1 K1 F1 e2 K2 F2, tet0_buildK pos e = Ok (e1, K1, F1) /\ tet0_buildK pos e1 = Ok (e2, K2, F2) /\
    forall i, (i < 12)%nat -> load F2 i = 2 * load F1 i.
Proof.
  intros pos e F Ha HT.
  assert (He : tetra0_ok e) by (destruct F as [F1 F2]; split; [rewrite F1|rewrite F2]; reflexivity).
  destruct (tet0_buildK_ok pos e He) as (e1 & K1 & F1 & EK & V1 & E1 & M1 & A1 & T1 & S1 & R1 & _ & _ & WF).
  assert (He1 : tetra0_ok e1).
  { split; [rewrite R1; apply loadstrain_length; exact He|rewrite S1; apply He]. }
  destruct (tet0_buildK_ok pos e1 He1) as (e2 & K2 & F2 & EK2 & _ & _ & _ & _ & _ & _ & R2 & _ & _ & WF2).
  exists e1, K1, F1, e2, K2, F2. split; [exact EK|]. split; [exact EK2|].
  intros i Hi. rewrite WF, WF2 by exact Hi. rewrite E1, M1.
  assert (D : forall l, nth l (tet0_loadstrain e1) 0 = 2 * nth l (tet0_loadstrain e) 0).
  { intros l. unfold tet0_loadstrain at 1. rewrite S1, A1, T1, R1.
    destruct F as [G1 G2]. rewrite G2.
    replace (nonzero (qlength (repeat 0 6))) with false.
    2: { symmetry. apply nonzero_false. unfold qlength. cbn [repeat]. rewrite !rsuml_cons, rsuml_nil. ring. }
    apply nonzero_true in Ha, HT. rewrite Ha, HT. cbn [andb].
    unfold tet0_loadstrain. rewrite Ha, HT, G1, G2. cbn [andb].
    replace (nonzero (qlength (repeat 0 6))) with false.
    2: { symmetry. apply nonzero_false. unfold qlength. cbn [repeat]. rewrite !rsuml_cons, rsuml_nil. ring. }
    unfold vadd. cbn [repeat combine map fst snd].
    do 6 (destruct l as [|l]; [cbn [nth]; ring|]). destruct l; cbn [nth]; ring. }
  rewrite (rsumn_ext 6 _ (fun k => 2 * (nth (k * 12 + i) (tet0_B pos (tet_vol pos)) 0 *
     rsumn 6 (fun l => nth (sym_comp 6 k l) (tet0_C (t0_E e) (t0_my e)) 0 * nth l (tet0_loadstrain e) 0)))).
  { rewrite rsumn_mul. ring. }
  intros k Hk. rewrite (rsumn_ext 6 _ (fun l => 2 * (nth (sym_comp 6 k l) (tet0_C (t0_E e) (t0_my e)) 0 * nth l (tet0_loadstrain e) 0))).
  { rewrite rsumn_mul. ring. }
  intros l Hl. rewrite D. ring.
Qed.
