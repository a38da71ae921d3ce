From Coq Require Import FunctionalExtensionality Reals Lra Lia NArith String Ascii.
From Verif Require Import Base BaseProofs RealBase MatModel SparseModel BlockModel DofModel SpecDof AsmModel SpecAsm
  SolveModel SpecSolve GaussModel TimeModel NonlinModel ReactModel SpecReact IsoModel IsoProofs ElemModel
  HyperModel StructModel SpecStruct BodyModel SpecBody ReaderModel ProgModel SpecProg WholeModel SpecWhole WholeProofs WholeFinal SpecMoved.
Local Open Scope R_scope.
Local Open Scope list_scope.

Lemma det2_ext (A B : nat -> nat -> R) : (forall i j, (i < 2)%nat -> (j < 2)%nat -> A i j = B i j) -> @mdet RRng 2 A = @mdet RRng 2 B.
Proof. intros H. cbn [mdet]. unfold det2. rewrite !H by lia. reflexivity. Qed.
Lemma det3_ext (A B : nat -> nat -> R) : (forall i j, (i < 3)%nat -> (j < 3)%nat -> A i j = B i j) -> @mdet RRng 3 A = @mdet RRng 3 B.
Proof. intros H. cbn [mdet]. unfold det3. rewrite !H by lia. reflexivity. Qed.
Definition tab3 (A : nat -> nat -> R) : nat -> nat -> R :=
  let a := A 0%nat 0%nat in let b := A 0%nat 1%nat in let c := A 0%nat 2%nat in
  let d := A 1%nat 0%nat in let e := A 1%nat 1%nat in let f := A 1%nat 2%nat in
  let g := A 2%nat 0%nat in let h := A 2%nat 1%nat in let i := A 2%nat 2%nat in
  fun x y => match x, y with 0%nat, 0%nat => a | 0%nat, 1%nat => b | 0%nat, _ => c | 1%nat, 0%nat => d | 1%nat, 1%nat => e | 1%nat, _ => f
             | _, 0%nat => g | _, 1%nat => h | _, _ => i end.
Lemma inv3_ext (A B : nat -> nat -> R) d : (forall i j, (i < 3)%nat -> (j < 3)%nat -> A i j = B i j) -> @minv RFld 3 A d = @minv RFld 3 B d.
Proof.
  intros H. change (@minv RFld 3 A d) with (@minv RFld 3 (tab3 A) d). change (@minv RFld 3 B d) with (@minv RFld 3 (tab3 B) d).
  unfold tab3. rewrite !H by lia. reflexivity.
Qed.
Definition tab2 (A : nat -> nat -> R) : nat -> nat -> R :=
  let a := A 0%nat 0%nat in let b := A 0%nat 1%nat in let d := A 1%nat 0%nat in let e := A 1%nat 1%nat in
  fun x y => match x, y with 0%nat, 0%nat => a | 0%nat, _ => b | _, 0%nat => d | _, _ => e end.
Lemma inv2_ext (A B : nat -> nat -> R) d : (forall i j, (i < 2)%nat -> (j < 2)%nat -> A i j = B i j) -> @minv RFld 2 A d = @minv RFld 2 B d.
Proof.
  intros H. change (@minv RFld 2 A d) with (@minv RFld 2 (tab2 A) d). change (@minv RFld 2 B d) with (@minv RFld 2 (tab2 B) d).
  unfold tab2. rewrite !H by lia. reflexivity.
Qed.

(* the derivatives of the shape functions add up to zero *)
Lemma jac_moved nn dim dN (c : nat -> R) p p' : (forall i, (i < dim)%nat -> rsumn nn (fun nod => dN nod i) = 0) ->
  (forall n j, (n < nn)%nat -> (j < dim)%nat -> p' n j = p n j + c j) ->
  forall i j, (i < dim)%nat -> (j < dim)%nat -> jac nn dN p' i j = jac nn dN p i j.
Proof.
  intros S H i j Hi Hj. unfold jac, rsumn in *.
  assert (G : forall l, (forall n, In n l -> (n < nn)%nat) -> rsuml l (fun nod => dN nod i * p' nod j) = rsuml l (fun nod => dN nod i * p nod j) + rsuml l (fun nod => dN nod i) * c j).
  { induction l as [|n l IH]; intros L; [rewrite !rsuml_nil; ring|]. rewrite !rsuml_cons, IH by (intros; apply L; now right). rewrite (H n j) by (try (apply L; now left); exact Hj). ring. }
  rewrite G by (intros n Hn; apply in_seq in Hn; lia). rewrite (S i Hi). ring.
Qed.

Lemma be_geo_moved c e pos pos' : length (be_nodes e) = be_nn e -> moved_nodes (be_kind e) c (be_nodes e) pos pos' -> be_geo pos' e = be_geo pos e.
Proof.
  intros L M. unfold be_geo, be_nn in *. destruct (be_kind e); cbn [be_dim] in M.
  - assert (P : forall n j, (n < 8)%nat -> (j < 3)%nat -> at_nodes pos' (be_nodes e) n j = at_nodes pos (be_nodes e) n j + c j).
    { intros n j Hn Hj. unfold at_nodes. apply M; [apply nth_In; lia|exact Hj]. }
    apply map_ext. intros [[[r s] t] w]. cbv zeta beta iota.
    pose proof (jac_moved 8 3 (hex_dN (dec r) (dec s) (dec t)) c _ _ (hex_dN_sum _ _ _) P) as J.
    unfold hex_det, hex_nixj, nixj, jinv, jdet. rewrite (det3_ext _ _ J), (inv3_ext _ _ _ J). reflexivity.
  - assert (P : forall n j, (n < 4)%nat -> (j < 2)%nat -> at_nodes pos' (be_nodes e) n j = at_nodes pos (be_nodes e) n j + c j).
    { intros n j Hn Hj. unfold at_nodes. apply M; [apply nth_In; lia|exact Hj]. }
    apply map_ext. intros [[r s] w]. cbv zeta beta iota.
    pose proof (jac_moved 4 2 (quad_dN (dec r) (dec s)) c _ _ (quad_dN_sum _ _) P) as J.
    unfold quad_det, quad_nixj, nixj, jinv, jdet. rewrite (det2_ext _ _ J), (inv2_ext _ _ _ J). reflexivity.
Qed.

Section B.
  Variables (pos pos' : nat -> nat -> R).
  Lemma build_geo m v els : Forall (fun e => be_geo pos' e = be_geo pos e) els -> forall en st, body_build m pos' v en els st = body_build m pos v en els st.
  Proof.
    induction 1 as [|e els E _ IH]; intros en st; [reflexivity|]. destruct st as [|pts st]; [reflexivity|]. cbn [body_build].
    unfold be_build, be_sized. rewrite E. destruct (_ && _); [|reflexivity]. match goal with |- obind ?a _ = _ => destruct a; cbn [obind]; try reflexivity end. rewrite IH. reflexivity.
  Qed.
  Lemma update_geo m v els : Forall (fun e => be_geo pos' e = be_geo pos e) els -> forall en, body_update m pos' v en els = body_update m pos v en els.
  Proof.
    induction 1 as [|e els E _ IH]; intros en; [reflexivity|]. cbn [body_update]. unfold be_update. rewrite E, IH. reflexivity.
  Qed.
  Lemma fresh_geo els : Forall (fun e => be_geo pos' e = be_geo pos e) els -> map (be_fresh pos') els = map (be_fresh pos) els.
  Proof. induction 1 as [|e els E _ IH]; [reflexivity|]. cbn [map]. unfold be_fresh at 1 3. rewrite E, IH. reflexivity. Qed.
End B.


Lemma physics_geo m pos pos' els mpf s : Forall (fun e => be_geo pos' e = be_geo pos e) els -> body_physics m pos' els mpf s = body_physics m pos els mpf s.
Proof.
  intros H. unfold body_physics. f_equal; do 2 (apply functional_extensionality; intro).
  - rewrite (build_geo pos pos' m _ els H). reflexivity.
  - apply (update_geo pos pos' m _ els H).
Qed.
Lemma moved_geo c els pos pos' : Forall (fun e => length (be_nodes e) = be_nn e) els -> moved_body c els pos pos' -> Forall (fun e => be_geo pos' e = be_geo pos e) els.
Proof.
  intros L M. rewrite Forall_forall in *. unfold moved_body in M. rewrite Forall_forall in M. intros e He. exact (be_geo_moved c e pos pos' (L e He) (M e He)).
Qed.
Lemma solve_moved cfg big slv fuel nn m c pos pos' els mpcs mpf t0 t1 loads fixes : Forall (fun e => length (be_nodes e) = be_nn e) els -> moved_body c els pos pos' ->
  body_solve cfg big slv fuel nn m pos' els mpcs mpf t0 t1 loads fixes = body_solve cfg big slv fuel nn m pos els mpcs mpf t0 t1 loads fixes.
Proof.
  intros L M. pose proof (moved_geo c els pos pos' L M) as G. unfold body_solve. rewrite (fresh_geo pos pos' els G).
  match goal with |- obind ?a _ = _ => destruct a as [s| | |]; try reflexivity end. cbn [obind]. rewrite (physics_geo m pos pos' els mpf s G). reflexivity.
Qed.
Lemma solve_p_moved cfg big slv fuel nn m c pos pos' els mpcs mpf t0 t1 loads fixes p : Forall (fun e => length (be_nodes e) = be_nn e) els -> moved_body c els pos pos' ->
  body_solve_p cfg big slv fuel nn m pos' els mpcs mpf t0 t1 loads fixes p = body_solve_p cfg big slv fuel nn m pos els mpcs mpf t0 t1 loads fixes p.
Proof.
  intros L M. pose proof (moved_geo c els pos pos' L M) as G. unfold body_solve_p. rewrite (fresh_geo pos pos' els G).
  match goal with |- obind ?a _ = _ => destruct a as [s| | |]; try reflexivity end. cbn [obind]. rewrite (physics_geo m pos pos' els mpf s G). reflexivity.
Qed.

(* ---- the program *)
Section W.
  Variables (atof : str -> R) (get : str -> option R * str).
  Notation D := (RDbl atof get).
  Definition replace_pos (pb : problem D) (ps : list (R * R * R)) : problem D :=
    mkPb D ps (pb_elem D pb) (pb_cells D pb) (pb_mat D pb) (pb_consts D pb) (pb_mpcs D pb) (pb_loads D pb) (pb_fixes D pb)
      (pb_iter D pb) (pb_steps D pb) (pb_react D pb) (pb_rigid D pb).
  Lemma setup_moved o k c (m m' : mesh R) (pb : problem D) : moved_mesh k c m m' -> setup D o m = go pb ->
    pb_pos D pb = md_pos R m /\ setup D o m' = go (replace_pos pb (md_pos R m')).
  Proof.
    intros (_ & E) S. set (ps := md_pos R m') in *. clearbody ps. subst m'. destruct m as [ns qs cs fs ls ms ks]. cbn [md_nodes md_pos md_cells md_fix md_load md_mpcs md_comps] in *.
    unfold setup, compressNumbers in *. cbn [md_nodes md_pos md_cells md_fix md_load md_mpcs md_comps] in *. destruct ns as [|n ns]; [discriminate S|].
    unfold setup_cells, node_comp in *.
    destruct (Z.eqb _ _); cbn [lift obind pbind go] in *; cbn [md_nodes md_pos md_cells md_fix md_load md_mpcs md_comps] in *.
    all: destruct (setup_material D (o_mat D o) (o_consts D o)) as [mat| | |]; cbn [lift obind pbind go] in *; try discriminate S.
    all: match type of S with context [ProgModel.lift ?a] => destruct a as [cells| | |]; cbn [lift obind pbind go] in *; try discriminate S end.
    all: match type of S with pbind ?a _ = _ => destruct a as [[re|st]| | |]; cbn [lift obind pbind go] in *; try discriminate S end.
    all: match type of S with pbind ?a _ = _ => destruct a as [[rb|st]| | |]; cbn [lift obind pbind go] in *; try discriminate S end.
    all: injection S as <-; split; reflexivity.
  Qed.
  Lemma at_moved k c ps : forall qs, Forall2 (moved_place k c) ps qs -> forall n i, (n < length ps)%nat -> (i < be_dim k)%nat ->
    match nth_error qs n with Some (x, y, z) => nth i [x; y; z] 0 | None => 0 end
    = match nth_error ps n with Some (x, y, z) => nth i [x; y; z] 0 | None => 0 end + (let '(x, y, z) := c in nth i [x; y; z] 0).
  Proof.
    induction 1 as [|p q ps qs H _ IH]; intros n i Hn Hi; [cbn in Hn; lia|]. destruct n as [|n]; cbn [nth_error].
    - destruct c as [[cx cy] cz], p as [[x y] z], q as [[x' y'] z']. destruct H as (H1 & H2 & H3). destruct k; cbn [be_dim] in Hi.
      + destruct i as [|[|[|i]]]; [exact H1|exact H2|exact H3|lia].
      + destruct i as [|[|i]]; [exact H1|exact H2|lia].
    - apply IH; [cbn in Hn; lia|exact Hi].
  Qed.
  Lemma main_moved stod big slv fuel lf other file file' argv o ref (pb : problem D) k c :
    stated fuel stod file argv o ref pb k ->
    (forall bytes m, file (o_model D o) = Some bytes -> readCdbFile R 0 stod bytes = Ok m ->
       exists bytes' m', file' (o_model D o) = Some bytes' /\ readCdbFile R 0 stod bytes' = Ok m' /\ moved_mesh k c m m') ->
    (o_ref D o <> [] -> file' (o_ref D o) = file (o_ref D o)) ->
    main D fuel (files_world atof get stod big slv lf other file') argv = main D fuel (files_world atof get stod big slv lf other file) argv.
  Proof.
    intros [S1 S2 (bytes & md & S3 & S4 & S5) S6 S7 S8] HM HR. destruct (HM bytes md S3 S4) as (bytes' & m' & F' & M' & MV).
    destruct (setup_moved o k c md m' pb MV S5) as (PP & S5').
    assert (S2' : reference D fuel file' o ref).
    { destruct S2 as [S2|(A & B & C)]; [left; exact S2|]. right. split; [exact A|]. split; [exact B|]. rewrite (HR A). exact C. }
    pose proof (main_solve atof get stod big slv fuel lf other file argv o ref bytes md pb S1 S2 S3 S4 S5) as Q1.
    pose proof (main_solve atof get stod big slv fuel lf other file' argv o ref bytes' m' (replace_pos pb (md_pos R m')) S1 S2' F' M' S5') as Q2.
    rewrite Q1, Q2. f_equal. unfold solve_pb. change (pb_kind (replace_pos pb (md_pos R m'))) with (pb_kind pb). rewrite S6.
    change (pb_rigid D (replace_pos pb (md_pos R m'))) with (pb_rigid D pb). rewrite S7.
    destruct MV as (FP & _). rewrite <- PP in FP.
    assert (NN : pb_nn (replace_pos pb (md_pos R m')) = pb_nn pb) by (unfold pb_nn; cbn [replace_pos pb_pos]; clear -FP; induction FP; cbn [length]; [reflexivity|f_equal; assumption]).
    rewrite NN.
    set (cc := fun i : nat => let '(x, y, z) := c in nth i [x; y; z] 0).
    assert (MB : moved_body cc (pb_els pb k) (pb_at pb) (pb_at (replace_pos pb (md_pos R m')))).
    { destruct S8 as [BE _ _ _ _ _ _ _]. unfold moved_body. rewrite Forall_forall in BE |- *. intros e He. destruct (BE e He) as (_ & _ & BN). rewrite Forall_forall in BN.
      unfold pb_els in He. apply in_map_iff in He as (ns & <- & _). cbn [be_kind be_nodes] in *. intros n i Hn Hi. specialize (BN n Hn). assert (BM : (n - 1 < pb_nn pb)%nat) by lia.
      unfold pb_at. cbn [replace_pos pb_pos]. apply (at_moved k c _ _ FP); [exact BM|exact Hi]. }
    assert (LE : Forall (fun e => length (be_nodes e) = be_nn e) (pb_els pb k)).
    { destruct S8 as [BE _ _ _ _ _ _ _]. eapply Forall_impl; [|exact BE]. intros e (E & _). exact E. }
    change (pb_els (replace_pos pb (md_pos R m')) k) with (pb_els pb k).
    change (pb_cfg (replace_pos pb (md_pos R m'))) with (pb_cfg pb). change (pb_hyper (replace_pos pb (md_pos R m'))) with (pb_hyper pb).
    change (pb_mpcs' (replace_pos pb (md_pos R m'))) with (pb_mpcs' pb). change (pb_loads' (replace_pos pb (md_pos R m'))) with (pb_loads' pb).
    change (pb_fixes' (replace_pos pb (md_pos R m'))) with (pb_fixes' pb). change (pb_proc (replace_pos pb (md_pos R m'))) with (pb_proc pb).
    rewrite (solve_p_moved (pb_cfg pb) big slv lf (pb_nn pb) (pb_hyper pb) cc (pb_at pb) _ (pb_els pb k) (pb_mpcs' pb) _ 0 1 (pb_loads' pb) (pb_fixes' pb) (pb_proc pb) LE MB).
    reflexivity.
  Qed.
End W.
