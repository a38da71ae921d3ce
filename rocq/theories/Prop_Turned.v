(* C154: the direction of trusses and heat conducting bodies does not matter *)
From Coq Require Import Reals Lra Lia.
From Verif Require Import Base BaseProofs RealBase MatModel SparseModel BlockModel DofModel SpecDof AsmModel SpecAsm SolveModel SpecSolve GaussModel SpecGauss
  IsoModel SpecIso ElemModel SpecElem SpecBal StructModel SpecStruct StructProofs StructFinal StructMore SpecTurned TurnedProofs TrussProofs Prop_Bal.
Import SolveModel.
Local Open Scope R_scope.
Local Open Scope list_scope.

(* ---------------- C154 ---------------- *)
Theorem C154_truss : forall big big' (u u' : nat -> list R), (forall n, length (u n) = n) -> (forall n, length (u' n) = n) ->
  forall nn nn' Q c pos pos' ms loads fixes loads' fixes' st st' rs rs',
  turning Q -> turned_nodes Q c (flat_map m_nodes ms) pos pos' -> turned_supports Q fixes fixes' ->
  (forall n, turned_values Q (total_load (K := RNum) loads) (total_load (K := RNum) loads') n) ->
  struct_ok nn pos ms loads fixes -> struct_ok nn' pos' ms loads' fixes' -> plain_fixes big fixes -> plain_fixes big' fixes' -> Forall is_bar ms ->
  struct_solve big (gauss_slv (K := RG) u) nn pos ms loads fixes = Ok (st, rs) ->
  struct_solve big' (gauss_slv (K := RG) u') nn' pos' ms loads' fixes' = Ok (st', rs') ->
  (forall n, s_node ms n -> turned_values Q (disp st) (disp st') n /\ turned_values Q (ext st) (ext st') n) /\ rs' = rs.
Proof.
  intros big big' u u' HU HU' nn nn' Q c pos pos' ms loads fixes loads' fixes' st st' rs rs' A B C D E F G H I J K.
  exact (truss_turned big big' u u' HU HU' nn nn' Q c pos pos' ms loads fixes loads' fixes' st st' rs rs' A B C D E F G H I J K).
Qed.
Print Assumptions C154_truss.

(* three bars at right angles, turned about z *)
Definition tri_pos (c s : R) (n i : nat) : R :=
  match n, i with
  | 1%nat, 0%nat => c | 1%nat, 1%nat => s
  | 2%nat, 0%nat => - s | 2%nat, 1%nat => c
  | 3%nat, 2%nat => 1
  | _, _ => 0
  end.
Definition tri : list member := [Bar 1 1 1 4; Bar 1 1 2 4; Bar 1 1 3 4].
Definition tri_fixes : list (bc RNum) := map (pin 0) [(1, 0); (1, 1); (1, 2); (2, 0); (2, 1); (2, 2); (3, 0); (3, 1); (3, 2)]%nat.
Definition tri_loads (x y : R) : list (bc RNum) := [pin x (4, 0)%nat; pin y (4, 1)%nat].
Definition about_z (c s : R) (i j : nat) : R :=
  match i, j with
  | 0%nat, 0%nat => c | 0%nat, 1%nat => - s
  | 1%nat, 0%nat => s | 1%nat, 1%nat => c
  | 2%nat, 2%nat => 1
  | _, _ => 0
  end.
Lemma tri_key n t : (1 <= n <= 4)%nat -> (t < 3)%nat -> s_key tri (KNode, n, t).
Proof.
  intros Hn Ht. split; [|exact Ht]. destruct n as [|[|[|[|[|]]]]]; try lia;
    [exists (Bar 1 1 1 4)|exists (Bar 1 1 2 4)|exists (Bar 1 1 3 4)|exists (Bar 1 1 1 4)]; cbn; auto.
Qed.
Lemma tri_ok c s x y : c * c + s * s = 1 -> struct_ok 4 (tri_pos c s) tri (tri_loads x y) tri_fixes.
Proof.
  intros H. apply struct_small.
  - assert (D : forall n, In n [1; 2; 3]%nat -> exists i, (i < 3)%nat /\ at_nodes (tri_pos c s) [n; 4]%nat 1 i <> at_nodes (tri_pos c s) [n; 4]%nat 0 i).
    { intros n Hn. unfold at_nodes. cbn [nth]. destruct Hn as [<-|[<-|[<-|[]]]]; cbn [tri_pos].
      - destruct (Req_dec c 0) as [Z|Z]; [exists 1%nat|exists 0%nat]; (split; [lia|]); cbn [tri_pos]; [intros E; subst c; rewrite <- E in H; lra|intros E; apply Z; rewrite <- E; reflexivity].
      - destruct (Req_dec c 0) as [Z|Z]; [exists 0%nat|exists 1%nat]; (split; [lia|]); cbn [tri_pos]; [intros E; assert (s = 0) by lra; subst; lra|intros E; apply Z; rewrite <- E; reflexivity].
      - exists 2%nat. split; [lia|]. cbn. lra. }
    repeat (apply Forall_cons; [|]); [| | |apply Forall_nil]; unfold m_ok; cbn [m_nodes]; (split; [repeat constructor; cbn; intuition discriminate|]); (split; [repeat constructor|]); apply D; cbn; auto.
  - cbn [tri_loads]; repeat (apply Forall_cons; [apply tri_key; cbn; lia|]); apply Forall_nil.
  - cbn [map tri_fixes]; repeat (apply Forall_cons; [apply tri_key; cbn; lia|]); apply Forall_nil.
  - exists (KNode, 4, 0)%nat. split; [apply tri_key; lia|]. cbn. intros F. decompose [or] F; discriminate || assumption.
  - vm_compute. lia.
Qed.
Lemma tri_zero k y : last_fix (K := RNum) tri_fixes k = Some y -> y = 0.
Proof.
  unfold last_fix, tri_fixes. cbn [fold_left map]. repeat match goal with |- (if ?c then _ else _) = _ -> _ => destruct c; [intros H; injection H as <-; reflexivity|] end. discriminate.
Qed.
Lemma tri_solves big (u : nat -> list R) c s x y : (forall n, length (u n) = n) -> c * c + s * s = 1 ->
  exists st rs, struct_solve big (gauss_slv (K := RG) u) 4 (tri_pos c s) tri (tri_loads x y) tri_fixes = Ok (st, rs).
Proof.
  intros HU H. destruct (C113_ends big u HU _ _ _ _ _ (tri_ok c s x y H)) as [F|G]; [exfalso|exact G].
  destruct (C113_truss_refused big u HU _ _ _ _ _ (tri_ok c s x y H) ltac:(repeat constructor) ltac:(vm_compute; lia) F) as (w & W0 & (k & Hk & Fk & Wk) & WF).
  assert (Z : forall n t, (1 <= n <= 3)%nat -> (t < 3)%nat -> w (KNode, n, t) = 0).
  { intros n t Hn Ht. apply W0; [|apply tri_key; lia]. destruct n as [|[|[|[|]]]]; try lia; destruct t as [|[|[|]]]; try lia; discriminate. }
  assert (K0 : exists i, (i < 3)%nat /\ k = (KNode, 4, i)%nat).
  { destruct k as [[[|] n] t]; [destruct Hk|]. destruct Hk as [(m & Hm & Hn) Ht]. exists t. split; [exact Ht|].
    destruct Hm as [<-|[<-|[<-|[]]]]; destruct Hn as [<-|[<-|[]]]; try reflexivity; destruct t as [|[|[|]]]; try lia; discriminate Fk. }
  destruct K0 as (i & Hi & ->).
  specialize (WF 4%nat i (proj1 (tri_key 4 0 ltac:(lia) ltac:(lia))) Hi Fk).
  assert (D : forall n, (1 <= n <= 3)%nat -> dist3 (tri_pos c s n) (tri_pos c s 4) = 1).
  { intros n Hn. unfold dist3. transitivity (sqrt 1); [|apply sqrt_1]. f_equal. destruct n as [|[|[|[|]]]]; try lia; cbn [tri_pos]; [rewrite <- H; ring|rewrite <- H; ring|ring]. }
  unfold tri in WF. rewrite !sumR_cons, sumR_nil in WF. cbn [pull bar_stress stretch] in WF. unfold axis, at_nodes in WF. cbn [nth Nat.eqb] in WF.
  rewrite !r3, !D in WF by lia. rewrite !(Z 1%nat), !(Z 2%nat), !(Z 3%nat) in WF by lia.
  match type of WF with Rabs ?a < _ => replace a with (w (KNode, 4, i)%nat) in WF end.
  - rewrite Wk, Rabs_R1 in WF. lra.
  - destruct i as [|[|[|]]]; try lia; cbn [tri_pos]; unfold Rdiv; rewrite ?Rinv_1; req.
    + transitivity (w (KNode, 4, 0)%nat * (c * c + s * s)); [rewrite H; ring|ring].
    + transitivity (w (KNode, 4, 1)%nat * (c * c + s * s)); [rewrite H; ring|ring].
    + ring.
Qed.
Lemma tri_load_at c s n : turned_values (about_z c s) (total_load (K := RNum) (tri_loads 1 0)) (total_load (K := RNum) (tri_loads c s)) n.
Proof.
  intros i Hi. unfold turn. rewrite r3. unfold at_node, total_load, tri_loads, pin.
  destruct n as [|[|[|[|[|n]]]]]; destruct i as [|[|[|]]]; try lia; cbn; req; ring.
Qed.
(* by the angle of the 3-4-5 triangle *)
Example C154_example : let c := 3 / 5 in let s := 4 / 5 in
  turning (about_z c s) /\ turned_nodes (about_z c s) (fun _ => 0) (flat_map m_nodes tri) (tri_pos 1 0) (tri_pos c s) /\ turned_supports (about_z c s) tri_fixes tri_fixes /\
  (forall n, turned_values (about_z c s) (total_load (K := RNum) (tri_loads 1 0)) (total_load (K := RNum) (tri_loads c s)) n) /\ Forall is_bar tri /\
  forall big (u : nat -> list R), (forall n, length (u n) = n) -> plain_fixes big tri_fixes /\ exists st rs st' rs',
    struct_solve big (gauss_slv (K := RG) u) 4 (tri_pos 1 0) tri (tri_loads 1 0) tri_fixes = Ok (st, rs) /\
    struct_solve big (gauss_slv (K := RG) u) 4 (tri_pos c s) tri (tri_loads c s) tri_fixes = Ok (st', rs') /\
    disp st' (KNode, 4, 1)%nat = s * disp st (KNode, 4, 0)%nat + c * disp st (KNode, 4, 1)%nat.
Proof.
  cbv zeta.
  assert (A : turning (about_z (3 / 5) (4 / 5))) by (intros i j Hi Hj; rewrite r3; destruct i as [|[|[|]]], j as [|[|[|]]]; try lia; cbn; lra).
  assert (B : turned_nodes (about_z (3 / 5) (4 / 5)) (fun _ => 0) (flat_map m_nodes tri) (tri_pos 1 0) (tri_pos (3 / 5) (4 / 5))).
  { intros n i Hn Hi. unfold turn. rewrite r3. assert (N : (1 <= n <= 4)%nat) by (cbn in Hn; lia). destruct n as [|[|[|[|[|]]]]]; try lia; destruct i as [|[|[|]]]; try lia; cbn; lra. }
  assert (C : turned_supports (about_z (3 / 5) (4 / 5)) tri_fixes tri_fixes).
  { assert (L : forall n i, (i < 3)%nat -> last_fix tri_fixes (KNode, n, i) = if ((1 <=? n) && (n <=? 3))%nat then Some 0 else None).
    { intros n i Hi. destruct n as [|[|[|[|n]]]]; destruct i as [|[|[|]]]; try lia; reflexivity. }
    intros n i Hi. rewrite L by exact Hi. destruct (_ && _)%bool eqn:E.
    - exists (fun _ => 0). split; [|unfold turn; rewrite r3; req; ring]. intros j Hj _. rewrite L, E by exact Hj. reflexivity.
    - intros j Hj _. rewrite L, E by exact Hj. reflexivity. }
  split; [exact A|]. split; [exact B|]. split; [exact C|]. split; [apply tri_load_at|]. split; [repeat constructor|].
  intros big u HU. assert (PF : plain_fixes big tri_fixes) by (intros k y Hk _; eapply tri_zero; eauto). split; [exact PF|].
  destruct (tri_solves big u 1 0 1 0 HU ltac:(lra)) as (st & rs & E1). destruct (tri_solves big u (3 / 5) (4 / 5) (3 / 5) (4 / 5) HU ltac:(lra)) as (st' & rs' & E2).
  exists st, rs, st', rs'. split; [exact E1|]. split; [exact E2|].
  destruct (C154_truss big big u u HU HU 4 4 _ _ _ _ tri _ _ _ _ st st' rs rs' A B C (tri_load_at (3 / 5) (4 / 5)) (tri_ok 1 0 1 0 ltac:(lra)) (tri_ok (3 / 5) (4 / 5) _ _ ltac:(lra)) PF PF ltac:(repeat constructor) E1 E2) as [V _].
  destruct (V 4%nat (proj1 (tri_key 4 0 ltac:(lia) ltac:(lia)))) as [V1 _]. rewrite (V1 1%nat ltac:(lia)). unfold turn. rewrite r3. unfold at_node. cbn [about_z]. req. ring.
Qed.

(* ---- heat conduction (TETRA1, QUADTH, SurfaceLINETH), rotations: the same temperatures and heat, the fluxes turned; any equation solver, also refused problems *)
From Verif Require Import HeatModel SpecHeat HeatTransModel HeatCases TurnedHeat Prop_Heat.
Theorem C154_heat : forall big slv nn Q c pos pos' ms loads fixes, rotation Q -> Forall (fits Q) ms -> turned_nodes Q c (flat_map h_nodes ms) pos pos' ->
  heat_solve big slv nn pos' ms loads fixes = (sr <- heat_solve big slv nn pos ms loads fixes ;; Ok (fst sr, map (turned_flux Q) (snd sr))).
Proof. exact heat_turned. Qed.
Print Assumptions C154_heat.
Theorem C154_heat_in_time : forall big slv fuel cfg nn Q c pos pos' xs loads fixes,
  rotation Q -> Forall (fits Q) (map th_m xs) -> turned_nodes Q c (flat_map h_nodes (map th_m xs)) pos pos' ->
  heat_trans big slv fuel cfg nn pos' xs loads fixes = heat_trans big slv fuel cfg nn pos xs loads fixes.
Proof. exact heat_trans_turned. Qed.
Print Assumptions C154_heat_in_time.
Lemma z_rotation : rotation (about_z (3 / 5) (4 / 5)).
Proof. split; [intros i j Hi Hj; rewrite r3; destruct i as [|[|[|]]], j as [|[|[|]]]; try lia; cbn; lra|unfold triple; cbn; lra]. Qed.
(* the squares of C118 and the tetrahedra of C119, turned by the angle of the 3-4-5 triangle *)
Example C154_example_squares : let Q := about_z (3 / 5) (4 / 5) in let pos := fun n i => 2 + turn Q (grid_pos n) i in
  let loads := [mkBC (K := RNum) 5 TEMP 3] in let fixes := outer (fun _ => 2) rim in
  rotation Q /\ Forall (fits Q) (grid_heat 1) /\ turned_nodes Q (fun _ => 2) (flat_map h_nodes (grid_heat 1)) grid_pos pos /\
  exists st rs, heat_solve (fun _ => true) (gauss_slv (K := RG) (repeat 0)) 9 pos (grid_heat 1) loads fixes = Ok (st, rs).
Proof.
  cbv zeta. pose proof z_rotation as RQ. assert (F : Forall (fits (about_z (3 / 5) (4 / 5))) (grid_heat 1)) by (repeat constructor).
  assert (M : turned_nodes (about_z (3 / 5) (4 / 5)) (fun _ => 2) (flat_map h_nodes (grid_heat 1)) grid_pos (fun n i => 2 + turn (about_z (3 / 5) (4 / 5)) (grid_pos n) i)) by (intros n i _ _; reflexivity).
  split; [exact RQ|]. split; [exact F|]. split; [exact M|]. destruct C118_example as (_ & _ & _ & st & rs & H). cbv zeta in H.
  eexists _, _. rewrite (C154_heat _ _ _ _ _ _ _ _ _ _ RQ F M), H. reflexivity.
Qed.
Example C154_example_tetrahedra : let Q := about_z (3 / 5) (4 / 5) in let pos := fun n i => 2 + turn Q (star_pos n) i in
  let fixes := outer (fun n => lin1 7 slope (star_pos n)) [1; 2; 3; 4]%nat in
  rotation Q /\ Forall (fits Q) (star_heat 2) /\ turned_nodes Q (fun _ => 2) (flat_map h_nodes (star_heat 2)) star_pos pos /\
  exists st rs, heat_solve (fun _ => true) (gauss_slv (K := RG) (repeat 0)) 5 pos (star_heat 2) [] fixes = Ok (st, rs).
Proof.
  cbv zeta. pose proof z_rotation as RQ. assert (F : Forall (fits (about_z (3 / 5) (4 / 5))) (star_heat 2)) by (repeat constructor).
  assert (M : turned_nodes (about_z (3 / 5) (4 / 5)) (fun _ => 2) (flat_map h_nodes (star_heat 2)) star_pos (fun n i => 2 + turn (about_z (3 / 5) (4 / 5)) (star_pos n) i)) by (intros n i _ _; reflexivity).
  split; [exact RQ|]. split; [exact F|]. split; [exact M|]. destruct C119_example_tet as (_ & _ & _ & _ & _ & st & rs & H & _). cbv zeta in H.
  eexists _, _. rewrite (C154_heat _ _ _ _ _ _ _ _ _ _ RQ F M), H. reflexivity.
Qed.
