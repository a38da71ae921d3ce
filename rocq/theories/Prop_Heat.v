(* C118-C122: heat conduction and patch tests *)
From Coq Require Import Reals Lra Lia Permutation.
From Verif Require Import Base BaseProofs RealBase SparseModel BlockModel DofModel SpecDof AsmModel SpecAsm SolveModel SpecSolve GaussModel SpecGauss IsoModel SpecIso IsoProofs
  ElemModel SpecElem ElemBase ElemProofs ThermModel SpecTherm SpecBal BalProofs StructModel SpecStruct StructFinal HeatModel SpecHeat PartProofs HeatProofs HeatFinal HeatMore PatchProofs HeatCases ThermProofs ElemMore ThermMore.
Local Open Scope R_scope.

(* ---------------- C118 ---------------- *)
(* heat supplied at the nodes, produced in the quadrangles and entering through the edges: together zero *)
Theorem C118_balance : forall big nn pos ms loads fixes, heat_ok nn pos ms loads fixes -> plain_fixes big fixes -> forall slv, exact_solver slv ->
  forall st rs, heat_solve big slv nn pos ms loads fixes = Ok (st, rs) ->
  @sumof RNum _ (supply st) (temp_nodes ms) + @sumof RNum _ (source pos st) ms = 0.
Proof. exact heat_balance. Qed.
Print Assumptions C118_balance.
(* the default equation solver: a result or a fatal error *)
Theorem C118_ends : forall big (u : nat -> list R), (forall n, length (u n) = n) -> forall nn pos ms loads fixes, heat_ok nn pos ms loads fixes ->
  heat_solve big (gauss_slv (K := RG) u) nn pos ms loads fixes = Fatal \/ exists st rs, heat_solve big (gauss_slv (K := RG) u) nn pos ms loads fixes = Ok (st, rs).
Proof. exact heat_ends. Qed.
Print Assumptions C118_ends.
(* four squares, heat 3 at the middle node, the others at 2 degrees *)
Lemma grid_load k q : Forall (fun l => h_key (grid_heat k) (bc_key (K := RNum) l)) [mkBC (K := RNum) 5 TEMP q].
Proof. constructor; [split; [apply grid_node; cbn; lia|reflexivity]|constructor]. Qed.
Lemma star_load k q : Forall (fun l => h_key (star_heat k) (bc_key (K := RNum) l)) [mkBC (K := RNum) 5 TEMP q].
Proof. constructor; [split; [apply star_node; cbn; lia|reflexivity]|constructor]. Qed.
Example C118_example : let loads := [mkBC (K := RNum) 5 TEMP 3] in let fixes := outer (fun _ => 2) rim in
  heat_ok 9 grid_pos (grid_heat 1) loads fixes /\ plain_fixes (fun _ => true) fixes /\ exact_solver (K := RNum) (gauss_slv (K := RG) (repeat 0)) /\
  exists st rs, heat_solve (fun _ => true) (gauss_slv (K := RG) (repeat 0)) 9 grid_pos (grid_heat 1) loads fixes = Ok (st, rs).
Proof.
  cbv zeta. split; [apply grid_ok, grid_load|]. split; [apply outer_plain; discriminate|]. split; [apply gs_exact, repeat_length|].
  apply grid_solved; [apply repeat_length|apply grid_load|lra].
Qed.

(* ---------------- C119 ---------------- *)
(* a body of one material, temperatures of a linear field prescribed at least at all nodes that are not inside: the solution is this field,
   and every tetrahedron reports the flux -k grad T *)
Theorem C119_tetrahedra : forall big (u : nat -> list R), (forall n, length (u n) = n) -> forall nn pos ms loads fixes, heat_ok nn pos ms loads fixes ->
  forall st rs k c g, plain_fixes big fixes -> heat_solve big (gauss_slv (K := RG) u) nn pos ms loads fixes = Ok (st, rs) -> Forall (tet_of k) ms -> loads = [] ->
  (forall n y, last_fix fixes (KNode, n, TEMP) = Some y -> y = lin1 c g (pos n)) ->
  (forall n, h_node ms n -> last_fix fixes (KNode, n, TEMP) = None -> inner3 (map h_nodes ms) n) ->
  (forall n, h_node ms n -> temp st n = lin1 c g (pos n)) /\ Forall (fun r => r = map (fun i => - k * g i) (seq 0 3)) rs.
Proof. exact tet_patch. Qed.
Print Assumptions C119_tetrahedra.
Theorem C119_quadrangles : forall big (u : nat -> list R), (forall n, length (u n) = n) -> forall nn pos ms loads fixes, heat_ok nn pos ms loads fixes ->
  forall st rs ord k c g, plain_fixes big fixes -> heat_solve big (gauss_slv (K := RG) u) nn pos ms loads fixes = Ok (st, rs) -> Forall (quad_of ord k) ms -> loads = [] ->
  (forall n y, last_fix fixes (KNode, n, TEMP) = Some y -> y = lin2 c g (pos n)) ->
  (forall n, h_node ms n -> last_fix fixes (KNode, n, TEMP) = None -> inner2 (map h_nodes ms) n) ->
  forall n, h_node ms n -> temp st n = lin2 c g (pos n).
Proof. exact quad_patch. Qed.
Print Assumptions C119_quadrangles.

(* the middle nodes of the two meshes are inside *)
Lemma star_inner k : inner3 (map h_nodes (star_heat k)) 5.
Proof.
  unfold inner3. cbn. apply NoDup_Permutation.
  - repeat constructor; cbn; intros H; decompose [or] H; discriminate || assumption.
  - repeat constructor; cbn; intros H; decompose [or] H; discriminate || assumption.
  - intros x. cbn [In]. split; intros H; repeat (destruct H as [<-|H]; [tauto|]); destruct H.
Qed.
Lemma grid_inner k : inner2 (map h_nodes (grid_heat k)) 5.
Proof.
  unfold inner2. cbn. apply NoDup_Permutation.
  - repeat constructor; cbn; intros H; decompose [or] H; discriminate || assumption.
  - repeat constructor; cbn; intros H; decompose [or] H; discriminate || assumption.
  - intros x. cbn [In]. tauto.
Qed.
Definition slope (i : nat) : R := INR (S i).
Example C119_example_tet : let fixes := outer (fun n => lin1 7 slope (star_pos n)) [1; 2; 3; 4]%nat in
  heat_ok 5 star_pos (star_heat 2) [] fixes /\ plain_fixes (fun _ => true) fixes /\ Forall (tet_of 2) (star_heat 2) /\
  (forall n y, last_fix fixes (KNode, n, TEMP) = Some y -> y = lin1 7 slope (star_pos n)) /\
  (forall n, h_node (star_heat 2) n -> last_fix fixes (KNode, n, TEMP) = None -> inner3 (map h_nodes (star_heat 2)) n) /\
  exists st rs, heat_solve (fun _ => true) (gauss_slv (K := RG) (repeat 0)) 5 star_pos (star_heat 2) [] fixes = Ok (st, rs) /\ temp st 5 = 17 / 2.
Proof.
  cbv zeta. assert (OK := star_ok 2 [] (fun n => lin1 7 slope (star_pos n)) ltac:(constructor)).
  assert (PF : plain_fixes (fun _ => true) (outer (fun n => lin1 7 slope (star_pos n)) [1; 2; 3; 4]%nat)) by (apply outer_plain; discriminate).
  assert (TM : Forall (tet_of 2) (star_heat 2)) by repeat constructor.
  assert (FX : forall n y, last_fix (outer (fun n => lin1 7 slope (star_pos n)) [1; 2; 3; 4]%nat) (KNode, n, TEMP) = Some y -> y = lin1 7 slope (star_pos n)) by (intros n y H; exact (proj1 (outer_fix _ _ _ _ H))).
  assert (IN : forall n, h_node (star_heat 2) n -> last_fix (outer (fun n => lin1 7 slope (star_pos n)) [1; 2; 3; 4]%nat) (KNode, n, TEMP) = None -> inner3 (map h_nodes (star_heat 2)) n).
  { intros n Hn Fn. apply star_node in Hn. destruct (Nat.eq_dec n 5) as [->|]; [apply star_inner|]. rewrite star_free in Fn by lia. discriminate. }
  repeat (split; [assumption|]). destruct (star_solved (fun _ => true) (repeat 0) 2 [] (fun n => lin1 7 slope (star_pos n)) (@repeat_length R 0) ltac:(constructor) ltac:(lra)) as (st & rs & HS).
  exists st, rs. split; [exact HS|].
  destruct (C119_tetrahedra _ _ (@repeat_length R 0) _ _ _ _ _ OK st rs 2 7 slope PF HS TM eq_refl FX IN) as [T _].
  rewrite T by (apply star_node; lia). unfold lin1. rewrite rs3. unfold slope. cbn [star_pos INR]. lra.
Qed.
Example C119_example_quad : let fixes := outer (fun n => lin2 7 slope (grid_pos n)) rim in
  heat_ok 9 grid_pos (grid_heat 2) [] fixes /\ plain_fixes (fun _ => true) fixes /\ Forall (quad_of 1 2) (grid_heat 2) /\
  (forall n y, last_fix fixes (KNode, n, TEMP) = Some y -> y = lin2 7 slope (grid_pos n)) /\
  (forall n, h_node (grid_heat 2) n -> last_fix fixes (KNode, n, TEMP) = None -> inner2 (map h_nodes (grid_heat 2)) n) /\
  exists st rs, heat_solve (fun _ => true) (gauss_slv (K := RG) (repeat 0)) 9 grid_pos (grid_heat 2) [] fixes = Ok (st, rs) /\ temp st 5 = 10.
Proof.
  cbv zeta. assert (OK := grid_ok 2 [] (fun n => lin2 7 slope (grid_pos n)) ltac:(constructor)).
  assert (PF : plain_fixes (fun _ => true) (outer (fun n => lin2 7 slope (grid_pos n)) rim)) by (apply outer_plain; discriminate).
  assert (TM : Forall (quad_of 1 2) (grid_heat 2)) by repeat constructor.
  assert (FX : forall n y, last_fix (outer (fun n => lin2 7 slope (grid_pos n)) rim) (KNode, n, TEMP) = Some y -> y = lin2 7 slope (grid_pos n)) by (intros n y H; exact (proj1 (outer_fix _ _ _ _ H))).
  assert (IN : forall n, h_node (grid_heat 2) n -> last_fix (outer (fun n => lin2 7 slope (grid_pos n)) rim) (KNode, n, TEMP) = None -> inner2 (map h_nodes (grid_heat 2)) n).
  { intros n Hn Fn. apply grid_node in Hn. destruct (Nat.eq_dec n 5) as [->|]; [apply grid_inner|]. rewrite rim_fix in Fn by lia. discriminate. }
  repeat (split; [assumption|]). destruct (grid_solved (fun _ => true) (repeat 0) 2 [] (fun n => lin2 7 slope (grid_pos n)) (@repeat_length R 0) ltac:(constructor) ltac:(lra)) as (st & rs & HS).
  exists st, rs. split; [exact HS|].
  rewrite (C119_quadrangles _ _ (@repeat_length R 0) _ _ _ _ _ OK st rs 1 2 7 slope PF HS TM eq_refl FX IN) by (apply grid_node; lia). unfold lin2. rewrite sum2. unfold slope, grid_pos. cbn. lra.
Qed.

(* ---------------- C120 ---------------- *)
(* TETRA0, one material, heated evenly or not at all: a displacement that is linear in the coordinates and prescribed at least at all DoFs of nodes
   that are not inside is the solution, and every element reports its strain *)
Theorem C120_solid : forall big (u : nat -> list R), (forall n, length (u n) = n) -> forall nn pos ms loads fixes, struct_ok nn pos ms loads fixes ->
  forall st rs E my a c G, plain_fixes big fixes -> struct_solve big (gauss_slv (K := RG) u) nn pos ms loads fixes = Ok (st, rs) ->
  Forall (solid_of E my a) ms -> loads = [] ->
  (forall k v, last_fix fixes k = Some v -> v = motion pos c G k) ->
  (forall n t, s_node ms n -> (t < 3)%nat -> last_fix fixes (KNode, n, t) = None -> inner3 (map m_nodes ms) n) ->
  (forall k, s_key ms k -> disp st k = motion pos c G k) /\ Forall2 (reports G) ms rs.
Proof. exact solid_patch. Qed.
Print Assumptions C120_solid.
Definition shear (i j : nat) : R := INR (i + 2 * j + 1).
Example C120_example : let fixes := outer3 (fun n t => motion star_pos slope shear (KNode, n, t)) [1; 2; 3; 4]%nat in
  struct_ok 5 star_pos star_solid [] fixes /\ plain_fixes (fun _ => true) fixes /\ Forall (solid_of 1 0 0) star_solid /\
  (forall k v, last_fix fixes k = Some v -> v = motion star_pos slope shear k) /\
  (forall n t, s_node star_solid n -> (t < 3)%nat -> last_fix fixes (KNode, n, t) = None -> inner3 (map m_nodes star_solid) n) /\
  exists st rs, struct_solve (fun _ => true) (gauss_slv (K := RG) (repeat 0)) 5 star_pos star_solid [] fixes = Ok (st, rs).
Proof.
  cbv zeta. split; [apply solid_star_ok|]. split; [discriminate|]. split; [apply solid_uniform|]. split; [|split].
  - intros [[kd n] t] v F. destruct kd; [vm_compute in F; discriminate|].
    assert (I : In (KNode, n, t) (map bc_key (outer3 (fun n t => motion star_pos slope shear (KNode, n, t)) [1; 2; 3; 4]%nat))).
    { destruct (in_dec key_dec (KNode, n, t) (map bc_key (outer3 (fun n t => motion star_pos slope shear (KNode, n, t)) [1; 2; 3; 4]%nat))) as [I|I]; [exact I|].
      exfalso. apply (last_fix_none RRng) in I. change (rnum RRng) with RNum in I. congruence. }
    cbn in I. decompose [or] I; try contradiction; match goal with H : _ = (KNode, n, t) |- _ => injection H as <- <- end; injection F as <-; reflexivity.
  - intros n t Hn Ht Fn. apply solid_node in Hn. destruct (Nat.eq_dec n 5) as [->|]; [exact (star_inner 0)|]. rewrite solid_fix in Fn by lia. discriminate.
  - apply solid_star_solved. apply repeat_length.
Qed.

(* ---------------- C121 ---------------- *)
(* no prescribed temperature and no convection: refused, whatever the heat supplied *)
Theorem C121_refused : forall big (u : nat -> list R), (forall n, length (u n) = n) -> forall nn pos ms loads fixes, heat_ok nn pos ms loads fixes ->
  fixes = [] -> Forall isolated ms -> heat_solve big (gauss_slv (K := RG) u) nn pos ms loads fixes = Fatal.
Proof. exact heat_floating. Qed.
Print Assumptions C121_refused.
(* everything around at temperature e, no heat produced: the body has temperature e, no heat goes in or out at any node *)
Theorem C121_equilibrium : forall big (u : nat -> list R), (forall n, length (u n) = n) -> forall nn pos ms loads fixes, heat_ok nn pos ms loads fixes ->
  forall st rs e, plain_fixes big fixes -> heat_solve big (gauss_slv (K := RG) u) nn pos ms loads fixes = Ok (st, rs) -> Forall (settled e) ms -> loads = [] ->
  (forall n y, last_fix fixes (KNode, n, TEMP) = Some y -> y = e) ->
  forall n, h_node ms n -> temp st n = e /\ supply st n = 0.
Proof. exact equilibrium. Qed.
Print Assumptions C121_equilibrium.
Example C121_example : heat_ok 5 star_pos (star_heat 1) [] [] /\ Forall isolated (star_heat 1) /\ Forall (settled 20) (grid_heat 1) /\
  exists st rs, heat_solve (fun _ => true) (gauss_slv (K := RG) (repeat 0)) 9 grid_pos (grid_heat 1) [] (outer (fun _ => 20) rim) = Ok (st, rs).
Proof.
  split; [|split; [repeat constructor|split; [repeat constructor|apply grid_solved; [apply repeat_length|constructor|lra]]]].
  apply heat_small; [apply star_all|constructor|constructor| |vm_compute; lia]. exists (KNode, 1%nat, TEMP). split; [split; [apply star_node; lia|reflexivity]|]. intros [].
Qed.

(* ---------------- C122 ---------------- *)
(* heat supplied at one node, surroundings at zero: quadrangles and convection do not make this node colder *)
Theorem C122_quadrangles : forall big nn pos ms n q fixes, heat_ok nn pos ms [mkBC (K := RNum) n TEMP q] fixes -> plain_fixes big fixes ->
  (forall x y, last_fix fixes (KNode, x, TEMP) = Some y -> y = 0) -> forall slv, exact_solver slv ->
  forall st rs, heat_solve big slv nn pos ms [mkBC (K := RNum) n TEMP q] fixes = Ok (st, rs) ->
  Forall cools ms -> 0 <= q * temp st n.
Proof. exact quad_heats. Qed.
Print Assumptions C122_quadrangles.
(* every mesh of tetrahedra: not warmer *)
Theorem C122_tetrahedra_refuted : forall big nn pos ms n q fixes, heat_ok nn pos ms [mkBC (K := RNum) n TEMP q] fixes -> plain_fixes big fixes ->
  (forall x y, last_fix fixes (KNode, x, TEMP) = Some y -> y = 0) -> forall slv, exact_solver slv ->
  forall st rs, heat_solve big slv nn pos ms [mkBC (K := RNum) n TEMP q] fixes = Ok (st, rs) ->
  Forall (right_tet pos) ms -> q * temp st n <= 0.
Proof. exact tet_cools. Qed.
Print Assumptions C122_tetrahedra_refuted.
(* four tetrahedra: heat q makes the node colder by q / 4k *)
Theorem C122_witness_refuted : forall big (u : nat -> list R), (forall n, length (u n) = n) -> forall k q, 1 <= k ->
  Forall (right_tet star_pos) (star_heat k) /\
  exists st rs, heat_solve big (gauss_slv (K := RG) u) 5 star_pos (star_heat k) [mkBC (K := RNum) 5 TEMP q] (outer (fun _ => 0) [1; 2; 3; 4]%nat) = Ok (st, rs) /\
    temp st 5 = - q / (4 * k).
Proof.
  intros big u HU k q Hk. split.
  - apply Forall_forall. intros m Hm. destruct (star_member k m Hm) as (a & b & c & d & H & ->). cbn [right_tet h_nodes]. rewrite (star_vol a b c d H). lra.
  - destruct (star_solved big u k _ (fun _ => 0) HU (star_load k q) Hk) as (st & rs & HS). exists st, rs. split; [exact HS|]. exact (star_temp big u k q st rs HU ltac:(lra) HS).
Qed.
Print Assumptions C122_witness_refuted.
Example C122_example : let loads := [mkBC (K := RNum) 5 TEMP 3] in let fixes := outer (fun _ => 0) rim in
  heat_ok 9 grid_pos (grid_heat 1) loads fixes /\ plain_fixes (fun _ => false) fixes /\ Forall cools (grid_heat 1) /\
  exists st rs, heat_solve (fun _ => false) (gauss_slv (K := RG) (repeat 0)) 9 grid_pos (grid_heat 1) loads fixes = Ok (st, rs).
Proof.
  cbv zeta. split; [apply grid_ok, grid_load|]. split; [apply outer_plain; auto|]. split; [repeat constructor; lra|].
  apply grid_solved; [apply repeat_length|apply grid_load|lra].
Qed.
