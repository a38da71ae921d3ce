(* C152: the place of a body does not matter *)
From Coq Require Import Reals Lra Lia NArith String Ascii.
From Verif Require Import Base BaseProofs RealBase MatModel SparseModel BlockModel DofModel SpecDof AsmModel SpecAsm
  SolveModel GaussModel SpecGauss TimeModel NonlinModel ReactModel HyperModel SpecHyper StructModel SpecStruct SpecNewton BodyModel SpecBody BodyExample
  ReaderModel ProgModel SpecProg WholeModel SpecWhole SpecMoved MovedProofs Prop_Whole.
From Verif Require Import SpecSolve SpecBal StructFinal HeatModel SpecHeat HeatTransModel HeatCases PatchProofs MovedLinear Prop_Heat.
Import SolveModel.
Local Open Scope R_scope.
Local Open Scope list_scope.

(* ---------------- C152 ---------------- *)
Theorem C152_body : forall cfg big slv fuel nn m c pos pos' els mpcs mpf t0 t1 loads fixes,
  Forall (fun e => length (be_nodes e) = be_nn e) els -> moved_body c els pos pos' ->
  body_solve cfg big slv fuel nn m pos' els mpcs mpf t0 t1 loads fixes = body_solve cfg big slv fuel nn m pos els mpcs mpf t0 t1 loads fixes.
Proof. exact solve_moved. Qed.
Print Assumptions C152_body.
Theorem C152_status : forall (atof : str -> R) get stod big slv fuel lf other file file' argv o ref (pb : problem (RDbl atof get)) k c,
  stated fuel stod file argv o ref pb k ->
  (forall bytes m, file (o_model _ o) = Some bytes -> readCdbFile R 0 stod bytes = Ok m ->
     exists bytes' m', file' (o_model _ o) = Some bytes' /\ readCdbFile R 0 stod bytes' = Ok m' /\ moved_mesh k c m m') ->
  (o_ref _ o <> [] -> file' (o_ref _ o) = file (o_ref _ o)) ->
  main _ fuel (files_world atof get stod big slv lf other file') argv = main _ fuel (files_world atof get stod big slv lf other file) argv.
Proof. intros. eapply main_moved; eassumption. Qed.
Print Assumptions C152_status.

(* TRUSS3 and TETRA0 in LinearFESolver: displacements, reactions, strains and stresses *)
Theorem C152_structure : forall big slv nn c pos pos' ms loads fixes, moved_all c (flat_map m_nodes ms) pos pos' ->
  struct_solve big slv nn pos' ms loads fixes = struct_solve big slv nn pos ms loads fixes.
Proof. exact struct_moved. Qed.
Print Assumptions C152_structure.
(* TETRA1, QUADTH and SurfaceLINETH: temperatures, heat and fluxes *)
Theorem C152_heat : forall big slv nn c pos pos' ms loads fixes, moved_all c (flat_map h_nodes ms) pos pos' ->
  heat_solve big slv nn pos' ms loads fixes = heat_solve big slv nn pos ms loads fixes.
Proof. exact heat_moved. Qed.
Print Assumptions C152_heat.
Theorem C152_heat_in_time : forall big slv fuel cfg nn c pos pos' xs loads fixes, moved_all c (flat_map h_nodes (map th_m xs)) pos pos' ->
  heat_trans big slv fuel cfg nn pos' xs loads fixes = heat_trans big slv fuel cfg nn pos xs loads fixes.
Proof. exact heat_trans_moved. Qed.
Print Assumptions C152_heat_in_time.
(* the tetrahedra of C120 at another place *)
Example C152_example_solid : let pos := fun n i => star_pos n i + 5 in
  let fixes := outer3 (fun n t => motion star_pos slope shear (KNode, n, t)) [1; 2; 3; 4]%nat in
  moved_all (fun _ => 5) (flat_map m_nodes star_solid) star_pos pos /\ pos 1%nat 0%nat <> star_pos 1%nat 0%nat /\
  exists st rs, struct_solve (fun _ => true) (gauss_slv (K := RG) (repeat 0)) 5 pos star_solid [] fixes = Ok (st, rs).
Proof.
  cbv zeta. assert (M : moved_all (fun _ => 5) (flat_map m_nodes star_solid) star_pos (fun n i => star_pos n i + 5)) by (intros n i _ _; reflexivity).
  split; [exact M|]. split; [lra|]. destruct C120_example as (_ & _ & _ & _ & _ & st & rs & H). exists st, rs. rewrite (C152_structure _ _ _ _ _ _ _ _ _ M). exact H.
Qed.
Example C152_example_heat : let pos := fun n i => grid_pos n i - 5 in let loads := [mkBC (K := RNum) 5 TEMP 3] in let fixes := outer (fun _ => 2) rim in
  moved_all (fun _ => - 5) (flat_map h_nodes (grid_heat 1)) grid_pos pos /\
  exists st rs, heat_solve (fun _ => true) (gauss_slv (K := RG) (repeat 0)) 9 pos (grid_heat 1) loads fixes = Ok (st, rs).
Proof.
  cbv zeta. assert (M : moved_all (fun _ => - 5) (flat_map h_nodes (grid_heat 1)) grid_pos (fun n i => grid_pos n i - 5)) by (intros n i _ _; reflexivity).
  split; [exact M|]. destruct C118_example as (_ & _ & _ & st & rs & H). exists st, rs. rewrite (C152_heat _ _ _ _ _ _ _ _ _ M). exact H.
Qed.

(* the square of C150 one unit to the right, the nodes with different z *)
Definition mv_cdb : str := lines
  ["/COM,square"; "NBLOCK,6,SOLID"; "(3i2,3e3.1)"; " 1 0 0  1  0  0"; " 2 0 0  2  0  1"; " 3 0 0  2  1  0"; " 4 0 0  1  1  2"; "N,R5.3,LOC,       -1,";
   "EBLOCK,19,SOLID"; "(19i2)"; " 1 1 1 1 0 0 0 0 4 0 1 1 2 3 4"; "-1"; "CMBLOCK,RIGHT,NODE,2"; "(8i3)"; "  2  3";
   "D,1,UX,0"; "D,1,UY,0"; "D,2,UX,.5"; "D,2,UY,0"; "D,3,UX,.5"; "D,3,UY,0"; "D,4,UX,0"; "D,4,UY,0"]%string.
Definition mv_file (name : str) : option str := if str_eqb name (s_ "sq.cdb") then Some mv_cdb else ex_file name.
Definition mv_stod (l : str) : conv R := if mem "2"%char l then CVal 2 else ex_stod l.
Example C152_example big slv lf other : exists o pb, stated (atof := fun _ => 1) (get := ex_get) 5 mv_stod ex_file ex_args o [0; 5] pb P41 /\
  main _ 5 (files_world (fun _ => 1) ex_get mv_stod big slv lf other mv_file) ex_args
  = main _ 5 (files_world (fun _ => 1) ex_get mv_stod big slv lf other ex_file) ex_args.
Proof.
  assert (R1 : readCdbFile R 0 mv_stod ex_cdb = Ok ex_md) by (vm_compute; reflexivity).
  assert (ST : stated 5 mv_stod ex_file ex_args ex_o [0; 5] ex_pb P41).
  { destruct ex_stated as [S1 S2 _ S4 S5 S6]. split; try assumption. exists ex_cdb, ex_md. split; [reflexivity|]. split; [exact R1|exact ex_setup]. }
  exists ex_o, ex_pb. split; [exact ST|]. apply (C152_status (fun _ => 1) ex_get mv_stod big slv 5 lf other ex_file mv_file ex_args ex_o [0; 5] ex_pb P41 (1, 0, 0) ST).
  - intros bytes m F M. change (ex_file (o_model _ ex_o)) with (Some ex_cdb) in F. injection F as <-. rewrite R1 in M. injection M as <-.
    exists mv_cdb, (mkMesh R (md_nodes R ex_md) [(1, 0, 0); (2, 0, 1); (2, 1, 0); (1, 1, 2)] (md_cells R ex_md) (md_fix R ex_md) (md_load R ex_md) (md_mpcs R ex_md) (md_comps R ex_md)).
    split; [reflexivity|]. split; [vm_compute; reflexivity|]. split; [|reflexivity]. cbn [md_pos ex_md]. repeat constructor; lra.
  - intros _. reflexivity.
Qed.
