(* The whole program on hyperelastic bodies: src/main.cpp:127-325 with the mesh read by readCdbFile and the problem solved by
   NonlinearFESolver with its ReactionProcessor. Numbers are real (no rounding). Not included: the files written by
   VtkProcessor, other elements than PLANE41 and SOLID81, the rigid body MPC (parameter w_other). *)
From Coq Require Import Reals String Ascii NArith.
From Verif Require Import Base RealBase MatModel SparseModel BlockModel DofModel SpecDof AsmModel SpecAsm SolveModel GaussModel SpecGauss
  TimeModel NonlinModel ReactModel HyperModel StructModel SpecStruct BodyModel ReaderModel ProgModel.
Local Open Scope list_scope.

(* the functions of the post processor as the solver calls them; None: there is no reaction processor.
   ReactionProcessor is created without a file name (main.cpp:245) *)
Definition rp_begin {K : Num} (s : numst) (p : option (rproc K)) : outcome (option (rproc K)) :=
  match p with None => Ok None | Some p => q <- rp_pre s true p [] ;; Ok (Some (fst q)) end.
Definition rp_step {K : Num} (s : numst) (R : list K) (n : nat) (p : option (rproc K)) : outcome (option (rproc K)) :=
  match p with None => Ok None | Some p => q <- rp_process s R true n p [] ;; Ok (Some (fst q)) end.

Section Post.
  Variable K : GNum.
  Variable E : Type.
  Variable ph : physics K E.
  Variable cfg : nlset K.
  Variable big : K -> bool.
  Variable slv : eqsolver K.

  (* FESolver.cpp:441-500 with the calls of process(), :495-499 *)
  Fixpoint load_loop_p (fuel : nat) (delta : K) (loads fixes : list (SolveModel.bc K)) (st : nlst K E) (p : option (rproc K))
    : outcome (nlst K E * option (rproc K)) :=
    let '(b, tc) := next_step delta (nl_tc st) in
    let st' := mkNl (nl_g st) (nl_U st) (nl_R st) (nl_Uc st) (nl_E st) tc (nl_log st) in
    if b then
      match fuel with
      | O => Loop
      | S fuel =>
          st1 <- iterate ph cfg big slv (S (nl_iters cfg)) loads fixes st' ;;
          p1 <- rp_step (g_num (nl_g st1)) (nl_R st1) (N.to_nat (current_step (nl_tc st1))) p ;;
          load_loop_p fuel delta loads fixes st1 p1
      end
    else Ok (st', p).

  (* :417-508; pre() :434-436; post() of the reaction processor does nothing *)
  Definition nonlin_solve_p (fuel : nat) (nn : nat) (mesh : list (list nat)) (regs : list reg)
    (mpcs : list (AsmModel.mpc K)) (e : E) (start end_ : K) (loads fixes : list (SolveModel.bc K)) (p : option (rproc K))
    : outcome (nlst K E * option (rproc K)) :=
    s <- init_sequence (fresh_storage nn (length mesh) (map (fun m => length (mp_terms m)) mpcs))
           regs [] (map bc_key fixes) ;;
    g0 <- initSolutionData false s mesh mpcs ;;
    p0 <- rp_begin (g_num g0) p ;;
    let N := (ns_ndofs (g_num g0) + n_mpc (g_num g0))%nat in
    load_loop_p fuel (gdiv (rsub end_ start) (gnat (nl_steps cfg))) loads fixes
      (mkNl g0 (zeros N) (zeros N) (zeros (ns_ncon (g_num g0))) e (tc_init start end_) []) p0.
End Post.
Arguments load_loop_p {K E} _ _ _ _ _ _ _ _ _ _.
Arguments nonlin_solve_p {K E} _ _ _ _ _ _ _ _ _ _ _ _ _ _ _.

(* a body with its reaction processor; see body_solve *)
Definition body_solve_p (cfg : nlset RG) (big : R -> bool) (slv : eqsolver RNum) (fuel nn : nat) (m : hyper) (pos : nat -> nat -> R)
  (els : list body_el) (mpcs : list (AsmModel.mpc RNum)) (mpf : (key -> R) -> list (AsmModel.mpc RNum)) (start end_ : R)
  (loads fixes : list (SolveModel.bc RNum)) (p : option (rproc RNum)) : outcome (nlst RG (list (list point)) * option (rproc RNum)) :=
  s <- init_sequence (fresh_storage nn (length els) (map (fun m => length (mp_terms m)) mpcs)) (body_regs 1 els) [] (map bc_key fixes) ;;
  nonlin_solve_p (K := RG) (body_physics m pos els mpf s) cfg big slv fuel nn (map be_nodes els) (body_regs 1 els) mpcs
    (map (be_fresh pos) els) start end_ loads fixes p.

(* doubles as real numbers *)
Definition RDbl (atof : str -> R) (get : str -> option R * str) : Dbl :=
  mkDbl RNum (fun a b => if Req_EM_T a b then true else false) (fun a b => if Rlt_dec a b then true else false) Rabs
    (fun a n => (a / INR n)%R) atof get.

(* ---- from the problem to the storage and the solver, main.cpp:173-230 *)
Section Body.
  Variables (atof : str -> R) (get : str -> option R * str).
  Notation D := (RDbl atof get).
  Variable pb : problem D.

  (* enum ElementType: PLANE41, SOLID81 *)
  Definition pb_kind : option solid := match pb_elem D pb with 1%nat => Some P41 | 2%nat => Some S81 | _ => None end.
  (* intOrder: PLANE41.h:17, SOLID81.h:17 *)
  Definition pb_els (k : solid) : list body_el := map (fun ns => mkEl k 2 (map Z.to_nat ns)) (pb_cells D pb).
  (* nodes are numbered from 1 *)
  Definition pb_at (n i : nat) : R :=
    match nth_error (pb_pos D pb) (n - 1) with Some (x, y, z) => nth i [x; y; z] 0%R | None => 0%R end.
  Definition pb_nn : nat := length (pb_pos D pb).
  (* mat->Ci(i): the constants in the order of the enums, materials_hyperelastic.h:48-51, 68-74, 91-95 *)
  Definition pb_hyper : hyper :=
    let c i := nth i (pb_consts D pb) 0%R in
    match pb_mat D pb with
    | 1%nat => neo_hookean (c 0%nat) (c 1%nat)
    | 2%nat => biderman (c 0%nat) (c 1%nat) (c 2%nat) (c 3%nat) (c 4%nat)
    | _ => mooney_rivlin (c 0%nat) (c 1%nat) (c 2%nat)
    end.
  Definition bc_to (b : ReaderModel.bc R) : SolveModel.bc RNum :=
    SolveModel.mkBC (K := RNum) (Z.to_nat (ReaderModel.bc_node R b)) (ReaderModel.bc_dof R b) (ReaderModel.bc_value R b).
  Definition mpc_to (m : ReaderModel.mpc R) : AsmModel.mpc RNum :=
    AsmModel.mkMpc (K := RNum) (ReaderModel.mp_b R m) (map (fun t => (Z.to_nat (tm_node R t), tm_dof R t, tm_coef R t)) (mp_eq R m)).
  Definition pb_loads' : list (SolveModel.bc RNum) := map bc_to (pb_loads D pb).
  Definition pb_fixes' : list (SolveModel.bc RNum) := map bc_to (pb_fixes D pb).
  Definition pb_mpcs' : list (AsmModel.mpc RNum) := map mpc_to (pb_mpcs D pb).
  (* main.cpp:223-225, FESolver.h:213, FESolver.cpp:483 *)
  Definition pb_cfg : nlset RG := mkSet (K := RG) (Z.to_nat (pb_steps D pb)) (Z.to_nat (pb_iter D pb)) (1 / 1000)%R 1000000%R.
  (* main.cpp:243-260 *)
  Definition pb_proc : option (rproc RNum) :=
    match pb_react D pb with Some (ns, ds) => Some (mkRP (K := RNum) (map Z.to_nat ns) ds false []) | None => None end.

  (* solver.solve(), main.cpp:289; time from 0 to 1, FESolver.h:53-54 *)
  Definition solve_pb (big : R -> bool) (slv : eqsolver RNum) (fuel : nat) (other : problem D -> outcome (option (rproc D)))
    : outcome (option (rproc D)) :=
    match pb_kind, pb_rigid D pb with
    | Some k, None =>
        r <- body_solve_p pb_cfg big slv fuel pb_nn pb_hyper pb_at (pb_els k) pb_mpcs' (fun _ => pb_mpcs') 0%R 1%R pb_loads' pb_fixes' pb_proc ;;
        Ok (snd r)
    | _, _ => other pb
    end.
End Body.
Arguments pb_kind {atof get} _.
Arguments pb_els {atof get} _ _.
Arguments pb_at {atof get} _ _ _.
Arguments pb_nn {atof get} _.
Arguments pb_hyper {atof get} _.
Arguments pb_loads' {atof get} _.
Arguments pb_fixes' {atof get} _.
Arguments pb_mpcs' {atof get} _.
Arguments pb_cfg {atof get} _.
Arguments pb_proc {atof get} _.
Arguments solve_pb {atof get} _ _ _ _ _.

(* the world of the program: the bytes of the files that can be opened (None: not), the equation solver (big: fabs(x) > 1e-20, see
   SparseModel), std::stod; fuel bounds the number of load steps *)
Definition files_world (atof : str -> R) (get : str -> option R * str) (stod : str -> conv R) (big : R -> bool) (slv : eqsolver RNum) (fuel : nat)
  (other : problem (RDbl atof get) -> outcome (option (rproc (RDbl atof get)))) (file : str -> option str) : world (RDbl atof get) :=
  mkW (RDbl atof get) file
    (fun name => match file name with
                 | Some bytes => m <- readCdbFile R 0%R stod bytes ;; Ok (Some m)
                 | None => Ok None
                 end)
    (fun pb => solve_pb pb big slv fuel other).
