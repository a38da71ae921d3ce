(* Reaction curves and verdicts of the whole program *)
From Coq Require Import Reals.
From Verif Require Import Base RealBase MatModel SparseModel BlockModel DofModel SpecDof AsmModel SpecAsm SolveModel SpecSolve GaussModel TimeModel
  NonlinModel ReactModel SpecReact HyperModel StructModel SpecStruct BodyModel SpecBody ReaderModel ProgModel SpecProg WholeModel.
Local Open Scope R_scope.

(* the iterations of a solution, load step by load step: those before the last one, the last one *)
Definition steps_of {K : GNum} (gs : list (list (iter K) * iter K)) : list (iter K) := flat_map (fun g => fst g ++ [snd g]) gs.
(* n equal steps of the time from 0 to 1; all iterations of a step are made for its time *)
Definition timed (n : nat) (gs : list (list (iter RG) * iter RG)) : Prop :=
  length gs = n /\ forall j g, nth_error gs j = Some g ->
    it_time (snd g) = INR (S j) / INR n /\ Forall (fun i => it_time i = it_time (snd g)) (fst g).
(* reaction curve of DoF t of a node set: zero, then the sums at the ends of the load steps *)
Definition curve (regs : list reg) (nodes : list nat) (t : nat) (gs : list (list (iter RG) * iter RG)) : list R :=
  0 :: map (fun g => set_reaction (K := RNum) regs (g_num (it_g (K := RG) (snd g))) nodes t (it_R (K := RG) (snd g))) gs.
(* status of the program: 1 if the curves have different lengths, or a positive threshold is exceeded *)
Definition verdict (ref cur : list R) (thr : R) : nat :=
  if (length ref =? length cur)%nat then
    if Rlt_dec 0 thr then if Rlt_dec thr (mean_diff ref cur) then 1%nat else 0%nat else 0%nat
  else 1%nat.
(* nodes of the mesh, at least one; without given DoFs the nodes have all DoFs fixed at the first node, and there is one *)
Definition proc_ok (nn : nat) (regs : list reg) (fixes : list key) (nodes dofs : list nat) : Prop :=
  nodes_ok nn nodes /\ nodes <> [] /\ chosen fixes nodes dofs <> [] /\ (dofs = [] -> has_dofs regs nodes (chosen fixes nodes [])).
(* without reference values the status is 0 *)
Definition status (ref cur : list R) (thr : R) : nat := match ref with [] => 0%nat | _ => verdict ref cur thr end.
(* the reference values: none are asked for, or those of the file *)
Definition reference (D : Dbl) (fuel : nat) (file : str -> option str) (o : options D) (ref : list D) : Prop :=
  (o_ref D o = [] /\ ref = []) \/ (o_ref D o <> [] /\ o_comp D o <> [] /\ readRefCurveData D fuel (file (o_ref D o)) = go ref).
(* arguments and files state the problem pb: a body of elements of kind k without rigid body *)
Record stated {atof get} (fuel : nat) (stod : str -> conv R) (file : str -> option str) (argv : list str) (o : options (RDbl atof get)) (ref : list R)
  (pb : problem (RDbl atof get)) (k : solid) : Prop := {
  sd_args : parse_args _ argv = go o;
  sd_ref : reference (RDbl atof get) fuel file o ref;
  sd_mesh : exists bytes md, file (o_model _ o) = Some bytes /\ readCdbFile R 0 stod bytes = Ok md /\ setup (RDbl atof get) o md = go pb;
  sd_kind : pb_kind pb = Some k;
  sd_rigid : pb_rigid _ pb = None;
  sd_body : body_ok (pb_nn pb) (pb_els pb k) (pb_mpcs' pb) (fun _ => pb_mpcs' pb) (pb_loads' pb) (pb_fixes' pb) }.
(* the solution of the problem *)
Definition solution {atof get} (big : R -> bool) (slv : eqsolver RNum) (lf : nat) (pb : problem (RDbl atof get)) (k : solid) : outcome (nlst RG (list (list point))) :=
  body_solve (pb_cfg pb) big slv lf (pb_nn pb) (pb_hyper pb) (pb_at pb) (pb_els pb k) (pb_mpcs' pb) (fun _ => pb_mpcs' pb) 0 1 (pb_loads' pb) (pb_fixes' pb).
(* the reactions asked for *)
Definition asked {atof get} (pb : problem (RDbl atof get)) (k : solid) (ns : list Z) (ds : list nat) : Prop :=
  pb_react _ pb = Some (ns, ds) /\ (0 < pb_steps _ pb)%Z /\ proc_ok (pb_nn pb) (body_regs 1 (pb_els pb k)) (map bc_key (pb_fixes' pb)) (map Z.to_nat ns) ds.
