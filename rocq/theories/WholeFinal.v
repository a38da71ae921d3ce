(* The whole program on bodies: files and arguments in, status out *)
From Coq Require Import Reals Lra Lia NArith String Ascii.
From Verif Require Import Base BaseProofs RealBase MatModel SparseModel SpecSparse BlockModel SpecBlock DofModel SpecDof AsmModel SpecAsm
  SolveModel SpecSolve GaussModel SpecGauss GaussProofs TimeModel NonlinModel SpecNonlin ReactModel SpecReact ReactProofs
  HyperModel SpecHyper StructModel SpecStruct StructProofs SpecLaws SpecNewton BodyModel SpecBody BodyMore NewtonEnds ReaderModel ProgModel SpecProg ProgFinal WholeModel SpecWhole WholeProofs.
Local Open Scope list_scope.

Section W.
  Variables (atof : str -> R) (get : str -> option R * str).
  Notation D := (RDbl atof get).
  Lemma fold_real n (a : list R) : forall (b : list R) (s : R), length a = length b ->
    fold_left (fun e p => @radd D e (@ddivn D (dabs (rsub (fst p) (snd p))) n)) (combine a b) s = (s + abs_sum a b / INR n)%R.
  Proof.
    induction a as [|x a IH]; intros [|y b] s L; try discriminate.
    - change (@eq R s (s + 0 / INR n)%R). unfold Rdiv. ring.
    - cbn [combine fold_left fst snd abs_sum]. rewrite IH by (injection L; auto).
      change (@eq R (s + Rabs (x - y) / INR n + abs_sum a b / INR n) (s + (Rabs (x - y) + abs_sum a b) / INR n))%R. unfold Rdiv. ring.
  Qed.
  Lemma compare_real (a b : list R) : length a = length b -> compareCurves D a b = go (mean_diff a b).
  Proof.
    intros L. unfold compareCurves. change (car D) with R. rewrite L, Nat.eqb_refl. unfold go. do 2 f_equal.
    pose proof (fold_real (length b) a b 0%R L) as H. etransitivity; [exact H|]. unfold mean_diff. ring.
  Qed.

  Lemma report_real o (ref : list R) nodes (c : nat -> list R) t ds : let p := mkRP (K := RNum) nodes (t :: ds) false (map c (t :: ds)) in
    (forall t, length (c t) = S (Z.to_nat (o_steps D o))) ->
    report D o ref p = match status ref (c t) (o_thr D o) with 0%nat => go tt | _ => stop 1 end.
  Proof.
    intros p L.
    assert (G : forall u, In u (t :: ds) -> getReactions (K := RNum) p u = Ok (Some (c u))).
    { intros u Hu. unfold getReactions. cbn [p rp_dofs rp_sums]. pose proof (find_curve_ok RRng (t :: ds) c u [] 0 eq_refl) as F. etransitivity; [exact F|].
      destruct (in_dec Nat.eq_dec u (t :: ds)); [reflexivity|contradiction]. }
    assert (RC : recorded D p (S (Z.to_nat (o_steps D o)))).
    { intros u Hu. exists (c u). split; [exact (G u Hu)|apply L]. }
    destruct ref as [|v ref]; [exact (report_none D o p RC)|].
    pose proof (report_ok D o (v :: ref) p t ds (c t) RC eq_refl (G t ltac:(now left)) ltac:(discriminate)) as E. etransitivity; [exact E|]. clear E.
    unfold status, verdict. destruct (Nat.eqb_spec (length (v :: ref)) (length (c t))) as [E|E].
    - rewrite (compare_real (v :: ref) (c t) E). cbn [pbind go obind]. change (@dlt D) with (fun a b => if Rlt_dec a b then true else false). change (@r0 D) with 0%R. cbv beta.
      destruct (Rlt_dec 0 (o_thr D o)); [|reflexivity]. destruct (Rlt_dec (o_thr D o) (mean_diff (v :: ref) (c t))); reflexivity.
    - unfold compareCurves. change (car D) with R in *. destruct (Nat.eqb_spec (length (v :: ref)) (length (c t))); [contradiction|]. reflexivity.
  Qed.

  Variables (stod : str -> conv R) (big : R -> bool) (slv : eqsolver RNum).
  Hypothesis EX : exact_solver slv.
  Variables (fuel lf : nat) (other : problem D -> outcome (option (rproc D))) (file : str -> option str) (argv : list str).
  Notation world := (files_world atof get stod big slv lf other file).
  Variables (o : options D) (ref : list R) (bytes : str) (md : mesh R) (pb : problem D) (k : solid).
  Hypothesis ARGS : parse_args D argv = go o.
  Hypothesis REF : reference D fuel file o ref.
  Hypothesis FILE : file (o_model D o) = Some bytes.
  Hypothesis MESH : readCdbFile R 0%R stod bytes = Ok md.
  Hypothesis SETUP : setup D o md = go pb.
  Hypothesis KIND : pb_kind pb = Some k.
  Hypothesis RIGID : pb_rigid D pb = None.

  Lemma main_solve : main D fuel world argv =
    (p <- solve_pb pb big slv lf other ;; r <- match p with Some p => report D o ref p | None => go tt end ;; Ok (match r with inl _ => 0%nat | inr st => st end)).
  Proof.
    unfold main. rewrite ARGS. cbn [pbind go obind].
    assert (X : (if nonempty (o_ref D o) then if nonempty (o_comp D o) then readRefCurveData D fuel (w_ref D world (o_ref D o)) else stop 1 else go []) = go ref).
    { cbn [w_ref files_world]. destruct REF as [(A & ->)|(A & B & C)]; [rewrite A; reflexivity|]. destruct (o_ref D o); [contradiction|]. destruct (o_comp D o); [contradiction|]. exact C. }
    rewrite X. cbn [pbind go obind]. cbn [w_mesh files_world]. rewrite FILE. 
    change (readCdbFile D (r0 (n := D)) stod bytes) with (readCdbFile R 0%R stod bytes). rewrite MESH. cbn [lift obind pbind go]. rewrite SETUP. cbn [pbind go obind]. cbn [w_solve files_world].
    destruct (solve_pb pb big slv lf other) as [p| | |]; reflexivity.
  Qed.
  Notation sol := (body_solve (pb_cfg pb) big slv lf (pb_nn pb) (pb_hyper pb) (pb_at pb) (pb_els pb k) (pb_mpcs' pb) (fun _ => pb_mpcs' pb) 0 1 (pb_loads' pb) (pb_fixes' pb)).
  Hypothesis OK : body_ok (pb_nn pb) (pb_els pb k) (pb_mpcs' pb) (fun _ => pb_mpcs' pb) (pb_loads' pb) (pb_fixes' pb).

  Lemma whole_none : pb_react D pb = None -> main D fuel world argv = (_ <- sol ;; Ok 0%nat).
  Proof.
    intros NR. rewrite main_solve. unfold solve_pb. rewrite KIND, RIGID. unfold pb_proc. rewrite NR. rewrite body_none.
    destruct sol as [st| | |]; reflexivity.
  Qed.

  Variables (ns : list Z) (ds : list nat).
  Hypothesis REACT : pb_react D pb = Some (ns, ds).
  Hypothesis STEPS : (0 < pb_steps D pb)%Z.
  Notation regs := (body_regs 1 (pb_els pb k)).
  Hypothesis PK : proc_ok (pb_nn pb) regs (map bc_key (pb_fixes' pb)) (map Z.to_nat ns) ds.
  Notation dof := (nth 0 (chosen (map bc_key (pb_fixes' pb)) (map Z.to_nat ns) ds) 0%nat).
  Lemma whole_react :
    match sol with
    | Ok st => exists gs, nl_log st = steps_of gs /\ timed (Z.to_nat (pb_steps D pb)) gs /\
        main D fuel world argv = Ok (status ref (curve regs (map Z.to_nat ns) dof gs) (o_thr D o))
    | Fatal => main D fuel world argv = Fatal
    | UB => main D fuel world argv = UB
    | Loop => main D fuel world argv = Loop
    end.
  Proof.
    rewrite main_solve. unfold solve_pb. rewrite KIND, RIGID. unfold pb_proc. rewrite REACT.
    pose proof (body_rec (pb_cfg pb) big slv EX (pb_hyper pb) (pb_at pb) (pb_nn pb) (pb_els pb k) (pb_mpcs' pb) (fun _ => pb_mpcs' pb) (pb_loads' pb) (pb_fixes' pb) OK lf
      ltac:(cbn [pb_cfg nl_steps]; lia) (map Z.to_nat ns) ds PK) as H.
    destruct sol as [st| | |]; try (rewrite H; reflexivity).
    destruct H as (gs & G1 & G2 & G3). exists gs. split; [exact G1|]. split; [exact G2|].
    rewrite G3. cbn [obind snd]. destruct PK as (_ & _ & NE & _). destruct (chosen _ _ ds) as [|t r] eqn:EC; [contradiction|]. cbn [nth].
    destruct (setup_go D _ _ _ SETUP) as (md' & _ & _ & _ & _ & _ & _ & _ & _ & _ & _ & ST & _).
    pose proof (report_real o ref (map Z.to_nat ns) (fun t => curve regs (map Z.to_nat ns) t gs) t r) as RP. cbv zeta in RP.
    assert (L : forall u, length (curve regs (map Z.to_nat ns) u gs) = S (Z.to_nat (o_steps D o))).
    { intros u. unfold curve. cbn [length]. rewrite map_length. rewrite <- ST. exact (f_equal S (proj1 G2)). }
    specialize (RP L). match goal with |- obind ?a _ = _ => change a with (report D o ref (mkRP (K := RNum) (map Z.to_nat ns) (t :: r) false (map (fun t => curve regs (map Z.to_nat ns) t gs) (t :: r)))) end.
    rewrite RP. unfold status, verdict. destruct ref as [|v rr]; [reflexivity|].
    destruct (length (v :: rr) =? length (curve regs (map Z.to_nat ns) t gs))%nat; [|reflexivity].
    destruct (Rlt_dec 0 (o_thr D o)); [|reflexivity]. destruct (Rlt_dec (o_thr D o) _); reflexivity.
  Qed.
End W.
