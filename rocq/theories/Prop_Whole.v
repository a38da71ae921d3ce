(* C150: the program nla3d on hyperelastic bodies, from files and arguments to the status *)
From Coq Require Import Reals Lra Lia NArith String Ascii.
Set Warnings "-ambiguous-paths".
From Coquelicot Require Import Coquelicot.
From Verif Require Import Base BaseProofs RealBase MatModel SparseModel SpecSparse BlockModel SpecBlock DofModel SpecDof AsmModel SpecAsm
  SolveModel SpecSolve GaussModel SpecGauss GaussProofs TimeModel NonlinModel SpecNonlin ReactModel SpecReact
  HyperModel SpecHyper StructModel SpecStruct StructProofs SpecLaws SpecNewton BodyModel SpecBody BodyMore BodyExample NewtonEnds ReaderModel ProgModel SpecProg ProgFinal WholeModel SpecWhole WholeProofs WholeFinal.
Local Open Scope R_scope.
Local Open Scope list_scope.

(* ---------------- C150 ---------------- *)
(* if the problem is solved, every iteration was a step of Newton's method for the equations of equilibrium of the body in the file,
   there are as many load steps as asked for, at equal times, and the status compares the sums of the reactions at their ends
   with the reference *)
Theorem C150_status : forall (atof : str -> R) get stod big slv, exact_solver slv ->
  forall fuel lf other file argv o ref (pb : problem (RDbl atof get)) k ns ds,
  stated fuel stod file argv o ref pb k -> asked pb k ns ds -> known (pb_hyper pb) -> hK (pb_hyper pb) <> 0 ->
  forall st, solution big slv lf pb k = Ok st ->
  Forall (newton_step big (pb_hyper pb) (pb_at pb) (pb_els pb k) (fun _ => pb_mpcs' pb) (pb_loads' pb) (pb_fixes' pb)) (nl_log st) /\
  exists gs, nl_log st = steps_of gs /\ timed (Z.to_nat (pb_steps _ pb)) gs /\
    let t := nth 0 (chosen (map bc_key (pb_fixes' pb)) (map Z.to_nat ns) ds) 0%nat in
    main _ fuel (files_world atof get stod big slv lf other file) argv
    = Ok (status ref (curve (body_regs 1 (pb_els pb k)) (map Z.to_nat ns) t gs) (o_thr _ o)).
Proof.
  intros atof get stod big slv EX fuel lf other file argv o ref pb k ns ds [S1 S2 (bytes & md & S3 & S4 & S5) S6 S7 S8] (A1 & A2 & A3) KN HK st H.
  pose proof (whole_react atof get stod big slv EX fuel lf other file argv o ref bytes md pb k S1 S2 S3 S4 S5 S6 S7 S8 ns ds A1 A2 A3) as W.
  split.
  - destruct (body_newton (pb_cfg pb) big slv EX (pb_hyper pb) (pb_at pb) (pb_nn pb) (pb_els pb k) (pb_mpcs' pb) (fun _ => pb_mpcs' pb) (pb_loads' pb) (pb_fixes' pb) S8 KN HK lf 0 1 st H) as (F & _).
    exact F.
  - unfold solution in H. rewrite H in W. exact W.
Qed.
Print Assumptions C150_status.
(* if it is not solved the program ends with an error; without reactions it ends with status 0 *)
Theorem C150_not_solved : forall (atof : str -> R) get stod big slv, exact_solver slv ->
  forall fuel lf other file argv o ref (pb : problem (RDbl atof get)) k,
  stated fuel stod file argv o ref pb k -> (pb_react _ pb = None \/ exists ns ds, asked pb k ns ds) -> solution big slv lf pb k = Fatal ->
  main _ fuel (files_world atof get stod big slv lf other file) argv = Fatal.
Proof.
  intros atof get stod big slv EX fuel lf other file argv o ref pb k [S1 S2 (bytes & md & S3 & S4 & S5) S6 S7 S8] [A|(ns & ds & A1 & A2 & A3)] H; unfold solution in H.
  - rewrite (whole_none atof get stod big slv fuel lf other file argv o ref bytes md pb k S1 S2 S3 S4 S5 S6 S7 A), H. reflexivity.
  - pose proof (whole_react atof get stod big slv EX fuel lf other file argv o ref bytes md pb k S1 S2 S3 S4 S5 S6 S7 S8 ns ds A1 A2 A3) as W.
    rewrite H in W. exact W.
Qed.
Print Assumptions C150_not_solved.
Theorem C150_no_reactions : forall (atof : str -> R) get stod big slv fuel lf other file argv o ref (pb : problem (RDbl atof get)) k,
  stated fuel stod file argv o ref pb k -> pb_react _ pb = None ->
  forall st, solution big slv lf pb k = Ok st -> main _ fuel (files_world atof get stod big slv lf other file) argv = Ok 0%nat.
Proof.
  intros atof get stod big slv fuel lf other file argv o ref pb k [S1 S2 (bytes & md & S3 & S4 & S5) S6 S7 S8] A st H. unfold solution in H.
  rewrite (whole_none atof get stod big slv fuel lf other file argv o ref bytes md pb k S1 S2 S3 S4 S5 S6 S7 A), H. reflexivity.
Qed.
Print Assumptions C150_no_reactions.
(* with elimination as equation solver the program comes to an end, with status 0, status 1 or an error: no undefined behaviour *)
Theorem C150_ends : forall (atof : str -> R) get stod big u, (forall n, length (u n) = n) ->
  forall fuel other file argv o ref (pb : problem (RDbl atof get)) k,
  stated fuel stod file argv o ref pb k -> (exists ns ds, asked pb k ns ds) -> known (pb_hyper pb) -> hK (pb_hyper pb) <> 0 -> (pb_iter _ pb < 65536)%Z ->
  exists N, forall lf, (N <= lf)%nat ->
  let r := main _ fuel (files_world atof get stod big (gauss_slv (K := RG) u) lf other file) argv in r = Fatal \/ r = Ok 0%nat \/ r = Ok 1%nat.
Proof.
  intros atof get stod big u HU fuel other file argv o ref pb k [S1 S2 (bytes & md & S3 & S4 & S5) S6 S7 S8] (ns & ds & A1 & A2 & A3) KN HK HI.
  destruct (body_ends (pb_cfg pb) big (gauss_slv (K := RG) u) (gauss_exact RG RG_laws u HU) (gauss_safe u HU) (pb_hyper pb) (pb_at pb) (pb_nn pb) (pb_els pb k) (pb_mpcs' pb) (fun _ => pb_mpcs' pb)
    (pb_loads' pb) (pb_fixes' pb) S8 KN HK ltac:(cbn [pb_cfg nl_iters]; lia) 0 1 ltac:(lra) ltac:(cbn [pb_cfg nl_steps]; lia)) as (N & HN).
  exists N. intros lf L. cbv zeta.
  pose proof (whole_react atof get stod big _ (gauss_exact RG RG_laws u HU) fuel lf other file argv o ref bytes md pb k S1 S2 S3 S4 S5 S6 S7 S8 ns ds A1 A2 A3) as W.
  destruct (HN lf L) as [E|(st & E)].
  - rewrite E in W. left. exact W.
  - rewrite E in W. destruct W as (gs & _ & _ & W). right. rewrite W. unfold status, verdict. destruct ref as [|v rr]; [left; reflexivity|].
    destruct (_ =? _)%nat; [|right; reflexivity]. destruct (Rlt_dec _ _); [|left; reflexivity]. destruct (Rlt_dec _ _); [right|left]; reflexivity.
Qed.
Print Assumptions C150_ends.

(* the square of C145 from a mesh file, with the reactions of its right side *)
Definition lines (l : list string) : str := flat_map (fun x => s_ x ++ [LF]) l.
Definition ex_cdb : str := lines
  ["/COM,square"; "NBLOCK,6,SOLID"; "(3i2,3e3.1)"; " 1 0 0  0  0  0"; " 2 0 0  1  0  0"; " 3 0 0  1  1  0"; " 4 0 0  0  1  0"; "N,R5.3,LOC,       -1,";
   "EBLOCK,19,SOLID"; "(19i2)"; " 1 1 1 1 0 0 0 0 4 0 1 1 2 3 4"; "-1"; "CMBLOCK,RIGHT,NODE,2"; "(8i3)"; "  2  3";
   "D,1,UX,0"; "D,1,UY,0"; "D,2,UX,.5"; "D,2,UY,0"; "D,3,UX,.5"; "D,3,UY,0"; "D,4,UX,0"; "D,4,UY,0"]%string.
Definition ex_ref : str := s_ "time disp force 0 0 0 1 1 5".
Definition ex_file (name : str) : option str := if str_eqb name (s_ "sq.cdb") then Some ex_cdb else if str_eqb name (s_ "ref") then Some ex_ref else None.
Definition ex_stod (l : str) : conv R := if mem "5"%char l then CVal (1 / 2) else if mem "1"%char l then CVal 1 else CVal 0.
Definition ex_get (l : str) : option R * str := let r := word l in (Some (IZR (digits_val 0 (fst r))), snd r).
Definition ex_args : list str := map s_ ["sq.cdb"; "-element"; "PLANE41"; "-material"; "Neo-Hookean"; "1"; "1"; "-iterations"; "3"; "-loadsteps"; "1";
  "-refcurve"; "ref"; "-threshold"; "1"; "-reaction"; "RIGHT"; "UX"]%string.
Local Notation XD := (RDbl (fun _ => 1) ex_get).
Definition ex_o : options XD := mkOpt XD 3 1 1 true (s_ "sq.cdb") (s_ "Neo-Hookean") [1; 1] (s_ "ref") 1 (s_ "RIGHT") [0%nat] 0 [] [].
Definition ex_md : mesh R := mkMesh R [1; 2; 3; 4]%Z [(0, 0, 0); (1, 0, 0); (1, 1, 0); (0, 1, 0)] [mkCell 1 [1; 2; 3; 4]%Z 1 1 1 1 0 0]
  (map (fun q => ReaderModel.mkBC R (fst (fst q)) (snd (fst q)) (snd q))
     [(1%Z, 0%nat, 0); (1%Z, 1%nat, 0); (2%Z, 0%nat, 1 / 2); (2%Z, 1%nat, 0); (3%Z, 0%nat, 1 / 2); (3%Z, 1%nat, 0); (4%Z, 0%nat, 0); (4%Z, 1%nat, 0)])
  [] [] [(s_ "RIGHT", mkComp 2 [2; 3]%Z)].
Definition ex_pb : problem XD := mkPb XD (md_pos R ex_md) 1 [[1; 2; 3; 4]%Z] 1 [1; 1] [] [] (md_fix R ex_md) 3 1 (Some ([2; 3]%Z, [0%nat])) None.
Lemma ex_reads : readCdbFile R 0 ex_stod ex_cdb = Ok ex_md.
Proof. vm_compute. reflexivity. Qed.
Lemma ex_parses : parse_args XD ex_args = go ex_o.
Proof. reflexivity. Qed.
Lemma ex_setup : setup XD ex_o ex_md = go ex_pb.
Proof. reflexivity. Qed.
Lemma ex_curve : readRefCurveData XD 5 (Some ex_ref) = go [0; 5].
Proof.
  change (lift (ref_loop XD 5 (mkSt (s_ " 0 0 0 1 1 5") false false) None (- (1)) []) = go [0; 5]).
  change (lift (if deq (d := XD) 0 (- (1)) then ref_loop XD 4 (mkSt (s_ " 1 1 5") false false) (Some 0) (- (1)) []
                else ref_loop XD 4 (mkSt (s_ " 1 1 5") false false) (Some 0) 0 [0]) = go [0; 5]).
  cbn [deq RDbl]. destruct (Req_EM_T 0 (- (1))) as [E|_]; [lra|].
  change (lift (if deq (d := XD) 5 0 then ref_loop XD 3 (mkSt [] true false) (Some 5) 0 [0]
                else ref_loop XD 3 (mkSt [] true false) (Some 5) 5 [0; 5]) = go [0; 5]).
  cbn [deq RDbl]. destruct (Req_EM_T 5 0) as [E|_]; [lra|]. reflexivity.
Qed.
(* the problem is the square of C145 *)
Lemma ex_same : pb_at ex_pb = sq_pos /\ pb_els ex_pb P41 = [sq_el] /\ pb_fixes' ex_pb = sq_fixes /\ pb_hyper ex_pb = sq_mat /\ pb_cfg ex_pb = sq_cfg /\ pb_nn ex_pb = 4%nat.
Proof. repeat split. Qed.
Lemma ex_stated : stated 5 ex_stod ex_file ex_args ex_o [0; 5] ex_pb P41.
Proof.
  split.
  - exact ex_parses.
  - right. split; [discriminate|]. split; [discriminate|]. exact ex_curve.
  - exists ex_cdb, ex_md. split; [reflexivity|]. split; [exact ex_reads|exact ex_setup].
  - reflexivity.
  - reflexivity.
  - exact sq_ok.
Qed.
Lemma ex_asked : asked ex_pb P41 [2; 3]%Z [0%nat].
Proof.
  split; [reflexivity|]. split; [reflexivity|]. split; [repeat constructor|]. split; [discriminate|]. split; [discriminate|]. discriminate.
Qed.
Lemma ex_solved big : exists st, solution big slv1 1 ex_pb P41 = Ok st /\ length (nl_log st) = 2%nat.
Proof. destruct (sq_solved big) as (st & E & _ & it & L & _). exists st. split; [exact E|]. now rewrite L. Qed.
Example C150_example big other : exact_solver slv1 /\ stated 5 ex_stod ex_file ex_args ex_o [0; 5] ex_pb P41 /\ asked ex_pb P41 [2; 3]%Z [0%nat] /\
  known (pb_hyper ex_pb) /\ hK (pb_hyper ex_pb) <> 0 /\ (pb_iter _ ex_pb < 65536)%Z /\
  exists a b, main XD 5 (files_world (fun _ => 1) ex_get ex_stod big slv1 1 other ex_file) ex_args
    = Ok (verdict [0; 5] [0; set_reaction (K := RNum) (body_regs 1 [sq_el]) (g_num (it_g (K := RG) b)) [2; 3]%nat 0 (it_R (K := RG) b)] 1) /\
    it_time (K := RG) a = 1 /\ it_time (K := RG) b = 1.
Proof.
  assert (KN : known (pb_hyper ex_pb)) by apply known_nh. assert (HK : hK (pb_hyper ex_pb) <> 0) by (cbn; lra).
  split; [exact slv1_exact|]. split; [exact ex_stated|]. split; [exact ex_asked|]. split; [exact KN|]. split; [exact HK|]. split; [reflexivity|].
  destruct (ex_solved big) as (st & E & L).
  destruct (C150_status (fun _ => 1) ex_get ex_stod big slv1 slv1_exact 5 1 other ex_file ex_args ex_o [0; 5] ex_pb P41 _ _ ex_stated ex_asked KN HK st E) as (_ & gs & G1 & (G2 & G3) & M).
  change (Z.to_nat (pb_steps XD ex_pb)) with 1%nat in *. destruct gs as [|[its it] [|g2 gr]]; [discriminate G2| |discriminate G2].
  cbn [steps_of flat_map fst snd app] in G1. rewrite G1 in L. rewrite app_nil_r, app_length in L. cbn [length] in L. destruct its as [|a [|a2 ar]]; [cbn in L; lia| |cbn in L; lia].
  destruct (G3 0%nat _ eq_refl) as (T1 & T2). cbn [fst snd] in T1, T2. exists a, it. split; [exact M|]. rewrite T1. inversion T2 as [|? ? T3 _]. rewrite T3, T1. cbn [INR]. assert (Q : 1 / 1 = 1) by field. split; exact Q.
Qed.
(* a reference with another number of values than load steps + 1 *)
Example C150_wrong_length big other : main XD 5 (files_world (fun _ => 1) ex_get ex_stod big slv1 1 other
    (fun n => if str_eqb n (s_ "ref") then Some (s_ "time disp force 0 0 5") else ex_file n)) ex_args = Ok 1%nat.
Proof.
  assert (RC : readRefCurveData XD 5 (Some (s_ "time disp force 0 0 5")) = go [5]).
  { change (lift (if deq (d := XD) 5 (- (1)) then ref_loop XD 4 (mkSt [] true false) (Some 5) (- (1)) [] else ref_loop XD 4 (mkSt [] true false) (Some 5) 5 [5]) = go [5]).
    cbn [deq RDbl]. destruct (Req_EM_T 5 (- (1))) as [E|_]; [lra|]. reflexivity. }
  assert (ST : stated 5 ex_stod (fun n => if str_eqb n (s_ "ref") then Some (s_ "time disp force 0 0 5") else ex_file n) ex_args ex_o [5] ex_pb P41).
  { destruct ex_stated as [S1 _ S3 S4 S5 S6]. split; try assumption. right. split; [discriminate|]. split; [discriminate|]. exact RC. }
  destruct (ex_solved big) as (st & E & L).
  destruct (C150_status (fun _ => 1) ex_get ex_stod big slv1 slv1_exact 5 1 other _ ex_args ex_o [5] ex_pb P41 _ _ ST ex_asked ltac:(apply known_nh) ltac:(cbn; lra) st E) as (_ & gs & _ & (G2 & _) & M).
  change (Z.to_nat (pb_steps XD ex_pb)) with 1%nat in G2. destruct gs as [|g [|g2 gr]]; [discriminate G2| |discriminate G2]. exact M.
Qed.
