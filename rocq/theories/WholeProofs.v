(* The solver with the reaction processor: what is recorded *)
From Coq Require Import Reals Lra Lia NArith.
From Verif Require Import Base BaseProofs RealBase MatModel SparseModel SpecSparse BlockModel SpecBlock DofModel SpecDof NumberingProofs AsmModel SpecAsm AsmProofs AsmRun AsmFinal
  SolveModel SpecSolve SolveProofs LinearProofs GaussModel SpecGauss GaussProofs TimeModel NonlinModel SpecNonlin NonlinProofs NonlinFinal ReactModel SpecReact ReactProofs ReactFinal
  HyperModel SpecHyper StructModel SpecStruct StructProofs SpecLaws SpecNewton NewtonProofs NewtonTotal NewtonEnds BodyModel SpecBody BodyProofs BodyMore ReaderModel ProgModel SpecProg WholeModel SpecWhole.
Local Open Scope R_scope.

Lemma load_loop_none (K : GNum) E (ph : physics K E) cfg big slv delta loads fixes : forall fuel st,
  load_loop_p ph cfg big slv fuel delta loads fixes st None = (st' <- load_loop ph cfg big slv fuel delta loads fixes st ;; Ok (st', None)).
Proof.
  induction fuel as [|fuel IH]; intros st; cbn [load_loop_p load_loop]; destruct (next_step delta (nl_tc st)) as [[] tc]; try reflexivity.
  destruct (iterate _ _ _ _ _ _ _ _) as [st1| | |]; try reflexivity. cbn [obind rp_step]. apply IH.
Qed.

Lemma solve_none (K : GNum) E (ph : physics K E) cfg big slv fuel nn mesh regs mpcs e start end_ loads fixes :
  nonlin_solve_p ph cfg big slv fuel nn mesh regs mpcs e start end_ loads fixes None =
  (st' <- nonlin_solve ph cfg big slv fuel nn mesh regs mpcs e start end_ loads fixes ;; Ok (st', None)).
Proof.
  unfold nonlin_solve_p, nonlin_solve. destruct (init_sequence _ _ _ _) as [s| | |]; try reflexivity. cbn [obind].
  destruct (initSolutionData false s mesh mpcs) as [g0| | |]; try reflexivity. cbn [obind rp_begin]. apply load_loop_none.
Qed.

(* one call of nextStep with n equal steps *)
Lemma next_equal (n k : nat) (t : tcs RG) : (0 < n)%nat -> (k <= n)%nat -> tc_time t = INR k / INR n -> tc_end t = 1 ->
  let r := next_step (K := RG) (1 / INR n) t in
  (k = n -> fst r = false) /\
  ((k < n)%nat -> fst r = true /\ tc_time (snd r) = INR (S k) / INR n /\ tc_end (snd r) = 1 /\ tc_start (snd r) = tc_start t).
Proof.
  intros Hn Hk HT HE. assert (P : 0 < INR n) by now apply lt_0_INR.
  unfold next_step. cbv zeta. destruct (if (0 <? tc_cur t)%N then _ else _) as [cv eq]. unfold gge. rewrite !RLt_if.
  change (@radd (gn RG)) with Rplus. change (@rsub (gn RG)) with Rminus. change (@rmul (gn RG)) with Rmult. change (@r2 RG) with (1 + 1). change (@gdiv RG) with Rdiv.
  rewrite HT, HE. split.
  - intros ->. destruct (Rlt_dec (INR n / INR n) 1) as [L|]; [|reflexivity]. exfalso. unfold Rdiv in L. rewrite Rinv_r in L; lra.
  - intros L. assert (Q : INR k / INR n = 1 - INR (n - k) / INR n) by (rewrite minus_INR by lia; field; lra).
    assert (W : forall m, INR m / INR n <= 0 -> m = 0%nat).
    { intros m Hm. destruct m; [reflexivity|]. exfalso. assert (0 < INR (S m) / INR n) by (apply Rdiv_lt_0_compat; [apply lt_0_INR; lia|exact P]). lra. }
    assert (I1 : 0 < 1 / INR n) by (apply Rdiv_lt_0_compat; lra).
    assert (X : exists j, (n - k = S j)%nat) by (exists (n - k - 1)%nat; lia). destruct X as (j & X).
    destruct (Rlt_dec (INR k / INR n) 1) as [_|N].
    2:{ exfalso. assert (S j = 0)%nat; [|lia]. apply W. rewrite X in Q. lra. }
    cbn [negb fst snd tc_time tc_end tc_start].
    assert (DV : forall m, INR (S m) / INR n = INR m / INR n + 1 / INR n) by (intros m; rewrite S_INR; field; lra).
    assert (Z : INR 0 / INR n = 0) by (cbn [INR]; field; lra).
    pose proof (DV k) as Y. pose proof (DV j) as YJ. rewrite X in Q.
    split; [reflexivity|]. split; [|split; reflexivity].
    destruct (Rlt_dec _ _) as [L1|L1]; cbn [negb].
    + destruct (Rlt_dec _ _) as [L2|L2]; cbn [negb]; [rewrite Y; reflexivity|].
      destruct j as [|j]; [exfalso; lra|]. pose proof (DV j) as YI.
      assert (J0 : j = 0%nat) by (apply W; lra). subst j. lra.
    + assert (J0 : j = 0%nat) by (apply W; lra). subst j. lra.
Qed.

Section Rec.
  Variable E : Type.
  Variable ph : physics RG E.
  Variable cfg : nlset RG.
  Variable big : R -> bool.
  Variable slv : eqsolver RNum.
  Hypothesis EX : exact_solver slv.
  Variables (nn : nat) (mesh : list (list nat)) (regs : list reg) (mpcs : list (AsmModel.mpc RNum)) (loads fixes : list (SolveModel.bc RNum)).
  Hypothesis GN : good_nonlin (K := RG) ph nn mesh regs mpcs loads fixes.
  Variable s : numst.
  Hypothesis HN : prob_num nn (length mesh) regs (map bc_key fixes) (length mpcs) s.
  Hypothesis HG : good_mpcs (GR RG RG_laws) regs (length mpcs) mpcs.
  Hypothesis RD : ready nn (length mesh) (map (fun m => length (mp_terms m)) mpcs) regs [] (map bc_key fixes) s.
  Variables (nodes dofs : list nat).
  Hypothesis PK : proc_ok nn regs (map bc_key fixes) nodes dofs.
  Notation inv := (ninv RG RG_laws E ph big nn mesh regs mpcs loads fixes s).
  Notation ds := (chosen (map bc_key fixes) nodes dofs).

  (* the processor after steps with the reactions Rs *)
  Definition rp_at (Rs : list (list R)) : rproc RNum :=
    mkRP (K := RNum) nodes ds false (map (fun t => 0 :: map (set_reaction (K := RNum) regs s nodes t) Rs) ds).
  Lemma begin_at sums : rp_begin (K := RNum) s (Some (mkRP (K := RNum) nodes dofs false sums)) = Ok (Some (rp_at [])).
  Proof.
    destruct PK as (P1 & P2 & P3 & P4). unfold rp_begin.
    pose proof (pre_ok RD RRng true (mkRP (K := RNum) nodes dofs false sums) [] P1 P2 P4) as H. cbn [rnum RRng] in H. rewrite H. reflexivity.
  Qed.
  Lemma step_at Rs R n : (ns_ndofs s <= length R)%nat -> rp_step (K := RNum) s R n (Some (rp_at Rs)) = Ok (Some (rp_at (Rs ++ [R]))).
  Proof.
    intros HR. destruct PK as (P1 & _). unfold rp_step.
    pose proof (process_ok RD RRng R true n (rp_at Rs) [] (fun t => 0 :: map (set_reaction (K := RNum) regs s nodes t) Rs) P1 HR eq_refl) as H. cbn [rnum RRng] in H. rewrite H. clear H.
    cbn [rp_at rp_named rp_nodes rp_dofs andb obind fst]. unfold rp_at. do 2 apply f_equal. apply (f_equal (mkRP (K := RNum) nodes ds false)). apply map_ext. intros t. rewrite map_app. reflexivity.
  Qed.

  Variable n : nat.
  Hypothesis Hn : (0 < n)%nat.
  Lemma loop_rec : forall fuel st Rs k, inv st -> (k <= n)%nat -> tc_time (nl_tc st) = INR k / INR n -> tc_end (nl_tc st) = 1 -> tc_start (nl_tc st) = 0 ->
    match load_loop (K := RG) ph cfg big slv fuel (1 / INR n) loads fixes st with
    | Ok st' => exists gs, nl_log st' = nl_log st ++ steps_of gs /\ length gs = (n - k)%nat /\
        (forall j g, nth_error gs j = Some g -> it_time (snd g) = INR (S (k + j)) / INR n /\ Forall (fun i => it_time i = it_time (snd g)) (fst g)) /\
        Forall (fun g => g_num (it_g (snd g)) = s) gs /\
        load_loop_p (K := RG) ph cfg big slv fuel (1 / INR n) loads fixes st (Some (rp_at Rs)) = Ok (st', Some (rp_at (Rs ++ map (fun g => it_R (snd g)) gs)))
    | Fatal => load_loop_p (K := RG) ph cfg big slv fuel (1 / INR n) loads fixes st (Some (rp_at Rs)) = Fatal
    | UB => load_loop_p (K := RG) ph cfg big slv fuel (1 / INR n) loads fixes st (Some (rp_at Rs)) = UB
    | Loop => load_loop_p (K := RG) ph cfg big slv fuel (1 / INR n) loads fixes st (Some (rp_at Rs)) = Loop
    end.
  Proof.
    induction fuel as [|fuel IH]; intros st Rs k I Hk HT HE HS; cbn [load_loop load_loop_p];
      pose proof (next_equal n k (nl_tc st) Hn Hk HT HE) as NX; cbv zeta in NX; destruct (next_step (K := RG) (1 / INR n) (nl_tc st)) as [b tc]; cbn [fst snd] in NX;
      destruct (Nat.eq_dec k n) as [EK|NK].
    1, 3: rewrite (proj1 NX EK); exists []; cbn [nl_log steps_of flat_map map length]; rewrite !app_nil_r; split; [reflexivity|]; split; [lia|];
      split; [intros [|j] g X; discriminate|]; split; [constructor|reflexivity].
    - destruct (proj2 NX ltac:(lia)) as (-> & _). reflexivity.
    - destruct (proj2 NX ltac:(lia)) as (-> & T1 & T2 & T3).
      set (st1 := mkNl (K := RG) (nl_g st) (nl_U st) (nl_R st) (nl_Uc st) (nl_E st) tc (nl_log st)).
      assert (I1 : inv st1) by exact I.
      destruct (iterate _ _ _ _ _ _ _ st1) as [st2| | |] eqn:EI; try reflexivity. cbn [obind].
      destruct (iterate_ok RG RG_laws E ph cfg big slv EX nn mesh regs mpcs loads fixes GN s HN HG (fun _ _ => True) ltac:(trivial) _ _ _ I1 Logic.I EI)
        as (I2 & _ & TS & its & it & L1 & _ & _ & L2 & L3 & L4 & L5 & _).
      assert (G1 : g_num (nl_g st2) = s) by (destruct I2 as ((FK & Fv & J) & _); exact (gi_num _ _ _ _ _ _ _ _ _ J)).
      assert (LR : (ns_ndofs s <= length (nl_R st2))%nat).
      { destruct I2 as (_ & _ & _ & F). rewrite L1, Forall_app in F. destruct F as (_ & F). rewrite Forall_app in F. destruct F as (_ & F). inversion F as [|? ? (GI & GS) _]; subst.
        destruct (gt_size _ _ _ _ _ _ GI) as (_ & _ & _ & Z). rewrite L4 in Z. rewrite Z. unfold g_size. rewrite GS. lia. }
      rewrite G1, (step_at Rs (nl_R st2) _ LR). cbn [obind].
      assert (TT : tc_time (nl_tc st2) = INR (S k) / INR n /\ tc_end (nl_tc st2) = 1 /\ tc_start (nl_tc st2) = 0).
      { destruct TS as (A1 & A2 & A3 & _). cbn [nl_tc st1] in *. rewrite A1, A2, A3, T1, T2, T3. auto. }
      specialize (IH st2 (Rs ++ [nl_R st2]) (S k) I2 ltac:(lia) (proj1 TT) (proj1 (proj2 TT)) (proj2 (proj2 TT))).
      destruct (load_loop _ _ _ _ _ _ _ _ st2) as [st'| | |]; try exact IH.
      destruct IH as (gs & G2 & G3 & G4 & G5 & G6). exists ((its, it) :: gs).
      assert (NT : norm_time (K := RG) (nl_tc st1) = INR (S k) / INR n).
      { unfold norm_time. cbn [nl_tc st1]. rewrite T1, T2, T3, HS. change ((INR (S k) / INR n - 0) / (1 - 0) = INR (S k) / INR n). field. apply not_0_INR. lia. }
      rewrite NT in L2. apply Forall_app in L2 as (L2 & L6). assert (L7 : it_time it = INR (S k) / INR n) by now inversion L6.
      split; [rewrite G2, L1; cbn [steps_of flat_map fst snd]; rewrite <- app_assoc; reflexivity|]. split; [cbn [length]; lia|].
      split; [|split].
      + intros [|j] g X; cbn [nth_error] in X.
        * injection X as <-. cbn [fst snd]. rewrite Nat.add_0_r, L7. split; [reflexivity|exact L2].
        * replace (k + S j)%nat with (S k + j)%nat by lia. apply G4. exact X.
      + constructor; [cbn [snd]; rewrite L5; exact G1|exact G5].
      + etransitivity; [exact G6|]. cbn [map snd]. rewrite <- app_assoc, L4. reflexivity.
  Qed.
End Rec.

Section Start.
  Variable E : Type.
  Variable ph : physics RG E.
  Variable cfg : nlset RG.
  Variable big : R -> bool.
  Variables (nn : nat) (mesh : list (list nat)) (regs : list reg) (mpcs0 : list (AsmModel.mpc RNum)) (loads fixes : list (SolveModel.bc RNum)).
  Hypothesis GN : good_nonlin (K := RG) ph nn mesh regs mpcs0 loads fixes.
  Notation RK := (GR RG RG_laws).
  Lemma starts :
    exists s g0, init_sequence (fresh_storage nn (length mesh) (map (fun m => length (mp_terms m)) mpcs0)) regs [] (map bc_key fixes) = Ok s /\
      initSolutionData (K := RNum) false s mesh mpcs0 = Ok g0 /\ g_num g0 = s /\ n_mpc s = length mpcs0 /\
      prob_num nn (length mesh) regs (map bc_key fixes) (length mpcs0) s /\ good_mpcs RK regs (length mpcs0) mpcs0 /\
      forall e tc, ninv RG RG_laws E ph big nn mesh regs mpcs0 loads fixes s
        (mkNl (K := RG) g0 (zeros (ns_ndofs s + length mpcs0)) (zeros (ns_ndofs s + length mpcs0)) (zeros (ns_ncon s)) e tc []).
  Proof.
    destruct (whole RK false nn mesh regs (map bc_key fixes) mpcs0 (gn_problem _ _ _ _ _ _ _ GN)
      (gn_capacity _ _ _ _ _ _ _ GN)) as (s & g0 & E1 & HN & HG & I0 & _).
    change (prepare (K := RNum) false nn mesh regs (map bc_key fixes) mpcs0 = Ok g0) in E1. unfold prepare in E1. apply obind_ok in E1 as (s1 & EI & EG).
    pose proof (gi_num _ _ _ _ _ _ _ _ _ I0) as A1. change (@g_num RNum g0 = s) in A1.
    assert (s1 = s).
    { pose proof EG as EG1. unfold initSolutionData in EG1. apply obind_ok in EG1 as (es & _ & EG1). apply obind_ok in EG1 as (B0 & _ & EG1). apply obind_ok in EG1 as (B1 & _ & EG1).
      apply obind_ok in EG1 as (B & _ & EG1). cbn [obind] in EG1. injection EG1 as <-. exact A1. }
    subst s1. exists s, g0. split; [exact EI|]. split; [exact EG|]. split; [exact A1|].
    pose proof (n_mpc_nm nn mesh regs (map bc_key fixes) s _ HN) as NM. split; [exact NM|]. split; [exact HN|]. split; [exact HG|].
    pose proof (pn_sum _ _ _ _ _ _ HN) as SUM.
    intros e tc. split; cbn [nl_g nl_U nl_Uc nl_log].
    - do 2 eexists. exact I0.
    - split; [apply repeat_length|]. split; [|constructor].
      apply nth_ext with (d := @r0 RNum) (d' := @r0 RNum).
      + rewrite (seg_length RK); unfold zeros; rewrite ?repeat_length; auto. lia.
      + intros i Hi. unfold zeros in Hi. rewrite repeat_length in Hi. rewrite (nth_seg RK) by auto.
        rewrite !(nth_zeros RK). reflexivity.
  Qed.
End Start.

(* the solver with processor p0 on a body, from the solver without *)
Section Body.
  Variables (cfg : nlset RG) (big : R -> bool) (slv : eqsolver RNum).
  Hypothesis EX : exact_solver slv.
  Variables (m : hyper) (pos : nat -> nat -> R) (nn : nat) (els : list body_el) (mpcs : list (AsmModel.mpc RNum)) (mpf : (key -> R) -> list (AsmModel.mpc RNum))
    (loads fixes : list (SolveModel.bc RNum)).
  Hypothesis OK : body_ok nn els mpcs mpf loads fixes.
  Variable fuel : nat.
  Notation regs := (body_regs 1 els).

  Lemma body_none start end_ : body_solve_p cfg big slv fuel nn m pos els mpcs mpf start end_ loads fixes None =
    (st <- body_solve cfg big slv fuel nn m pos els mpcs mpf start end_ loads fixes ;; Ok (st, None)).
  Proof.
    unfold body_solve_p, body_solve. destruct (init_sequence _ _ _ _) as [s| | |] eqn:EI; try reflexivity. cbn [obind].
    apply solve_none.
  Qed.

  Hypothesis HS : (0 < nl_steps cfg)%nat.
  Variables (nodes dofs : list nat).
  Hypothesis PK : proc_ok nn regs (map bc_key fixes) nodes dofs.
  Notation ds := (chosen (map bc_key fixes) nodes dofs).
  Notation solved := (body_solve cfg big slv fuel nn m pos els mpcs mpf 0 1 loads fixes).
  Notation solved_p := (body_solve_p cfg big slv fuel nn m pos els mpcs mpf 0 1 loads fixes (Some (mkRP (K := RNum) nodes dofs false []))).
  Lemma body_rec :
    match solved with
    | Ok st => exists gs, nl_log st = steps_of gs /\ timed (nl_steps cfg) gs /\
        solved_p = Ok (st, Some (mkRP (K := RNum) nodes ds false (map (fun t => curve regs nodes t gs) ds)))
    | Fatal => solved_p = Fatal
    | UB => solved_p = UB
    | Loop => solved_p = Loop
    end.
  Proof.
    destruct (body_good m pos nn els mpcs mpf loads fixes OK (fresh_storage 0 0 [])) as (GN0 & _).
    destruct (starts _ _ big nn (map be_nodes els) regs mpcs loads fixes GN0) as (s & g0 & EI1 & EG & NG & NM & HN & HG & _).
    destruct (body_good m pos nn els mpcs mpf loads fixes OK s) as (GN & _).
    destruct (starts _ _ big nn (map be_nodes els) regs mpcs loads fixes GN) as (s' & g0' & EI1' & EG' & _ & _ & _ & _ & I0).
    assert (s' = s) by congruence. subst s'. assert (g0' = g0) by (pose proof (eq_trans (eq_sym EG') EG) as X; injection X; auto). subst g0'. clear EI1' EG'.
    assert (EI : init_sequence (fresh_storage nn (length els) (map (fun m => length (mp_terms m)) mpcs)) regs [] (map bc_key fixes) = Ok s) by (rewrite map_length in EI1; exact EI1).
    assert (RD : ready nn (length (map be_nodes els)) (map (fun m => length (mp_terms m)) mpcs) regs [] (map bc_key fixes) s).
    { pose proof (gn_problem _ _ _ _ _ _ _ GN) as P. split.
      - apply (gp_regs _ _ _ _ _ P).
      - apply (gp_fixes _ _ _ _ _ P).
      - apply (gp_free _ _ _ _ _ P).
      - rewrite app_nil_r. pose proof (gp_terms _ _ _ _ _ P) as T. apply Forall_forall. intros k Hk. apply in_map_iff in Hk as (q & <- & Hm).
        rewrite Forall_forall in T. specialize (T q Hm). change (mp_terms (K := RNum) q <> []) in T. destruct (mp_terms (K := RNum) q) as [|]; [exfalso; apply T; reflexivity|cbn; lia].
      - exact EI1. }
    unfold body_solve, body_solve_p. rewrite EI. cbn [obind].
    pose proof (loop_rec _ _ cfg big slv EX nn (map be_nodes els) regs mpcs loads fixes GN s HN HG RD nodes dofs PK (nl_steps cfg) HS fuel _ [] 0%nat (I0 (map (be_fresh pos) els) (tc_init (K := RG) 0 1)) ltac:(lia)) as LR.
    cbn [nl_tc tc_init tc_time tc_end tc_start] in LR. specialize (LR ltac:(cbn [INR]; unfold Rdiv; rewrite Rmult_0_l; reflexivity) eq_refl eq_refl).
    assert (DE : gdiv (g := RG) (rsub (n := RNum) 1 0) (gnat (K := RG) (nl_steps cfg)) = 1 / INR (nl_steps cfg)).
    { rewrite gnat_INR. change ((1 - 0) / INR (nl_steps cfg) = 1 / INR (nl_steps cfg)). now rewrite Rminus_0_r. }
    unfold nonlin_solve, nonlin_solve_p. change (gn RG) with RNum. rewrite EI1. cbn [obind].
    change (initSolutionData (K := RG) false s (map be_nodes els) mpcs) with (initSolutionData (K := RNum) false s (map be_nodes els) mpcs). rewrite EG. cbn [obind].
    unfold nonlin_run. change (@g_num RG g0) with (@g_num RNum g0). rewrite NG, NM.
    change (@rp_begin RG s) with (@rp_begin RNum s). rewrite (begin_at nn (map be_nodes els) regs mpcs fixes s RD nodes dofs PK []). cbn [obind].
    rewrite <- DE in LR.
    set (o := load_loop _ _ _ _ _ _ _ _ _) in LR.
    match goal with |- context [load_loop ?a ?b ?c ?d ?e ?f ?g ?h ?i] => change (load_loop a b c d e f g h i) with o end. clearbody o.
    destruct o as [st| | |]; try exact LR.
    destruct LR as (gs & G1 & G2 & G3 & G4 & G5). exists gs. split; [exact G1|]. split.
    - split; [lia|]. exact G3.
    - etransitivity; [exact G5|]. apply f_equal, f_equal, f_equal. unfold rp_at. apply (f_equal (mkRP (K := RNum) nodes ds false)). apply map_ext. intros t. unfold curve. apply (f_equal (cons 0)). cbn [app]. rewrite map_map.
      apply map_ext_in. intros g Hg. rewrite Forall_forall in G4. rewrite (G4 g Hg). reflexivity.
  Qed.
End Body.
