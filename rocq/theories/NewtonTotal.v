(* Equilibrium iterations: apart from the equation solver nothing goes wrong *)
From Coq Require Import NArith Lia.
From Verif Require Import Base BaseProofs SparseModel SpecSparse SparseMatProofs SparseFinal BlockModel SpecBlock BlockProofs
  DofModel SpecDof DofProofs NumberingProofs AsmModel SpecAsm AsmLists AsmCalls AsmProofs AsmRun AsmFinal SolveModel SpecSolve
  SolveProofs LinearProofs GaussModel SpecGauss GaussProofs TimeModel NonlinModel SpecNonlin NonlinProofs NonlinFinal SpecBal BalProofs BalMore SpecLaws LawsProofs
  SpecNewton NewtonProofs.

Section Gen.
  Variable K : GNum.
  Variable L : glaws K.
  Notation RK := (GR K L).
  Add Ring KrT : (gl_ring K L).
  Variable E : Type.
  Variable ph : physics K E.
  Variable cfg : nlset K.
  Variable big : K -> bool.
  Variable slv : eqsolver K.
  Hypothesis EX : exact_solver slv.
  Variables (nn : nat) (mesh : list (list nat)) (regs : list reg) (mpcs0 : list (mpc K)) (loads fixes : list (bc K)).
  Hypothesis GN : good_nonlin ph nn mesh regs mpcs0 loads fixes.
  Variable s : numst.
  Hypothesis HN : prob_num nn (length mesh) regs (map bc_key fixes) (length mpcs0) s.
  Hypothesis HG : good_mpcs RK regs (length mpcs0) mpcs0.
  Notation total := (ns_ndofs s + length mpcs0)%nat.
  Notation inv := (ninv K L E ph big nn mesh regs mpcs0 loads fixes s).

  Lemma increment_total g0 ks mpcs t U Ucp : some_inv RK nn mesh s (length mpcs0) mpcs0 g0 ->
    good_contribs mesh regs ks -> only_K ks -> Forall2 same_terms mpcs0 mpcs -> length U = total -> length Ucp = ns_ncon s ->
    exists m b, si_nrows (sm_si m) = (ns_nunk s + length mpcs0)%nat /\
      (forall i j, in_shape (ns_nunk s + length mpcs0) (ns_nunk s + length mpcs0) (i, j) ->
        sym_value m i j = Ok (res_K RK mesh s ks mpcs (ns_ncon s + i)%nat (ns_ncon s + j)%nat)) /\
      length b = (ns_nunk s + length mpcs0)%nat /\
      match slv m b with
      | Ok _ => exists r, increment big slv g0 ks mpcs t loads fixes U Ucp = Ok r
      | Fatal => increment big slv g0 ks mpcs t loads fixes U Ucp = Fatal
      | UB => increment big slv g0 ks mpcs t loads fixes U Ucp = UB
      | Loop => increment big slv g0 ks mpcs t loads fixes U Ucp = Loop
      end.
  Proof.
    intros (FK & Fv & G0) GC OK ST LU LP. 
    pose proof (gn_problem _ _ _ _ _ _ _ GN) as P.
    assert (PF : Forall (fun f => In (bc_key f) (reg_keys regs)) fixes).
    { apply Forall_forall. intros f Hf. pose proof (gp_fixes _ _ _ _ _ P) as PF. rewrite Forall_forall in PF. apply PF. now apply in_map. }
    pose proof (n_mpc_nm nn mesh regs (map bc_key fixes) s _ HN) as NM.
    pose proof (pn_sum _ _ _ _ _ _ HN) as SUM. pose proof (pn_nd _ _ _ _ _ _ HN) as ND.
    pose proof (gi_num _ _ _ _ _ _ _ _ _ G0) as A0. change (@g_num (gn K) g0 = s) in A0.
    destruct (assemble_inv RK nn mesh regs (map bc_key fixes) s _ HN (gp_nodes _ _ _ _ _ P) mpcs0 HG g0 _ _ _ ks [] mpcs G0) as (g1 & EG & I1).
    { split; auto. split; auto. split; [discriminate|auto]. }
    { apply (only_CM_nil RK). }
    change (assembleGlobal g0 ks [] mpcs = Ok g1) in EG.
    pose proof (gi_num _ _ _ _ _ _ _ _ _ I1) as A1. change (@g_num (gn K) g1 = s) in A1.
    destruct (applyBC_ok RK nn mesh regs (map bc_key fixes) s _ HN t loads fixes U (zeros total) (gn_loads _ _ _ _ _ _ _ GN))
      as (Ub & Rb & EB & LUb & LRb & VR & VU); auto.
    { apply Forall_forall. intros f Hf. split; [now apply in_map|]. rewrite Forall_forall in PF. auto. }
    { apply (zeros_length RK). }
    change (applyBC s t loads fixes U (zeros total) = Ok (Ub, Rb)) in EB. cbn [rnum GR] in *.
    assert (LUc : length (seg Ub 0 (ns_ncon s)) = ns_ncon s) by (apply (seg_length RK); cbn [rnum GR]; lia).
    destruct (vzip_ok RK rsub (seg Ub 0 (ns_ncon s)) Ucp) as (dUc & EV & LD & VD); [cbn [rnum GR]; congruence|]. cbn [rnum GR] in *.
    rewrite LUc in LD, VD.
    destruct (core_ok RK nn mesh regs (map bc_key fixes) s _ HN (all_es RK nn mesh s mpcs0) big slv g1 _ _ _ _ _ I1
      (fun a b => res_K_sym RK mesh regs s ks mpcs a b GC) LD LRb) as (K22 & rhs & E1 & D & V & LL & VV & CORE). cbn [rnum GR] in *.
    exists K22, rhs. split; [exact D|]. split; [exact V|]. split; [exact LL|].
    unfold increment. rewrite A0, NM, EG. cbn [obind]. rewrite A1, EB. cbn [obind fst snd]. rewrite EV. cbn [obind].
    destruct (slv K22 rhs) as [x| | |] eqn:ES; [|rewrite CORE; reflexivity..].
    destruct (EX _ _ _ _ _ D V LL ES) as [Lx _]. destruct (CORE Lx) as (Rc & E2 & _). rewrite E2. cbn [obind fst snd].
    destruct (vzip_ok RK radd (seg Ub (ns_ncon s) (ns_nunk s)) (seg x 0 (ns_nunk s))) as (Us & EU & _).
    { rewrite !(seg_length RK); cbn [rnum GR]; lia. }
    cbn [rnum GR] in EU. rewrite EU. cbn [obind]. eexists. reflexivity.
  Qed.

  Lemma iteration_total st e1 ks mps : inv st -> ph_asm ph (nl_E st) (nl_U st) = Ok (e1, (ks, mps)) ->
    (forall U, exists e2, ph_upd ph e1 U = Ok e2) ->
    exists m b, si_nrows (sm_si m) = (ns_nunk s + length mpcs0)%nat /\
      (forall i j, in_shape (ns_nunk s + length mpcs0) (ns_nunk s + length mpcs0) (i, j) ->
        sym_value m i j = Ok (res_K RK mesh s ks mps (ns_ncon s + i)%nat (ns_ncon s + j)%nat)) /\
      length b = (ns_nunk s + length mpcs0)%nat /\
      match slv m b with
      | Ok _ => exists st' c, iteration ph cfg big slv loads fixes st = Ok (st', c)
      | Fatal => iteration ph cfg big slv loads fixes st = Fatal
      | UB => iteration ph cfg big slv loads fixes st = UB
      | Loop => iteration ph cfg big slv loads fixes st = Loop
      end.
  Proof.
    intros (I1 & I2 & I3 & I4) EA HU. destruct (gn_physics _ _ _ _ _ _ _ GN _ _ _ _ _ EA) as (P1 & P2 & P3).
    pose proof (pn_sum _ _ _ _ _ _ HN) as SUM.
    assert (LP : length (nl_Uc st) = ns_ncon s) by (rewrite I3; apply (seg_length RK); cbn [rnum GR]; lia).
    destruct (increment_total (nl_g st) ks mps (norm_time (next_eq (nl_tc st))) (nl_U st) (nl_Uc st) I1 P1 P2 P3 I2 LP) as (m & b & D & V & LL & M).
    exists m, b. split; [exact D|]. split; [exact V|]. split; [exact LL|].
    unfold iteration. rewrite EA. cbn [obind].
    destruct (slv m b); [|rewrite M; reflexivity..].
    destruct M as ([[[[g d] U] R] Uc] & ->). cbn [obind]. destruct (HU U) as (e2 & ->). cbn [obind]. eauto.
  Qed.

  (* no undefined behaviour *)
  Variable J : nlst K E -> Prop.
  Hypothesis HJ : forall st st' c, inv st -> J st -> iteration ph cfg big slv loads fixes st = Ok (st', c) -> J st'.
  Hypothesis HT : forall st tc, J st -> J (mkNl (nl_g st) (nl_U st) (nl_R st) (nl_Uc st) (nl_E st) tc (nl_log st)).
  Hypothesis HA : forall st, inv st -> J st -> exists e1 ks mps, ph_asm ph (nl_E st) (nl_U st) = Ok (e1, (ks, mps)) /\ forall U, exists e2, ph_upd ph e1 U = Ok e2.
  Hypothesis NU : forall m b n A, si_nrows (sm_si m) = n -> (forall i j, in_shape n n (i, j) -> sym_value m i j = Ok (A i j)) -> length b = n -> slv m b <> UB.
  Lemma iteration_noub st : inv st -> J st -> iteration ph cfg big slv loads fixes st <> UB.
  Proof.
    intros I HJs. destruct (HA st I HJs) as (e1 & ks & mps & EA & HU). destruct (iteration_total st e1 ks mps I EA HU) as (m & b & D & V & LL & M).
    pose proof (NU m b _ (fun i j => res_K RK mesh s ks mps (ns_ncon s + i)%nat (ns_ncon s + j)%nat) D V LL) as N.
    destruct (slv m b); [destruct M as (st' & c & ->)|rewrite M|congruence|rewrite M]; discriminate.
  Qed.
  Lemma iterate_noub fuel : forall st, inv st -> J st -> iterate ph cfg big slv fuel loads fixes st <> UB.
  Proof.
    induction fuel as [|fuel IH]; intros st I HJs; cbn [iterate]; [discriminate|].
    pose proof (iteration_noub st I HJs) as N. destruct (iteration ph cfg big slv loads fixes st) as [[st1 c]| | |] eqn:E1; cbn [obind fst snd]; try discriminate; [|congruence].
    destruct (iteration_ok K L E ph cfg big slv EX nn mesh regs mpcs0 loads fixes GN s HN HG st st1 c I E1) as (I' & _).
    pose proof (HJ _ _ _ I HJs E1) as P1. destruct c as [c|]; [|discriminate].
    destruct (glt c (nl_crit cfg)); [discriminate|]. destruct (glt (nl_far cfg) c); [discriminate|]. destruct (_ <=? _)%N; [discriminate|]. auto.
  Qed.
  Lemma loop_noub fuel delta : forall st, inv st -> J st -> load_loop ph cfg big slv fuel delta loads fixes st <> UB.
  Proof.
    induction fuel as [|fuel IH]; intros st I HJs; cbn [load_loop]; destruct (next_step delta (nl_tc st)) as [b tc]; destruct b; try discriminate.
    set (st0 := mkNl (nl_g st) (nl_U st) (nl_R st) (nl_Uc st) (nl_E st) tc (nl_log st)).
    assert (I0 : inv st0) by exact I. pose proof (HT st tc HJs) as J0. fold st0 in J0.
    pose proof (iterate_noub (S (nl_iters cfg)) st0 I0 J0) as N.
    destruct (iterate ph cfg big slv (S (nl_iters cfg)) loads fixes st0) as [st1| | |] eqn:E1; cbn [obind]; try discriminate; [|congruence].
    destruct (iterate_keeps K L E ph cfg big slv EX nn mesh regs mpcs0 loads fixes GN s HN HG J HJ _ _ _ I0 J0 E1) as (I1 & J1). auto.
  Qed.
End Gen.

Section Start.
  Variable K : GNum.
  Variable L : glaws K.
  Notation RK := (GR K L).
  Variable E : Type.
  Variable ph : physics K E.
  Variable cfg : nlset K.
  Variable big : K -> bool.
  Variable slv : eqsolver K.
  Hypothesis EX : exact_solver slv.
  Variables (nn : nat) (mesh : list (list nat)) (regs : list reg) (mpcs0 : list (mpc K)) (loads fixes : list (bc K)).
  Hypothesis GN : good_nonlin ph nn mesh regs mpcs0 loads fixes.
  (* initialisation succeeds and hands a good state to the load steps *)
  Lemma solve_starts :
    exists s g0, init_sequence (fresh_storage nn (length mesh) (map (fun m => length (mp_terms m)) mpcs0)) regs [] (map bc_key fixes) = Ok s /\
      prob_num nn (length mesh) regs (map bc_key fixes) (length mpcs0) s /\ good_mpcs RK regs (length mpcs0) mpcs0 /\
      (forall fuel e start end_, nonlin_solve ph cfg big slv fuel nn mesh regs mpcs0 e start end_ loads fixes =
        load_loop ph cfg big slv fuel (gdiv (rsub end_ start) (gnat (nl_steps cfg))) loads fixes
          (mkNl g0 (zeros (ns_ndofs s + length mpcs0)) (zeros (ns_ndofs s + length mpcs0)) (zeros (ns_ncon s)) e (tc_init start end_) [])) /\
      forall e tc, ninv K L E ph big nn mesh regs mpcs0 loads fixes s
        (mkNl g0 (zeros (ns_ndofs s + length mpcs0)) (zeros (ns_ndofs s + length mpcs0)) (zeros (ns_ncon s)) e tc []).
  Proof.
    destruct (whole RK false nn mesh regs (map bc_key fixes) mpcs0 (gn_problem _ _ _ _ _ _ _ GN)
      (gn_capacity _ _ _ _ _ _ _ GN)) as (s & g0 & E1 & HN & HG & I0 & _).
    change (prepare false nn mesh regs (map bc_key fixes) mpcs0 = Ok g0) in E1. unfold prepare in E1. apply obind_ok in E1 as (s1 & EI & EG).
    pose proof (gi_num _ _ _ _ _ _ _ _ _ I0) as A1. change (@g_num K g0 = s) in A1.
    assert (s1 = s).
    { unfold initSolutionData in EG. apply obind_ok in EG as (es & _ & EG). apply obind_ok in EG as (B0 & _ & EG). apply obind_ok in EG as (B1 & _ & EG).
      apply obind_ok in EG as (B & _ & EG). cbn [obind] in EG. injection EG as <-. exact A1. }
    subst s1. exists s, g0. split; [exact EI|]. split; [exact HN|]. split; [exact HG|].
    pose proof (n_mpc_nm nn mesh regs (map bc_key fixes) s _ HN) as NM.
    pose proof (pn_sum _ _ _ _ _ _ HN) as SUM. split.
    - intros. unfold nonlin_solve. rewrite EI. cbn [obind]. rewrite EG. cbn [obind]. unfold nonlin_run. rewrite A1, NM. reflexivity.
    - intros e tc. split; cbn [nl_g nl_U nl_Uc nl_log].
      + do 2 eexists. exact I0.
      + split; [apply repeat_length|]. split; [|constructor].
        apply nth_ext with (d := @r0 K) (d' := @r0 K).
        * rewrite (seg_length RK); unfold zeros; rewrite ?repeat_length; auto. lia.
        * intros i Hi. unfold zeros in Hi. rewrite repeat_length in Hi. rewrite (nth_seg RK) by auto.
          rewrite !(nth_zeros RK). reflexivity.
  Qed.
End Start.
