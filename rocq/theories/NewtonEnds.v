(* NonlinearFESolver::solve comes to an end *)
From Coq Require Import NArith Lia Reals Lra.
From Verif Require Import Base BaseProofs RealBase SparseModel SpecSparse BlockModel SpecBlock DofModel SpecDof AsmModel SpecAsm AsmFinal SolveModel SpecSolve
  GaussModel SpecGauss GaussProofs TimeModel NonlinModel SpecNonlin NonlinProofs NonlinFinal StructModel SpecStruct StructProofs SpecBal SpecLaws
  SpecNewton NewtonProofs NewtonTotal BodyModel SpecBody BodyProofs BodyMore.

Local Open Scope R_scope.
Section Clock.
  Variables (K : GNum) (E : Type) (ph : physics K E) (cfg : nlset K) (big : K -> bool) (slv : eqsolver K) (loads fixes : list (bc K)).
  Lemma iteration_tc st st' c : iteration ph cfg big slv loads fixes st = Ok (st', c) -> nl_tc st' = next_eq (nl_tc st).
  Proof.
    intros H. unfold iteration in H. apply obind_ok in H as ([e1 [ks mps]] & _ & H). apply obind_ok in H as ([[[[g d] U] R] Uc] & _ & H).
    apply obind_ok in H as (e2 & _ & H). injection H as <- _. reflexivity.
  Qed.
  Lemma iterate_tc fuel : forall st st', iterate ph cfg big slv fuel loads fixes st = Ok st' ->
    tc_time (nl_tc st') = tc_time (nl_tc st) /\ tc_end (nl_tc st') = tc_end (nl_tc st).
  Proof.
    induction fuel as [|fuel IH]; intros st st' H; cbn [iterate] in H; [discriminate|]. apply obind_ok in H as ([st1 c] & E1 & H). cbn [fst snd] in H.
    pose proof (iteration_tc _ _ _ E1) as T. destruct c as [c|]; [|discriminate].
    destruct (glt c (nl_crit cfg)); [injection H as <-; rewrite T; auto|]. destruct (glt (nl_far cfg) c); [discriminate|]. destruct (_ <=? _)%N; [discriminate|].
    destruct (IH _ _ H) as (A & B). rewrite A, B, T. auto.
  Qed.
  (* the counter of iterations has 16 bits, and so has their largest number *)
  Lemma iterate_ends : (N.of_nat (nl_iters cfg) < 65536)%N -> forall (P : nlst K E -> Prop),
    (forall st, P st -> iteration ph cfg big slv loads fixes st <> Loop) -> (forall st st' c, P st -> iteration ph cfg big slv loads fixes st = Ok (st', c) -> P st') ->
    forall fuel st k, P st -> tc_cur (nl_tc st) = N.of_nat k -> (k + fuel = S (nl_iters cfg))%nat -> (k < nl_iters cfg \/ k = 0)%nat ->
    iterate ph cfg big slv fuel loads fixes st <> Loop.
  Proof.
    intros HI P P1 P2. induction fuel as [|fuel IH]; intros st k HP HC HF H0; [lia|]. cbn [iterate].
    pose proof (P1 st HP) as N1. destruct (iteration ph cfg big slv loads fixes st) as [[st1 c]| | |] eqn:E1; cbn [obind fst snd]; try discriminate; [|congruence].
    destruct c as [c|]; [|discriminate]. destruct (glt c (nl_crit cfg)); [discriminate|]. destruct (glt (nl_far cfg) c); [discriminate|].
    pose proof (iteration_tc _ _ _ E1) as T.
    assert (C1 : tc_cur (nl_tc st1) = N.of_nat (S k)).
    { rewrite T. cbn [next_eq tc_cur]. rewrite HC. unfold u16. rewrite N.mod_small by lia. lia. }
    rewrite C1. destruct (N.leb_spec (N.of_nat (nl_iters cfg)) (N.of_nat (S k))) as [|LT]; [discriminate|].
    apply (IH st1 (S k)); [exact (P2 _ _ _ HP E1)|exact C1|lia|lia].
  Qed.
End Clock.

Lemma RLt_t a b : a < b -> glt (g := RG) a b = true.
Proof. intros H. cbn. unfold Rltb. now destruct (Rlt_dec a b). Qed.
Lemma RLt_f a b : b <= a -> glt (g := RG) a b = false.
Proof. intros H. cbn. unfold Rltb. destruct (Rlt_dec a b); [lra|reflexivity]. Qed.
Lemma RLt_if a b : glt (g := RG) a b = if Rlt_dec a b then true else false.
Proof. reflexivity. Qed.

(* every call of nextStep brings the end nearer by one of the steps, counted in delta *)
Lemma next_near (delta : R) (t : tcs RG) m : 0 < delta -> tc_end t - tc_time t <= INR m * delta ->
  let r := next_step (K := RG) delta t in tc_end (snd r) = tc_end t /\
  (fst r = true -> (m <> 0)%nat /\ tc_cur (snd r) = 0%N /\ tc_end t - tc_time (snd r) <= INR (m - 1) * delta).
Proof.
  intros HD HM. unfold next_step. cbv zeta. destruct (if (0 <? tc_cur t)%N then _ else _) as [cv eq]. unfold gge. rewrite !RLt_if.
  destruct (Rlt_dec (tc_time t) (tc_end t)) as [LT|GE]; cbn [negb fst snd]; [|split; [reflexivity|discriminate]].
  split; [reflexivity|]. intros _.
  assert (M0 : m <> 0%nat) by (intros ->; cbn in HM; change (car RG) with R in *; lra).
  split; [exact M0|]. split; [reflexivity|]. destruct m as [|m]; [congruence|]. rewrite S_INR in HM. replace (S m - 1)%nat with m by lia.
  pose proof (pos_INR m) as PM. assert (0 <= INR m * delta) by (apply Rmult_le_pos; lra). cbn [tc_time].
  destruct (Rlt_dec (radd (tc_time t) delta) (tc_end t)) as [A|A]; cbn [negb].
  - destruct (Rlt_dec (radd (tc_time t) (rmul (r2 RG) delta)) (tc_end t)) as [B|B]; cbn [negb].
    + change (tc_end t - (tc_time t + delta) <= INR m * delta). change (car RG) with R in *. lra.
    + change (tc_end t - (tc_time t + (tc_end t - tc_time t) / (1 + 1)) <= INR m * delta).
      change (~ (tc_time t + (1 + 1) * delta < tc_end t)) in B. change (tc_time t + delta < tc_end t) in A.
      assert (1 <= INR m) by (destruct m; [exfalso; cbn in HM; change (car RG) with R in *; lra|rewrite S_INR; pose proof (pos_INR m); lra]).
      assert (delta <= INR m * delta) by (rewrite <- (Rmult_1_l delta) at 1; apply Rmult_le_compat_r; lra). change (car RG) with R in *. lra.
  - change (tc_end t - (tc_time t + (tc_end t - tc_time t)) <= INR m * delta). change (car RG) with R in *. lra.
Qed.

Section Loop.
  Variables (E : Type) (ph : physics RG E) (cfg : nlset RG) (big : R -> bool) (slv : eqsolver RNum) (loads fixes : list (bc RNum)).
  Variable P : nlst RG E -> Prop.
  Hypothesis P1 : forall st, P st -> iteration (K := RG) ph cfg big slv loads fixes st <> Loop.
  Hypothesis P2 : forall st st' c, P st -> iteration (K := RG) ph cfg big slv loads fixes st = Ok (st', c) -> P st'.
  Hypothesis P3 : forall st tc, P st -> P (mkNl (K := RG) (nl_g st) (nl_U st) (nl_R st) (nl_Uc st) (nl_E st) tc (nl_log st)).
  Hypothesis HI : (N.of_nat (nl_iters cfg) < 65536)%N.
  Lemma iterate_P fuel : forall st st', P st -> iterate (K := RG) ph cfg big slv fuel loads fixes st = Ok st' -> P st'.
  Proof.
    induction fuel as [|fuel IH]; intros st st' HP H; cbn [iterate] in H; [discriminate|]. apply obind_ok in H as ([st1 c] & E1 & H). cbn [fst snd] in H.
    pose proof (P2 _ _ _ HP E1). destruct c as [c|]; [|discriminate].
    destruct (glt c (nl_crit cfg)); [injection H as <-; auto|]. destruct (glt (nl_far cfg) c); [discriminate|]. destruct (_ <=? _)%N; [discriminate|]. eauto.
  Qed.
  Lemma loop_ends (delta : R) : 0 < delta -> forall m fuel st, P st -> tc_end (nl_tc st) - tc_time (nl_tc st) <= INR m * delta -> (m <= fuel)%nat ->
    load_loop (K := RG) ph cfg big slv fuel delta loads fixes st <> Loop.
  Proof.
    intros HD. induction m as [|m IH]; intros fuel st HP HM HF.
    - pose proof (next_near delta (nl_tc st) 0 HD HM) as (_ & N). destruct fuel; cbn [load_loop]; destruct (next_step (K := RG) delta (nl_tc st)) as [[] tc]; try discriminate;
        destruct (N eq_refl) as (N0 & _); congruence.
    - destruct fuel as [|fuel]; [lia|]. cbn [load_loop]. pose proof (next_near delta (nl_tc st) (S m) HD HM) as (N0 & N). destruct (next_step (K := RG) delta (nl_tc st)) as [b tc]. cbn [fst snd] in N0, N.
      destruct b; [|discriminate]. destruct (N eq_refl) as (_ & NC & NT). replace (S m - 1)%nat with m in NT by lia.
      set (st0 := mkNl (K := RG) (nl_g st) (nl_U st) (nl_R st) (nl_Uc st) (nl_E st) tc (nl_log st)).
      assert (H0 : P st0) by (apply P3, HP).
      pose proof (iterate_ends RG E ph cfg big slv loads fixes HI P P1 P2 (S (nl_iters cfg)) st0 0 H0 NC eq_refl (or_intror eq_refl)) as NL.
      destruct (iterate ph cfg big slv (S (nl_iters cfg)) loads fixes st0) as [st1| | |] eqn:E1; cbn [obind]; try discriminate; [|congruence].
      destruct (iterate_tc RG E ph cfg big slv loads fixes _ _ _ E1) as (T1 & T2). apply IH; [exact (iterate_P _ _ _ H0 E1)| |lia].
      rewrite T1, T2. cbn [nl_tc st0]. rewrite N0. exact NT.
  Qed.
End Loop.

Lemma gauss_safe (u : nat -> list R) : (forall n, length (u n) = n) -> forall mt b n A, si_nrows (sm_si mt) = n ->
  (forall i j, in_shape n n (i, j) -> sym_value (K := RNum) mt i j = Ok (A i j)) -> length b = n ->
  gauss_slv (K := RG) u mt b <> UB /\ gauss_slv (K := RG) u mt b <> Loop.
Proof.
  intros HU mt b n A D V LB. unfold gauss_slv. destruct (Nat.lt_ge_cases n 1000) as [H|H].
  - destruct (gauss_dense_sol RG RG_laws mt n A b (u (si_nrows (sm_si mt))) D H V LB) as [(x & EE & _)|EE]; [exact (eq_trans (HU _) D)|..];
      split; intros X; pose proof (eq_trans (eq_sym EE) X); discriminate.
  - assert (EE : gauss_dense (K := RG) (u (si_nrows (sm_si mt))) mt b = Fatal) by (apply (gauss_dense_limit RG); unfold lt; etransitivity; [exact H|rewrite <- D; reflexivity]).
    split; intros X; pose proof (eq_trans (eq_sym EE) X); discriminate.
Qed.

Lemma INR_unbounded r : exists n, r < INR n.
Proof.
  exists (Z.to_nat (Rdefinitions.up r)). destruct (archimed r) as [A _]. rewrite INR_IZR_INZ. apply (Rlt_le_trans _ (IZR (Rdefinitions.up r))); [exact A|]. apply IZR_le. lia.
Qed.
Section Ends.
  Variables (cfg : nlset RG) (big : R -> bool) (slv : eqsolver RNum).
  Hypothesis EX : exact_solver slv.
  Hypothesis SF : forall mt b n A, si_nrows (sm_si mt) = n -> (forall i j, in_shape n n (i, j) -> sym_value (K := RNum) mt i j = Ok (A i j)) -> length b = n ->
    slv mt b <> UB /\ slv mt b <> Loop.
  Variables (m : HyperModel.hyper) (pos : nat -> nat -> R) (nn : nat) (els : list body_el) (mpcs : list (mpc RNum)) (mpf : (key -> R) -> list (mpc RNum)).
  Variables (loads fixes : list (bc RNum)).
  Hypothesis OK : body_ok nn els mpcs mpf loads fixes.
  Hypothesis KN : SpecHyper.known m.
  Hypothesis HK : HyperModel.hK m <> 0.
  Hypothesis HI : (N.of_nat (nl_iters cfg) < 65536)%N.
  Lemma gnat_INR n : gnat (K := RG) n = INR n.
  Proof. induction n as [|n IH]; [reflexivity|]. rewrite S_INR, <- IH. reflexivity. Qed.
  Lemma body_ends start end_ : start < end_ -> (nl_steps cfg <> 0)%nat -> exists N, forall fuel, (N <= fuel)%nat ->
    body_solve cfg big slv fuel nn m pos els mpcs mpf start end_ loads fixes = Fatal \/
    exists st, body_solve cfg big slv fuel nn m pos els mpcs mpf start end_ loads fixes = Ok st.
  Proof.
    intros HT HS. set (delta := (end_ - start) / INR (nl_steps cfg)).
    assert (DP : 0 < delta) by (apply Rdiv_lt_0_compat; [lra|]; apply lt_0_INR; lia).
    destruct (INR_unbounded (end_ / delta)) as (N & HNn). exists N. intros fuel HF.
    assert (BN : end_ <= INR N * delta).
    { apply Rlt_le. apply (Rmult_lt_compat_r delta) in HNn; [|exact DP]. replace (end_ / delta * delta) with end_ in HNn by (field; lra). lra. }
    assert (NU := body_noub cfg big slv EX m pos nn els mpcs mpf loads fixes OK KN HK (fun mt b n A D V LB => proj1 (SF mt b n A D V LB)) fuel start end_).
    assert (NL : body_solve cfg big slv fuel nn m pos els mpcs mpf start end_ loads fixes <> Loop).
    { clear NU. unfold body_solve.
      destruct (init_sequence _ _ _ _) as [s| | |] eqn:EI; cbn [obind]; try discriminate.
      2:{ exfalso. destruct (body_good m pos nn els mpcs mpf loads fixes OK (fresh_storage nn 0 [])) as (GN & HD).
          destruct (solve_starts RG RG_laws _ (body_physics m pos els mpf (fresh_storage nn 0 [])) cfg big slv nn (map be_nodes els) (body_regs 1 els) mpcs loads fixes GN) as (s & g0 & E1 & _).
          rewrite map_length in E1. assert (X : Ok s = Loop) by (etransitivity; [symmetry; exact E1|exact EI]). discriminate. }
      destruct (body_good m pos nn els mpcs mpf loads fixes OK s) as (GN & HD).
      destruct (solve_starts RG RG_laws _ (body_physics m pos els mpf s) cfg big slv nn (map be_nodes els) (body_regs 1 els) mpcs loads fixes GN) as (s' & g0 & E1 & HN & HG & UNF & I0).
      rewrite map_length in E1.
      assert (X : Ok s' = Ok s) by (etransitivity; [symmetry; exact E1|exact EI]). injection X as ->. rewrite UNF.
      replace (gdiv (g := RG) (@rsub (gn RG) end_ start) (gnat (K := RG) (nl_steps cfg))) with delta by (rewrite gnat_INR; reflexivity).
      apply (loop_ends _ (body_physics m pos els mpf s) cfg big slv loads fixes
        (fun st => ninv RG RG_laws (list (list HyperModel.point)) (body_physics m pos els mpf s) big nn (map be_nodes els) (body_regs 1 els) mpcs loads fixes s st /\
                   Jinv big m pos els mpf loads fixes s st)) with (m := N); auto.
      - intros st (I & HJ). destruct (J_asm big m pos nn els mpcs mpf loads fixes OK s st HJ) as (ps & EA & _).
        destruct (iteration_total RG RG_laws _ (body_physics m pos els mpf s) cfg big slv EX nn (map be_nodes els) (body_regs 1 els) mpcs loads fixes GN s HN HG st _ _ _ I EA)
          as (mt & b & D & V & LL & M).
        { intros U. apply (upd_total m pos nn els mpcs mpf loads fixes OK). }
        destruct (SF mt b _ _ D V LL) as (_ & NLo). destruct (slv mt b) as [x| | |]; [destruct M as (st' & c & M)|..]; [rewrite M; discriminate..|congruence].
      - intros st st' c (I & HJ) HIt. split.
        + exact (proj1 (iteration_ok RG RG_laws _ (body_physics m pos els mpf s) cfg big slv EX nn (map be_nodes els) (body_regs 1 els) mpcs loads fixes GN s HN HG st st' c I HIt)).
        + exact (J_step cfg big slv EX m pos nn els mpcs mpf loads fixes OK KN HK s HN HG st st' c I HJ HIt).
      - split; [apply I0|apply (J_start big m pos nn els mpcs mpf loads fixes OK)].
      - cbn [nl_tc tc_init tc_end tc_time]. change (end_ - 0 <= INR N * delta). lra. }
    destruct (body_solve cfg big slv fuel nn m pos els mpcs mpf start end_ loads fixes) as [st| | |]; [right; eauto|now left|congruence|congruence].
  Qed.
End Ends.
