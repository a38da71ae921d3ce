(* The nonlinear solution: iterations and load steps *)
From Coq Require Qcabs.
From Coq Require Import NArith QArith Qcanon Lqa.
From Verif Require Import Base BaseProofs SparseModel SpecSparse BlockModel SpecBlock
  DofModel SpecDof NumberingProofs AsmModel SpecAsm AsmProofs AsmRun AsmFinal SolveModel SpecSolve
  SolveProofs LinearProofs GaussModel SpecGauss GaussProofs TimeModel SpecTime QcTac TimeProofs NonlinModel SpecNonlin NonlinProofs.
Local Open Scope nat_scope.

Section Gen.
  Variable K : GNum.
  Variable L : glaws K.
  Notation RK := (GR K L).
  Add Ring KrN : (gl_ring K L).
  Variable E : Type.
  Variable ph : physics K E.
  Variable cfg : nlset K.
  Variable big : K -> bool.
  Variable slv : eqsolver K.
  Hypothesis EX : exact_solver slv.
  Variables (nn : nat) (mesh : list (list nat)) (regs : list reg) (mpcs0 : list (mpc K)) (loads fixes : list (bc K)).
  Hypothesis GN : good_nonlin ph nn mesh regs mpcs0 loads fixes.
  Variable s : numst.
  Hypothesis HN : prob_num nn (length mesh) regs (map bc_key fixes) (length mpcs0) s.
  Hypothesis HG : good_mpcs RK regs (length mpcs0) mpcs0.
  Notation total := (ns_ndofs s + length mpcs0).
  Definition ninv (st : nlst K E) : Prop :=
    some_inv RK nn mesh s (length mpcs0) mpcs0 (nl_g st) /\ length (nl_U st) = total /\
    nl_Uc st = seg (nl_U st) 0 (ns_ncon s) /\
    Forall (fun it => good_iter ph big regs loads fixes it /\ g_num (it_g it) = s) (nl_log st).

  Lemma iteration_ok st st' c : ninv st -> iteration ph cfg big slv loads fixes st = Ok (st', c) ->
    ninv st' /\ nl_tc st' = next_eq (nl_tc st) /\
    exists it, nl_log st' = nl_log st ++ [it] /\ it_time it = norm_time (nl_tc st) /\ it_before it = nl_U st /\
      it_after it = nl_U st' /\ it_R it = nl_R st' /\ it_g it = nl_g st' /\
      c = criteria cfg (seg (it_d it) (ns_ncon s) (ns_nunk s)) /\ length (it_d it) = total /\
      (exists e e' ks mpcs, ph_asm ph e (nl_U st) = Ok (e', (ks, mpcs)) /\
       (forall e m, In (e, m) (mpc_list s mpcs) ->
        sumof (fun t => rmul (snd t) (vget s (it_d it) (term_key t))) (mp_terms m) = mp_b m)) /\
      (forall i, i < ns_ndofs s -> nth i (nl_U st') r0 = radd (nth i (nl_U st) r0) (nth i (it_d it) r0)).
  Proof.
    intros (I1 & I2 & I3 & I4) HI. unfold iteration in HI.
    apply obind_ok in HI as ([e1 [ks mpcs]] & EA & HI). cbn beta iota in HI.
    apply obind_ok in HI as ([[[[g d] U] R] Uc] & EI & HI). cbn beta iota in HI.
    apply obind_ok in HI as (e2 & EU & HI). injection HI as <- <-.
    destruct (gn_physics _ _ _ _ _ _ _ GN _ _ _ _ _ EA) as (P1 & P2 & P3).
    pose proof (gn_problem _ _ _ _ _ _ _ GN) as P.
    assert (PF : Forall (fun f => In (bc_key f) (reg_keys regs)) fixes).
    { apply Forall_forall. intros f Hf. pose proof (gp_fixes _ _ _ _ _ P) as PF. rewrite Forall_forall in PF. apply PF. now apply in_map. }
    destruct (increment_ok RK big slv EX nn mesh regs s (length mpcs0) fixes HN (gp_nodes _ _ _ _ _ P) PF mpcs0 eq_refl HG
      (nl_g st) ks mpcs (norm_time (next_eq (nl_tc st))) loads (nl_U st) (nl_Uc st) g d U R Uc I1 P1 P2 P3
      (gn_loads _ _ _ _ _ _ _ GN) I2 I3 EI)
      as (Q1 & Q2 & Q3 & Q4 & Q5 & Q6 & Q7 & Q8 & Q9 & Q10 & Q11 & Q12 & Q13 & Q14).
    pose proof (n_mpc_nm nn mesh regs (map bc_key fixes) s _ HN) as NM.
    change (@g_num (gn K) g = s) in Q2.
    assert (GS : g_size g = total) by (unfold g_size; now rewrite Q2, NM).
    cbn [nl_log nl_U nl_R nl_g nl_Uc nl_tc].
    set (it := mkIter (norm_time (next_eq (nl_tc st))) (nl_U st) g d U R).
    assert (GI : good_iter ph big regs loads fixes it).
    { constructor; unfold it; cbn [it_before it_g it_d it_after it_R it_time].
      - exists (nl_E st), e1, ks, mpcs, (nl_g st). split; [exact EA|]. split; [exact Q3|]. rewrite Q2. exact Q14.
      - rewrite GS. auto.
      - exists (res_K RK mesh s ks mpcs). cbv zeta. rewrite GS, Q2. auto.
      - rewrite Q2, GS. split; auto.
      - rewrite Q2. exact Q13. }
    split.
    { split; [exact Q1|]. split; [exact Q4|]. split; [exact Q7|]. apply Forall_app. split; auto. }
    split; [reflexivity|]. exists it. unfold it. cbn [it_before it_g it_d it_after it_R it_time].
    split; [reflexivity|]. split; [reflexivity|]. do 4 (split; [reflexivity|]). rewrite Q2. split; [reflexivity|].
    split; [exact Q5|]. split; [exists (nl_E st), e1, ks, mpcs; split; [exact EA|exact Q14]|exact Q11].
  Qed.

  (* accepted by the convergence test *)
  Definition small_crit (it : iter K) : bool :=
    match criteria cfg (seg (it_d it) (ns_ncon s) (ns_nunk s)) with Some c => glt c (nl_crit cfg) | None => false end.

  (* what the iterations keep: P holds for the DoF values and the log *)
  Variable P : list K -> list (iter K) -> Prop.
  Hypothesis HP : forall st st' c it, ninv st -> P (nl_U st) (nl_log st) -> iteration ph cfg big slv loads fixes st = Ok (st', c) ->
    nl_log st' = nl_log st ++ [it] -> P (nl_U st') (nl_log st').

  Definition tc_same (t t' : tcs K) : Prop :=
    tc_time t' = tc_time t /\ tc_end t' = tc_end t /\ tc_start t' = tc_start t /\ tc_conv t' = tc_conv t /\ tc_eqs t' = tc_eqs t.
  Lemma tc_same_norm t t' : tc_same t t' -> norm_time t' = norm_time t.
  Proof. intros (H1 & H2 & H3 & _). unfold norm_time. now rewrite H1, H2, H3. Qed.

  Lemma iterate_ok fuel : forall st st', ninv st -> P (nl_U st) (nl_log st) ->
    iterate ph cfg big slv fuel loads fixes st = Ok st' ->
    ninv st' /\ P (nl_U st') (nl_log st') /\ tc_same (nl_tc st) (nl_tc st') /\
    exists its it, nl_log st' = nl_log st ++ its ++ [it] /\ Forall (fun i => small_crit i = false) its /\ small_crit it = true /\
      Forall (fun i => it_time i = norm_time (nl_tc st)) (its ++ [it]) /\
      it_after it = nl_U st' /\ it_R it = nl_R st' /\ it_g it = nl_g st' /\ S (length its) <= fuel /\
      tc_run (repeat TEq (S (length its))) (nl_tc st) = (nl_tc st', []).
  Proof.
    induction fuel as [|fuel IH]; intros st st' I HPst H; cbn [iterate] in H; [discriminate|].
    apply obind_ok in H as ([st1 c] & E1 & H). cbn [fst snd] in H.
    destruct (iteration_ok st st1 c I E1) as (I' & T1 & it & Q1 & Q2 & Q3 & Q4 & Q5 & Q6 & Q7 & Q8 & _).
    pose proof (HP _ _ _ _ I HPst E1 Q1) as P1.
    destruct c as [c|]; [|discriminate].
    destruct (glt c (nl_crit cfg)) eqn:G1.
    - injection H as <-. split; auto. split; auto. split; [rewrite T1; repeat split; auto|].
      exists [], it. split; [exact Q1|]. split; [constructor|]. split; [unfold small_crit; now rewrite <- Q7|].
      split; [repeat constructor; auto|]. split; auto. split; auto. split; auto. split; [cbn; lia|]. cbn. now rewrite T1.
    - destruct (glt (nl_far cfg) c); [discriminate|]. destruct (_ <=? _)%N; [discriminate|].
      destruct (IH _ _ I' P1 H) as (I2 & P2 & T2 & its & it' & R1 & R2 & R3 & R4 & R5 & R6 & R7 & R8 & R9).
      split; auto. split; auto. rewrite T1 in T2. split; [exact T2|].
      exists (it :: its), it'. rewrite R1, Q1, <- app_assoc. cbn [app length]. split; [reflexivity|].
      split; [constructor; auto; unfold small_crit; now rewrite <- Q7|]. split; auto. split.
      + constructor; auto. rewrite T1 in R4. exact R4.
      + split; auto. split; auto. split; auto. split; [lia|]. rewrite T1 in R9. exact R9.
  Qed.
End Gen.

Section Rat.
  Variable E : Type.
  Variable ph : physics QcG E.
  Variable cfg : nlset QcG.
  Variable big : QcG -> bool.
  Variable slv : eqsolver QcG.
  Hypothesis EX : exact_solver slv.
  Variables (nn : nat) (mesh : list (list nat)) (regs : list reg) (mpcs0 : list (mpc QcG)) (loads fixes : list (bc QcG)).
  Hypothesis GN : good_nonlin ph nn mesh regs mpcs0 loads fixes.
  Variable s : numst.
  Hypothesis HN : prob_num nn (length mesh) regs (map bc_key fixes) (length mpcs0) s.
  Hypothesis HG : good_mpcs (GR QcG QcG_laws) regs (length mpcs0) mpcs0.
  Notation ninvq := (ninv QcG QcG_laws E ph big nn mesh regs mpcs0 loads fixes s).
  Notation small := (small_crit QcG cfg s).
  Variable P : list QcG -> list (iter QcG) -> Prop.
  Hypothesis HP : forall st st' c it, ninvq st -> P (nl_U st) (nl_log st) -> iteration ph cfg big slv loads fixes st = Ok (st', c) ->
    nl_log st' = nl_log st ++ [it] -> P (nl_U st') (nl_log st').

  (* iterations of one load step *)
  Definition good_group (g : list (iter QcG) * iter QcG) : Prop :=
    Forall (fun i => small i = false) (fst g) /\ small (snd g) = true /\ length (fst g) <= nl_iters cfg /\
    Forall (fun i => it_time i = it_time (snd g)) (fst g).
  Definition flat (gs : list (list (iter QcG) * iter QcG)) : list (iter QcG) := flat_map (fun g => fst g ++ [snd g]) gs.

  Lemma tc_run_app2 (a b : list (tcop QcG)) t t1 r1 : tc_run a t = (t1, r1) ->
    tc_run (a ++ b) t = let '(t2, r2) := tc_run b t1 in (t2, r1 ++ r2).
  Proof. intros H. now rewrite tc_run_app, H. Qed.

  Lemma load_loop_ok (d : QcG) : (Q2Qc 0 < d)%Qc -> forall fuel st st', ninvq st -> P (nl_U st) (nl_log st) ->
    (tc_time (nl_tc st) <= tc_end (nl_tc st))%Qc ->
    load_loop ph cfg big slv fuel d loads fixes st = Ok st' ->
    ninvq st' /\ P (nl_U st') (nl_log st') /\ tc_time (nl_tc st') = tc_end (nl_tc st) /\
    tc_end (nl_tc st') = tc_end (nl_tc st) /\ tc_start (nl_tc st') = tc_start (nl_tc st) /\
    exists gs ops rs, nl_log st' = nl_log st ++ flat gs /\ Forall good_group gs /\
      tc_run ops (nl_tc st) = (nl_tc st', rs) /\ Forall (equal_op d) ops /\ n_steps ops = S (length gs) /\
      map fst rs = repeat true (length gs) ++ [false] /\
      match rev gs with
      | [] => nl_U st' = nl_U st /\ nl_R st' = nl_R st /\ nl_g st' = nl_g st
      | g :: _ => it_after (snd g) = nl_U st' /\ it_R (snd g) = nl_R st' /\ it_g (snd g) = nl_g st' /\
          it_time (snd g) = norm_time (nl_tc st')
      end.
  Proof.
    intros Hd. induction fuel as [|fuel IH]; intros st st' I HPst HT H; cbn [load_loop] in H;
      destruct (next_step d (nl_tc st)) as [b tc] eqn:EN;
      destruct (step_times d (nl_tc st) Hd HT) as (S1 & S2 & C); rewrite EN in S1, S2, C; cbn [fst snd] in S1, S2, C;
      destruct b; try discriminate.
    - injection H as <-. cbn [nl_tc nl_U nl_log nl_R nl_g]. destruct C as [(C1 & _ & C2)|(_ & C2 & _)]; [|discriminate].
      split; [exact I|]. split; [exact HPst|]. split; [congruence|]. split; [auto|]. split; [auto|].
      exists [], [TStep d], [(false, tc_time tc)]. cbn [flat flat_map rev length repeat app map]. rewrite app_nil_r.
      split; [reflexivity|]. split; [constructor|]. cbn [tc_run]. rewrite EN. split; [reflexivity|].
      split; [repeat constructor|]. split; [reflexivity|]. split; auto.
    - apply obind_ok in H as (st1 & E1 & H).
      destruct (iterate_ok QcG QcG_laws E ph cfg big slv EX nn mesh regs mpcs0 loads fixes GN s HN HG P HP
        _ (mkNl (nl_g st) (nl_U st) (nl_R st) (nl_Uc st) (nl_E st) tc (nl_log st)) st1 I HPst E1) as (I1 & P1 & T1 & its & it & Q1 & Q2 & Q3 & Q4 & Q5 & Q6 & Q7 & Q8 & Q9).
      cbn [nl_tc nl_U nl_log nl_R nl_g] in *. destruct T1 as (T1 & T2 & T3 & T4 & T5).
      destruct C as [(_ & C2 & _)|(C1 & _ & C2)]; [discriminate|].
      assert (HT1 : (tc_time (nl_tc st1) <= tc_end (nl_tc st1))%Qc).
      { rewrite T1, T2, S1. destruct C2 as [(D1 & D2)|[([D1 D1'] & D2)|(D1 & D2)]]; [rewrite D2; apply Qcle_refl|qclra|qclra]. }
      destruct (IH st1 st' I1 P1 HT1 H) as (J1 & J2 & J3 & J4 & J5 & gs & ops & rs & R1 & R2 & R3 & R4 & R5 & R6 & R7).
      split; [exact J1|]. split; [exact J2|]. split; [congruence|]. split; [congruence|]. split; [congruence|].
      exists ((its, it) :: gs), (TStep d :: repeat TEq (S (length its)) ++ ops), ((true, tc_time tc) :: rs).
      rewrite Forall_app in Q4. destruct Q4 as [Q4 Q4']. inversion Q4' as [|? ? Q4a _]; subst.
      split; [cbn [flat flat_map fst snd]; rewrite R1, Q1, <- app_assoc; reflexivity|].
      split.
      { constructor; auto. split; [exact Q2|]. split; [exact Q3|]. cbn [fst snd]. split; [lia|].
        apply Forall_impl with (2 := Q4). intros i Hi. congruence. }
      split.
      { cbn [tc_run]. rewrite EN. rewrite (tc_run_app2 _ ops tc _ _ Q9), R3. reflexivity. }
      split.
      { constructor; [reflexivity|]. apply Forall_app. split; auto. apply Forall_forall. intros o Ho. apply repeat_spec in Ho. now subst o. }
      split.
      { unfold n_steps in *. cbn [filter is_step length]. rewrite filter_app.
        assert (EF : forall k, filter is_step (repeat (@TEq QcG) k) = []) by (induction k; auto). rewrite EF. cbn [app length]. lia. }
      split; [cbn [map length repeat app]; now rewrite R6|].
      cbn [rev]. destruct (rev gs) as [|g' gs'] eqn:EG; cbn [app]; [|exact R7].
      destruct R7 as (X1 & X2 & X3). cbn [snd]. split; [congruence|]. split; [congruence|]. split; [congruence|].
      rewrite Q4a. assert (EGs : gs = []) by (apply (f_equal (@rev _)) in EG; rewrite rev_involutive in EG; auto). subst gs.
      unfold norm_time. rewrite J3, J4, J5, T3, S2, T2. f_equal.
      assert (tc_time tc = tc_end (nl_tc st)); [|cbn [norm_time]; congruence].
      (* the next step was the end *)
      destruct ops as [|o ops]; [discriminate|].
      assert (HE : tc_time (nl_tc st') = tc_time (nl_tc st1)).
      { clear -R3 R4 R6 Hd HT1. revert R3 R4 R6 HT1. generalize (nl_tc st1) as t. revert rs.
        intros rs t R3 R4 R6 HT1.
        assert (GO : Forall good_op (o :: ops)) by (apply Forall_impl with (2 := R4); intros [x|]; cbn; [intros ->; exact Hd|auto]).
        destruct (run_shape (o :: ops) GO t (nl_tc st') rs HT1 R3) as (ts & k & U1 & U2 & U3 & U4 & U5 & U6 & U7).
        destruct ts as [|x ts]; [exact U5|]. subst rs. cbn in R6. discriminate. }
      rewrite <- T1, <- HE, J3, T2, S1. reflexivity.
    - injection H as <-. cbn [nl_tc nl_U nl_log nl_R nl_g]. destruct C as [(C1 & _ & C2)|(_ & C2 & _)]; [|discriminate].
      split; [exact I|]. split; [exact HPst|]. split; [congruence|]. split; [auto|]. split; [auto|].
      exists [], [TStep d], [(false, tc_time tc)]. cbn [flat flat_map rev length repeat app map]. rewrite app_nil_r.
      split; [reflexivity|]. split; [constructor|]. cbn [tc_run]. rewrite EN. split; [reflexivity|].
      split; [repeat constructor|]. split; [reflexivity|]. split; auto.
  Qed.
End Rat.

Lemma gnat_qn n : gnat (K := QcG) n = qn n.
Proof. induction n as [|n IH]; [reflexivity|]. cbn [gnat]. rewrite IH. symmetry. apply qn_S. Qed.
Lemma qn_pos n : 0 < n -> (Q2Qc 0 < qn n)%Qc.
Proof. intros H. unfold qn. apply this_Qclt. rewrite !this_Q2Qc. change 0%Q with (inject_Z 0). rewrite <- Zlt_Qlt. lia. Qed.

Lemma Qcdiv_lt (a c : Qc) : (Q2Qc 0 < c)%Qc -> ((a / c < c)%Qc <-> (a < c * c)%Qc).
Proof.
  intros Hc. assert (EQ : (c * (a / c) = a)%Qc) by (apply Qcmult_div_r; intros H; rewrite H in Hc; now apply Qclt_not_eq in Hc).
  apply Qclt_this in Hc. rewrite this_Q2Qc in Hc. split; intros H.
  - rewrite <- EQ at 1. apply this_Qclt. rewrite !this_mult. apply Qmult_lt_l; auto using Qclt_this.
  - rewrite <- EQ in H at 1. apply Qclt_this in H. rewrite !this_mult in H. apply this_Qclt. apply Qmult_lt_l in H; auto.
Qed.

Section Top.
  Variable E : Type.
  Variable ph : physics QcG E.
  Variable cfg : nlset QcG.
  Variable big : QcG -> bool.
  Variable slv : eqsolver QcG.
  Hypothesis EX : exact_solver slv.
  Variables (nn : nat) (mesh : list (list nat)) (regs : list reg) (mpcs0 : list (mpc QcG)) (loads fixes : list (bc QcG)).
  Hypothesis GN : good_nonlin ph nn mesh regs mpcs0 loads fixes.

  Lemma nonlin_unfold fuel e start end_ :
    nonlin_solve ph cfg big slv fuel nn mesh regs mpcs0 e start end_ loads fixes =
      obind (prepare false nn mesh regs (map bc_key fixes) mpcs0) (fun g0 => nonlin_run ph cfg big slv fuel g0 e start end_ loads fixes).
  Proof. unfold nonlin_solve, prepare. destruct (init_sequence _ _ _ _); reflexivity. Qed.

  Lemma small_mean s it : g_num (it_g it) = s -> length (it_d it) = (ns_ncon s + ns_nunk s + length mpcs0) -> 0 < ns_nunk s ->
    (Q2Qc 0 < nl_crit cfg)%Qc ->
    (small_crit QcG cfg s it = true <-> (mean_increment it < nl_crit cfg * nl_crit cfg)%Qc).
  Proof.
    intros Hg HL HU Hc. unfold small_crit, criteria, mean_increment. rewrite Hg.
    assert (LS : length (seg (it_d it) (ns_ncon s) (ns_nunk s)) = ns_nunk s).
    { apply (seg_length QcRng). refine (eq_ind_r (fun k => _ <= k) _ HL). lia. }
    rewrite LS. replace (ns_nunk s =? 0) with false by (symmetry; apply Nat.eqb_neq; lia).
    assert (HA : glt (@r0 QcG) (gabs (nl_crit cfg)) = true).
    { apply Qc_ltb_lt. change (Q2Qc 0 < Qcabs.Qcabs (nl_crit cfg))%Qc. rewrite Qcabs.Qcabs_pos; auto. now apply Qclt_le_weak. }
    rewrite HA. cbn [QcG glt gdiv]. rewrite <- Qcdiv_lt by exact Hc. split; intros H; [apply Qc_ltb_lt in H; exact H|].
    apply Qc_ltb_lt. exact H.
  Qed.

  Lemma nonlin_ok fuel e start end_ st :
    (start < end_)%Qc -> (Q2Qc 0 < end_)%Qc -> 0 < nl_steps cfg ->
    nonlin_solve ph cfg big slv fuel nn mesh regs mpcs0 e start end_ loads fixes = Ok st ->
    exists s g0, prepare false nn mesh regs (map bc_key fixes) mpcs0 = Ok g0 /\
      prob_num nn (length mesh) regs (map bc_key fixes) (length mpcs0) s /\
      (forall P : list QcG -> list (iter QcG) -> Prop, P (zeros (ns_ndofs s + length mpcs0)) [] ->
       (forall st0 st1 c it, ninv QcG QcG_laws E ph big nn mesh regs mpcs0 loads fixes s st0 ->
         P (nl_U st0) (nl_log st0) -> iteration ph cfg big slv loads fixes st0 = Ok (st1, c) ->
         nl_log st1 = nl_log st0 ++ [it] -> P (nl_U st1) (nl_log st1)) ->
       P (nl_U st) (nl_log st)) /\
      ninv QcG QcG_laws E ph big nn mesh regs mpcs0 loads fixes s st /\
      exists gs, nl_log st = flat gs /\ Forall (good_group cfg s) gs /\
        (start = Q2Qc 0 -> length gs = nl_steps cfg) /\
        exists g, In g gs /\ it_after (snd g) = nl_U st /\ it_R (snd g) = nl_R st /\ it_g (snd g) = nl_g st /\ it_time (snd g) = Q2Qc 1.
  Proof.
    intros HSE HE HS H. rewrite nonlin_unfold in H. apply obind_ok in H as (g0 & EP & H).
    destruct (whole (GR QcG QcG_laws) false nn mesh regs (map bc_key fixes) mpcs0 (gn_problem _ _ _ _ _ _ _ GN)
      (gn_capacity _ _ _ _ _ _ _ GN)) as (s & g1 & E1 & HN & HG & I0 & _).
    change (prepare false nn mesh regs (map bc_key fixes) mpcs0 = Ok g1) in E1.
    assert (g1 = g0) by congruence. subst g1. clear E1.
    exists s, g0. split; auto. split; auto.
    pose proof (n_mpc_nm nn mesh regs (map bc_key fixes) s _ HN) as NM.
    pose proof (pn_sum _ _ _ _ _ _ HN) as SUM.
    unfold nonlin_run in H.
    pose proof (gi_num _ _ _ _ _ _ _ _ _ I0) as A1. change (@g_num QcG g0 = s) in A1. rewrite A1, NM in H.
    set (d := gdiv _ _) in H.
    set (st0 := mkNl g0 _ _ _ e (tc_init (K := QcG) start end_) []) in H.
    assert (HD : (Q2Qc 0 < d)%Qc).
    { unfold d. rewrite gnat_qn. cbn [QcG gdiv]. pose proof (qn_pos _ HS) as QP.
      assert (EQ : (qn (nl_steps cfg) * ((end_ - start) / qn (nl_steps cfg)) = end_ - start)%Qc)
        by (apply Qcmult_div_r; intros H0; rewrite H0 in QP; now apply Qclt_not_eq in QP).
      change (Q2Qc 0 < (end_ - start) / qn (nl_steps cfg))%Qc.
      apply Qcnot_le_lt. intros HH. assert ((qn (nl_steps cfg) * ((end_ - start) / qn (nl_steps cfg)) <= Q2Qc 0)%Qc).
      { apply this_Qcle. rewrite this_mult, this_Q2Qc. apply Qclt_this in QP. apply Qcle_this in HH. rewrite this_Q2Qc in *.
        setoid_replace 0%Q with (this (qn (nl_steps cfg)) * 0)%Q by ring. apply Qmult_le_l; auto. }
      rewrite EQ in *. qclra. }
    assert (IV : ninv QcG QcG_laws E ph big nn mesh regs mpcs0 loads fixes s st0).
    { unfold st0. split; cbn [nl_g nl_U nl_Uc nl_log].
      - do 2 eexists. exact I0.
      - split; [apply repeat_length|]. split; [|constructor].
        apply nth_ext with (d := @r0 QcG) (d' := @r0 QcG).
        + rewrite (seg_length QcRng); unfold zeros; rewrite ?repeat_length; auto. lia.
        + intros i Hi. unfold zeros in Hi. rewrite repeat_length in Hi. rewrite (nth_seg QcRng) by auto.
          rewrite !(nth_zeros QcRng). reflexivity. }
    assert (HT : (tc_time (nl_tc st0) <= tc_end (nl_tc st0))%Qc).
    { unfold st0. cbn [nl_tc tc_init tc_time tc_end]. apply Qclt_le_weak. exact HE. }
    split.
    { intros P P0 HP. apply (load_loop_ok E ph cfg big slv EX nn mesh regs mpcs0 loads fixes GN s HN HG P HP d HD fuel st0 st IV P0 HT H). }
    destruct (load_loop_ok E ph cfg big slv EX nn mesh regs mpcs0 loads fixes GN s HN HG (fun _ _ => True) (fun _ _ _ _ _ _ _ _ => I)
       d HD fuel st0 st IV I HT H) as (J1 & _ & J3 & J4 & J5 & gs & ops & rs & R1 & R2 & R3 & R4 & R5 & R6 & R7).
    unfold st0 in J3, J4, J5, R1, R3, R7. cbn [nl_tc nl_log nl_U nl_R tc_init tc_time tc_end tc_start nl_g] in J3, J4, J5, R1, R3, R7.
    split; auto. exists gs. split; auto. split; auto. split.
    { intros ES. unfold d in R4. rewrite gnat_qn in R4.
      pose proof (steps_exact (nl_steps cfg) start end_ ops (nl_tc st) rs HS ES HE R4 R3) as SE.
      rewrite R6, R5 in SE. revert SE. generalize (nl_steps cfg) (length gs). intros n k SE.
      assert (C1 : count_occ Bool.bool_dec (repeat true k ++ [false]) true = k).
      { rewrite count_occ_app. rewrite count_occ_repeat_eq by auto. cbn. lia. }
      assert (C2 : count_occ Bool.bool_dec (repeat true (Nat.min n (S k)) ++ repeat false (S k - n)) true = Nat.min n (S k)).
      { rewrite count_occ_app. rewrite count_occ_repeat_eq by auto. rewrite count_occ_repeat_neq by discriminate. lia. }
      rewrite SE, C2 in C1. lia. }
    destruct (rev gs) as [|g gs'] eqn:ER.
    - exfalso. assert (gs = []) by (apply (f_equal (@rev _)) in ER; rewrite rev_involutive in ER; auto). subst gs.
      cbn [length repeat app] in R6.
      assert (GO : Forall good_op ops) by (apply Forall_impl with (2 := R4); intros [x|]; cbn; [intros ->; exact HD|auto]).
      destruct (start_ok start end_ ops GO HE _ _ R3) as (ts & k & U1 & U2 & U3 & U4 & U5).
      destruct ts as [|x ts]; [|subst rs; discriminate]. cbn [last] in U5.
      change (Q2Qc 0) with (@r0 QcG) in U5. rewrite J3 in U5. cbn in U5. rewrite U5 in HE. now apply Qclt_not_eq in HE.
    - exists g. split; [apply in_rev; rewrite ER; now left|]. destruct R7 as (V1 & V2 & V3 & V4).
      split; auto. split; auto. split; auto. rewrite V4. unfold norm_time. rewrite J3, J4, J5. cbn [QcG gdiv gn rsub QcNum].
      unfold Qcdiv. apply Qcmult_inv_r. intros H0.
      assert (HP0 : (Q2Qc 0 < end_ - start)%Qc) by qclra. rewrite H0 in HP0. now apply Qclt_not_eq in HP0.
  Qed.

  Lemma chain_snoc (log : list (iter QcG)) it : forall U0, chain U0 log (it_before it) -> chain U0 (log ++ [it]) (it_after it).
  Proof. induction log as [|i log IH]; intros U0 H; cbn [chain app] in *; [auto|]. destruct H. split; auto. Qed.

  Lemma nunk_pos s : prob_num nn (length mesh) regs (map bc_key fixes) (length mpcs0) s -> 0 < ns_nunk s.
  Proof.
    intros HN. destruct (gp_free _ _ _ _ _ (gn_problem _ _ _ _ _ _ _ GN)) as (x & Hx & Hf).
    destruct (pn_eq _ _ _ _ _ _ HN x Hx) as (_ & Hr & Hc). pose proof (pn_sum _ _ _ _ _ _ HN).
    assert (~ eqn s x <= ns_ncon s) by (intros H1; now apply Hf, Hc). lia.
  Qed.

  Lemma nonlin_criterion fuel e start end_ st :
    (start < end_)%Qc -> (Q2Qc 0 < end_)%Qc -> 0 < nl_steps cfg -> (Q2Qc 0 < nl_crit cfg)%Qc ->
    nonlin_solve ph cfg big slv fuel nn mesh regs mpcs0 e start end_ loads fixes = Ok st ->
    exists gs, nl_log st = flat_map (fun g => fst g ++ [snd g]) gs /\ (start = Q2Qc 0 -> length gs = nl_steps cfg) /\
      Forall (fun g : list (iter QcG) * iter QcG => length (fst g) <= nl_iters cfg /\ Forall (fun i => it_time i = it_time (snd g)) (fst g) /\
        Forall (fun i : iter QcG => ~ (mean_increment i < nl_crit cfg * nl_crit cfg)%Qc) (fst g) /\
        (mean_increment (snd g) < nl_crit cfg * nl_crit cfg)%Qc) gs.
  Proof.
    intros H1 H2 H3 H4 H. destruct (nonlin_ok fuel e start end_ st H1 H2 H3 H)
      as (s & g0 & _ & HN & _ & (_ & _ & _ & IV) & gs & G1 & G2 & G3 & _).
    exists gs. split; [exact G1|]. split; auto. pose proof (nunk_pos s HN) as NP.
    assert (SM : forall it, In it (nl_log st) -> (small_crit QcG cfg s it = true <-> (mean_increment it < nl_crit cfg * nl_crit cfg)%Qc)).
    { intros it Hit. rewrite Forall_forall in IV. destruct (IV it Hit) as [GI GS]. apply small_mean; auto.
      destruct (gt_size _ _ _ _ _ _ GI) as (_ & S2 & _). rewrite S2. unfold g_size. rewrite GS.
      pose proof (n_mpc_nm nn mesh regs (map bc_key fixes) s _ HN). pose proof (pn_sum _ _ _ _ _ _ HN). lia. }
    assert (SUB : forall g i, In g gs -> In i (fst g ++ [snd g]) -> In i (nl_log st)).
    { intros g i Hg Hi. rewrite G1. apply in_flat_map. eauto. }
    apply Forall_forall. intros g Hg. rewrite Forall_forall in G2. destruct (G2 g Hg) as (Q1 & Q2 & Q3 & Q4).
    split; auto. split; auto. split.
    - apply Forall_forall. intros i Hi. rewrite Forall_forall in Q1. specialize (Q1 i Hi). intros HM.
      apply SM in HM; [congruence|]. apply (SUB g); auto. apply in_or_app. now left.
    - apply SM; auto. apply (SUB g); auto. apply in_or_app. right. now left.
  Qed.

  Lemma nonlin_full fuel e start end_ st :
    (start < end_)%Qc -> (Q2Qc 0 < end_)%Qc -> 0 < nl_steps cfg ->
    nonlin_solve ph cfg big slv fuel nn mesh regs mpcs0 e start end_ loads fixes = Ok st ->
    let s := g_num (nl_g st) in
    nl_log st <> [] /\ Forall (good_iter ph big regs loads fixes) (nl_log st) /\
    chain (zeros (length (reg_keys regs) + length mpcs0)) (nl_log st) (nl_U st) /\
    (forall x v, last_fix fixes x = Some v -> vget s (nl_U st) x = v) /\
    (forall x, In x (reg_keys regs) -> last_fix fixes x = None -> vget s (nl_R st) x = total_load loads x).
  Proof.
    intros H1 H2 H3 H.
    destruct (nonlin_ok fuel e start end_ st H1 H2 H3 H)
      as (s0 & g0 & _ & HN & CH & (I1 & _ & _ & IV) & gs & G1 & G2 & G3 & g & Hg & V1 & V2 & V3 & V4).
    assert (IL : In (snd g) (nl_log st)).
    { rewrite G1. apply in_flat_map. exists g. split; auto. apply in_or_app. right. now left. }
    rewrite Forall_forall in IV. destruct (IV _ IL) as [GI GS]. rewrite V3 in GS. rewrite GS. cbv zeta.
    split; [intros H0; rewrite H0 in IL; contradiction|].
    split; [apply Forall_forall; intros it Hit; apply IV; auto|].
    split.
    { apply (CH (fun U log => chain (zeros (length (reg_keys regs) + length mpcs0)) log U)).
      - cbn [chain]. now rewrite (pn_nd _ _ _ _ _ _ HN).
      - intros st0 st1 c it J1 J2 J3 J4.
        assert (HG : good_mpcs (GR QcG QcG_laws) regs (length mpcs0) mpcs0).
        { pose proof (gn_problem _ _ _ _ _ _ _ GN) as P. split; auto. split; [apply (gp_terms _ _ _ _ _ P)|apply (gp_term_keys _ _ _ _ _ P)]. }
        destruct (iteration_ok QcG QcG_laws E ph cfg big slv EX nn mesh regs mpcs0 loads fixes GN s0 HN HG st0 st1 c J1 J3)
          as (_ & _ & it' & Q1 & _ & Q3 & Q4 & _).
        rewrite Q1, <- Q4. apply chain_snoc. rewrite Q3. exact J2. }
    pose proof (gt_bc _ _ _ _ _ _ GI) as BC. rewrite V1, V2, V3, V4, GS in BC. split.
    - intros x v Hx. assert (Hr : In x (reg_keys regs)).
      { pose proof (gp_fixes _ _ _ _ _ (gn_problem _ _ _ _ _ _ _ GN)) as PF. rewrite Forall_forall in PF. apply PF.
        apply (last_fix_in QcRng fixes x v Hx). }
      specialize (BC x Hr). rewrite Hx in BC. rewrite BC. apply Qcmult_1_r.
    - intros x Hr Hx. specialize (BC x Hr). rewrite Hx in BC. rewrite BC. apply Qcmult_1_r.
  Qed.

  (* equation i is given by the user: it is the same in every iteration *)
  Lemma nonlin_mpc fuel e start end_ st i m :
    (start < end_)%Qc -> (Q2Qc 0 < end_)%Qc -> 0 < nl_steps cfg ->
    (forall e U e' ks mpcs, ph_asm ph e U = Ok (e', (ks, mpcs)) -> nth_error mpcs i = Some m) ->
    nth_error mpcs0 i = Some m ->
    nonlin_solve ph cfg big slv fuel nn mesh regs mpcs0 e start end_ loads fixes = Ok st ->
    sumof (fun t => rmul (snd t) (vget (g_num (nl_g st)) (nl_U st) (term_key t))) (mp_terms m) =
      rmul (qn (length (nl_log st)) : QcG) (mp_b m).
  Proof.
    intros H1 H2 H3 HU H0 H.
    destruct (nonlin_ok fuel e start end_ st H1 H2 H3 H)
      as (s & g0 & EP' & HN & CH & (I1 & _ & _ & IV) & gs & G1 & G2 & G3 & g & Hg & V1 & V2 & V3 & V4).
    assert (IL : In (snd g) (nl_log st)).
    { rewrite G1. apply in_flat_map. exists g. split; auto. apply in_or_app. right. now left. }
    rewrite Forall_forall in IV. destruct (IV _ IL) as [_ GS]. rewrite V3 in GS. rewrite GS.
    pose proof (gn_problem _ _ _ _ _ _ _ GN) as PB.
    apply (CH (fun U log => sumof (fun t => rmul (snd t) (vget s U (term_key t))) (mp_terms m) = rmul (qn (length log) : QcG) (mp_b m))).
    - cbn [length]. rewrite (sumof_zero QcRng); [symmetry; apply Qcmult_0_l|]. intros t _. unfold vget. rewrite (nth_zeros QcRng). apply Qcmult_0_r.
    - intros st0 st1 c it J1 J2 J3 J4.
      assert (HG : good_mpcs (GR QcG QcG_laws) regs (length mpcs0) mpcs0).
      { split; auto. split; [apply (gp_terms _ _ _ _ _ PB)|apply (gp_term_keys _ _ _ _ _ PB)]. }
      destruct (iteration_ok QcG QcG_laws E ph cfg big slv EX nn mesh regs mpcs0 loads fixes GN s HN HG st0 st1 c J1 J3)
        as (_ & _ & it' & Q1 & _ & _ & _ & _ & _ & _ & _ & (e0 & e1 & ks & mpcs & EA & HM) & UP).
      assert (Hm : In (ns_ndofs s + 1 + i, m) (mpc_list s mpcs)).
      { pose proof (HU _ _ _ _ _ EA) as HI. unfold mpc_list. rewrite (pn_mpc _ _ _ _ _ _ HN).
        destruct (gn_physics _ _ _ _ _ _ _ GN _ _ _ _ _ EA) as (_ & _ & P3).
        destruct (same_terms_good QcRng regs (length mpcs0) mpcs0 HG mpcs P3) as [LM _].
        change (length mpcs = length mpcs0) in LM. rewrite <- LM.
        assert (G : forall (l : list (mpc QcG)) a k, nth_error l k = Some m -> In (a + k, m) (combine (seq a (length l)) l)).
        { induction l as [|y l IH]; intros a [|k] Hk; cbn in Hk |- *; try discriminate.
          - left. injection Hk as ->. f_equal. lia.
          - right. replace (a + S k) with (S a + k) by lia. now apply IH. }
        apply G; auto. }
      specialize (HM _ _ Hm).
      assert (Hin : In m mpcs0) by (eapply nth_error_In; eauto).
      assert (EQ : sumof (fun t => rmul (snd t) (vget s (nl_U st1) (term_key t))) (mp_terms m) =
        radd (sumof (fun t => rmul (snd t) (vget s (nl_U st0) (term_key t))) (mp_terms m))
          (sumof (fun t => rmul (snd t) (vget s (it_d it') (term_key t))) (mp_terms m) : QcG)).
      { assert (HK : forall t, In t (mp_terms m) -> vget s (nl_U st1) (term_key t) =
           radd (vget s (nl_U st0) (term_key t)) (vget s (it_d it') (term_key t))).
        { intros t Ht. unfold vget. apply UP. destruct (pn_eq _ _ _ _ _ _ HN _ (gp_term_keys _ _ _ _ _ PB m t Hin Ht)) as (_ & Hr & _). lia. }
        clear -HK. rewrite <- (sumof_add QcRng). apply (sumof_ext QcRng). intros t Ht. rewrite HK by auto.
        apply Qcmult_plus_distr_r. }
      rewrite EQ, J2, HM, Q1, app_length. cbn [length]. replace (length (nl_log st0) + 1) with (S (length (nl_log st0))) by lia.
      rewrite qn_S. change (radd (rmul (qn (length (nl_log st0))) (mp_b m)) (mp_b m)) with (qn (length (nl_log st0)) * mp_b m + mp_b m)%Qc.
      change (qn (length (nl_log st0)) * mp_b m + mp_b m = (qn (length (nl_log st0)) + Q2Qc 1) * mp_b m)%Qc. ring.
  Qed.
End Top.
