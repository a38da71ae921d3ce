(* The transient solution as a whole (exact arithmetic) *)
From Coq Require Import QArith Qcanon Field.
From Verif Require Import Base BaseProofs SparseModel SpecSparse SparseMatProofs BlockModel SpecBlock BlockProofs
  DofModel SpecDof DofProofs NumberingProofs AsmModel SpecAsm AsmProofs AsmRun AsmFinal SolveModel SpecSolve
  SolveProofs LinearProofs GaussModel SpecGauss GaussProofs TimeModel SpecTime QcTac TimeProofs NonlinModel NonlinProofs NonlinFinal
  TransModel SpecTrans TransProofs.
Local Open Scope nat_scope.

Notation RQ := (GR QcG QcG_laws).

Section Coefs.
  Local Open Scope Qc_scope.
  Variables alpha delta dt : Qc.
  Hypothesis HA : alpha <> 0.
  Hypothesis HD : dt <> 0.
  Lemma two_ne : (1 + 1 : Qc) <> 0.
  Proof. vm_compute. discriminate. Qed.
  Notation c := (coefs (K := QcG) alpha delta dt).
  Lemma coef1 : (na1 c : Qc) = na7 c * na0 c.
  Proof. cbn. change (Q2Qc 1) with 1. field. auto. Qed.
  Lemma coef4 : (na4 c : Qc) = na7 c * na2 c - 1.
  Proof. cbn. change (Q2Qc 1) with 1. field. auto. Qed.
  Lemma coef5 : (na5 c : Qc) = na7 c * na3 c - na6 c.
  Proof. cbn. change (Q2Qc 1) with 1. field. pose proof two_ne. auto. Qed.
End Coefs.

Section Loop.
  Variable step : motion QcG -> outcome (motion QcG).
  Variables (I : motion QcG -> Prop) (P : motion QcG -> motion QcG -> Prop).
  Hypothesis HS : forall s s', I s -> step s = Ok s' -> I s' /\ P s s'.
  Lemma loop_each fuel : forall cur dt t1 s log log', I s -> time_loop fuel step cur dt t1 s log = Ok log' ->
    exists new, log' = log ++ new /\ each_step P s new /\ Forall I new.
  Proof.
    induction fuel as [|fuel IH]; intros cur dt t1 s log log' Hs H; cbn [time_loop] in H.
    - destruct (glt t1 cur); [|discriminate]. injection H as <-. exists []. rewrite app_nil_r. cbn. auto.
    - destruct (glt t1 cur).
      + injection H as <-. exists []. rewrite app_nil_r. cbn. auto.
      + apply obind_ok in H as (s' & E & H). destruct (HS _ _ Hs E) as [Hs' HP].
        destruct (IH _ _ _ _ _ _ Hs' H) as (new & -> & Q1 & Q2). exists (s' :: new). rewrite <- app_assoc. cbn. auto.
  Qed.
End Loop.

(* the steps are made at the instants of time *)
Lemma loop_instants {K : GNum} (step : motion K -> outcome (motion K)) fuel : forall cur dt t1 s log log',
  time_loop fuel step cur dt t1 s log = Ok log' ->
  exists l, instants fuel cur dt t1 = Ok l /\ length log' = length log + length l.
Proof.
  induction fuel as [|fuel IH]; intros cur dt t1 s log log' H; cbn [time_loop instants] in *.
  - destruct (glt t1 cur); [|discriminate]. injection H as <-. exists []. split; auto.
  - destruct (glt t1 cur).
    + injection H as <-. exists []. split; auto.
    + apply obind_ok in H as (s' & _ & H). destruct (IH _ _ _ _ _ _ H) as (l & -> & L). cbn [obind]. eexists; split; [reflexivity|].
      rewrite L, app_length. cbn. lia.
Qed.

Section Times.
  Local Open Scope Qc_scope.
  Lemma qn_nonneg m : 0 <= qn m.
  Proof.
    unfold qn. apply this_Qcle. change (this 0) with 0%Q. rewrite this_Q2Qc. change 0%Q with (inject_Z 0). rewrite <- Zle_Qle. lia.
  Qed.
  Lemma instants_exact (dt t1 : Qc) m : 0 < dt -> forall (cur : Qc) fuel, (m <= fuel)%nat -> t1 = cur + dt * qn m - dt ->
    exists l, instants (K := QcG) fuel cur dt t1 = Ok l /\ length l = m /\
      forall i, (i < m)%nat -> nth i l 0 = cur + dt * qn i.
  Proof.
    intros Hd. induction m as [|m IH]; intros cur fuel HF HT.
    - exists []. split; [|split; [reflexivity|intros i Hi; lia]].
      assert (G : @glt QcG t1 cur = true).
      { apply Qc_ltb_lt. change (qn 0) with (Q2Qc 0) in HT. change 0 with (Q2Qc 0) in Hd. subst t1.
        replace (cur + dt * Q2Qc 0 - dt) with (cur - dt) by (change (Q2Qc 0) with 0; ring). qclra. }
      destruct fuel; cbn [instants]; now rewrite G.
    - destruct fuel as [|fuel]; [lia|]. cbn [instants].
      assert (G : @glt QcG t1 cur = false).
      { apply Qc_ltb_ge. subst t1. rewrite qn_S. change (Q2Qc 1) with 1. replace (cur + dt * (qn m + 1) - dt) with (cur + dt * qn m) by ring.
        assert (0 <= dt * qn m).
        { rewrite <- (Qcmult_0_l (qn m)). apply Qcmult_le_compat_r; [apply Qclt_le_weak; auto|apply qn_nonneg]. }
        rewrite <- (Qcplus_0_r cur) at 1. apply Qcplus_le_compat; auto. apply Qcle_refl. }
      rewrite G. destruct (IH (cur + dt) fuel) as (l & E & L & V); [lia|subst t1; rewrite qn_S; change (Q2Qc 1) with 1; ring|].
      change (@radd QcG cur dt) with (cur + dt). rewrite E. cbn [obind]. eexists; split; [reflexivity|]. split; [exact (f_equal S L)|].
      intros [|i] Hi; cbn [nth].
      + change (cur = cur + dt * qn 0 :> Qc). change (qn 0) with (Q2Qc 0). ring.
      + etransitivity; [apply V; lia|]. change (cur + dt + dt * qn i = cur + dt * qn (S i) :> Qc). rewrite qn_S. ring.
  Qed.
  (* dt > 0 *)
  Lemma dt_ok (c : trset QcG) : (0 < tr_steps c)%nat -> tr_time0 c < tr_time1 c ->
    0 < tr_dt c /\ qn (tr_steps c) * tr_dt c = tr_time1 c - tr_time0 c.
  Proof.
    intros HS HT. pose proof (qn_pos _ HS) as QP. unfold tr_dt. rewrite gnat_qn.
    change (@gdiv QcG) with Qcdiv. change (@rsub QcG) with Qcminus.
    assert (EQ : qn (tr_steps c) * ((tr_time1 c - tr_time0 c) / qn (tr_steps c)) = tr_time1 c - tr_time0 c)
      by (apply Qcmult_div_r; intros H0; rewrite H0 in QP; now apply Qclt_not_eq in QP).
    split; [|exact EQ].
    apply Qcnot_le_lt. intros HH.
    assert (H : qn (tr_steps c) * ((tr_time1 c - tr_time0 c) / qn (tr_steps c)) <= 0).
    { rewrite Qcmult_comm, <- (Qcmult_0_l (qn (tr_steps c))). apply Qcmult_le_compat_r; auto. apply Qclt_le_weak. exact QP. }
    rewrite EQ in H. change 0 with (Q2Qc 0) in H. qclra.
  Qed.
End Times.

Section Top.
  Variable big : QcG -> bool.
  Hypothesis BIG : forall v : QcG, big v = false -> v = r0.
  Variable slv : eqsolver QcG.
  Hypothesis EX : exact_solver slv.
  Variables (nn : nat) (mesh : list (list nat)) (regs : list reg) (ks cs : list (list (contrib QcG))) (mpcs : list (mpc QcG))
    (loads fixes : list (bc QcG)).
  Hypothesis GT : good_trans nn mesh regs ks cs mpcs loads fixes.
  Variable cfg : trset QcG.
  Notation dt := (tr_dt cfg : Qc).
  Hypothesis HA : (tr_alpha cfg : Qc) <> 0%Qc.
  Hypothesis HD : dt <> 0%Qc.

  Lemma trans_unfold fuel : trans_solve fuel cfg big slv nn mesh regs ks cs mpcs loads fixes =
    (g0 <- prepare true nn mesh regs (map bc_key fixes) mpcs ;;
     r <- trans_start g0 ks cs mpcs (tr_init cfg) loads fixes ;;
     let '(g, R, s0) := r in
     match g_CM g with
     | None => UB
     | Some (C, M) =>
         K22 <- block_get (g_K g) 2 2 ;; C22 <- block_get C 2 2 ;; M22 <- block_get M 2 2 ;;
         Km <- kmod (coefs (tr_alpha cfg) (tr_delta cfg) dt) K22 M22 C22 ;;
         log <- time_loop fuel (trans_step big slv (coefs (tr_alpha cfg) (tr_delta cfg) dt) g Km M22 C22 R)
                  (radd (tr_time0 cfg) (tr_dt cfg)) dt (tr_time1 cfg) s0 [] ;;
         Ok (g, R, s0, log)
     end).
  Proof. unfold trans_solve, prepare. destruct (init_sequence _ _ _ _); reflexivity. Qed.

  (* velocity of the Newmark method (vectors of length N) *)
  Definition newmark_vel (N : nat) (s s' : motion QcG) : list QcG :=
    map (fun i => (nth i (mo_V s) r0 + dt * ((1 - tr_delta cfg) * nth i (mo_A s) r0 + tr_delta cfg * nth i (mo_A s') r0))%Qc : QcG)
      (seq 0 N).

  Lemma trans_all fuel g R s0 log : trans_solve fuel cfg big slv nn mesh regs ks cs mpcs loads fixes = Ok (g, R, s0, log) ->
    (exists l, instants fuel (radd (tr_time0 cfg) (tr_dt cfg)) dt (tr_time1 cfg) = Ok l /\ length log = length l) /\
    sizes_ok g s0 /\ length R = g_size g /\
    (forall x, In x (reg_keys regs) -> vget (g_num g) (mo_U s0) x = match last_fix fixes x with Some v => v | None => tr_init cfg end) /\
    (forall x, In x (reg_keys regs) -> vget (g_num g) R x = total_load loads x) /\
    (forall a, 1 <= a <= ns_ncon (g_num g) -> exists x v, In x (reg_keys regs) /\ eqn (g_num g) x = a /\ last_fix fixes x = Some v) /\
    (forall i, i < g_size g -> nth i (mo_V s0) r0 = r0 /\ nth i (mo_A s0) r0 = r0) /\
    exists Kf Cf Mf, read_matrices g Kf Cf Mf /\
      each_step (fun s s' => sizes_ok g s' /\ fixed_kept g s s' /\
        newmark_U (tr_alpha cfg) dt s s' /\ swapped_V (tr_delta cfg) dt s s' (mo_V s') /\
        newmark_V (tr_delta cfg) dt s s' (newmark_vel (g_size g) s s') /\
        motion_without_fixed g Kf Cf Mf R (mo_U s') (newmark_vel (g_size g) s s') (mo_A s')) s0 log.
  Proof.
    intros H. rewrite trans_unfold in H. apply obind_ok in H as (g0 & EP & H). apply obind_ok in H as ([[g' R'] s'] & ES & H).
    destruct (whole RQ true nn mesh regs (map bc_key fixes) mpcs (gr_problem _ _ _ _ _ _ _ _ GT) (gr_capacity _ _ _ _ _ _ _ _ GT))
      as (s & g1 & E1 & HN & HG & I0 & _).
    change (prepare true nn mesh regs (map bc_key fixes) mpcs = Ok g1) in E1.
    assert (g1 = g0) by congruence. subst g1. clear E1.
    pose proof (n_mpc_nm nn mesh regs (map bc_key fixes) s _ HN) as NM. pose proof (pn_sum _ _ _ _ _ _ HN) as SUM.
    pose proof (gi_num _ _ _ _ _ _ _ _ _ I0) as A1. change (@g_num QcG g0 = s) in A1.
    unfold trans_start in ES. rewrite A1, NM in ES. apply obind_ok in ES as (g1 & EA & ES). apply obind_ok in ES as ([U R1] & EB & ES).
    cbn [fst snd] in ES. injection ES as -> -> <-.
    destruct (assemble_inv RQ nn mesh regs (map bc_key fixes) s _ HN (gp_nodes _ _ _ _ _ (gr_problem _ _ _ _ _ _ _ _ GT)) mpcs HG g0 _ _ _ ks cs mpcs I0)
      as (g2 & EG & I1).
    { split; [apply GT|]. split; [apply GT|]. split; [intros _; apply GT|]. apply (same_terms_all QcRng). }
    { apply GT. }
    change (assembleGlobal (K := QcG) g0 ks cs mpcs = Ok g2) in EG. assert (g2 = g') by congruence. subst g2. clear EG.
    pose proof (gi_num _ _ _ _ _ _ _ _ _ I1) as A2. change (@g_num QcG g' = s) in A2. rewrite A2 in EB.
    assert (GS : g_size g' = ns_ndofs s + length mpcs) by (unfold g_size; now rewrite A2, NM).
    assert (PF : Forall (fun f => In (bc_key f) (reg_keys regs)) fixes).
    { apply Forall_forall. intros f Hf. pose proof (gp_fixes _ _ _ _ _ (gr_problem _ _ _ _ _ _ _ _ GT)) as PF.
      rewrite Forall_forall in PF. apply PF. now apply in_map. }
    destruct (applyBC_ok RQ nn mesh regs (map bc_key fixes) s _ HN r1 loads fixes
      (repeat (tr_init cfg) (ns_ndofs s + length mpcs)) (zeros (ns_ndofs s + length mpcs)) (gr_loads _ _ _ _ _ _ _ _ GT))
      as (U' & R2 & EB' & LU & LR & VR & VU).
    { apply Forall_forall. intros f Hf. split; [now apply in_map|]. rewrite Forall_forall in PF. auto. }
    { apply repeat_length. } { apply repeat_length. }
    change (@applyBC QcG s r1 loads fixes (repeat (tr_init cfg) (ns_ndofs s + length mpcs)) (zeros (ns_ndofs s + length mpcs)) = Ok (U', R2)) in EB'.
    assert (EU : Ok (U, R') = Ok (U', R2)) by (etransitivity; [symmetry; exact EB|exact EB']). injection EU as -> ->. clear EB' EB.
    pose proof I1 as [_ _ _ _ (C & M & x & y & ECM & BC & BM & _ & _) _ _].
    change (@g_CM QcG g' = Some (C, M)) in ECM. rewrite ECM in H.
    set (nw := coefs (tr_alpha cfg) (tr_delta cfg) dt) in *.
    set (FK := res_K RQ mesh s ks mpcs) in *. set (FC := res_CM RQ mesh s TC cs) in *. set (FM := res_CM RQ mesh s TM cs) in *.
    assert (SK : forall a b, FK a b = FK b a) by (intros a b; apply (res_K_sym RQ mesh regs); apply GT).
    assert (SC : forall a b, FC a b = FC b a) by (intros a b; apply (effs_sym RQ mesh regs); apply GT).
    assert (SM : forall a b, FM a b = FM b a) by (intros a b; apply (effs_sym RQ mesh regs); apply GT).
    destruct (setup_ok RQ nn mesh regs (map bc_key fixes) s _ HN _ g' FK FC FM _ C M I1 ECM nw) as (Km & B1 & B2 & B3 & B4 & RC & RM & RK).
    change (@block_get QcG (g_K g') 2 2 = Ok (bget QcRng (g_K g') 2 2)) in B1.
    change (@block_get QcG C 2 2 = Ok (bget QcRng C 2 2)) in B2.
    change (@block_get QcG M 2 2 = Ok (bget QcRng M 2 2)) in B3.
    change (@kmod QcG nw (bget QcRng (g_K g') 2 2) (bget QcRng M 2 2) (bget QcRng C 2 2) = Ok Km) in B4.
    rewrite B1 in H. cbn [obind] in H. rewrite B2 in H. cbn [obind] in H. rewrite B3 in H. cbn [obind] in H. rewrite B4 in H. cbn [obind] in H.
    apply obind_ok in H as (log' & EL & H). injection H as -> -> <- ->.
    set (s0 := mkMo _ _ _) in *.
    set (I := fun st : motion QcG => length (mo_U st) = ns_ndofs s + length mpcs /\ length (mo_V st) = ns_ndofs s + length mpcs /\
      length (mo_A st) = ns_ndofs s + length mpcs /\ (forall i, i < ns_ncon s -> nth i (mo_V st) r0 = r0) /\
      (forall i, i < ns_ncon s -> nth i (mo_A st) r0 = r0)).
    assert (IS0 : I s0).
    { unfold I, s0. cbn [mo_U mo_V mo_A]. split; [exact LU|]. split; [apply repeat_length|]. split; [apply repeat_length|].
      split; intros i _; apply (nth_zeros RQ). }
    split.
    { destruct (loop_instants _ _ _ _ _ _ _ _ EL) as (l & Q1 & Q2). exists l. split; auto. }
    split.
    { unfold sizes_ok. rewrite GS. destruct IS0 as (? & ? & ? & _). auto. }
    split; [rewrite GS; exact LR|]. rewrite A2.
    split.
    { intros k Hk. unfold vget. destruct (pn_eq _ _ _ _ _ _ HN _ Hk) as (_ & Hr & _).
      unfold s0. cbn [mo_U]. etransitivity; [apply VU; lia|]. rewrite (fix_at_key RQ nn mesh regs (map bc_key fixes) s _ HN) by auto.
      destruct (last_fix (K := RQ) fixes k) as [v|] eqn:EF.
      - change (last_fix (K := QcG) fixes k = Some v) in EF. rewrite EF. change (v * Q2Qc 1 = v)%Qc. ring.
      - change (last_fix (K := QcG) fixes k = None) in EF. rewrite EF.
        rewrite (nth_indep _ r0 (tr_init cfg)) by (rewrite repeat_length; lia). apply nth_repeat. }
    split.
    { intros k Hk. unfold vget. destruct (pn_eq _ _ _ _ _ _ HN _ Hk) as (_ & Hr & _). etransitivity; [apply VR; lia|].
      rewrite (load_at_key RQ nn mesh regs (map bc_key fixes) s _ HN) by (auto; apply GT). rewrite (nth_zeros RQ).
      change (Q2Qc 0 + total_load (K := QcG) loads k * Q2Qc 1 = total_load (K := QcG) loads k)%Qc. ring. }
    split.
    { intros a Ha. destruct (pn_surj _ _ _ _ _ _ HN a) as (k & Hk & Ek); [lia|].
      destruct (pn_eq _ _ _ _ _ _ HN _ Hk) as (_ & _ & Hc).
      destruct (last_fix (K := QcG) fixes k) as [v|] eqn:EF; [exists k, v; auto|]. exfalso.
      apply (last_fix_none RQ fixes k EF). apply Hc. lia. }
    split.
    { intros i _. unfold s0. cbn [mo_V mo_A]. split; apply (nth_zeros RQ). }
    exists FK, FC, FM. split.
    { exists C, M. split; auto. rewrite GS. intros a b Ha Hb.
      assert (LS : list_sum [ns_ncon s; ns_nunk s + n_mpc s] = ns_ndofs s + length mpcs)
        by (apply (rows_sum nn mesh regs (map bc_key fixes)); exact HN).
      split; [|split].
      - refine (gvalue_ok RQ s _ 0 (g_K g) FK a b (gi_K _ _ _ _ _ _ _ _ _ I1) SK _ _); lia.
      - refine (gvalue_ok RQ s _ x C FC a b BC SC _ _); lia.
      - refine (gvalue_ok RQ s _ y M FM a b BM SM _ _); lia. }
    destruct (loop_each (trans_step big slv nw g Km (bget QcRng M 2 2) (bget QcRng C 2 2) R) I
      (fun s s' => sizes_ok g s' /\ fixed_kept g s s' /\
        newmark_U (tr_alpha cfg) dt s s' /\ swapped_V (tr_delta cfg) dt s s' (mo_V s') /\
        newmark_V (tr_delta cfg) dt s s' (newmark_vel (g_size g) s s') /\
        motion_without_fixed g FK FC FM R (mo_U s') (newmark_vel (g_size g) s s') (mo_A s'))) with (2 := IS0) (3 := EL)
      as (new & -> & Q & _); [|exact Q].
    intros st st' (J1 & J2 & J3 & J4 & J5) HS.
    destruct (step_ok RQ nn mesh regs (map bc_key fixes) s _ HN _ big BIG slv EX g FK FC FM _ C M I1 SK SC SM nw
      (coef1 _ _ _ HA HD) (coef4 _ _ _ HA HD) (coef5 _ _ _ HA) Km RC RM RK R LR st st' J1 J2 J3 J4 J5 HS)
      as (H1 & H2 & H3 & H4 & H5 & H6 & H7 & H8 & H9).
    split; [unfold I; auto|].
    split; [unfold sizes_ok; rewrite GS; auto|].
    split; [unfold fixed_kept; rewrite A2; exact H6|].
    assert (OUT : forall (l : list QcG) i, length l = ns_ndofs s + length mpcs -> ~ i < ns_ndofs s + length mpcs -> nth i l (Q2Qc 0) = Q2Qc 0).
    { intros l i Ll Hi. apply nth_overflow. refine (eq_ind_r (fun k => k <= i) _ Ll). lia. }
    split; [|split; [|split]].
    - intros i. destruct (lt_dec i (ns_ndofs s + length mpcs)) as [Hi|Hi].
      + pose proof (H7 i Hi) as E. cbn in E. change (Q2Qc 1) with 1%Qc in E. pose proof two_ne.
        assert (EV : forall u u' v a a' : Qc, (a' = (u' - u) * (1 / (tr_alpha cfg * dt * dt)) - v * (1 / (tr_alpha cfg * dt)) - a * (1 / ((1 + 1) * tr_alpha cfg) - 1) ->
          u' = u + dt * v + dt * dt * ((Q2Qc (1 # 2) - tr_alpha cfg) * a + tr_alpha cfg * a'))%Qc).
        { intros u u' v a a' ->. replace (Q2Qc (1 # 2)) with (1 / (1 + 1))%Qc by (apply Qc_is_canon; reflexivity). field. auto. }
        apply EV. exact E.
      + rewrite !OUT by auto. ring.
    - intros i. destruct (lt_dec i (ns_ndofs s + length mpcs)) as [Hi|Hi].
      + etransitivity; [apply H8; exact Hi|]. cbn. change (Q2Qc 1) with 1%Qc.
        change (Q2Qc 0) with (@r0 QcG). ring.
      + rewrite !OUT by auto. ring.
    - intros i. unfold newmark_vel. rewrite GS. destruct (lt_dec i (ns_ndofs s + length mpcs)) as [Hi|Hi].
      + erewrite nth_map_lt with (d' := 0); [|now rewrite seq_length]. rewrite seq_nth by auto. reflexivity.
      + rewrite nth_overflow by (rewrite map_length, seq_length; lia). rewrite !OUT by auto. ring.
    - unfold motion_without_fixed. rewrite GS, A2. apply H9. intros i Hi. unfold newmark_vel.
      erewrite nth_map_lt with (d' := 0); [|now rewrite seq_length]. rewrite seq_nth by auto. cbn. change (Q2Qc 1) with 1%Qc. ring.
  Qed.
End Top.

Lemma each_step_inv {K : Num} (P P' : motion K -> motion K -> Prop) (Q : motion K -> Prop) :
  (forall s s', Q s -> P s s' -> Q s' /\ P' s s') -> forall log s, Q s -> each_step P s log -> each_step P' s log.
Proof.
  intros H. induction log as [|s' log IH]; intros s Hs HE; cbn [each_step] in *; auto.
  destruct HE as [H1 H2]. destruct (H _ _ Hs H1) as [Hs' HP']. split; auto.
Qed.

(* delta = 1/2 and zero prescribed values *)
Lemma trans_motion (big : QcG -> bool) (slv : eqsolver QcG) nn mesh regs ks cs mpcs loads fixes (cfg : trset QcG) fuel g R s0 log :
  (forall v : QcG, big v = false -> v = r0) -> exact_solver slv ->
  good_trans nn mesh regs ks cs mpcs loads fixes ->
  (tr_alpha cfg : Qc) <> 0%Qc -> (tr_dt cfg : Qc) <> 0%Qc -> tr_delta cfg = Q2Qc (1 # 2) ->
  Forall (fun f => bc_val f = r0) fixes ->
  trans_solve fuel cfg big slv nn mesh regs ks cs mpcs loads fixes = Ok (g, R, s0, log) ->
  exists Kf Cf Mf, read_matrices g Kf Cf Mf /\
    each_step (fun s s' => sizes_ok g s' /\ fixed_kept g s s' /\ newmark_U (tr_alpha cfg) (tr_dt cfg) s s' /\
        newmark_V (tr_delta cfg) (tr_dt cfg) s s' (mo_V s') /\
        motion_holds g Kf Cf Mf R (mo_U s') (mo_V s') (mo_A s')) s0 log.
Proof.
  intros BIG EX GT HA HD Hdel HZ H.
  destruct (trans_all big BIG slv EX nn mesh regs ks cs mpcs loads fixes GT cfg HA HD fuel g R s0 log H)
    as (_ & _ & _ & H1 & _ & H2 & _ & Kf & Cf & Mf & RM & HE).
  exists Kf, Cf, Mf. split; auto.
  assert (LZ : forall x v, last_fix fixes x = Some v -> v = @r0 QcG).
  { intros x v. unfold last_fix.
    assert (G : forall o, (forall w, o = Some w -> w = @r0 QcG) -> fold_left (fun o f => if key_dec (bc_key f) x then Some (bc_val f) else o) fixes o = Some v -> v = @r0 QcG).
    { clear -HZ. induction HZ as [|f fs Hf HZ IH]; intros o Ho HH; cbn [fold_left] in HH; auto.
      apply IH in HH; auto. destruct (key_dec (bc_key f) x); auto. intros w [= <-]. exact Hf. }
    apply G. discriminate. }
  revert HE. apply each_step_inv with (Q := fun s => forall i, i < ns_ncon (g_num g) -> nth i (mo_U s) r0 = @r0 QcG).
  - intros s s' Hs (P1 & P2 & P3 & P4 & P5 & P6).
    assert (Hs' : forall i, i < ns_ncon (g_num g) -> nth i (mo_U s') r0 = @r0 QcG).
    { intros i Hi. etransitivity; [apply P2; exact Hi|]. auto. }
    assert (EV : newmark_vel cfg (g_size g) s s' = mo_V s').
    { destruct P1 as (_ & L & _). apply nth_ext with (d := @r0 QcG) (d' := @r0 QcG).
      - unfold newmark_vel. rewrite map_length, seq_length. now symmetry.
      - intros i _. specialize (P4 i). specialize (P5 i). etransitivity; [exact P5|]. symmetry. etransitivity; [exact P4|].
        rewrite Hdel. replace (1 - Q2Qc (1 # 2))%Qc with (Q2Qc (1 # 2)) by (apply Qc_is_canon; reflexivity).
        change (Q2Qc 0) with (@r0 QcG). match goal with |- ?a = ?b => change (@eq Qc a b) end. ring. }
    rewrite EV in P5, P6. split; auto. split; auto. split; auto. split; auto. split; auto.
    intros a Ha. rewrite P6 by auto.
    rewrite (sumof_zero RQ) by (intros k Hk; apply in_seq in Hk; rewrite Hs' by lia; apply Qcmult_0_r).
    apply Qcplus_0_r.
  - intros i Hi. destruct (H2 (i + 1)) as (x & v & Hx & Ex & Lx); [lia|].
    specialize (H1 x Hx). rewrite Lx in H1. unfold vget in H1. rewrite Ex in H1. replace (i + 1 - 1) with i in H1 by lia.
    rewrite H1. eauto.
Qed.

Lemma trans_count (big : QcG -> bool) (slv : eqsolver QcG) nn mesh regs ks cs mpcs loads fixes (cfg : trset QcG) fuel g R s0 log :
  0 < tr_steps cfg -> (tr_time0 cfg < tr_time1 cfg)%Qc -> tr_steps cfg <= fuel ->
  (exists l, instants fuel (radd (tr_time0 cfg) (tr_dt cfg)) (tr_dt cfg) (tr_time1 cfg) = Ok l /\ length l = tr_steps cfg /\
    (forall i, i < tr_steps cfg -> (nth i l r0 : Qc) = (tr_time0 cfg + qn (S i) * tr_dt cfg)%Qc) /\
    (nth (tr_steps cfg - 1) l r0 : Qc) = tr_time1 cfg) /\
  (trans_solve fuel cfg big slv nn mesh regs ks cs mpcs loads fixes = Ok (g, R, s0, log) -> length log = tr_steps cfg).
Proof.
  intros HS HT HF. destruct (dt_ok cfg HS HT) as [HD HE].
  destruct (instants_exact (tr_dt cfg) (tr_time1 cfg) (tr_steps cfg) HD (tr_time0 cfg + tr_dt cfg)%Qc fuel HF) as (l & E & L & V).
  { replace (tr_time1 cfg : Qc) with (tr_time0 cfg + (tr_time1 cfg - tr_time0 cfg))%Qc by ring. rewrite <- HE. ring. }
  assert (VV : forall i, i < tr_steps cfg -> (nth i l r0 : Qc) = (tr_time0 cfg + qn (S i) * tr_dt cfg)%Qc).
  { intros i Hi. etransitivity; [apply V; exact Hi|]. rewrite qn_S. ring. }
  split.
  - exists l. split; [exact E|]. split; [exact L|]. split; [exact VV|].
    rewrite VV by lia. replace (S (tr_steps cfg - 1)) with (tr_steps cfg) by lia. rewrite HE. ring.
  - intros H. unfold trans_solve in H. apply obind_ok in H as (s1 & _ & H). apply obind_ok in H as (g1 & _ & H).
    apply obind_ok in H as ([[g' R'] s'] & _ & H). destruct (g_CM g') as [[C M]|]; [|discriminate].
    apply obind_ok in H as (? & _ & H). apply obind_ok in H as (? & _ & H). apply obind_ok in H as (? & _ & H).
    apply obind_ok in H as (? & _ & H). apply obind_ok in H as (lg & EL & H). injection H as -> -> -> ->.
    destruct (loop_instants _ _ _ _ _ _ _ _ EL) as (l' & E' & ->). assert (EE : Ok l' = Ok l) by (rewrite <- E'; exact E).
    injection EE as ->. exact L.
Qed.
