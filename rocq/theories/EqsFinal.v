(* Storage of the systems, agreement of the two equation solvers *)
From Coq Require Import Sorting.Sorted.
From Verif Require Import Base BaseProofs SparseModel SpecSparse SparseProofs SparseMatProofs SparseFinal BlockModel SpecBlock BlockProofs
  DofModel SpecDof DofProofs NumberingProofs AsmModel SpecAsm AsmLists AsmCalls AsmProofs AsmRun AsmFinal SolveModel SpecSolve
  SolveProofs LinearProofs GaussModel SpecGauss GaussProofs EqsModel SpecEqs EqsProofs.

(* ---------------------------------------------------------------- *)
(* the storage format *)
Lemma nth_of_error {A} (l : list A) i x d : nth_error l i = Some x -> nth i l d = x.
Proof. intros H. now apply nth_error_nth. Qed.
Lemma skipn_psum {A} (ll : list (list A)) i : skipn (psum ll i) (concat ll) = concat (skipn i ll).
Proof.
  unfold psum. rewrite <- (firstn_skipn i ll) at 2. rewrite concat_app. rewrite skipn_app, skipn_all, Nat.sub_diag. reflexivity.
Qed.
Lemma row_slots_rows s rows i : RepC s rows -> 1 <= i <= si_nrows s -> row_slots s i = map Some (nth (i - 1) rows []).
Proof.
  intros HR Hi. pose proof (RepC_len _ _ HR) as HL. unfold row_slots.
  rewrite (nth_of_error _ _ _ 0 (RepC_iofeir s rows i HR ltac:(lia))), (nth_of_error _ _ _ 0 (RepC_iofeir s rows (i - 1) HR ltac:(lia))).
  pose proof HR as (_ & (_ & L2 & _) & _). rewrite L2. cbn [Nat.sub]. rewrite Nat.sub_0_r, <- (psum_mapSome rows (i - 1)), skipn_psum.
  assert (E : psum rows i = psum rows (i - 1) + length (nth (i - 1) rows [])) by (replace i with (S (i - 1)) at 1 by lia; apply psum_S; lia).
  rewrite E, psum_mapSome. replace (psum rows (i - 1) + length (nth (i - 1) rows []) - psum rows (i - 1)) with (length (nth (i - 1) rows [])) by lia.
  rewrite skipn_map. assert (LS : exists r', skipn (i - 1) rows = nth (i - 1) rows [] :: r').
  { exists (skipn (S (i - 1)) rows). assert (H : i - 1 < length rows) by lia. revert H. generalize (i - 1). clear. induction rows as [|r rows IH]; intros k Hk; cbn [length] in Hk; [lia|].
    destruct k as [|k]; [reflexivity|]. cbn [skipn nth]. rewrite IH by lia. reflexivity. }
  destruct LS as [r' ->]. cbn [map concat]. rewrite firstn_app, map_length, Nat.sub_diag. cbn [firstn]. rewrite app_nil_r. rewrite <- (map_length Some) at 1. now rewrite firstn_all.
Qed.
Lemma increasing_sorted n l : forall a, Forall (fun b => a < b) l -> StronglySorted lt l -> Forall (fun b => b <= n) l -> increasing a (map Some l) n = true.
Proof.
  induction l as [|b l IH]; intros a H1 H2 H3; [reflexivity|]. cbn [map increasing]. inversion H1; inversion H2; inversion H3; subst.
  replace (a <? b) with true by (symmetry; now apply Nat.ltb_lt). replace (b <=? n) with true by (symmetry; now apply Nat.leb_le). cbn [andb]. now apply IH.
Qed.
Lemma fit_rows s rows : RepC s rows -> si_ncols s = si_nrows s -> (forall i j, 1 <= i <= si_nrows s -> In j (nth (i - 1) rows []) -> i <= j) ->
  (storage_fit s = true <-> forall i, 1 <= i <= si_nrows s -> In i (nth (i - 1) rows [])).
Proof.
  intros HR HC UP. pose proof (RepC_len _ _ HR) as HL. unfold storage_fit. pose proof HR as (C & _ & RO & SO & _). rewrite C. cbn [andb].
  rewrite (nth_of_error _ _ _ 0 (RepC_iofeir s rows 0 HR ltac:(lia))), psum_0. cbn [Nat.eqb andb]. rewrite forallb_forall. split.
  - intros H i Hi. specialize (H i ltac:(apply in_seq; lia)). unfold row_fit in H. rewrite (row_slots_rows s rows i HR Hi) in H.
    destruct (nth (i - 1) rows []) as [|c l]; cbn [map] in H; [discriminate|]. apply andb_true_iff in H as [H _]. apply Nat.eqb_eq in H. left. exact H.
  - intros H i Hi. apply in_seq in Hi. assert (Hi' : 1 <= i <= si_nrows s) by lia. specialize (H i Hi'). unfold row_fit. rewrite (row_slots_rows s rows i HR Hi').
    assert (IR : In (nth (i - 1) rows []) rows) by (apply nth_In; lia). specialize (UP i). destruct (RO _ IR) as [_ RG]. pose proof (SO _ IR) as SS.
    destruct (nth (i - 1) rows []) as [|c l]; [destruct H|]. cbn [map]. inversion SS as [|? ? S1 S2]; subst. assert (Ec : c = i).
    { destruct H as [H|H]; [exact H|]. rewrite Forall_forall in S2. specialize (S2 i H). specialize (UP c Hi' ltac:(now left)). lia. }
    subst c. rewrite Nat.eqb_refl. cbn [andb]. apply increasing_sorted; auto. apply Forall_forall. intros b Hb. rewrite <- HC. apply RG. now right.
Qed.
Lemma fit_mrep (K : Rng) (m : smat K) n P f : mrep m n n P f -> (forall i j, P i j -> i <= j) -> (storage_fit (sm_si m) = true <-> forall i, 1 <= i <= n -> P i i).
Proof.
  intros (rows & v & HR & N & C & _ & _ & HP) UP. assert (RO : rows_ok (sm_si m) rows) by apply HR.
  rewrite (fit_rows (sm_si m) rows HR) by (try congruence; intros i j Hi Hj; apply UP; rewrite N in Hi;
    assert (1 <= j <= n) by (rewrite <- C; apply (RO (nth (i - 1) rows [])); [apply nth_In; rewrite (RepC_len _ _ HR), N; lia|exact Hj]); now apply HP).
  rewrite N. split; intros H i Hi; apply (proj1 (HP i i Hi Hi)); auto.
Qed.

(* ---------------------------------------------------------------- *)
(* the system of a linear problem, whatever the equation solver *)
Section System.
  Variable K : Rng.
  Add Ring Ke : (rth K).
  Local Open Scope rng_scope.
  Variable big : K -> bool.

  Lemma core_split (g : gst K) Uc R r : solve_core big (fun _ b => Ok b) g Uc R = Ok r ->
    exists m, block_get (g_K g) 2 2 = Ok m /\ exists tail, forall slv, solve_core big slv g Uc R = x <- slv m (fst r) ;; tail x.
  Proof.
    unfold solve_core. intros H. apply obind_ok in H as (K11 & E1 & H). apply obind_ok in H as (K12 & E2 & H). apply obind_ok in H as (K22 & E3 & H).
    apply obind_ok in H as (r1' & E4 & H). apply obind_ok in H as (r2' & E5 & H). apply obind_ok in H as (rhs & E6 & H). cbn [obind] in H.
    assert (ER : fst r = rhs).
    { apply obind_ok in H as (? & _ & H). apply obind_ok in H as (? & _ & H). apply obind_ok in H as (? & _ & H). injection H as <-. reflexivity. }
    exists K22. split; [exact E3|]. rewrite ER. eexists. intros slv. rewrite E1, E2, E3. cbn [obind]. rewrite E4. cbn [obind]. rewrite E5. cbn [obind]. rewrite E6. cbn [obind]. reflexivity.
  Qed.
  Lemma linear_system nn mesh regs ks mpcs loads fixes : good_linear nn mesh regs ks mpcs loads fixes ->
    exists m b A fin, (forall i j, in_shape (si_nrows (sm_si m)) (si_nrows (sm_si m)) (i, j) -> sym_value m i j = Ok (A i j)) /\ length b = si_nrows (sm_si m) /\ sm_vals m <> None /\
      (storage_fit (sm_si m) = true <-> mpcs = [] /\ forall x, In x (reg_keys regs) -> ~ In x (map bc_key fixes) -> in_element mesh x) /\
      (forall slv, linear_solve big slv nn mesh regs ks mpcs loads fixes = x <- slv m b ;; fin x) /\
      forall x, length x = si_nrows (sm_si m) -> exists st, fin x = Ok st.
  Proof.
    intros GL. destruct (linear_start K big (fun _ b => Ok b) nn mesh regs ks mpcs loads fixes GL)
      as (s & g0 & g & U & R & E0 & N0 & HN & EG & I1 & EB & LU & LR & VR & VU & EL).
    pose proof GL as [P C G O L]. pose proof (pn_sum _ _ _ _ _ _ HN) as SUM. pose proof (n_mpc_nm nn mesh regs (map bc_key fixes) s _ HN) as NM.
    assert (LUc : length (seg U 0 (ns_ncon s)) = ns_ncon s) by (apply seg_length; lia).
    destruct (core_ok K nn mesh regs (map bc_key fixes) s _ HN (all_es K nn mesh s mpcs) big (fun _ b => Ok b) g _ _ _ _ _ I1
      (fun a b => res_K_sym K mesh regs s ks mpcs a b G) LUc LR) as (K22 & rhs & E1 & D & V & LL & VV & CORE).
    destruct (CORE LL) as (Rc & E2 & _). destruct (core_split _ _ _ _ E2) as (m & E3 & tail & T). cbn [fst] in T. assert (m = K22) by congruence. subst m.
    exists K22, rhs, (fun i j => res_K K mesh s ks mpcs (ns_ncon s + i) (ns_ncon s + j)), (fun x => xr <- tail x ;; Ok (mkSol g (put_seg U (ns_ncon s) (fst xr)) (put_seg R 0 (snd xr)))).
    rewrite D. split; [exact V|]. split; [exact LL|].
    pose proof (gi_K _ _ _ _ _ _ _ _ _ I1) as B3. pose proof B3 as (W & R1 & N & Tt & HB). cbn [length] in N. pose proof (HB 2%nat 2%nat valid22) as B22.
    assert (K22 = bget K (g_K g) 2 2).
    { rewrite (block_get_ok K) in E1 by (auto; rewrite N; apply valid22). congruence. }
    split; [subst K22; destruct B22 as (rows & v & _ & _ & _ & HV & _); congruence|].
    assert (HG : good_mpcs K regs (length mpcs) mpcs).
    { split; [reflexivity|]. split; [exact (gp_terms _ _ _ _ _ P)|exact (gp_term_keys _ _ _ _ _ P)]. }
    assert (SH : forall e, In e (all_es K nn mesh s mpcs) -> in_shape (list_sum [ns_ncon s; (ns_nunk s + n_mpc s)%nat]) (list_sum [ns_ncon s; (ns_nunk s + n_mpc s)%nat]) e).
    { intros e He. rewrite (rows_sum nn mesh regs (map bc_key fixes) s _ HN). eapply (all_es_shape K); eauto. exact (gp_nodes _ _ _ _ _ P). }
    split.
    { rewrite H. pose proof (fit_mrep K _ _ _ _ B22) as FM. rewrite FM; clear FM.
      2:{ intros i j HI. rewrite <- loc_diag_up in HI. apply in_map_iff in HI as ([a b] & E & _). rewrite up_cases in E. injection E as <- <-. lia. }
      set (rows := [ns_ncon s; (ns_nunk s + n_mpc s)%nat]) in *.
      assert (BS : bsize rows 2 = (ns_nunk s + length mpcs)%nat) by (unfold rows, bsize; cbn [nth Nat.sub]; lia).
      assert (OF : offset rows 2 = ns_ncon s) by (unfold rows, offset; cbn; lia).
      assert (DG : forall i, (1 <= i <= bsize rows 2)%nat -> (In (i, i) (loc rows 2 2 (all_es K nn mesh s mpcs)) <-> sym_in (all_es K nn mesh s mpcs) (ns_ncon s + i) (ns_ncon s + i))).
      { intros i Hi. rewrite (loc_in rows 2 2 _ i i SH) by (auto; cbn; lia). rewrite OF. rewrite in_map_iff. split.
        - intros ([a b] & E & HI). rewrite up_cases in E. injection E as Ea Eb. left. replace a with (ns_ncon s + i)%nat in HI by lia. replace b with (ns_ncon s + i)%nat in HI by lia. exact HI.
        - intros HI. exists ((ns_ncon s + i)%nat, (ns_ncon s + i)%nat). rewrite up_cases, Nat.min_id, Nat.max_id. split; [reflexivity|]. destruct HI; auto. }
      pose proof (pattern K nn mesh regs (map bc_key fixes) s _ HN (gp_nodes _ _ _ _ _ P) mpcs) as PT. rewrite BS in *. split.
      - intros FI. assert (M0 : mpcs = []).
        { destruct mpcs as [|m0 mp]; [reflexivity|exfalso]. set (e := (ns_nunk s + 1)%nat). assert (He : (1 <= e <= ns_nunk s + length (m0 :: mp))%nat) by (unfold e; cbn [length]; lia).
          pose proof (proj1 (DG e He) (FI e He)) as SI. apply PT in SI; [|reflexivity]. destruct SI as [(x & y & Rx & Ry & _ & Qx & _)|(x & t & Hx & Ht & Q)].
          - destruct (pn_eq _ _ _ _ _ _ HN x Rx) as (_ & Hr & _). unfold e in Qx. lia.
          - destruct (mpc_list_in K nn mesh regs (map bc_key fixes) s _ HN _ x eq_refl Hx) as [Hm Hr]. destruct HG as (_ & _ & HK). pose proof (HK _ _ Hm Ht) as Rt.
            destruct (pn_eq _ _ _ _ _ _ HN _ Rt) as (_ & Hq & _). unfold e in Q. lia. }
        split; [exact M0|]. intros x Hx NX. destruct (pn_eq _ _ _ _ _ _ HN x Hx) as (_ & Hr & Hc). assert (Hg : (ns_ncon s < eqn s x)%nat) by (destruct (Nat.le_gt_cases (eqn s x) (ns_ncon s)) as [H1|H1]; [exfalso; tauto|exact H1]).
        set (i := (eqn s x - ns_ncon s)%nat). assert (Hi : (1 <= i <= ns_nunk s + length mpcs)%nat) by (unfold i; lia).
        pose proof (proj1 (DG i Hi) (FI i Hi)) as SI. replace (ns_ncon s + i)%nat with (eqn s x) in SI by (unfold i; lia). apply PT in SI; [|reflexivity].
        destruct SI as [(y & z & Ry & Rz & (en & He & K1 & _) & Qy & _)|(y & t & Hy & _)].
        + exists en. split; [exact He|]. rewrite <- (pn_inj _ _ _ _ _ _ HN y x Ry Hx Qy). exact K1.
        + destruct (mpc_list_in K nn mesh regs (map bc_key fixes) s _ HN _ y eq_refl Hy) as [Hm _]. rewrite M0 in Hm. destruct Hm.
      - intros [M0 FI] i Hi. apply DG; [exact Hi|]. rewrite M0 in Hi. cbn [length] in Hi. destruct (pn_surj _ _ _ _ _ _ HN (ns_ncon s + i)%nat) as (x & Hx & Ex); [lia|].
        destruct (pn_eq _ _ _ _ _ _ HN x Hx) as (_ & Hr & Hc). assert (NX : ~ In x (map bc_key fixes)) by (intros HI; apply Hc in HI; lia).
        destruct (FI x Hx NX) as (en & He & K1). apply PT; [reflexivity|]. left. exists x, x. split; [exact Hx|]. split; [exact Hx|]. split; [exists en; auto|]. auto. }
    split.
    { intros slv. rewrite (linear_unfold K), E0. cbn [obind]. unfold linear_run. rewrite EG. cbn [obind].
      rewrite N0, (gi_num _ _ _ _ _ _ _ _ _ I1), EB. cbn [obind fst snd]. rewrite T. destruct (slv K22 rhs); reflexivity. }
    intros x Lx. destruct (core_ok K nn mesh regs (map bc_key fixes) s _ HN (all_es K nn mesh s mpcs) big (fun _ _ => Ok x) g _ _ _ _ _ I1
      (fun a b => res_K_sym K mesh regs s ks mpcs a b G) LUc LR) as (K22' & rhs' & E1' & D' & V' & LL' & VV' & CORE').
    destruct (CORE' Lx) as (Rc' & E4 & _). rewrite T in E4. cbn [obind] in E4. rewrite E4. cbn [obind]. eexists; reflexivity.
  Qed.
End System.

(* ---------------------------------------------------------------- *)
Section PardisoSlv.
  Variable K : Num.
  Variable L : library K.
  Definition lib_silent (mt : Z) (m : smat K) : bool := negb (lib_err L 11 mt m) && (negb (lib_err L 22 mt m) && negb (lib_err L 33 mt m)).
  Lemma pardiso_slv_cases m b : sm_vals m <> None ->
    pardiso_slv L m b = asserting (storage_fit (sm_si m)) (checking (lib_silent (-2) m) (Ok (lib_x L m m b))).
  Proof.
    intros HV. unfold pardiso_slv, p_life, lib_silent. cbn [q_run p_step obind fst snd p_value_init p_fact p_first p_init p_sym p_pos checking].
    unfold p_fact, p_init. cbn [p_first p_sym p_pos checking]. unfold lib_analyse. destruct (sm_vals m) as [v|] eqn:EV; [|congruence].
    destruct (storage_fit (sm_si m)); [|reflexivity]. cbn [asserting]. destruct (lib_err L 11 (-2) m); [reflexivity|]. cbn [negb checking obind andb p_neq]. rewrite Nat.eqb_refl. cbn [checking p_mtype p_pt].
    unfold lib_factor. rewrite EV, same_pattern_refl. cbn [Z.eqb Pos.eqb andb asserting]. destruct (lib_err L 22 (-2) m); [reflexivity|]. cbn [negb checking obind andb].
    unfold p_subst, lib_subst. cbn [p_pt p_mtype]. rewrite EV, same_pattern_refl. cbn [Z.eqb Pos.eqb andb asserting]. destruct (lib_err L 33 (-2) m); [reflexivity|]. cbn [negb checking obind]. reflexivity.
  Qed.
  Lemma pardiso_no_values m b : sm_vals m = None -> pardiso_slv L m b = UB.
  Proof. intros EV. unfold pardiso_slv, p_life. cbn. unfold p_fact, p_init, lib_analyse. cbn. now rewrite EV. Qed.
  Lemma pardiso_solves m b x : exact_library L -> length b = si_nrows (sm_si m) -> pardiso_slv L m b = Ok x -> solves m b x.
  Proof.
    intros EX Hb E. destruct (sm_vals m) as [v|] eqn:EV; [|rewrite pardiso_no_values in E by exact EV; discriminate].
    rewrite pardiso_slv_cases in E by congruence. destruct (storage_fit (sm_si m)); [|discriminate]. cbn [asserting] in E. destruct (lib_silent (-2) m) eqn:ES; [|discriminate].
    cbn [checking] in E. injection E as <-. unfold lib_silent in ES. apply andb_true_iff in ES as [_ ES]. apply andb_true_iff in ES as [E2 E3]. apply (EX (-2)%Z); auto.
    - now destruct (lib_err L 22 (-2) m).
    - now destruct (lib_err L 33 (-2) m).
  Qed.
  Lemma pardiso_exact : exact_library L -> exact_solver (pardiso_slv L).
  Proof.
    intros EX m n A b x HN HV Lb E. subst n. destruct (pardiso_solves m b x EX Lb E) as [Lx S]. split; [exact Lx|]. intros i Hi. exact (S A HV i Hi).
  Qed.
End PardisoSlv.
Section Linear.
  Variable K : Rng.
  Local Open Scope rng_scope.
  Variable big : K -> bool.
  Variable L : library K.
  Hypothesis EX : exact_library L.
  Lemma linear_pardiso nn mesh regs ks loads fixes : good_linear nn mesh regs ks [] loads fixes ->
    (forall x, In x (reg_keys regs) -> ~ In x (map bc_key fixes) -> in_element mesh x) ->
    linear_solve big (pardiso_slv L) nn mesh regs ks [] loads fixes = Fatal \/ exists st, linear_solve big (pardiso_slv L) nn mesh regs ks [] loads fixes = Ok st.
  Proof.
    intros GL HE. destruct (linear_system K big nn mesh regs ks [] loads fixes GL) as (m & b & A & fin & V & Lb & NV & FT & LS & FN).
    rewrite LS. rewrite pardiso_slv_cases by exact NV. rewrite (proj2 FT (conj eq_refl HE)). cbn [asserting]. destruct (lib_silent K L (-2) m) eqn:ES; [|now left]. right. cbn [checking obind]. apply FN.
    apply (pardiso_solves K L m b (lib_x L m m b) EX Lb). rewrite pardiso_slv_cases by exact NV. now rewrite (proj2 FT (conj eq_refl HE)), ES.
  Qed.
  Lemma linear_pardiso_total nn mesh regs ks loads fixes : good_linear nn mesh regs ks [] loads fixes -> (forall ph m, lib_err L ph (-2) m = false) ->
    (forall x, In x (reg_keys regs) -> ~ In x (map bc_key fixes) -> in_element mesh x) -> exists st, linear_solve big (pardiso_slv L) nn mesh regs ks [] loads fixes = Ok st.
  Proof.
    intros GL HS HE. destruct (linear_system K big nn mesh regs ks [] loads fixes GL) as (m & b & A & fin & V & Lb & NV & FT & LS & FN).
    rewrite LS. assert (ES : lib_silent K L (-2) m = true) by (unfold lib_silent; now rewrite !HS). assert (E : pardiso_slv L m b = Ok (lib_x L m m b)).
    { rewrite pardiso_slv_cases by exact NV. now rewrite (proj2 FT (conj eq_refl HE)), ES. }
    rewrite E. cbn [obind]. apply FN. exact (proj1 (pardiso_solves K L m b _ EX Lb E)).
  Qed.
  Lemma linear_pardiso_ub nn mesh regs ks mpcs loads fixes : good_linear nn mesh regs ks mpcs loads fixes ->
    (mpcs <> [] \/ exists x, In x (reg_keys regs) /\ ~ In x (map bc_key fixes) /\ ~ in_element mesh x) ->
    linear_solve big (pardiso_slv L) nn mesh regs ks mpcs loads fixes = UB.
  Proof.
    intros GL HE. destruct (linear_system K big nn mesh regs ks mpcs loads fixes GL) as (m & b & A & fin & V & Lb & NV & FT & LS & FN).
    rewrite LS. rewrite pardiso_slv_cases by exact NV. destruct (storage_fit (sm_si m)); [|reflexivity]. destruct (proj1 FT eq_refl) as [H1 H2]. exfalso. destruct HE as [H|(x & X1 & X2 & X3)]; auto.
  Qed.
End Linear.

Section Agree.
  Variable K : GNum.
  Variable G : glaws K.
  Local Open Scope rng_scope.
  Variable L : library K.
  Hypothesis EX : exact_library L.

  Lemma gauss_unique (m : smat K) b u x y : readable m -> length b = si_nrows (sm_si m) -> length u = si_nrows (sm_si m) -> gauss_dense u m b = Ok x -> solves m b y -> y = x.
  Proof.
    intros [A HA] Lb Lu E [Ly SY]. destruct (Nat.lt_ge_cases (si_nrows (sm_si m)) 1000) as [Hn|Hn]; [|rewrite (gauss_dense_limit K m b u Hn) in E; discriminate].
    destruct (gauss_dense_sol K G m _ A b u eq_refl Hn HA Lb Lu) as [(x' & E' & Lx & SX & UN)|E']; [|congruence]. assert (x' = x) by congruence. subst x'. apply UN; [exact Ly|]. exact (SY A HA).
  Qed.
  Lemma linear_agree (big : K -> bool) (u : nat -> list K) nn mesh regs ks mpcs loads fixes st st' : (forall n, length (u n) = n) ->
    good_linear nn mesh regs ks mpcs loads fixes -> linear_solve big (gauss_slv u) nn mesh regs ks mpcs loads fixes = Ok st ->
    linear_solve big (pardiso_slv L) nn mesh regs ks mpcs loads fixes = Ok st' -> st = st'.
  Proof.
    intros HU GL E1 E2. destruct (linear_system (GR K G) big nn mesh regs ks mpcs loads fixes GL) as (m & b & A & fin & V & Lb & NV & FT & LS & FN).
    pose proof (eq_trans (eq_sym (LS (gauss_slv u))) E1) as H1. pose proof (eq_trans (eq_sym (LS (pardiso_slv L))) E2) as H2.
    apply obind_ok in H1 as (x & X1 & X2). apply obind_ok in H2 as (y & Y1 & Y2). assert (y = x).
    { apply (gauss_unique m b (u (si_nrows (sm_si m))) x y); [exists A; exact V|exact Lb|apply HU|exact X1|]. apply (pardiso_solves K L m b y EX Lb Y1). }
    subst y. pose proof (eq_trans (eq_sym X2) Y2). congruence.
  Qed.
  (* calls of one object *)
  Lemma g_run_unique s (l : list (qcall K)) : forall last (o : gobj K) o' as_, (last <> None -> g_neq o = si_nrows s) -> (last <> None -> (si_nrows s < 1000)%nat) -> (forall m, last = Some m -> sm_si m = s) ->
    orderly s last l -> Forall (fitting (si_nrows s)) l -> q_run g_step o l = Ok (o', as_) ->
    Forall2 (fun q a => forall y, solves (fst q) (snd q) y -> y = snd a) (systems l) as_.
  Proof.
    induction l as [|c l IH]; intros last o o' as_ HO HN HS OR FI E; [cbn in E; injection E as <- <-; constructor|].
    cbn [q_run] in E. apply obind_ok in E as ([o1 as1] & E1 & E). cbn [fst snd] in E. apply obind_ok in E as ([o2 as2] & E2 & E). cbn [fst snd] in E. injection E as <- <-. inversion FI as [|? ? F1 F2]; subst.
    assert (SB : forall (o0 : gobj K) r m b x, g_neq o0 = si_nrows s -> (si_nrows s < 1000)%nat -> sm_si m = s -> length b = si_nrows s -> readable m -> length x = si_nrows s -> g_subst o0 m b x = Ok r ->
      g_neq (fst r) = si_nrows s /\ forall y, solves m b y -> y = snd (snd r)).
    { intros o0 [o3 [b' x']] m b x N0 Hl Hm Hb HR Hx ES. split.
      - unfold g_subst in ES. apply obind_ok in ES as (A & _ & ES). apply obind_ok in ES as ([[[d B] ?]|] & _ & ES); [|discriminate]. apply obind_ok in ES as ([X|] & _ & ES); [|discriminate]. injection ES as <- _ _. exact N0.
      - intros y SY. pose proof (g_subst_dense K o0 m b x ltac:(congruence) ltac:(congruence)) as GD. unfold unknowns in GD. rewrite ES in GD. cbn [obind snd] in GD.
        apply (gauss_unique m b x); auto; congruence. }
    assert (FA : forall m o3, sm_si m = s -> g_fact o m = Ok o3 -> g_neq o3 = si_nrows s /\ (si_nrows s < 1000)%nat).
    { intros m o3 Hm EF. unfold g_fact in EF. destruct (Nat.ltb_spec (si_nrows (sm_si m)) 1000) as [H|H]; [|discriminate]. cbn [checking] in EF. injection EF as <-. cbn [g_neq]. split; congruence. }
    destruct c as [b|b|m|m b x|m b x]; cbn [orderly] in OR; cbn [g_step] in E1.
    - destruct OR as [_ OR]. injection E1 as <- <-. cbn [systems app]. eapply IH; eauto.
    - injection E1 as <- <-. cbn [systems app]. eapply IH; eauto.
    - destruct OR as (Hm & Hv & OR). apply obind_ok in E1 as (o3 & EF & E1). injection E1 as <- <-. cbn [systems app]. destruct (FA m o3 Hm EF) as [H1 H2]. eapply (IH (Some m)); eauto. intros m' [= <-]. exact Hm.
    - destruct OR as (-> & Hb & OR). apply obind_ok in E1 as (r & ES & E1). injection E1 as <- <-. cbn [systems app]. destruct F1 as [R1 L1].
      destruct (SB o r m b x (HO ltac:(discriminate)) (HN ltac:(discriminate)) (HS m eq_refl) Hb R1 L1 ES) as [S1 S2]. constructor; [exact S2|]. eapply (IH (Some m) (fst r)); eauto.
    - destruct OR as (Hm & Hv & Hb & OR). apply obind_ok in E1 as (o3 & EF & E1). apply obind_ok in E1 as (r & ES & E1). injection E1 as <- <-. cbn [systems app]. destruct F1 as [R1 L1]. destruct (FA m o3 Hm EF) as [H1 H2].
      destruct (SB o3 r m b x H1 H2 Hm Hb R1 L1 ES) as [S1 S2]. constructor; [exact S2|]. eapply (IH (Some m)); eauto. intros m' [= <-]. exact Hm.
  Qed.
  Lemma calls_agree s (l : list (qcall K)) (o : gobj K) o' ga po pa lg : storage_fit s = true -> orderly s None l -> Forall (fitting (si_nrows s)) l ->
    (po = p_value_init \/ po = p_default_init /\ factorises l = true) ->
    q_run g_step o l = Ok (o', ga) -> p_life L po l = Ok (pa, lg) -> map snd ga = map snd pa.
  Proof.
    intros FT OR FI PO E1 E2. pose proof (g_run_unique s l None o o' ga ltac:(congruence) ltac:(congruence) ltac:(discriminate) OR FI E1) as GA.
    destruct (pardiso_life K L EX s FT po l PO OR) as [F|(pa' & lg' & E & A & _)]; [congruence|]. assert (pa' = pa) by congruence. subst pa'. unfold good_answers in A. clear E1 E2 E FI OR PO FT.
    revert ga pa GA A. generalize (systems l). intros q. induction q as [|q0 q IH]; intros ga pa GA A; inversion GA as [|? g ? ga' P1 P2]; inversion A as [|? a ? pa' Q1 Q2]; subst; [reflexivity|]. cbn [map]. f_equal; [|now apply IH].
    symmetry. apply P1. apply Q1.
  Qed.
End Agree.
