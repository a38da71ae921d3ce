(* The transient solution in terms of the DoFs and of the element matrices *)
From Coq Require Import Field.
From Verif Require Import Base BaseProofs SparseModel SpecSparse SparseMatProofs SparseFinal BlockModel SpecBlock BlockProofs
  DofModel SpecDof DofProofs NumberingProofs AsmModel SpecAsm AsmLists AsmCalls AsmProofs AsmRun AsmFinal SolveModel SpecSolve
  SolveProofs LinearProofs GaussModel SpecGauss GaussProofs TimeModel NonlinModel NonlinProofs SpecBal BalProofs
  TransModel SpecTrans TransProofs SpecTransKeys.

Lemma filter_none {A} (f : A -> bool) l : (forall x, In x l -> f x = false) -> filter f l = [].
Proof. induction l as [|x l IH]; intros H; cbn; auto. rewrite H by now left. apply IH. intros; apply H; now right. Qed.

Section Keys.
  Variable K : GNum.
  Variable L : glaws K.
  Add Ring Kg : (gl_ring K L).
  Local Open Scope rng_scope.
  Notation RK := (GR K L).
  Variables (nn : nat) (mesh : list (list nat)) (regs : list reg) (ks cs : list (list (contrib K))) (loads fixes : list (bc K)).
  Hypothesis GT : good_trans nn mesh regs ks cs [] loads fixes.
  Hypothesis DK : distinct_nodes mesh ks.
  Hypothesis DC : distinct_nodes mesh cs.
  Hypothesis OC : only_C cs.
  Variable cfg : trset K.
  Variable big : K -> bool.
  Let nw : newmark K := coefs (tr_alpha cfg) (tr_delta cfg) (tr_dt cfg).

  (* the matrices of a storage s *)
  Definition FK s : nat -> nat -> K := res_K RK mesh s ks [].
  Definition FC s : nat -> nat -> K := res_CM RK mesh s TC cs.
  Definition FM s : nat -> nat -> K := res_CM RK mesh s TM cs.
  Lemma FM0 s a b : FM s a b = 0.
  Proof. apply (eff_TM RK). Qed.
  Lemma FK_sum s a b : prob_num nn (length mesh) regs (map bc_key fixes) 0 s -> FK s a b = sumof (kpart s a b) (contribs mesh ks).
  Proof.
    intros HN. unfold FK. rewrite (res_K_sum RK nn mesh regs (map bc_key fixes) s 0 ks [] _ _ HN); try apply GT; try assumption.
    assert (M0 : mpc_matrix s ([] : list (mpc K)) a b = 0) by (unfold mpc_matrix, mpc_list; destruct (map snd (ns_mpc s)); reflexivity).
    cbn [rnum GR]. rewrite M0. ring.
  Qed.
  Lemma FC_sum s a b : prob_num nn (length mesh) regs (map bc_key fixes) 0 s -> FC s a b = sumof (kpart s a b) (contribs mesh cs).
  Proof.
    intros HN. unfold FC, res_CM. rewrite (eff_TC RK) by apply GT.
    rewrite !(sum_dup_zero RK nn mesh regs (map bc_key fixes) 0 s cs _ a b HN) by (apply GT || assumption).
    assert (HT : forall x, In x (contribs mesh cs) -> ctarget (snd x) = TC).
    { intros [[en nodes] c] Hx. cbn [snd]. apply (in_contribs RK) in Hx as (l & Hx & -> & Hc).
      apply in_combine_r in Hx. unfold only_C in OC. rewrite Forall_forall in OC. specialize (OC l Hx). rewrite Forall_forall in OC. auto. }
    unfold sum_matrix. cbn [rnum GR]. rewrite (filter_all (has_target TC)) by (intros x Hx; unfold has_target; now rewrite HT).
    rewrite (filter_none (has_target TM)) by (intros x Hx; unfold has_target; now rewrite HT). cbn [sumof map fold_right]. change (@sumof K _ (kpart s a b) []) with (0 : K). ring.
  Qed.

  Definition kmf s i j : K := na0 nw * FM s (ns_ncon s + i)%nat (ns_ncon s + j)%nat + na1 nw * FC s (ns_ncon s + i)%nat (ns_ncon s + j)%nat + FK s (ns_ncon s + i)%nat (ns_ncon s + j)%nat.

  Record started (s : numst) (g : gst K) (R : list K) (s0 : motion K) (Km M22 C22 : smat K) : Prop := {
    sd_num : prob_num nn (length mesh) regs (map bc_key fixes) 0 s;
    sd_inv : exists es C M, ginv RK mesh s 0 es g (FK s) (Some (FC s, FM s)) (res_F RK mesh s ks cs []) /\ g_CM g = Some (C, M) /\ C22 = bget RK C 2 2 /\ M22 = bget RK M 2 2 /\
       mrep (K := RK) C22 (ns_nunk s + 0) (ns_nunk s + 0) (pat s 0 es) (up RK s (FC s)) /\ mrep (K := RK) M22 (ns_nunk s + 0) (ns_nunk s + 0) (pat s 0 es) (up RK s (FM s)) /\
       mrep (K := RK) Km (ns_nunk s + 0) (ns_nunk s + 0) (pat s 0 es) (up RK s (fun a b => na0 nw * FM s a b + na1 nw * FC s a b + FK s a b));
    sd_U : forall x, In x (reg_keys regs) -> vget s (mo_U s0) x = match last_fix fixes x with Some v => v | None => tr_init cfg end;
    sd_R : forall x, In x (reg_keys regs) -> vget s R x = total_load loads x;
    sd_V : mo_V s0 = zeros (ns_ndofs s + 0);
    sd_A : mo_A s0 = zeros (ns_ndofs s + 0);
    sd_LU : length (mo_U s0) = (ns_ndofs s + 0)%nat;
    sd_LR : length R = (ns_ndofs s + 0)%nat }.

  Lemma trans_started : exists s g R s0 Km M22 C22, started s g R s0 Km M22 C22 /\
    forall slv fuel, trans_solve fuel cfg big slv nn mesh regs ks cs [] loads fixes =
      (log <- time_loop fuel (trans_step big slv nw g Km M22 C22 R) (tr_time0 cfg + tr_dt cfg) (tr_dt cfg) (tr_time1 cfg) s0 [] ;; Ok (g, R, s0, log)).
  Proof.
    destruct (whole RK true nn mesh regs (map bc_key fixes) [] (gr_problem _ _ _ _ _ _ _ _ GT) (gr_capacity _ _ _ _ _ _ _ _ GT))
      as (s & g0 & E0 & HN & HG & I0 & _). cbn [length] in *.
    change (prepare true nn mesh regs (map bc_key fixes) ([] : list (mpc K)) = Ok g0) in E0.
    pose proof (n_mpc_nm nn mesh regs (map bc_key fixes) s _ HN) as NM. pose proof (pn_sum _ _ _ _ _ _ HN) as SUM.
    pose proof (gi_num _ _ _ _ _ _ _ _ _ I0) as A1. change (@g_num K g0 = s) in A1.
    destruct (assemble_inv RK nn mesh regs (map bc_key fixes) s _ HN (gp_nodes _ _ _ _ _ (gr_problem _ _ _ _ _ _ _ _ GT)) [] HG g0 _ _ _ ks cs [] I0)
      as (g & EG & I1).
    { split; [apply GT|]. split; [apply GT|]. split; [intros _; apply GT|]. apply (same_terms_all RK). }
    { apply GT. }
    change (assembleGlobal (K := K) g0 ks cs [] = Ok g) in EG.
    pose proof (gi_num _ _ _ _ _ _ _ _ _ I1) as A2. change (@g_num K g = s) in A2.
    assert (PF : Forall (fun f => In (bc_key f) (reg_keys regs)) fixes).
    { apply Forall_forall. intros f Hf. pose proof (gp_fixes _ _ _ _ _ (gr_problem _ _ _ _ _ _ _ _ GT)) as PF.
      rewrite Forall_forall in PF. apply PF. now apply in_map. }
    destruct (applyBC_ok RK nn mesh regs (map bc_key fixes) s _ HN r1 loads fixes
      (repeat (tr_init cfg) (ns_ndofs s + 0)) (zeros (ns_ndofs s + 0)) (gr_loads _ _ _ _ _ _ _ _ GT))
      as (U & R & EB & LU & LR & VR & VU).
    { apply Forall_forall. intros f Hf. split; [now apply in_map|]. rewrite Forall_forall in PF. auto. }
    { apply repeat_length. } { apply repeat_length. }
    change (@applyBC K s r1 loads fixes (repeat (tr_init cfg) (ns_ndofs s + 0)) (zeros (ns_ndofs s + 0)) = Ok (U, R)) in EB.
    pose proof I1 as [_ _ _ _ (C & M & x & y & ECM & BC & BM & _ & _) _ _].
    change (@g_CM K g = Some (C, M)) in ECM.
    destruct (setup_ok RK nn mesh regs (map bc_key fixes) s _ HN _ g (FK s) (FC s) (FM s) _ C M I1 ECM nw) as (Km & B1 & B2 & B3 & B4 & RC & RM & RKm).
    change (@block_get K (@g_K K g) 2 2 = Ok (bget RK (g_K g) 2 2)) in B1.
    change (@block_get K C 2 2 = Ok (bget RK C 2 2)) in B2.
    change (@block_get K M 2 2 = Ok (bget RK M 2 2)) in B3.
    change (@kmod K nw (bget RK (@g_K K g) 2 2) (bget RK M 2 2) (bget RK C 2 2) = Ok Km) in B4.
    exists s, g, R, (mkMo U (zeros (ns_ndofs s + 0)) (zeros (ns_ndofs s + 0))), Km, (bget RK M 2 2), (bget RK C 2 2). split.
    - split.
      + exact HN.
      + exists (all_es RK nn mesh s []), C, M. split; [exact I1|]. split; [exact ECM|]. split; [reflexivity|]. split; [reflexivity|]. split; [exact RC|]. split; [exact RM|exact RKm].
      + intros k Hk. unfold vget. destruct (pn_eq _ _ _ _ _ _ HN _ Hk) as (_ & Hr & _).
        cbn [mo_U]. etransitivity; [apply VU; lia|]. rewrite (fix_at_key RK nn mesh regs (map bc_key fixes) s _ HN) by auto.
        destruct (last_fix (K := RK) fixes k) as [v|] eqn:EF.
        * change (last_fix (K := K) fixes k = Some v) in EF. rewrite EF. cbn [rnum GR]. ring.
        * change (last_fix (K := K) fixes k = None) in EF. rewrite EF.
          rewrite (nth_indep _ r0 (tr_init cfg)) by (rewrite repeat_length; lia). apply nth_repeat.
      + intros k Hk. unfold vget. destruct (pn_eq _ _ _ _ _ _ HN _ Hk) as (_ & Hr & _). etransitivity; [apply VR; lia|].
        rewrite (load_at_key RK nn mesh regs (map bc_key fixes) s _ HN) by (auto; apply GT). rewrite (nth_zeros RK). cbn [rnum GR]. ring.
      + reflexivity.
      + reflexivity.
      + exact LU.
      + exact LR.
    - intros slv fuel.
      assert (UN : trans_solve fuel cfg big slv nn mesh regs ks cs [] loads fixes =
        (g0 <- prepare true nn mesh regs (map bc_key fixes) [] ;;
         r <- trans_start g0 ks cs [] (tr_init cfg) loads fixes ;;
         let '(g, R, s0) := r in
         match g_CM g with
         | None => UB
         | Some (C, M) =>
             K22 <- block_get (g_K g) 2 2 ;; C22 <- block_get C 2 2 ;; M22 <- block_get M 2 2 ;;
             Km <- kmod nw K22 M22 C22 ;;
             log <- time_loop fuel (trans_step big slv nw g Km M22 C22 R)
                      (radd (tr_time0 cfg) (tr_dt cfg)) (tr_dt cfg) (tr_time1 cfg) s0 [] ;;
             Ok (g, R, s0, log)
         end)) by (unfold trans_solve, prepare; cbn [length map]; destruct (init_sequence _ _ _ _); reflexivity).
      rewrite UN, E0. cbn [obind]. unfold trans_start. rewrite A1, NM, EG. cbn [obind]. rewrite A2, EB. cbn [obind fst snd]. rewrite ECM, B1. cbn [obind].
      rewrite B2. cbn [obind]. rewrite B3. cbn [obind]. match goal with |- obind ?e _ = _ => replace e with (Ok Km) by (symmetry; exact B4) end. reflexivity.
  Qed.

  Variables (s : numst) (g : gst K) (R : list K) (s0 : motion K) (Km M22 C22 : smat K).
  Hypothesis SD : started s g R s0 Km M22 C22.
  Notation total := (ns_ndofs s + 0)%nat.
  Notation nc := (ns_ncon s).
  Notation n := (ns_nunk s + 0)%nat.
  Let HN := sd_num _ _ _ _ _ _ _ SD.

  Lemma g_is : g_num g = s.
  Proof. destruct (sd_inv _ _ _ _ _ _ _ SD) as (es & C & M & I & _). exact (gi_num _ _ _ _ _ _ _ _ _ I). Qed.
  Lemma SYK a b : FK s a b = FK s b a.
  Proof. apply (res_K_sym RK mesh regs). apply GT. Qed.
  Lemma SYC a b : FC s a b = FC s b a.
  Proof. apply (effs_sym RK mesh regs). apply GT. Qed.
  Lemma SYM a b : FM s a b = FM s b a.
  Proof. now rewrite !FM0. Qed.
  Lemma Km_dim : si_nrows (sm_si Km) = n.
  Proof. destruct (sd_inv _ _ _ _ _ _ _ SD) as (es & C & M & I & _ & _ & _ & _ & _ & RK0). destruct (mrep_dims RK _ _ _ _ _ RK0) as (D1 & _). exact D1. Qed.
  Lemma Km_val i j : in_shape n n (i, j) -> sym_value Km i j = Ok (kmf s i j).
  Proof.
    destruct (sd_inv _ _ _ _ _ _ _ SD) as (es & C & M & I & _ & _ & _ & _ & _ & RK0). intros [Hi Hj]. cbn [fst snd] in Hi, Hj.
    etransitivity; [apply (sym_value_spec RK _ _ _ _ i j RK0); auto|]. f_equal.
    etransitivity; [apply (symf_up RK s); intros a b; now rewrite (SYM a b), (SYC a b), (SYK a b)|]. reflexivity.
  Qed.

  (* a step ends where its equations have been solved *)
  Definition sized (st : motion K) : Prop := length (mo_U st) = total /\ length (mo_V st) = total /\ length (mo_A st) = total.
  Lemma step_core st : sized st -> exists q f, length q = n /\ (forall slv, trans_step big slv nw g Km M22 C22 R st = (x <- slv Km q ;; f x)) /\
    forall x, length x = n -> exists st', f x = Ok st'.
  Proof.
    intros (LU & LV & LA). pose proof (pn_sum _ _ _ _ _ _ HN) as SUM. pose proof g_is as A1. pose proof (n_mpc_nm nn mesh regs (map bc_key fixes) s 0 HN) as NM.
    destruct (sd_inv _ _ _ _ _ _ _ SD) as (es & C & M & I & _ & EC & EM & RC & RM & RK0). pose proof (sd_LR _ _ _ _ _ _ _ SD) as LR. pose proof (gi_FL _ _ _ _ _ _ _ _ _ I) as LF. cbn [rnum GR] in LF.
    unfold trans_step. rewrite A1, NM.
    destruct (vzip_ok RK radd (seg (g_F g) nc n) (seg R nc n)) as (q0 & E0 & L0 & _).
    { cbn [rnum GR]. rewrite !(seg_length RK); cbn [rnum GR]; lia. }
    cbn [rnum GR] in *. rewrite (seg_length RK) in L0 by (cbn [rnum GR]; lia).
    destruct (vzip3_ok RK (fun u v a => u * na0 nw + v * na2 nw + a * na3 nw) (seg (mo_U st) nc n) (seg (mo_V st) nc n) (seg (mo_A st) nc n))
      as (v1 & E1 & L1 & _); [rewrite !(seg_length RK); cbn [rnum GR]; lia|rewrite !(seg_length RK); cbn [rnum GR]; lia|].
    rewrite (seg_length RK) in L1 by (cbn [rnum GR]; lia).
    destruct (sym_BVprod_spec RK big M22 n (pat s 0 es) (up RK s (FM s)) v1 r1 q0 RM) as (q1 & E2 & L2 & _); [exact L1|apply Nat.eq_le_incl; symmetry; exact L0|].
    destruct (vzip3_ok RK (fun u v a => u * na1 nw + v * na4 nw + a * na5 nw) (seg (mo_U st) nc n) (seg (mo_V st) nc n) (seg (mo_A st) nc n))
      as (v2 & E3 & L3 & _); [rewrite !(seg_length RK); cbn [rnum GR]; lia|rewrite !(seg_length RK); cbn [rnum GR]; lia|].
    rewrite (seg_length RK) in L3 by (cbn [rnum GR]; lia).
    destruct (sym_BVprod_spec RK big C22 n (pat s 0 es) (up RK s (FC s)) v2 r1 q1 RC) as (q2 & E4 & L4 & _); [exact L3|apply Nat.eq_le_incl; symmetry; exact (eq_trans L2 L0)|].
    cbn [rnum GR] in *.
    exists q2, (fun x => let U' := seg (mo_U st) 0 nc ++ x in
      dU <- vzip rsub U' (mo_U st) ;;
      A' <- vzip3 (fun d v a => d * na0 nw - v * na2 nw - a * na3 nw) dU (mo_V st) (mo_A st) ;;
      V' <- vzip3 (fun v a' a => v + a' * na6 nw + a * na7 nw) (mo_V st) A' (mo_A st) ;;
      Ok (mkMo U' V' A')). split; [exact (eq_trans L4 (eq_trans L2 L0))|]. split.
    - intros slv. cbv zeta. rewrite E0. cbn [obind]. rewrite E1. cbn [obind]. rewrite E2. cbn [obind]. rewrite E3. cbn [obind]. rewrite E4. reflexivity.
    - intros x Lx. cbv zeta. set (U' := seg (mo_U st) 0 nc ++ x).
      assert (LU' : length U' = total) by (unfold U'; rewrite app_length, (seg_length RK); cbn [rnum GR]; lia).
      destruct (vzip_ok RK rsub U' (mo_U st)) as (dU & E5 & L5 & _); [cbn [rnum GR] in *; lia|]. cbn [rnum GR] in *. rewrite E5. cbn [obind].
      destruct (vzip3_ok RK (fun d v a => d * na0 nw - v * na2 nw - a * na3 nw) dU (mo_V st) (mo_A st)) as (A' & E6 & L6 & _); [cbn [rnum GR] in *; lia|cbn [rnum GR] in *; lia|].
      cbn [rnum GR] in *. rewrite E6. cbn [obind].
      destruct (vzip3_ok RK (fun v a' a => v + a' * na6 nw + a * na7 nw) (mo_V st) A' (mo_A st)) as (V' & E7 & L7 & _); [cbn [rnum GR] in *; lia|cbn [rnum GR] in *; lia|].
      cbn [rnum GR] in *. rewrite E7. cbn [obind]. eauto.
  Qed.

  (* rows of the matrix of a step *)
  Definition under (x : list K) : list K := repeat 0 nc ++ x.
  Lemma under_row (F : nat -> nat -> K) x i : mv (fun i j => F (nc + i)%nat (nc + j)%nat) n x (S i) = mv F total (under x) (nc + S i).
  Proof.
    pose proof (pn_sum _ _ _ _ _ _ HN) as SUM. replace total with (nc + n)%nat by lia. unfold under.
    rewrite (mv_split RK) by apply repeat_length. replace (mv _ nc (repeat 0 nc) (nc + S i)) with (0 : K).
    2:{ symmetry. unfold mv. apply (sumof_zero RK). intros j _. cbn [rnum GR]. rewrite nth_repeat. cbn. ring. }
    cbn. match goal with |- ?a = 0 + ?b => transitivity b; [|ring] end. reflexivity.
  Qed.
  Lemma km_row x k : In k (reg_keys regs) -> (nc < eqn s k)%nat ->
    mv (kmf s) n x (S (eqn s k - nc - 1)) = step_free mesh ks cs (na1 nw) (vget s (under x)) k.
  Proof.
    intros Hk Lk. unfold step_free.
    pose proof (elements_stiff RK nn mesh regs (map bc_key fixes) s 0 HN ks (under x) k (gr_K _ _ _ _ _ _ _ _ GT) Hk) as S1.
    pose proof (elements_stiff RK nn mesh regs (map bc_key fixes) s 0 HN cs (under x) k (gr_C _ _ _ _ _ _ _ _ GT) Hk) as S2.
    cbn [rnum GR] in S1, S2. rewrite <- S1, <- S2. clear S1 S2.
    transitivity (mv (fun a b => na1 nw * FC s a b + FK s a b) total (under x) (nc + S (eqn s k - nc - 1))).
    - rewrite <- under_row. unfold mv. apply (sumof_ext RK). intros j _. cbn [rnum GR]. f_equal. unfold kmf. rewrite FM0. ring.
    - replace (nc + S (eqn s k - nc - 1))%nat with (eqn s k) by lia. unfold mv. rewrite <- (sumof_scal RK). rewrite <- (sumof_add RK). apply (sumof_ext RK).
      intros j _. cbn [rnum GR]. rewrite FC_sum, FK_sum by exact HN. ring.
  Qed.
  Lemma free_eq k : In k (reg_keys regs) -> (last_fix fixes k = None <-> (nc < eqn s k)%nat).
  Proof.
    intros Hk. destruct (pn_eq _ _ _ _ _ _ HN k Hk) as (_ & Hr & Hc). rewrite (last_fix_none RK). rewrite <- Hc. lia.
  Qed.
  (* the vector of given values *)
  Lemma lay (w : key -> K) : (forall k, last_fix fixes k <> None -> In k (reg_keys regs) -> w k = 0) ->
    exists z, length z = n /\ forall k, In k (reg_keys regs) -> vget s (under z) k = w k.
  Proof.
    intros W0. pose proof (pn_sum _ _ _ _ _ _ HN) as SUM.
    set (pick := fun e => match find (fun k => Nat.eqb (eqn s k) e) (reg_keys regs) with Some k => w k | None => 0 end).
    assert (PK : forall k, In k (reg_keys regs) -> pick (eqn s k) = w k).
    { intros k Hk. unfold pick. destruct (find _ (reg_keys regs)) as [k'|] eqn:F.
      - apply find_some in F as [Hk' F]. apply Nat.eqb_eq in F. now rewrite (pn_inj _ _ _ _ _ _ HN k' k Hk' Hk F).
      - exfalso. pose proof (find_none _ _ F k Hk) as Q. cbv beta in Q. rewrite Nat.eqb_refl in Q. discriminate. }
    exists (map (fun i => pick (nc + i + 1)%nat) (seq 0 n)). split; [now rewrite map_length, seq_length|].
    intros k Hk. destruct (pn_eq _ _ _ _ _ _ HN k Hk) as (_ & Hr & Hc). unfold vget, under. destruct (Nat.le_gt_cases (eqn s k) nc) as [Q|Q].
    - rewrite app_nth1 by (rewrite repeat_length; lia). rewrite nth_repeat. symmetry. apply W0; [|exact Hk]. intros X. apply (free_eq k Hk) in X. lia.
    - rewrite app_nth2 by (rewrite repeat_length; lia). rewrite repeat_length.
      rewrite (nth_indep _ 0 (pick (nc + 0 + 1)%nat)) by (rewrite map_length, seq_length; lia).
      rewrite (map_nth (fun i => pick (nc + i + 1)%nat)), seq_nth by lia. rewrite <- (PK k Hk). f_equal. lia.
  Qed.

  Lemma stiff_same (cc : list (list (contrib K))) v w k : good_contribs mesh regs cc -> (forall k, In k (reg_keys regs) -> v k = w k) ->
    sumof (stiff_on v k) (contribs mesh cc) = sumof (stiff_on w k) (contribs mesh cc).
  Proof.
    intros [_ G] E. apply (sumof_ext RK). intros [[en nodes] c] Hx. unfold stiff_on. apply (sumof_ext RK). intros p Hp. destruct (key_dec _ k); [|reflexivity].
    cbn [elem_stiff]. apply (sumof_ext RK). intros j Hj. apply in_seq in Hj. cbn [rnum GR]. f_equal. apply E.
    destruct (G _ _ _ Hx) as [_ GK]. rewrite Forall_forall in GK. apply GK, nth_In. lia.
  Qed.
  Lemma force_same (cc : list (list (contrib K))) v w k : good_contribs mesh regs cc -> (forall k, In k (reg_keys regs) -> v k = w k) ->
    sumof (force_on v k) (contribs mesh cc) = sumof (force_on w k) (contribs mesh cc).
  Proof.
    intros [_ G] E. apply (sumof_ext RK). intros [[en nodes] c] Hx. unfold force_on. apply (sumof_ext RK). intros p Hp. destruct (key_dec _ k); [|reflexivity].
    cbn [elem_force elem_stiff]. f_equal. apply (sumof_ext RK). intros j Hj. apply in_seq in Hj. cbn [rnum GR]. f_equal. apply E.
    destruct (G _ _ _ Hx) as [_ GK]. rewrite Forall_forall in GK. apply GK, nth_In. lia.
  Qed.

  (* one step *)
  Definition calm (st : motion K) : Prop := sized st /\ (forall i, (i < nc)%nat -> nth i (mo_V st) 0 = 0) /\ (forall i, (i < nc)%nat -> nth i (mo_A st) 0 = 0).
  Lemma calm0 : calm s0.
  Proof.
    split; [|split].
    - split; [exact (sd_LU _ _ _ _ _ _ _ SD)|]. rewrite (sd_V _ _ _ _ _ _ _ SD), (sd_A _ _ _ _ _ _ _ SD). split; apply repeat_length.
    - intros i _. rewrite (sd_V _ _ _ _ _ _ _ SD). apply (nth_zeros RK).
    - intros i _. rewrite (sd_A _ _ _ _ _ _ _ SD). apply (nth_zeros RK).
  Qed.
  Lemma step_flow (slv : eqsolver K) st st' : (forall v, big v = false -> v = 0) -> exact_solver slv ->
    na1 nw = na7 nw * na0 nw -> na4 nw = na7 nw * na2 nw - 1 -> na5 nw = na7 nw * na3 nw - na6 nw ->
    calm st -> trans_step big slv nw g Km M22 C22 R st = Ok st' ->
    calm st' /\
    (forall k, In k (reg_keys regs) -> last_fix fixes k <> None -> mU g st' k = mU g st k) /\
    (forall k, In k (reg_keys regs) -> mA g st' k = (mU g st' k - mU g st k) * na0 nw - mV g st k * na2 nw - mA g st k * na3 nw) /\
    (forall k, In k (reg_keys regs) -> mV g st' k = mV g st k + mA g st' k * na6 nw + mA g st k * na7 nw) /\
    flow_holds mesh regs ks cs loads fixes (mU g st') (fun k => mV g st k + mA g st' k * na7 nw + mA g st k * na6 nw).
  Proof.
    intros BIG EX N1 N4 N5 ((LU & LV & LA) & ZV & ZA) HS. pose proof g_is as GI. pose proof (pn_sum _ _ _ _ _ _ HN) as SUM.
    destruct (sd_inv _ _ _ _ _ _ _ SD) as (es & C & M & I & ECM & EC & EM & RC & RM & RK0). pose proof (sd_LR _ _ _ _ _ _ _ SD) as LR.
    rewrite EC, EM in HS. rewrite EC in RC. rewrite EM in RM.
    destruct (step_ok RK nn mesh regs (map bc_key fixes) s _ HN es big BIG slv EX g (FK s) (FC s) (FM s) _ C M I SYK SYC SYM nw
      N1 N4 N5 Km RC RM RK0 R LR st st' LU LV LA ZV ZA HS) as (H1 & H2 & H3 & H4 & H5 & H6 & H7 & H8 & H9).
    cbn [rnum GR] in *.
    assert (RG : forall k, In k (reg_keys regs) -> (eqn s k - 1 < total)%nat) by (intros k Hk; destruct (pn_eq _ _ _ _ _ _ HN k Hk) as (_ & ? & _); lia).
    split; [unfold calm, sized; auto|]. unfold mU, mV, mA. rewrite GI.
    split; [|split; [|split]].
    - intros k Hk Fk. unfold vget. apply H6. destruct (pn_eq _ _ _ _ _ _ HN k Hk) as (_ & Hr & _).
      assert (~ (nc < eqn s k)%nat) by (intros X; apply Fk, free_eq; assumption). lia.
    - intros k Hk. unfold vget. apply H7. auto.
    - intros k Hk. unfold vget. apply H8. auto.
    - intros k Hk Fk. pose proof (proj1 (free_eq k Hk) Fk) as Lk. destruct (pn_eq _ _ _ _ _ _ HN k Hk) as (_ & Hr & _).
      set (h := fun i => nth i (mo_V st) 0 + nth i (mo_A st') 0 * na7 nw + nth i (mo_A st) 0 * na6 nw).
      set (W := map h (seq 0 total)).
      assert (HW : forall i, (i < total)%nat -> nth i W 0 = h i).
      { intros i Hi. unfold W. rewrite (nth_indep _ 0 (h 0%nat)) by (rewrite map_length, seq_length; exact Hi). rewrite map_nth, seq_nth by exact Hi. reflexivity. }
      specialize (H9 W HW (eqn s k) ltac:(lia)).
      pose proof (elements_stiff RK nn mesh regs (map bc_key fixes) s 0 HN cs W k (gr_C _ _ _ _ _ _ _ _ GT) Hk) as S1. cbn [rnum GR] in S1.
      rewrite (stiff_same cs _ (vget s W) k (gr_C _ _ _ _ _ _ _ _ GT)) by (intros x Hx; unfold vget; rewrite HW by auto; reflexivity).
      rewrite <- S1. clear S1.
      set (x := seg (mo_U st') nc n).
      assert (Lx : length x = n) by (unfold x; rewrite (seg_length RK); cbn [rnum GR]; lia).
      rewrite (force_same ks _ (vget s (under x)) k (gr_K _ _ _ _ _ _ _ _ GT)).
      2:{ intros y Hy. unfold free. destruct (pn_eq _ _ _ _ _ _ HN y Hy) as (_ & Hry & _). unfold vget, under. destruct (Nat.le_gt_cases (eqn s y) nc) as [Q|Q].
          - rewrite app_nth1 by (rewrite repeat_length; lia). rewrite nth_repeat. destruct (last_fix fixes y) eqn:Fy; [reflexivity|]. apply (free_eq y Hy) in Fy. lia.
          - rewrite (proj2 (free_eq y Hy) Q). rewrite app_nth2 by (rewrite repeat_length; lia). rewrite repeat_length. unfold x. rewrite (nth_seg RK) by lia. cbn [rnum GR]. f_equal. lia. }
      pose proof (elements_mv RK nn mesh regs (map bc_key fixes) s 0 HN ks (under x) k (gr_K _ _ _ _ _ _ _ _ GT) Hk) as S2. cbn [rnum GR] in S2. rewrite <- S2. clear S2.
      rewrite <- (sd_R _ _ _ _ _ _ _ SD k Hk). unfold vget.
      assert (F1 : nth (eqn s k - 1) (g_F g) 0 = sum_vector s mesh ks (eqn s k)).
      { etransitivity; [apply (gi_F _ _ _ _ _ _ _ _ _ I); lia|]. unfold res_F, mpc_list. destruct (map snd (ns_mpc s)); reflexivity. }
      rewrite F1 in H9.
      assert (M1 : mv (FM s) total (mo_A st') (eqn s k) = 0).
      { unfold mv. apply (sumof_zero RK). intros j _. cbn [rnum GR]. rewrite FM0. ring. }
      rewrite M1 in H9.
      assert (M2 : mv (FC s) total W (eqn s k) = mv (fun a b => sumof (kpart s a b) (contribs mesh cs)) total W (eqn s k)).
      { unfold mv. apply (sumof_ext RK). intros j _. cbn [rnum GR]. now rewrite FC_sum by exact HN. }
      rewrite M2 in H9.
      assert (M3 : mv (FK s) total (mo_U st') (eqn s k) - headsum RK (FK s) nc (mo_U st') (eqn s k) =
        mv (fun a b => sumof (kpart s a b) (contribs mesh ks)) total (under x) (eqn s k)).
      { transitivity (mv (FK s) total (under x) (eqn s k)).
        - replace total with (nc + n)%nat by lia. pose proof (mv_parts RK (FK s) nc n (mo_U st') (eqn s k)) as P1. pose proof (mv_parts RK (FK s) nc n (under x) (eqn s k)) as P2.
          cbn [rnum GR] in P1, P2. rewrite P1, P2.
          assert (Z : headsum RK (FK s) nc (under x) (eqn s k) = 0).
          { apply (headsum_zero RK). intros i Hi. cbn [rnum GR]. unfold under. rewrite app_nth1 by (rewrite repeat_length; lia). apply nth_repeat. }
          rewrite Z. assert (TT : tailsum RK (FK s) nc n (mo_U st') (eqn s k) = tailsum RK (FK s) nc n (under x) (eqn s k)).
          { unfold tailsum. apply (sumof_ext RK). intros j Hj. apply in_seq in Hj. cbn [rnum GR]. f_equal. unfold under.
            rewrite app_nth2 by (rewrite repeat_length; lia). rewrite repeat_length. unfold x. rewrite (nth_seg RK) by lia. cbn [rnum GR]. f_equal. lia. }
          rewrite TT. cbn [rnum GR]. ring.
        - unfold mv. apply (sumof_ext RK). intros j _. cbn [rnum GR]. now rewrite FK_sum by exact HN. }
      rewrite <- M3.
      match type of H9 with 0 + ?a + ?b = ?c + ?d + ?e => transitivity ((0 + a + b) - e - c); [cbn; ring|rewrite H9; cbn; ring] end.
  Qed.

  (* Gaussian elimination *)
  Variable u : nat -> list K.
  Hypothesis HU : forall n, length (u n) = n.
  Lemma step_gauss st : sized st -> trans_step big (gauss_slv u) nw g Km M22 C22 R st = Fatal \/
    exists st', trans_step big (gauss_slv u) nw g Km M22 C22 R st = Ok st'.
  Proof.
    intros SZ. destruct (step_core st SZ) as (q & f & Lq & EF & FX). rewrite EF. unfold gauss_slv. rewrite Km_dim.
    destruct (Nat.lt_ge_cases n 1000) as [H|H].
    - destruct (gauss_dense_sol K L Km n (kmf s) q (u n) Km_dim H Km_val Lq (HU n)) as [(x & -> & Lx & _)| ->]; [|now left]. right. cbn [obind]. now apply FX.
    - left. rewrite gauss_dense_limit; [reflexivity|]. now rewrite Km_dim.
  Qed.
  (* the equations of a step were refused *)
  Lemma step_refused st : (length (reg_keys regs) < 1000)%nat -> sized st -> trans_step big (gauss_slv u) nw g Km M22 C22 R st = Fatal ->
    exists w : key -> K, (forall k, last_fix fixes k <> None -> In k (reg_keys regs) -> w k = 0) /\
      (exists k, In k (reg_keys regs) /\ last_fix fixes k = None /\ w k = 1) /\
      forall k, In k (reg_keys regs) -> last_fix fixes k = None -> glt (gabs (step_free mesh ks cs (na1 nw) w k)) gtiny = true.
  Proof.
    intros HL SZ. pose proof (pn_sum _ _ _ _ _ _ HN) as SUM. pose proof (pn_nd _ _ _ _ _ _ HN) as ND. assert (n < 1000)%nat as H by lia.
    destruct (step_core st SZ) as (q & f & Lq & EF & FX). rewrite EF. unfold gauss_slv. rewrite Km_dim. intros HF.
    assert (GF : gauss_dense (u n) Km q = Fatal).
    { destruct (gauss_dense_sol K L Km n (kmf s) q (u n) Km_dim H Km_val Lq (HU n)) as [(x & E & Lx & _)|E]; [|exact E]. exfalso. rewrite E in HF. cbn [obind] in HF.
      destruct (FX x Lx) as [st' Q]. congruence. }
    destruct (gauss_dense_fail K L Km n (kmf s) q (u n) Km_dim H Km_val Lq (HU n) GF) as (x & i & Lx & Hi & Xi & Q).
    exists (vget s (under x)). split; [|split].
    - intros k Nk Hk. destruct (pn_eq _ _ _ _ _ _ HN k Hk) as (_ & Hr & Hc). assert (~ (nc < eqn s k)%nat) by (intros X; apply Nk, free_eq; assumption).
      unfold vget, under. rewrite app_nth1 by (rewrite repeat_length; lia). apply nth_repeat.
    - destruct (pn_surj _ _ _ _ _ _ HN (nc + S i)%nat) as (k & Hk & Ek); [lia|]. exists k. split; [exact Hk|]. split; [apply free_eq; [exact Hk|lia]|].
      unfold vget, under. rewrite app_nth2 by (rewrite repeat_length; lia). rewrite repeat_length, <- Xi. f_equal. lia.
    - intros k Hk Fk. apply (free_eq k Hk) in Fk. rewrite <- (km_row x k Hk Fk). apply Q. destruct (pn_eq _ _ _ _ _ _ HN k Hk) as (_ & Hr & _). lia.
  Qed.
  (* the equations of a step were solved: they have one solution *)
  Lemma step_held st st' : sized st -> trans_step big (gauss_slv u) nw g Km M22 C22 R st = Ok st' ->
    forall w : key -> K, (forall k, last_fix fixes k <> None -> In k (reg_keys regs) -> w k = 0) ->
      (forall k, In k (reg_keys regs) -> last_fix fixes k = None -> step_free mesh ks cs (na1 nw) w k = 0) ->
      forall k, In k (reg_keys regs) -> w k = 0.
  Proof.
    intros SZ HS w W0 W1 k Hk. pose proof (pn_sum _ _ _ _ _ _ HN) as SUM.
    destruct (last_fix fixes k) as [y|] eqn:Fk; [apply W0; congruence|].
    destruct (step_core st SZ) as (q & f & Lq & EF & FX). rewrite EF in HS. clear EF. unfold gauss_slv in HS. rewrite Km_dim in HS. apply obind_ok in HS as (x & HS & _).
    assert (n < 1000)%nat as H.
    { destruct (Nat.lt_ge_cases n 1000) as [H|H]; [exact H|]. rewrite gauss_dense_limit in HS; [discriminate|]. now rewrite Km_dim. }
    destruct (lay w W0) as (z & Lz & VZ).
    assert (SW : forall k, In k (reg_keys regs) -> step_free mesh ks cs (na1 nw) (vget s (under z)) k = step_free mesh ks cs (na1 nw) w k).
    { intros k' Hk'. unfold step_free. f_equal; [f_equal|].
      - apply (sumof_ext RK). intros [[en nodes] c] Hx. unfold stiff_on. apply (sumof_ext RK). intros p Hp. destruct (key_dec _ k'); [|reflexivity].
        cbn [elem_stiff]. apply (sumof_ext RK). intros j Hj. apply in_seq in Hj. cbn [rnum GR]. f_equal. apply VZ.
        destruct (gr_C _ _ _ _ _ _ _ _ GT) as [_ G]. destruct (G _ _ _ Hx) as [_ GK]. rewrite Forall_forall in GK. apply GK, nth_In. lia.
      - apply (sumof_ext RK). intros [[en nodes] c] Hx. unfold stiff_on. apply (sumof_ext RK). intros p Hp. destruct (key_dec _ k'); [|reflexivity].
        cbn [elem_stiff]. apply (sumof_ext RK). intros j Hj. apply in_seq in Hj. cbn [rnum GR]. f_equal. apply VZ.
        destruct (gr_K _ _ _ _ _ _ _ _ GT) as [_ G]. destruct (G _ _ _ Hx) as [_ GK]. rewrite Forall_forall in GK. apply GK, nth_In. lia. }
    assert (Z0 : forall i, (i < n)%nat -> mv (kmf s) n z (S i) = 0).
    { intros i Hi. destruct (pn_surj _ _ _ _ _ _ HN (nc + S i)%nat) as (k' & Hk' & Ek); [lia|].
      assert (Fk' : last_fix fixes k' = None) by (apply free_eq; [exact Hk'|lia]).
      pose proof (km_row z k' Hk' ltac:(lia)) as Q. replace (S (eqn s k' - nc - 1)) with (S i) in Q by lia. rewrite Q, (SW k' Hk'). now apply W1. }
    destruct (gauss_dense_sol K L Km n (kmf s) q (u n) Km_dim H Km_val Lq (HU n)) as [(x' & E' & Lx & SX & UX)|E']; [|congruence].
    set (y := map (fun j => nth j x' 0 + nth j z 0) (seq 0 n)).
    assert (Ny : forall i, (i < n)%nat -> nth i y 0 = nth i x' 0 + nth i z 0).
    { intros i Hi. unfold y. rewrite (nth_indep _ 0 (nth 0 x' 0 + nth 0 z 0)) by (rewrite map_length, seq_length; lia).
      rewrite (map_nth (fun j => nth j x' 0 + nth j z 0)), seq_nth by lia. reflexivity. }
    assert (Ey : y = x').
    { apply UX; [unfold y; now rewrite map_length, seq_length|]. intros i Hi.
      transitivity (mv (kmf s) n x' (S i) + mv (kmf s) n z (S i)); [|rewrite SX, Z0 by auto; ring].
      unfold mv. rewrite <- (sumof_add RK). apply (sumof_ext RK). intros j Hj. apply in_seq in Hj. cbn [rnum GR].
      rewrite Ny by lia. ring. }
    apply (free_eq k Hk) in Fk. destruct (pn_eq _ _ _ _ _ _ HN k Hk) as (_ & Hr & _).
    rewrite <- (VZ k Hk). unfold vget, under. rewrite app_nth2 by (rewrite repeat_length; lia). rewrite repeat_length.
    assert (Q := Ny (eqn s k - 1 - nc)%nat). rewrite Ey in Q.
    match goal with |- ?a = 0 => transitivity (nth (eqn s k - 1 - nc) x' 0 + a - nth (eqn s k - 1 - nc) x' 0); [ring|] end.
    rewrite <- Q by lia. ring.
  Qed.
End Keys.
