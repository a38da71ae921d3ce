(* The linear solution as a whole *)
From Verif Require Import Base BaseProofs SparseModel SpecSparse SparseMatProofs SparseFinal BlockModel SpecBlock BlockProofs
  DofModel SpecDof DofProofs NumberingProofs AsmModel SpecAsm AsmLists AsmCalls AsmProofs AsmRun AsmFinal SolveModel SpecSolve
  SolveProofs.

Section MpcRow.
  Variable K : Rng.
  Add Ring Kr : (rth K).
  Local Open Scope rng_scope.
  Variables (nn : nat) (mesh : list (list nat)) (regs : list reg) (fixes : list key) (s : numst) (nm : nat).
  Hypothesis HN : prob_num nn (length mesh) regs fixes nm s.
  Notation total := (ns_ndofs s + nm)%nat.
  Implicit Types (ks : list (list (contrib K))) (mpcs : list (mpc K)).

  Lemma kpart_high ks a b : good_contribs mesh regs ks -> (ns_ndofs s < a)%nat ->
    sumof (eff K s TK a b) (contribs mesh ks) = 0.
  Proof.
    intros [_ G] Ha. apply sumof_zero. intros [[en nodes] c] Hx. destruct (G _ _ _ Hx) as [_ GK].
    unfold eff. cbn [snd]. destruct (tgt_eqb (real_target K c) TK); auto.
    assert (AE : forall p, (p < length (ckeys en nodes c))%nat -> at_eq s (ckeys en nodes c) p a = false).
    { intros p Hp. unfold at_eq. apply Nat.eqb_neq. rewrite Forall_forall in GK.
      assert (I : In (nth p (ckeys en nodes c) dkey) (reg_keys regs)) by (apply GK, nth_In; auto).
      destruct (pn_eq _ _ _ _ _ _ HN _ I) as (_ & Hr & _). lia. }
    cbn [kpart dpart]. unfold mat_part, dup_part.
    rewrite (sumof_zero K _ (seq 0 _)).
    - destruct (Nat.eqb a b); [|ring]. rewrite (sumof_zero K _ (seq 0 _)); [ring|].
      intros p Hp. apply in_seq in Hp. apply sumof_zero. intros q _. now rewrite AE by lia.
    - intros p Hp. apply in_seq in Hp. apply sumof_zero. intros q _. now rewrite AE by lia.
  Qed.

  Lemma mpc_nodup mpcs : NoDup (map fst (mpc_list s mpcs)).
  Proof.
    unfold mpc_list. rewrite (pn_mpc _ _ _ _ _ _ HN).
    assert (L : forall (l : list nat) (m : list (mpc K)), NoDup l -> NoDup (map fst (combine l m))).
    { induction l as [|y l IH]; intros [|m0 m] N; cbn; constructor; inversion N; subst; auto.
      intros Hy. apply in_map_iff in Hy as ([u w] & Eu & Hu). cbn in Eu. subst u. apply in_combine_l in Hu. auto. }
    apply L, seq_NoDup.
  Qed.

  Lemma sum_one {A} (l : list A) (x0 : A) (f : A -> K) (key : A -> nat) : NoDup (map key l) -> In x0 l ->
    (forall x, In x l -> key x <> key x0 -> f x = 0) -> sumof f l = f x0.
  Proof.
    induction l as [|x l IH]; intros ND Hin H0; [contradiction|]. cbn [map] in ND. inversion ND as [|? ? N1 N2]; subst.
    rewrite sumof_cons. destruct Hin as [->|Hin].
    - rewrite (sumof_zero K); [ring|]. intros y Hy. apply H0; [now right|]. intros E. apply N1. rewrite <- E. now apply in_map.
    - rewrite IH; auto.
      + rewrite H0; [ring|now left|]. intros E. apply N1. rewrite E. now apply in_map.
      + intros y Hy. apply H0. now right.
  Qed.

  Lemma mpc_row mpcs x0 (V : list K) : length mpcs = nm -> In x0 (mpc_list s mpcs) ->
    (forall m t, In m mpcs -> In t (mp_terms m) -> In (term_key t) (reg_keys regs)) ->
    mv (mpc_matrix s mpcs) total V (fst x0) =
      sumof (fun t => snd t * vget s V (term_key t)) (mp_terms (snd x0)).
  Proof.
    intros L Hx0 HT. unfold mv, mpc_matrix.
    destruct (mpc_list_in K nn mesh regs fixes s nm HN mpcs x0 L Hx0) as [Hm0 Hr0].
    assert (EQ : forall x t, In x (mpc_list s mpcs) -> In t (mp_terms (snd x)) ->
      (1 <= eqn s (term_key t) <= ns_ndofs s)%nat).
    { intros x t Hx Ht. destruct (mpc_list_in K nn mesh regs fixes s nm HN mpcs x L Hx) as [Hm _].
      destruct (pn_eq _ _ _ _ _ _ HN _ (HT _ _ Hm Ht)) as (_ & Hr & _). exact Hr. }
    rewrite (sumof_ext K _ (fun b => sumof (fun t => if Nat.eqb (eqn s (term_key t)) b then snd t * nth (b - 1) V 0 else 0)
       (mp_terms (snd x0)))).
    - rewrite sumof_swap. apply sumof_ext. intros t Ht. specialize (EQ x0 t Hx0 Ht). unfold vget.
      rewrite (sum_one (seq 1 total) (eqn s (term_key t)) _ (fun b => b)).
      + now rewrite Nat.eqb_refl.
      + rewrite map_id. apply seq_NoDup.
      + apply in_seq. lia.
      + intros b _ Hb. destruct (Nat.eqb_spec (eqn s (term_key t)) b); congruence.
    - intros b Hb. apply in_seq in Hb.
      rewrite (sum_one (mpc_list s mpcs) x0 _ fst); auto.
      + rewrite <- (sumof_scal_r K). apply sumof_ext. intros t Ht. specialize (EQ x0 t Hx0 Ht).
        unfold same_pair, here.
        destruct (Nat.eqb_spec (eqn s (term_key t)) b), (Nat.eqb_spec (fst x0) (fst x0)),
          (Nat.eqb_spec (eqn s (term_key t)) (fst x0)); cbn [andb orb]; try lia; try ring.
      + apply mpc_nodup.
      + intros x Hx Hne. apply sumof_zero. intros t Ht. specialize (EQ x t Hx Ht).
        unfold same_pair, here.
        destruct (Nat.eqb_spec (fst x) (fst x0)), (Nat.eqb_spec (eqn s (term_key t)) (fst x0)); try lia.
        cbn [andb orb]. now rewrite andb_false_l || reflexivity.
  Qed.
End MpcRow.

Section Linear.
  Variable K : Rng.
  Add Ring Kr3 : (rth K).
  Local Open Scope rng_scope.
  Implicit Types (ks : list (list (contrib K))) (mpcs : list (mpc K)) (loads fixes : list (bc K)).
  Variable big : K -> bool.
  Variable slv : eqsolver K.

  Lemma linear_unfold nn mesh regs ks mpcs loads fixes :
    linear_solve big slv nn mesh regs ks mpcs loads fixes =
      obind (prepare false nn mesh regs (map bc_key fixes) mpcs) (fun g0 => linear_run big slv g0 ks mpcs loads fixes).
  Proof. unfold linear_solve, prepare. destruct (init_sequence _ _ _ _); reflexivity. Qed.

  Lemma same_terms_refl (m : mpc K) : same_terms m m.
  Proof. reflexivity. Qed.
  Lemma same_terms_all mpcs : Forall2 same_terms mpcs mpcs.
  Proof. induction mpcs; constructor; auto using same_terms_refl. Qed.
  Lemma only_CM_nil : only_CM ([] : list (list (contrib K))).
  Proof. constructor. Qed.

  (* everything before the equation solver *)
  Lemma linear_start nn mesh regs ks mpcs loads fixes : good_linear nn mesh regs ks mpcs loads fixes ->
    exists s g0 g U R, prepare false nn mesh regs (map bc_key fixes) mpcs = Ok g0 /\ g_num g0 = s /\
      prob_num nn (length mesh) regs (map bc_key fixes) (length mpcs) s /\
      assembleGlobal g0 ks [] mpcs = Ok g /\
      ginv K mesh s (length mpcs) (all_es K nn mesh s mpcs) g (res_K K mesh s ks mpcs) None (res_F K mesh s ks [] mpcs) /\
      applyBC s r1 loads fixes (zeros (ns_ndofs s + n_mpc s)) (zeros (ns_ndofs s + n_mpc s)) = Ok (U, R) /\
      length U = (ns_ndofs s + length mpcs)%nat /\ length R = (ns_ndofs s + length mpcs)%nat /\
      (forall a, (1 <= a <= ns_ndofs s + length mpcs)%nat -> nth (a - 1) R 0 = load_at K s loads a) /\
      (forall a, (1 <= a <= ns_ndofs s + length mpcs)%nat -> nth (a - 1) U 0 = fix_at K s r1 fixes a 0) /\
      linear_solve big slv nn mesh regs ks mpcs loads fixes =
        (xr <- solve_core big slv g (seg U 0 (ns_ncon s)) R ;;
         Ok (mkSol g (put_seg U (ns_ncon s) (fst xr)) (put_seg R 0 (snd xr)))).
  Proof.
    intros [P C G O L]. destruct (whole K false nn mesh regs (map bc_key fixes) mpcs P C) as (s & g0 & E & HN & HG & I0 & _).
    destruct (assemble_inv K nn mesh regs (map bc_key fixes) s _ HN (gp_nodes _ _ _ _ _ P) mpcs HG g0 _ _ _ ks [] mpcs I0)
      as (g & EG & I1).
    { split; auto. split; auto. split; [discriminate|]. apply same_terms_all. }
    { apply only_CM_nil. }
    pose proof (n_mpc_nm nn mesh regs (map bc_key fixes) s _ HN) as NM.
    destruct (applyBC_ok K nn mesh regs (map bc_key fixes) s _ HN r1 loads fixes
      (zeros (ns_ndofs s + n_mpc s)) (zeros (ns_ndofs s + n_mpc s)) L) as (U & R & EB & LU & LR & VR & VU).
    { apply Forall_forall. intros f Hf. split; [now apply in_map|].
      pose proof (gp_fixes _ _ _ _ _ P) as PF. rewrite Forall_forall in PF. apply PF. now apply in_map. }
    { rewrite zeros_length. congruence. } { rewrite zeros_length. congruence. }
    exists s, g0, g, U, R. split; auto. split; [apply I0|]. split; auto. split; auto. split; [exact I1|].
    split; auto. split; auto. split; auto. split.
    { intros a Ha. rewrite VR, nth_zeros by auto. ring. }
    split.
    { intros a Ha. rewrite VU, nth_zeros by auto. reflexivity. }
    rewrite linear_unfold, E. cbn [obind]. unfold linear_run. rewrite EG. cbn [obind].
    rewrite (gi_num _ _ _ _ _ _ _ _ _ I0), (gi_num _ _ _ _ _ _ _ _ _ I1), EB. reflexivity.
  Qed.

  Lemma res_K_sym mesh regs s ks mpcs a b : good_contribs mesh regs ks -> res_K K mesh s ks mpcs a b = res_K K mesh s ks mpcs b a.
  Proof. intros G. unfold res_K. rewrite (effs_sym K mesh regs s TK ks a b G). now rewrite mpc_matrix_sym. Qed.

  Hypothesis EX : exact_solver slv.
  Lemma linear_solution nn mesh regs ks mpcs loads fixes st : good_linear nn mesh regs ks mpcs loads fixes ->
    (forall x v, last_fix fixes x = Some v -> big v = false -> v = 0) ->
    linear_solve big slv nn mesh regs ks mpcs loads fixes = Ok st ->
    exists Kf, let s := g_num (so_g st) in let N := g_size (so_g st) in
      N = (length (reg_keys regs) + length mpcs)%nat /\
      length (so_U st) = N /\ length (so_R st) = N /\ length (g_F (so_g st)) = N /\
      (forall a b, (1 <= a <= N)%nat -> (1 <= b <= N)%nat -> gvalue (g_K (so_g st)) a b = Ok (Kf a b)) /\
      (forall a, (1 <= a <= N)%nat ->
         mv Kf N (so_U st) a = nth (a - 1) (g_F (so_g st)) 0 + nth (a - 1) (so_R st) 0) /\
      (forall x v, last_fix fixes x = Some v -> vget s (so_U st) x = v) /\
      (forall x, In x (reg_keys regs) -> last_fix fixes x = None -> vget s (so_R st) x = total_load loads x) /\
      (forall e m, In (e, m) (mpc_list s mpcs) ->
         nth (e - 1) (so_R st) 0 = 0 /\
         sumof (fun t => snd t * vget s (so_U st) (term_key t)) (mp_terms m) = mp_b m).
  Proof.
    intros GL HB HS. destruct (linear_start nn mesh regs ks mpcs loads fixes GL)
      as (s & g0 & g & U & R & E0 & N0 & HN & EG & I1 & EB & LU & LR & VR & VU & EL).
    rewrite EL in HS. apply obind_ok in HS as ([x Rc] & EC & HS). injection HS as <-. cbn [so_g so_U so_R fst snd] in *.
    pose proof I1 as [A1 A2 A3 A4 A5 A6 A7].
    pose proof (n_mpc_nm nn mesh regs (map bc_key fixes) s _ HN) as NM.
    pose proof (pn_sum _ _ _ _ _ _ HN) as SUM. pose proof (pn_nd _ _ _ _ _ _ HN) as ND.
    destruct GL as [P C G O L].
    assert (REG : Forall (fun f => In (bc_key f) (reg_keys regs)) fixes).
    { apply Forall_forall. intros f Hf. pose proof (gp_fixes _ _ _ _ _ P) as PF. rewrite Forall_forall in PF. apply PF. now apply in_map. }
    assert (FIXR : forall y v, last_fix fixes y = Some v -> In y (map bc_key fixes)).
    { intros y v. unfold last_fix.
      assert (LF : forall fs o, fold_left (fun o f => if key_dec (bc_key f) y then Some (bc_val f) else o) fs o = Some v ->
        o = Some v \/ In y (map bc_key fs)).
      { induction fs as [|f fs IH]; intros o H; cbn [fold_left map] in *; auto.
        apply IH in H as [H|H]; [|right; now right]. destruct (key_dec (bc_key f) y) as [Ey|_]; auto. right. now left. }
      intros H. apply LF in H as [H|H]; [discriminate|auto]. }
    assert (FIXN : forall y, last_fix fixes y = None -> ~ In y (map bc_key fixes)).
    { intros y. unfold last_fix.
      assert (LF : forall fs o, (o <> None \/ In y (map bc_key fs)) ->
         fold_left (fun o f => if key_dec (bc_key f) y then Some (bc_val f) else o) fs o <> (None : option K)).
      { induction fs as [|f fs IH]; intros o H; cbn [fold_left map] in *; [destruct H as [H|[]]; auto|].
        apply IH. destruct (key_dec (bc_key f) y) as [Ey|Ey]; [left; discriminate|].
        destruct H as [H|[H|H]]; [left; auto|congruence|right; auto]. }
      intros H Hin. apply (LF fixes None) in H; auto. }
    assert (PRE : forall y v, last_fix fixes y = Some v -> In y (reg_keys regs) /\ (eqn s y <= ns_ncon s)%nat /\ (1 <= eqn s y)%nat /\ nth (eqn s y - 1) U 0 = v).
    { intros y v Hy. apply FIXR in Hy as Hi. pose proof (gp_fixes _ _ _ _ _ P) as PF. rewrite Forall_forall in PF.
      specialize (PF y Hi). destruct (pn_eq _ _ _ _ _ _ HN y PF) as (_ & Hr & Hc). split; auto. split; [now apply Hc|].
      split; [lia|]. rewrite VU by lia.
      rewrite (fix_at_key K nn mesh regs (map bc_key fixes) s _ HN) by auto. rewrite Hy. ring. }
    assert (LUc : length (seg U 0 (ns_ncon s)) = ns_ncon s) by (apply seg_length; lia).
    assert (SMALL : forall v, In v (seg U 0 (ns_ncon s)) -> big v = false -> v = 0).
    { intros v Hv Hb. apply (In_nth _ _ 0) in Hv as (i & Hi & Ev). rewrite LUc in Hi. rewrite nth_seg in Ev by auto.
      cbn [Nat.add] in Ev. destruct (pn_surj _ _ _ _ _ _ HN (i + 1)%nat) as (y & Hy & Ey); [lia|].
      destruct (pn_eq _ _ _ _ _ _ HN y Hy) as (_ & Hr & Hc).
      assert (Hf : In y (map bc_key fixes)) by (apply Hc; lia).
      destruct (last_fix fixes y) as [w|] eqn:Ew; [|exfalso; now apply (FIXN y)].
      destruct (PRE y w Ew) as (_ & _ & _ & Eu). rewrite Ey in Eu. replace (i + 1 - 1)%nat with i in Eu by lia.
      rewrite <- Ev, Eu. apply (HB y w Ew). congruence. }
    destruct (core_solves K nn mesh regs (map bc_key fixes) s _ HN (all_es K nn mesh s mpcs) big slv EX g _ _ _ _ _ _ _ I1
      (fun a b => res_K_sym mesh regs s ks mpcs a b G) LUc LR SMALL EC) as (Lx & LRc & SYS).
    assert (EU : put_seg U (ns_ncon s) x = seg U 0 (ns_ncon s) ++ x).
    { unfold put_seg, seg. cbn [skipn]. rewrite skipn_all2 by lia. now rewrite app_nil_r. }
    assert (VRn : forall a, (1 <= a <= ns_ndofs s + length mpcs)%nat ->
      nth (a - 1) (put_seg R 0 Rc) 0 = if (a <=? ns_ncon s)%nat then nth (a - 1) Rc 0 else nth (a - 1) R 0).
    { intros a Ha. rewrite nth_put_seg by lia. cbn [Nat.leb Nat.add andb]. rewrite LRc, Nat.sub_0_r.
      destruct (Nat.ltb_spec (a - 1) (ns_ncon s)), (Nat.leb_spec a (ns_ncon s)); auto; lia. }
    assert (GS : g_size g = (ns_ndofs s + length mpcs)%nat) by (unfold g_size; rewrite A1; congruence).
    exists (res_K K mesh s ks mpcs). cbv zeta. rewrite A1, GS.
    split; [lia|]. split; [rewrite put_seg_length; lia|]. split; [rewrite put_seg_length; lia|]. split; [auto|].
    split.
    { intros a b Ha Hb. pose proof (rows_sum nn mesh regs (map bc_key fixes) s _ HN) as RS.
      apply (gvalue_ok K s (all_es K nn mesh s mpcs) 0 (g_K g) _ a b A3); [|lia|lia].
      intros; apply (res_K_sym mesh regs); auto. }
    split.
    { intros a Ha. rewrite A7, VRn by auto. rewrite EU. apply SYS. auto. }
    split.
    { intros y v Hy. destruct (PRE y v Hy) as (_ & H1 & H2 & H3). unfold vget. rewrite EU, app_nth1 by lia.
      rewrite nth_seg by lia. exact H3. }
    split.
    { intros y Hy HyN. destruct (pn_eq _ _ _ _ _ _ HN y Hy) as (_ & Hr & Hc). unfold vget. rewrite VRn by lia.
      destruct (Nat.leb_spec (eqn s y) (ns_ncon s)) as [Hle|Hgt]; [exfalso; apply (FIXN y HyN); now apply Hc|].
      rewrite VR by lia. apply (load_at_key K nn mesh regs (map bc_key fixes) s _ HN); auto. }
    intros e m Hem. destruct (mpc_list_in K nn mesh regs (map bc_key fixes) s _ HN mpcs (e, m) eq_refl Hem) as [Hm He].
    cbn [fst snd] in *.
    assert (R0 : nth (e - 1) (put_seg R 0 Rc) 0 = 0).
    { rewrite VRn by lia. replace (e <=? ns_ncon s)%nat with false by (symmetry; apply Nat.leb_gt; lia).
      rewrite VR by lia. unfold load_at. apply sumof_zero. intros l Hl. rewrite Forall_forall in L.
      destruct (pn_eq _ _ _ _ _ _ HN _ (L l Hl)) as (_ & Hr & _).
      destruct (Nat.eqb_spec (eqn s (bc_key l)) e); [lia|reflexivity]. }
    split; [exact R0|].
    pose proof (SYS e) as SE. rewrite <- VRn, R0 in SE by lia. rewrite <- EU in SE.
    assert (FE : res_F K mesh s ks [] mpcs e = mp_b m).
    { unfold res_F. pose proof (mpc_nodup K nn mesh regs (map bc_key fixes) s _ HN mpcs) as NDm.
      generalize (sum_vector s mesh ks e). revert Hem NDm. clear. generalize (mpc_list s mpcs). intros l.
      induction l as [|y l IH]; intros Hin ND v; [contradiction|]. cbn [map] in ND. inversion ND as [|? ? N1 N2]; subst.
      cbn [fold_left]. destruct Hin as [->|Hin]; [|now apply IH]. cbn [fst snd]. rewrite Nat.eqb_refl.
      cbn [fst] in N1. clear -N1. revert N1. generalize (mp_b m). induction l as [|y l IH]; intros v N1; cbn [fold_left]; auto.
      cbn [map] in N1. destruct (Nat.eqb_spec e (fst y)) as [E|_]; [exfalso; apply N1; now left|].
      apply IH. intros H. apply N1. now right. }
    rewrite FE in SE.
    assert (ME : mv (res_K K mesh s ks mpcs) (ns_ndofs s + length mpcs) (put_seg U (ns_ncon s) x) e =
      mv (mpc_matrix s mpcs) (ns_ndofs s + length mpcs) (put_seg U (ns_ncon s) x) e).
    { apply mv_ext; auto. intros j _. unfold res_K.
      rewrite (kpart_high K nn mesh regs (map bc_key fixes) s _ HN) by (auto; lia). ring. }
    rewrite ME in SE.
    pose proof (mpc_row K nn mesh regs (map bc_key fixes) s _ HN mpcs (e, m) (put_seg U (ns_ncon s) x) eq_refl Hem
      (gp_term_keys _ _ _ _ _ P)) as MR. cbn [fst snd] in MR. rewrite <- MR, SE by lia. ring.
  Qed.

  (* apart from the equation solver nothing fails *)
  Lemma linear_total nn mesh regs ks mpcs loads fixes : good_linear nn mesh regs ks mpcs loads fixes ->
    exists m b n A, si_nrows (sm_si m) = n /\ (forall i j, in_shape n n (i, j) -> sym_value m i j = Ok (A i j)) /\ length b = n /\
      match slv m b with
      | Ok _ => exists st, linear_solve big slv nn mesh regs ks mpcs loads fixes = Ok st
      | Fatal => linear_solve big slv nn mesh regs ks mpcs loads fixes = Fatal
      | UB => linear_solve big slv nn mesh regs ks mpcs loads fixes = UB
      | Loop => linear_solve big slv nn mesh regs ks mpcs loads fixes = Loop
      end.
  Proof.
    intros GL. destruct (linear_start nn mesh regs ks mpcs loads fixes GL)
      as (s & g0 & g & U & R & E0 & N0 & HN & EG & I1 & EB & LU & LR & VR & VU & EL).
    destruct GL as [P C G O L]. pose proof (pn_sum _ _ _ _ _ _ HN) as SUM.
    assert (LUc : length (seg U 0 (ns_ncon s)) = ns_ncon s) by (apply seg_length; lia).
    destruct (core_ok K nn mesh regs (map bc_key fixes) s _ HN (all_es K nn mesh s mpcs) big slv g _ _ _ _ _ I1
      (fun a b => res_K_sym mesh regs s ks mpcs a b G) LUc LR) as (K22 & rhs & E1 & D & V & LL & VV & CORE).
    exists K22, rhs. do 2 eexists. split; [exact D|]. split; [exact V|]. split; [exact LL|].
    rewrite EL. destruct (slv K22 rhs) as [x| | |] eqn:ES.
    - destruct (EX _ _ _ _ _ D V LL ES) as [Lx _]. destruct (CORE Lx) as (Rc & E2 & _). rewrite E2. eexists; reflexivity.
    - rewrite CORE. auto.
    - rewrite CORE. auto.
    - rewrite CORE. auto.
  Qed.
End Linear.

Section BCdofs.
  Variable K : Rng.
  Add Ring Kr4 : (rth K).
  Local Open Scope rng_scope.
  Lemma bc_effect transient nn mesh regs (mpcs : list (mpc K)) (loads fixes : list (bc K)) (g : gst K) (t : K) (U R : list K) :
    good_problem nn mesh regs (map bc_key fixes) mpcs -> capacity_ok nn mesh regs (map bc_key fixes) mpcs ->
    Forall (fun l => In (bc_key l) (reg_keys regs)) loads ->
    prepare transient nn mesh regs (map bc_key fixes) mpcs = Ok g -> length U = g_size g -> length R = g_size g ->
    exists U' R', applyBC (g_num g) t loads fixes U R = Ok (U', R') /\ length U' = g_size g /\ length R' = g_size g /\
      (forall x, In x (reg_keys regs) ->
         vget (g_num g) R' x = vget (g_num g) R x + total_load loads x * t /\
         vget (g_num g) U' x = match last_fix fixes x with Some v => v * t | None => vget (g_num g) U x end) /\
      (forall a, (length (reg_keys regs) < a <= g_size g)%nat -> nth (a - 1) R' 0 = nth (a - 1) R 0 /\ nth (a - 1) U' 0 = nth (a - 1) U 0).
  Proof.
    intros P C L E LU LR. destruct (whole K transient nn mesh regs (map bc_key fixes) mpcs P C) as (s & g0 & E' & HN & HG & I0 & _).
    assert (g0 = g) by congruence. subst g0. pose proof (gi_num _ _ _ _ _ _ _ _ _ I0) as A1.
    pose proof (n_mpc_nm nn mesh regs (map bc_key fixes) s _ HN) as NM. pose proof (pn_nd _ _ _ _ _ _ HN) as ND.
    unfold g_size in *. rewrite A1, NM in *.
    assert (PF : forall f, In f fixes -> In (bc_key f) (reg_keys regs)).
    { intros f Hf. pose proof (gp_fixes _ _ _ _ _ P) as PF. rewrite Forall_forall in PF. apply PF. now apply in_map. }
    destruct (applyBC_ok K nn mesh regs (map bc_key fixes) s _ HN t loads fixes U R L) as (U' & R' & EB & LU' & LR' & VR & VU).
    { apply Forall_forall. intros f Hf. split; [now apply in_map|auto]. }
    { auto. } { auto. }
    exists U', R'. split; auto. split; auto. split; auto. split.
    - intros x Hx. destruct (pn_eq _ _ _ _ _ _ HN x Hx) as (_ & Hr & _). unfold vget. rewrite VR, VU by lia. split.
      + now rewrite (load_at_key K nn mesh regs (map bc_key fixes) s _ HN).
      + apply (fix_at_key K nn mesh regs (map bc_key fixes) s _ HN); auto. now apply Forall_forall.
    - intros a Ha. rewrite VR, VU by lia. split.
      + unfold load_at. rewrite sumof_zero; [ring|]. intros l Hl. rewrite Forall_forall in L.
        destruct (pn_eq _ _ _ _ _ _ HN _ (L l Hl)) as (_ & Hr & _). destruct (Nat.eqb_spec (eqn s (bc_key l)) a); [lia|auto].
      + apply fix_at_other. intros f Hf. destruct (pn_eq _ _ _ _ _ _ HN _ (PF f Hf)) as (_ & Hr & _). lia.
  Qed.
End BCdofs.
