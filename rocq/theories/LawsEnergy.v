(* Minimum of the potential energy; stiffer structures *)
From Coq Require Import Reals Lra Lia.
From Verif Require Import Base BaseProofs RealBase SparseModel BlockModel DofModel SpecDof AsmModel SpecAsm AsmFinal SolveModel SpecSolve GaussModel SpecGauss GaussProofs LinearProofs
  IsoModel SpecIso ElemModel SpecElem SpecBal BalProofs BalMore StructModel SpecStruct StructProofs StructFinal StructMore SpecLaws LawsProofs SpecEnergy.
Local Open Scope R_scope.

Lemma sumR_ge {A} (f g : A -> R) l : (forall x, In x l -> f x <= g x) -> @sumof RNum A f l <= @sumof RNum A g l.
Proof.
  induction l as [|a l IH]; intros H; [rewrite !(sumof_nil RRng); apply Rle_refl|]. rewrite !(sumof_cons RRng). apply Rplus_le_compat; [apply H; now left|].
  apply IH. intros x Hx. apply H. now right.
Qed.
Lemma sumR_zero_each {A} (f : A -> R) l : (forall x, In x l -> 0 <= f x) -> @sumof RNum A f l = 0 -> forall x, In x l -> f x = 0.
Proof.
  induction l as [|a l IH]; intros H E x Hx; [destruct Hx|]. rewrite (sumof_cons RRng) in E. change (f a + @sumof RNum A f l = 0) in E.
  assert (H1 := H a (or_introl eq_refl)). assert (H2 : 0 <= @sumof RNum A f l).
  { replace 0 with (@sumof RNum A (fun _ => 0) l); [apply sumR_ge; intros y Hy; apply H; now right|]. apply (sumof_zero RRng). reflexivity. }
  destruct Hx as [<-|Hx]; [lra|]. apply IH; auto; [|lra]. intros y Hy. apply H. now right.
Qed.

Section Quadratic.
  Implicit Types (v w d : key -> R).
  Lemma sw_add v w d x : stiff_work (K := RNum) (fun k => v k + w k) d x = stiff_work (K := RNum) v d x + stiff_work (K := RNum) w d x.
  Proof.
    unfold stiff_work. destruct x as [[en nodes] c]. cbn [x_keys elem_stiff]. symmetry. etransitivity; [symmetry; apply (sumof_add RRng)|]. apply sumR_ext. intros p _.
    etransitivity; [symmetry; apply Rmult_plus_distr_r|]. apply (f_equal2 Rmult); [|reflexivity]. etransitivity; [symmetry; apply (sumof_add RRng)|]. apply sumR_ext. intros q _.
    symmetry. apply Rmult_plus_distr_l.
  Qed.
  Lemma sw_scal a v d x : stiff_work (K := RNum) (fun k => a * v k) d x = a * stiff_work (K := RNum) v d x.
  Proof.
    unfold stiff_work. destruct x as [[en nodes] c]. cbn [x_keys elem_stiff]. symmetry. etransitivity; [symmetry; apply (sumof_scal RRng)|]. apply sumR_ext. intros p _.
    etransitivity; [symmetry; apply Rmult_assoc|]. apply (f_equal2 Rmult); [|reflexivity]. etransitivity; [symmetry; apply (sumof_scal RRng)|]. apply sumR_ext. intros q _. cbn. ring.
  Qed.
  Lemma lw_add v w x : load_work (K := RNum) (fun k => v k + w k) x = load_work (K := RNum) v x + load_work (K := RNum) w x.
  Proof.
    unfold load_work. destruct x as [[en nodes] c]. symmetry. etransitivity; [symmetry; apply (sumof_add RRng)|]. apply sumR_ext. intros p _. cbn. ring.
  Qed.
  Lemma work_add loads v w : work_of loads (fun k => v k + w k) = work_of loads v + work_of loads w.
  Proof. unfold work_of. symmetry. etransitivity; [symmetry; apply (sumof_add RRng)|]. apply sumR_ext. intros p _. cbn. ring. Qed.
  Lemma work_ext loads v w : (forall l, In l loads -> v (bc_key l) = w (bc_key l)) -> work_of loads v = work_of loads w.
  Proof. intros H. unfold work_of. apply sumR_ext. intros l Hl. now rewrite H. Qed.
  (* only the values at registered DoFs count *)
  Lemma sw_ext mesh regs ks v w x : good_contribs (K := RNum) mesh regs ks -> In x (contribs (K := RNum) mesh ks) -> (forall k, In k (reg_keys regs) -> v k = w k) ->
    stiff_work (K := RNum) v v x = stiff_work (K := RNum) w w x /\ load_work (K := RNum) v x = load_work (K := RNum) w x.
  Proof.
    intros [_ G] Hx H. destruct x as [[en nodes] c]. destruct (G _ _ _ Hx) as [_ GK]. rewrite Forall_forall in GK.
    assert (Q : forall p, (p < length (ckeys en nodes c))%nat -> v (nth p (ckeys en nodes c) dkey) = w (nth p (ckeys en nodes c) dkey)) by (intros p Hp; apply H, GK, nth_In, Hp).
    unfold stiff_work, load_work. cbn [x_keys elem_stiff]. split; apply sumR_ext; intros p Hp; apply in_seq in Hp.
    - rewrite Q by lia. apply (f_equal2 Rmult); [|reflexivity]. apply sumR_ext. intros q Hq. apply in_seq in Hq. rewrite Q by lia. reflexivity.
    - rewrite Q by lia. reflexivity.
  Qed.
  Lemma energy_expand mesh regs ks loads v d : good_contribs (K := RNum) mesh regs ks ->
    energy mesh ks loads (fun k => v k + d k) = energy mesh ks loads v +
      (@sumof RNum _ (fun x => stiff_work (K := RNum) v d x - load_work (K := RNum) d x) (contribs (K := RNum) mesh ks) - work_of loads d) +
      @sumof RNum _ (fun x => stiff_work (K := RNum) d d x / 2) (contribs (K := RNum) mesh ks).
  Proof.
    intros G. unfold energy. rewrite work_add.
    assert (E : @sumof RNum _ (fun x => stiff_work (K := RNum) (fun k => v k + d k) (fun k => v k + d k) x / 2 - load_work (K := RNum) (fun k => v k + d k) x) (contribs (K := RNum) mesh ks) =
      @sumof RNum _ (fun x => stiff_work (K := RNum) v v x / 2 - load_work (K := RNum) v x) (contribs (K := RNum) mesh ks) +
      @sumof RNum _ (fun x => stiff_work (K := RNum) v d x - load_work (K := RNum) d x) (contribs (K := RNum) mesh ks) +
      @sumof RNum _ (fun x => stiff_work (K := RNum) d d x / 2) (contribs (K := RNum) mesh ks)).
    { symmetry. etransitivity; [apply (f_equal2 Rplus); [symmetry; apply (sumof_add RRng)|reflexivity]|]. etransitivity; [symmetry; apply (sumof_add RRng)|].
      apply sumR_ext. intros x Hx. rewrite sw_add, lw_add.
      assert (S : forall a b, stiff_work (K := RNum) a b x = stiff_work (K := RNum) b a x) by (intros; exact (stiff_work_sym RRng mesh regs ks a b x G Hx)).
      rewrite (S v (fun k => v k + d k)), (S d (fun k => v k + d k)), !sw_add, (S d v). cbn. lra. }
    rewrite E. ring.
  Qed.
  Lemma total_work regs loads d : Forall (fun l => In (bc_key (K := RNum) l) (reg_keys regs)) loads ->
    @sumof RNum _ (fun k => total_load (K := RNum) loads k * d k) (reg_keys regs) = work_of loads d.
  Proof.
    intros F. unfold work_of. induction F as [|l loads Hl F IH].
    - rewrite (sumof_nil RRng). apply (sumof_zero RRng). intros k _. unfold total_load. rewrite (sumof_nil RRng). apply Rmult_0_l.
    - etransitivity; [|symmetry; apply (sumof_cons RRng)]. etransitivity; [|apply (f_equal2 Rplus); [reflexivity|exact IH]].
      transitivity (@sumof RNum _ (fun k => if key_dec (bc_key l) k then bc_val l * d k else 0) (reg_keys regs) + @sumof RNum _ (fun k => total_load (K := RNum) loads k * d k) (reg_keys regs)).
      + symmetry. etransitivity; [symmetry; apply (sumof_add RRng)|]. apply sumR_ext. intros k _. unfold total_load. rewrite (sumof_cons RRng). destruct (key_dec (bc_key l) k); cbn; ring.
      + f_equal. apply (key_delta RRng (bc_key l) (fun k => bc_val l * d k)); [apply NoDup_nodup|exact Hl].
  Qed.
End Quadratic.

Section Min.
  Variables (big : R -> bool) (slv : eqsolver RNum).
  Hypothesis EX : exact_solver slv.
  Variables (nn : nat) (mesh : list (list nat)) (regs : list reg) (ks : list (list (contrib RNum))) (mpcs : list (mpc RNum)) (loads fixes : list (bc RNum)) (st : sol RNum).
  Hypothesis GL : good_linear nn mesh regs ks mpcs loads fixes.
  Hypothesis DN : distinct_nodes mesh ks.
  Hypothesis PF : plain_fixes big fixes.
  Hypothesis HS : linear_solve (K := RNum) big slv nn mesh regs ks mpcs loads fixes = Ok st.
  Lemma bal_st : balanced (K := RNum) mesh regs ks mpcs loads fixes (sol_U st) (sol_mult st) (sol_R st).
  Proof. exact (result_balanced RRng big slv EX nn mesh regs ks mpcs loads fixes st GL DN PF HS). Qed.
  Lemma fixed_reg k y : last_fix (K := RNum) fixes k = Some y -> In k (reg_keys regs).
  Proof.
    intros H. destruct (in_dec key_dec k (map bc_key fixes)) as [I|I].
    - pose proof (gp_fixes _ _ _ _ _ (gl_problem _ _ _ _ _ _ _ GL)) as P. rewrite Forall_forall in P. auto.
    - apply (last_fix_none RRng) in I. cbn in I. congruence.
  Qed.
  (* virtual work on a displacement that respects the supports *)
  Lemma virtual d : (forall k, last_fix (K := RNum) fixes k <> None -> d k = 0) -> (forall m, In m mpcs -> mpc_value (K := RNum) d m = 0) ->
    @sumof RNum _ (fun x => stiff_work (K := RNum) (sol_U st) d x - load_work (K := RNum) d x) (contribs (K := RNum) mesh ks) = work_of loads d.
  Proof.
    intros D0 DM. pose proof bal_st as [B0 B1 B2 B3 B4].
    destruct (nodal_balance RRng big slv EX nn mesh regs ks mpcs loads fixes st GL DN PF HS) as (N1 & N2 & _). cbv zeta in *.
    rewrite <- (total_work regs loads d (gl_loads _ _ _ _ _ _ _ GL)).
    transitivity (@sumof RNum _ (fun k => sol_R (K := RNum) st k * d k) (reg_keys regs)).
    - symmetry. etransitivity; [exact (work_balance RRng mesh regs ks mpcs (g_num (so_g st)) (so_U st) (sol_R st) (sol_U st) d (gl_contribs _ _ _ _ _ _ _ GL)
        (fun x t Hx Ht => gp_term_keys _ _ _ _ _ (gl_problem _ _ _ _ _ _ _ GL) (snd x) t (in_combine_r _ _ (fst x) (snd x) ltac:(rewrite <- surjective_pairing; exact Hx)) Ht) N1)|].
      transitivity (@sumof RNum _ (fun x => stiff_work (K := RNum) (sol_U st) d x - load_work (K := RNum) d x) (contribs (K := RNum) mesh ks) + 0); [|apply Rplus_0_r].
      apply (f_equal2 Rplus).
      + apply sumR_ext. intros [[en nodes] c] _. unfold stiff_work, load_work. cbn [elem_force x_keys].
        symmetry. etransitivity; [symmetry; apply (sumof_sub RRng)|]. apply sumR_ext. intros p _. cbn. ring.
      + apply (sumof_zero RRng). intros [e m] Hx. apply in_combine_r in Hx. cbn [fst snd]. pose proof (DM m Hx) as Q. unfold mpc_value in Q. 
        etransitivity; [apply (f_equal2 Rmult); [reflexivity|exact Q]|]. apply Rmult_0_r.
    - apply sumR_ext. intros k Hk. destruct (last_fix (K := RNum) fixes k) as [y|] eqn:F.
      + rewrite D0 by congruence. rewrite !Rmult_0_r. reflexivity.
      + now rewrite B2.
  Qed.
  Lemma mpc_diff (v w : key -> R) m : mpc_value (K := RNum) (fun k => v k - w k) m = mpc_value (K := RNum) v m - mpc_value (K := RNum) w m.
  Proof. unfold mpc_value. symmetry. etransitivity; [symmetry; apply (sumof_sub RRng)|]. apply sumR_ext. intros t _. cbn. ring. Qed.
  Lemma energy_above w : admissible mpcs fixes w ->
    energy mesh ks loads w = energy mesh ks loads (sol_U st) + @sumof RNum _ (fun x => stiff_work (K := RNum) (fun k => w k - sol_U (K := RNum) st k) (fun k => w k - sol_U (K := RNum) st k) x / 2) (contribs (K := RNum) mesh ks).
  Proof.
    intros [WF WM]. pose proof bal_st as [B0 B1 B2 B3 B4]. set (d := fun k => w k - sol_U (K := RNum) st k).
    assert (G := gl_contribs _ _ _ _ _ _ _ GL).
    transitivity (energy mesh ks loads (fun k => sol_U (K := RNum) st k + d k)).
    - unfold energy. apply (f_equal2 Rminus).
      + apply sumR_ext. intros x Hx. destruct (sw_ext mesh regs ks w (fun k => sol_U (K := RNum) st k + d k) x G Hx) as [-> ->]; [|reflexivity]. intros k _. unfold d. cbn. ring.
      + apply work_ext. intros l _. unfold d. cbn. ring.
    - rewrite (energy_expand mesh regs ks loads _ d G). rewrite virtual; [lra| |].
      + intros k F. destruct (last_fix (K := RNum) fixes k) as [y|] eqn:E; [|congruence]. unfold d. rewrite (WF k y E), (B3 k y E). apply Rminus_diag_eq. reflexivity.
      + intros m Hm. unfold d. rewrite mpc_diff, (WM m Hm), (B4 m Hm). apply Rminus_diag_eq. reflexivity.
  Qed.
  Lemma energy_min w : no_gain mesh ks -> admissible mpcs fixes w -> energy mesh ks loads (sol_U st) <= energy mesh ks loads w.
  Proof.
    intros NG A. rewrite (energy_above w A). set (d := fun k => w k - sol_U (K := RNum) st k).
    assert (0 <= @sumof RNum _ (fun x => stiff_work (K := RNum) d d x / 2) (contribs (K := RNum) mesh ks)); [|lra].
    replace 0 with (@sumof RNum _ (fun _ : nat * list nat * contrib RNum => 0) (contribs (K := RNum) mesh ks)) by (apply (sumof_zero RRng); reflexivity).
    apply sumR_ge. intros x Hx. specialize (NG x Hx d). lra.
  Qed.
  Lemma sol_admissible : admissible mpcs fixes (sol_U st).
  Proof. destruct bal_st as [B0 B1 B2 B3 B4]. split; auto. Qed.
  (* when nothing but the loads acts the energy is minus half the work of the loads *)
  Lemma energy_work : only_loads mesh ks mpcs fixes -> energy mesh ks loads (sol_U st) = - (work_of loads (sol_U st)) / 2.
  Proof.
    intros (OF & OM & OL). pose proof bal_st as [B0 B1 B2 B3 B4].
    assert (V := virtual (sol_U st)). rewrite <- V at 1.
    - unfold energy.
      rewrite <- V.
      + rewrite (sumR_ext _ (fun x => / 2 * (stiff_work (K := RNum) (sol_U st) (sol_U st) x - load_work (K := RNum) (sol_U st) x))).
        * match goal with |- ?a - ?b = _ => replace a with (/ 2 * b); [lra|] end. symmetry. apply (sumof_scal RRng).
        * intros x Hx. rewrite (OL x Hx). lra.
      + intros k F. destruct (last_fix (K := RNum) fixes k) as [y|] eqn:E; [|congruence]. rewrite (B3 k y E). eauto.
      + intros m Hm. rewrite (B4 m Hm). auto.
    - intros k F. destruct (last_fix (K := RNum) fixes k) as [y|] eqn:E; [|congruence]. rewrite (B3 k y E). eauto.
    - intros m Hm. rewrite (B4 m Hm). auto.
  Qed.
End Min.

Section Strict.
  Lemma sw_null w e x mesh regs ks : good_contribs (K := RNum) mesh regs ks -> In x (contribs (K := RNum) mesh ks) -> (forall v, 0 <= stiff_work (K := RNum) v v x) ->
    stiff_work (K := RNum) w w x = 0 -> stiff_work (K := RNum) w e x = 0.
  Proof.
    intros G Hx P W0.
    assert (S : forall a b, stiff_work (K := RNum) a b x = stiff_work (K := RNum) b a x) by (intros; exact (stiff_work_sym RRng mesh regs ks a b x G Hx)).
    assert (Q : forall t, 0 <= stiff_work (K := RNum) e e x + 2 * t * stiff_work (K := RNum) w e x).
    { intros t. specialize (P (fun k => e k + (fun k => t * w k) k)). rewrite sw_add in P.
      rewrite (S e (fun k => e k + (fun k => t * w k) k)), (S (fun k => t * w k) (fun k => e k + (fun k => t * w k) k)), !sw_add in P.
      rewrite (S e (fun k => t * w k)), !sw_scal, (S w (fun k => t * w k)), sw_scal, W0 in P. lra. }
    set (a := stiff_work (K := RNum) e e x) in *. set (b := stiff_work (K := RNum) w e x) in *. destruct (Req_dec b 0) as [E|E]; [exact E|exfalso].
    specialize (Q (- (a + 1) / (2 * b))). replace (a + 2 * (- (a + 1) / (2 * b)) * b) with (-1) in Q by (field; exact E). lra.
  Qed.
  Lemma sw_unit v k x : stiff_work (K := RNum) v (fun k' => if key_dec k' k then 1 else 0) x = stiff_on (K := RNum) v k x.
  Proof. unfold stiff_work, stiff_on. apply sumR_ext. intros p _. destruct (key_dec (nth p (x_keys x) dkey) k); [apply Rmult_1_r|apply Rmult_0_r]. Qed.

  Variables (big : R -> bool) (u : nat -> list R).
  Hypothesis HU : forall n, length (u n) = n.
  Lemma energy_strict nn mesh regs ks mpcs loads fixes st w : good_linear (K := RNum) nn mesh regs ks mpcs loads fixes -> distinct_nodes (K := RNum) mesh ks -> plain_fixes big fixes ->
    linear_solve (K := RNum) big (gauss_slv (K := RG) u) nn mesh regs ks mpcs loads fixes = Ok st ->
    no_gain mesh ks -> admissible mpcs fixes w -> energy mesh ks loads w <= energy mesh ks loads (sol_U st) ->
    forall k, In k (reg_keys regs) -> w k = sol_U (K := RNum) st k.
  Proof.
    intros GL DN PF HS NG A LE k Hk. assert (EX : exact_solver (K := RNum) (gauss_slv (K := RG) u)) by exact (gauss_exact RG RG_laws u HU).
    rewrite (energy_above big _ EX nn mesh regs ks mpcs loads fixes st GL DN PF HS w A) in LE.
    set (d := fun k => w k - sol_U (K := RNum) st k) in *.
    assert (Z : forall x, In x (contribs (K := RNum) mesh ks) -> stiff_work (K := RNum) d d x = 0).
    { assert (P : forall x, In x (contribs (K := RNum) mesh ks) -> 0 <= stiff_work (K := RNum) d d x / 2) by (intros x Hx; specialize (NG x Hx d); lra).
      assert (S0 : @sumof RNum _ (fun x => stiff_work (K := RNum) d d x / 2) (contribs (K := RNum) mesh ks) = 0).
      { assert (0 <= @sumof RNum _ (fun x => stiff_work (K := RNum) d d x / 2) (contribs (K := RNum) mesh ks)); [|lra].
        replace 0 with (@sumof RNum _ (fun _ : nat * list nat * contrib RNum => 0) (contribs (K := RNum) mesh ks)) by (apply (sumof_zero RRng); reflexivity).
        apply sumR_ge. exact P. }
      intros x Hx. pose proof (sumR_zero_each _ _ P S0 x Hx) as Q. cbv beta in Q. lra. }
    destruct (bal_st big _ EX nn mesh regs ks mpcs loads fixes st GL DN PF HS) as [B0 B1 B2 B3 B4]. destruct A as [WF WM].
    destruct (result_unique RG RG_laws big u HU nn mesh regs ks mpcs loads fixes st GL DN PF HS w (sol_mult (K := RNum) st) (sol_R (K := RNum) st)) as (E1 & _ & _).
    - split; [exact B0| |exact B2|exact WF|exact WM]. intros k' Hk'. rewrite <- (B1 k' Hk'). apply (f_equal2 Rplus); [|reflexivity]. apply sumR_ext. intros x Hx.
      assert (Q := stiff_diff RG RG_laws w (sol_U (K := RNum) st) k' x). change (gn RG) with RNum in Q.
      assert (Q0 : stiff_on (K := RNum) d k' x = 0) by (rewrite <- sw_unit; exact (sw_null d _ x mesh regs ks (gl_contribs _ _ _ _ _ _ _ GL) Hx (NG x Hx) (Z x Hx))).
      assert (Q1 : 0 = force_on (K := RNum) w k' x - force_on (K := RNum) (sol_U (K := RNum) st) k' x) by (transitivity (stiff_on (K := RNum) d k' x); [symmetry; exact Q0|exact Q]).
      exact (Rminus_diag_uniq _ _ (eq_sym Q1)).
    - symmetry. apply E1, Hk.
  Qed.
End Strict.

Section Stiffer.
  Variables (big1 big2 : R -> bool) (slv1 slv2 : eqsolver RNum).
  Hypothesis EX1 : exact_solver slv1.
  Hypothesis EX2 : exact_solver slv2.
  (* at least as stiff, at least the same supports and equations: the loads do not more work *)
  Lemma stiffer_less nn1 mesh1 regs1 ks1 mpcs1 fixes1 nn2 mesh2 regs2 ks2 mpcs2 fixes2 loads st1 st2 :
    good_linear (K := RNum) nn1 mesh1 regs1 ks1 mpcs1 loads fixes1 -> distinct_nodes (K := RNum) mesh1 ks1 -> plain_fixes big1 fixes1 ->
    good_linear (K := RNum) nn2 mesh2 regs2 ks2 mpcs2 loads fixes2 -> distinct_nodes (K := RNum) mesh2 ks2 -> plain_fixes big2 fixes2 ->
    linear_solve (K := RNum) big1 slv1 nn1 mesh1 regs1 ks1 mpcs1 loads fixes1 = Ok st1 ->
    linear_solve (K := RNum) big2 slv2 nn2 mesh2 regs2 ks2 mpcs2 loads fixes2 = Ok st2 ->
    no_gain mesh1 ks1 -> only_loads mesh1 ks1 mpcs1 fixes1 -> only_loads mesh2 ks2 mpcs2 fixes2 ->
    (forall k, last_fix (K := RNum) fixes1 k <> None -> last_fix (K := RNum) fixes2 k <> None) -> (forall m, In m mpcs1 -> In m mpcs2) ->
    (forall w, @sumof RNum _ (stiff_work (K := RNum) w w) (contribs (K := RNum) mesh1 ks1) <= @sumof RNum _ (stiff_work (K := RNum) w w) (contribs (K := RNum) mesh2 ks2)) ->
    work_of loads (sol_U (K := RNum) st2) <= work_of loads (sol_U (K := RNum) st1).
  Proof.
    intros G1 D1 P1 G2 D2 P2 S1 S2 NG O1 O2 FX MX ST.
    pose proof (sol_admissible big2 slv2 EX2 nn2 mesh2 regs2 ks2 mpcs2 loads fixes2 st2 G2 D2 P2 S2) as [AF AM].
    assert (A : admissible mpcs1 fixes1 (sol_U (K := RNum) st2)).
    { split.
      - intros k y E. destruct O1 as (Z1 & _). rewrite (Z1 k y E). destruct (last_fix (K := RNum) fixes2 k) as [y2|] eqn:E2.
        + rewrite (AF k y2 E2). destruct O2 as (Z2 & _). eauto.
        + exfalso. apply (FX k); congruence.
      - intros m Hm. apply AM. auto. }
    pose proof (energy_min big1 slv1 EX1 nn1 mesh1 regs1 ks1 mpcs1 loads fixes1 st1 G1 D1 P1 S1 _ NG A) as M.
    rewrite (energy_work big1 slv1 EX1 nn1 mesh1 regs1 ks1 mpcs1 loads fixes1 st1 G1 D1 P1 S1 O1) in M.
    pose proof (energy_work big2 slv2 EX2 nn2 mesh2 regs2 ks2 mpcs2 loads fixes2 st2 G2 D2 P2 S2 O2) as M2.
    assert (H : energy mesh1 ks1 loads (sol_U (K := RNum) st2) <= energy mesh2 ks2 loads (sol_U (K := RNum) st2)); [|lra].
    unfold energy. apply Rplus_le_compat_r.
    assert (HALF : forall mesh ks, (forall x, In x (contribs (K := RNum) mesh ks) -> forall w, load_work (K := RNum) w x = 0) ->
      @sumof RNum _ (fun x => stiff_work (K := RNum) (sol_U (K := RNum) st2) (sol_U (K := RNum) st2) x / 2 - load_work (K := RNum) (sol_U (K := RNum) st2) x) (contribs (K := RNum) mesh ks) =
      / 2 * @sumof RNum _ (stiff_work (K := RNum) (sol_U (K := RNum) st2) (sol_U (K := RNum) st2)) (contribs (K := RNum) mesh ks)).
    { intros mesh ks Z. etransitivity; [|apply (sumof_scal RRng)]. apply sumR_ext. intros x Hx. rewrite (Z x Hx). cbn. lra. }
    destruct O1 as (_ & _ & Z1). destruct O2 as (_ & _ & Z2). rewrite (HALF mesh1 ks1 Z1), (HALF mesh2 ks2 Z2). specialize (ST (sol_U (K := RNum) st2)). lra.
  Qed.
End Stiffer.

Lemma bar_work_self pos w m : 0 <= bar_EA m -> 0 <= bar_work pos w w m.
Proof.
  destruct m as [A E a b|]; [|intros; apply Rle_refl]. cbn [bar_EA bar_work]. intros H. set (s := stretch pos w (Bar A E a b)).
  replace (A * E / dist3 (pos a) (pos b) * s * s) with (A * E * (s * s) * / dist3 (pos a) (pos b)) by (unfold Rdiv; ring).
  destruct (Req_dec (dist3 (pos a) (pos b)) 0) as [Z|Z].
  - rewrite Z, Rinv_0. lra.
  - apply Rmult_le_pos; [apply Rmult_le_pos; [exact H|nra]|]. left. apply Rinv_0_lt_compat. destruct (sqrt_pos (rsumn 3 (fun i => (pos b i - pos a i) * (pos b i - pos a i)))) as [Q|Q]; [|]; unfold dist3 in *.
    + match goal with |- 0 < sqrt ?x => destruct (sqrt_pos x) as [Q2|Q2]; [exact Q2|congruence] end.
    + match goal with |- 0 < sqrt ?x => destruct (sqrt_pos x) as [Q2|Q2]; [exact Q2|congruence] end.
Qed.
Lemma bar_work_stiffer pos w m1 m2 : is_bar m1 -> is_bar m2 -> stiffer m1 m2 -> bar_work pos w w m1 <= bar_work pos w w m2.
Proof.
  destruct m1 as [A1 E1 a1 b1|]; [|intros []]. destruct m2 as [A2 E2 a2 b2|]; [|intros _ []]. intros _ _ [EN LE]. cbn [m_nodes bar_EA] in *. injection EN as <- <-.
  pose proof (bar_work_self pos w (Bar (A2 * E2 - A1 * E1) 1 a1 b1)) as H. cbn [bar_EA bar_work] in *. unfold stretch in *. unfold Rdiv in *.
  set (d := / dist3 (pos a1) (pos b1)) in *. set (s := rsumn 3 _) in *. specialize (H ltac:(lra)). lra.
Qed.
Section TrussStiffer.
  Variables (nn : nat) (pos : nat -> nat -> R) (ms : list member) (loads fixes : list (bc RNum)).
  Hypothesis OK : struct_ok nn pos ms loads fixes.
  Hypothesis IB : Forall is_bar ms.
  Variable b : list (member * list (contrib RNum)).
  Hypothesis B : built pos ms b.
  Lemma truss_sum w : @sumof RNum _ (stiff_work (K := RNum) w w) (contribs (K := RNum) (map m_nodes ms) (map snd b)) = @sumof RNum _ (bar_work pos w w) ms.
  Proof.
    apply (contribs_sum nn pos ms b _ _ (sk_members _ _ _ _ _ OK) B). intros en m m' c Hm E.
    pose proof (sk_members _ _ _ _ _ OK) as M. rewrite Forall_forall in M, IB. apply (bar_works nn pos m m' c en w w (M m Hm) (IB m Hm) E).
  Qed.
  Lemma truss_contrib x : In x (contribs (K := RNum) (map m_nodes ms) (map snd b)) -> exists en m m' c, In m ms /\ build_member pos m = Ok (m', [c]) /\ x = (en, m_nodes m, c).
  Proof.
    intros Hx. unfold contribs in Hx. apply in_flat_map in Hx as ([en l] & H1 & H2). cbn [fst snd] in H2. apply in_map_iff in H2 as (c & <- & Hc).
    pose proof (Forall2_len _ _ _ B) as LB. rewrite map_length in H1.
    apply (In_nth _ _ (0%nat, [])) in H1 as (i & Hi & Ei). rewrite combine_length, seq_length, map_length in Hi. rewrite combine_nth in Ei by (rewrite seq_length, map_length; lia).
    rewrite seq_nth in Ei by lia. injection Ei as E1 E2. subst en.
    pose proof (Forall2_at _ _ _ (Bar 0 0 0 0) (Bar 0 0 0 0, []) i B ltac:(lia)) as BI. cbv beta in BI.
    assert (Im : In (nth i ms (Bar 0 0 0 0)) ms) by (apply nth_In; lia).
    pose proof (sk_members _ _ _ _ _ OK) as M. rewrite Forall_forall in M. destruct (build_ok nn pos _ (M _ Im)) as (m' & c' & E & _).
    rewrite E in BI. assert (EL : l = [c']).
    { rewrite <- E2. change (@nil (contrib RNum)) with (snd (Bar 0 0 0 0, @nil (contrib RNum))). rewrite map_nth. injection BI as BI. now rewrite <- BI. }
    rewrite EL in Hc. destruct Hc as [<-|[]]. exists (1 + i)%nat, (nth i ms (Bar 0 0 0 0)), m', c'. split; [exact Im|]. split; [exact E|].
    f_equal. f_equal. cbn [fst Nat.add]. rewrite Nat.sub_succ, Nat.sub_0_r. rewrite (nth_indep _ [] (m_nodes (Bar 0 0 0 0))) by (rewrite map_length; lia). apply map_nth.
  Qed.
  Lemma truss_no_gain : Forall (fun m => 0 <= bar_EA m) ms -> no_gain (map m_nodes ms) (map snd b).
  Proof.
    intros P x Hx w. destruct (truss_contrib x Hx) as (en & m & m' & c & Hm & E & ->). pose proof (sk_members _ _ _ _ _ OK) as M. rewrite Forall_forall in M, IB, P.
    rewrite (bar_works nn pos m m' c en w w (M m Hm) (IB m Hm) E). apply bar_work_self. auto.
  Qed.
  Lemma truss_only : (forall k y, last_fix (K := RNum) fixes k = Some y -> y = 0) -> only_loads (map m_nodes ms) (map snd b) [] fixes.
  Proof.
    intros F. split; [exact F|]. split; [intros m []|]. intros x Hx w. destruct (truss_contrib x Hx) as (en & m & m' & c & Hm & E & ->).
    pose proof (sk_members _ _ _ _ _ OK) as M. rewrite Forall_forall in M, IB. destruct (bar_keys nn pos m m' c en (M m Hm) (IB m Hm) E) as (_ & _ & CV).
    unfold load_work. apply (sumof_zero RRng). intros p _. etransitivity; [apply (f_equal2 Rmult); [apply CV|reflexivity]|]. apply Rmult_0_l.
  Qed.
End TrussStiffer.
Lemma truss_stiffer big1 big2 slv1 slv2 nn1 nn2 pos ms1 ms2 extra loads fixes1 fixes2 st1 st2 rs1 rs2 : exact_solver slv1 -> exact_solver slv2 ->
  struct_ok nn1 pos ms1 loads fixes1 -> struct_ok nn2 pos (ms2 ++ extra) loads fixes2 -> Forall is_bar ms1 -> Forall is_bar (ms2 ++ extra) ->
  Forall (fun m => 0 <= bar_EA m) ms1 -> Forall (fun m => 0 <= bar_EA m) extra -> Forall2 stiffer ms1 ms2 ->
  (forall k y, last_fix (K := RNum) fixes1 k = Some y -> y = 0) -> (forall k y, last_fix (K := RNum) fixes2 k = Some y -> y = 0) ->
  (forall k, last_fix (K := RNum) fixes1 k <> None -> last_fix (K := RNum) fixes2 k <> None) ->
  struct_solve big1 slv1 nn1 pos ms1 loads fixes1 = Ok (st1, rs1) -> struct_solve big2 slv2 nn2 pos (ms2 ++ extra) loads fixes2 = Ok (st2, rs2) ->
  work_of loads (disp st2) <= work_of loads (disp st1).
Proof.
  intros EX1 EX2 OK1 OK2 IB1 IB2 P1 PE FS F1 F2 FX S1 S2.
  destruct (solved big1 nn1 pos ms1 loads fixes1 slv1 st1 rs1 S1) as (b1 & B1 & L1 & _). destruct (solved big2 nn2 pos (ms2 ++ extra) loads fixes2 slv2 st2 rs2 S2) as (b2 & B2 & L2 & _).
  destruct (struct_good _ _ _ _ _ b1 OK1 B1) as [G1 D1]. destruct (struct_good _ _ _ _ _ b2 OK2 B2) as [G2 D2].
  refine (stiffer_less big1 big2 slv1 slv2 EX1 EX2 nn1 _ _ _ [] fixes1 nn2 _ _ _ [] fixes2 loads st1 st2 G1 D1 _ G2 D2 _ L1 L2 _ _ _ FX _ _).
  - intros k y E _. eauto.
  - intros k y E _. eauto.
  - exact (truss_no_gain nn1 pos ms1 loads fixes1 OK1 IB1 b1 B1 P1).
  - exact (truss_only nn1 pos ms1 loads fixes1 OK1 IB1 b1 B1 F1).
  - exact (truss_only nn2 pos (ms2 ++ extra) loads fixes2 OK2 IB2 b2 B2 F2).
  - intros m [].
  - intros w. rewrite (truss_sum nn1 pos ms1 loads fixes1 OK1 IB1 b1 B1 w), (truss_sum nn2 pos (ms2 ++ extra) loads fixes2 OK2 IB2 b2 B2 w).
    rewrite (sumof_app RRng). cbn [rnum RRng]. assert (H1 : @sumof RNum _ (bar_work pos w w) ms1 <= @sumof RNum _ (bar_work pos w w) ms2).
    { rewrite Forall_app in IB2. destruct IB2 as [IB2 _]. clear - FS IB1 IB2. induction FS as [|m1 m2 l1 l2 H FS IH]; [apply Rle_refl|]. inversion IB1; subst. inversion IB2; subst.
      rewrite !(sumof_cons RRng). apply Rplus_le_compat; [now apply bar_work_stiffer|auto]. }
    assert (H2 : 0 <= @sumof RNum _ (bar_work pos w w) extra).
    { clear - PE. induction PE as [|m l H PE IH]; [apply Rle_refl|]. rewrite (sumof_cons RRng). apply Rplus_le_le_0_compat; [now apply bar_work_self|auto]. }
    change (@sumof RNum _ (bar_work pos w w) ms1 <= @sumof RNum _ (bar_work pos w w) ms2 + @sumof RNum _ (bar_work pos w w) extra). lra.
Qed.
