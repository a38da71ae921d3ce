(* Whether a problem is solved does not depend on loads and prescribed values *)
From Coq Require Import Permutation.
From Verif Require Import Base BaseProofs SparseModel SpecSparse BlockModel SpecBlock
  DofModel SpecDof AsmModel SpecAsm AsmCalls AsmProofs AsmRun AsmFinal SolveModel SpecSolve GaussModel SpecGauss GaussProofs SolveProofs LinearProofs SpecBal BalProofs SpecLaws LawsProofs LawsMore.

Lemma aget_lt {A} (l : list A) i a : aget l i = Ok a -> i < length l.
Proof. unfold aget. destruct (nth_error l i) eqn:E; [|discriminate]. intros _. apply nth_error_Some. congruence. Qed.
Lemma aset_lt {A} (l l' : list A) i a : aset l i a = Ok l' -> i < length l /\ length l' = length l.
Proof. unfold aset. destruct (Nat.ltb_spec i (length l)); [|discriminate]. intros [= <-]. now rewrite upd_length. Qed.
Lemma aget_some {A} (l : list A) i : i < length l -> exists a, aget l i = Ok a.
Proof. intros H. unfold aget. destruct (nth_error l i) eqn:E; [eauto|]. apply nth_error_None in E. lia. Qed.
Lemma aset_some {A} (l : list A) i a : i < length l -> exists l', aset l i a = Ok l' /\ length l' = length l.
Proof. intros H. rewrite aset_ok by auto. eexists. split; [reflexivity|]. apply upd_length. Qed.
Lemma ofold_rel {S T} (f g : S -> T -> outcome S) (P : S -> S -> Prop) l : (forall s s' t r, P s s' -> f s t = Ok r -> exists r', g s' t = Ok r' /\ P r r') ->
  forall s s' r, P s s' -> ofold f l s = Ok r -> exists r', ofold g l s' = Ok r' /\ P r r'.
Proof.
  intros H. induction l as [|t l IH]; intros s s' r Hs E; cbn [ofold] in *.
  - injection E as <-. eauto.
  - apply obind_ok in E as (s1 & E1 & E). destruct (H _ _ _ _ Hs E1) as (s1' & E1' & P1). rewrite E1'. cbn [obind]. eauto.
Qed.

Section Indep.
  Variable K : GNum.
  Local Open Scope rng_scope.
  Implicit Types (A B X : list K).
  Definition lenB (s s' : list K * list K) : Prop := fst s = fst s' /\ length (snd s) = length (snd s').
  Lemma asubm_len B B1 B' p (t y t' y' : K) : length B = length B' -> asubm B p t y = Ok B1 -> exists B1', asubm B' p t' y' = Ok B1' /\ length B1 = length B1'.
  Proof.
    intros L E. unfold asubm in *. apply obind_ok in E as (v & E1 & E). apply aget_lt in E1. apply aset_lt in E as [_ E2].
    destruct (aget_some B' p) as (v' & E3); [lia|]. rewrite E3. cbn [obind]. destruct (aset_some B' p (v' - t' * y')) as (B1' & E4 & L4); [lia|]. exists B1'. split; [exact E4|lia].
  Qed.
  Lemma aswap_len B B1 B' p q : length B = length B' -> aswap B p q = Ok B1 -> exists B1', aswap B' p q = Ok B1' /\ length B1 = length B1'.
  Proof.
    intros L E. unfold aswap in *. apply obind_ok in E as (t & E1 & E). apply obind_ok in E as (w & E2 & E). apply obind_ok in E as (l1 & E3 & E).
    apply aget_lt in E1, E2. apply aset_lt in E3 as [_ E3]. apply aset_lt in E as [_ E4].
    destruct (aget_some B' p) as (t' & F1); [lia|]. destruct (aget_some B' q) as (w' & F2); [lia|]. rewrite F1, F2. cbn [obind].
    destruct (aset_some B' p w') as (l1' & F3 & L3); [lia|]. rewrite F3. cbn [obind]. destruct (aset_some l1' q t') as (B1' & F4 & L4); [lia|]. exists B1'. split; [exact F4|lia].
  Qed.
  Lemma elim_row_len n i s s' ip r : lenB s s' -> elim_row n i s ip = Ok r -> exists r', elim_row n i s' ip = Ok r' /\ lenB r r'.
  Proof.
    destruct s as [A B], s' as [A' B']. intros [EA LB] E. cbn [fst snd] in *. subst A'. unfold elim_row in *.
    apply obind_ok in E as (a & E1 & E). apply obind_ok in E as (p & E2 & E). apply obind_ok in E as (t & E3 & E). apply obind_ok in E as (A1 & E4 & E).
    apply obind_ok in E as (b & E5 & E). apply obind_ok in E as (B1 & E6 & E). injection E as <-.
    rewrite E1, E2. cbn [obind]. rewrite E3. cbn [obind]. rewrite E4. cbn [obind]. apply aget_lt in E5. destruct (aget_some B' i) as (b' & F5); [lia|]. rewrite F5. cbn [obind].
    destruct (asubm_len B B1 B' ip t b t b' LB E6) as (B1' & F6 & L6). rewrite F6. cbn [obind]. eexists. split; [reflexivity|]. split; [reflexivity|exact L6].
  Qed.
  Definition same_st (s s' : option (gstate K)) : Prop :=
    match s, s' with
    | None, None => True
    | Some (A, B, im), Some (A', B', im') => A = A' /\ im = im' /\ length B = length B'
    | _, _ => False
    end.
  Lemma elim_step_len n s s' i r : same_st s s' -> elim_step n s i = Ok r -> exists r', elim_step n s' i = Ok r' /\ same_st r r'.
  Proof.
    destruct s as [[[A B] im]|], s' as [[[A' B'] im']|]; cbn [same_st]; try contradiction.
    - intros (<- & <- & LB) E. cbn [elim_step] in *. apply obind_ok in E as (pm & E1 & E). rewrite E1. cbn [obind].
      destruct (glt (gabs (snd pm)) gtiny).
      + injection E as <-. exists None. split; [reflexivity|exact I].
      + destruct (fst pm) as [im0|]; [|discriminate]. apply obind_ok in E as (A1 & E2 & E). apply obind_ok in E as (B1 & E3 & E). apply obind_ok in E as (AB & E4 & E). injection E as <-.
        rewrite E2. cbn [obind]. destruct (aswap_len B B1 B' i im0 LB E3) as (B1' & F3 & L3). rewrite F3. cbn [obind].
        destruct (ofold_rel (elim_row n i) (elim_row n i) lenB (seq (i + 1) (n - (i + 1))) (fun s s' ip r => elim_row_len n i s s' ip r) (A1, B1) (A1, B1') AB) as (AB' & F4 & [Q1 Q2]); [split; auto|exact E4|].
        rewrite F4. cbn [obind]. eexists. split; [reflexivity|]. cbn [same_st]. auto.
    - intros _ E. cbn [elim_step] in *. injection E as <-. exists None. split; [reflexivity|exact I].
  Qed.
  Definition same_X (s s' : option (list K)) : Prop :=
    match s, s' with None, None => True | Some X, Some X' => length X = length X' | _, _ => False end.
  Lemma back_step_len n A B B' s s' i r : length B = length B' -> same_X s s' -> back_step n A B s i = Ok r -> exists r', back_step n A B' s' i = Ok r' /\ same_X r r'.
  Proof.
    intros LB. destruct s as [X|], s' as [X'|]; cbn [same_X]; try contradiction.
    - intros LX E. cbn [back_step] in *. apply obind_ok in E as (d & E1 & E). rewrite E1. cbn [obind]. destruct (glt (gabs d) gtiny).
      + injection E as <-. exists None. split; [reflexivity|exact I].
      + apply obind_ok in E as (b & E2 & E). apply obind_ok in E as (t & E3 & E). apply obind_ok in E as (q & E4 & E). apply obind_ok in E as (X1 & E5 & E). injection E as <-.
        apply aget_lt in E2. destruct (aget_some B' i) as (b' & F2); [lia|]. rewrite F2. cbn [obind].
        destruct (ofold_rel (fun t j => x <- aget X j ;; a <- aget A (i * n + j) ;; Ok (t - x * a)) (fun t j => x <- aget X' j ;; a <- aget A (i * n + j) ;; Ok (t - x * a)) (fun _ _ => True)
          (rev (seq (i + 1) (n - (i + 1))))) with (s := b) (s' := b') (r := t) as (t' & F3 & _); [|exact I|exact E3|].
        { intros x x' j y _ H. apply obind_ok in H as (z & H1 & H). apply obind_ok in H as (a & H2 & H). apply aget_lt in H1. destruct (aget_some X' j) as (z' & F); [lia|].
          rewrite F. cbn [obind]. rewrite H2. cbn [obind]. eexists. split; [reflexivity|exact I]. }
        rewrite F3. cbn [obind]. unfold gquot in *. destruct (glt 0 (gabs d)); [|discriminate]. cbn [obind]. injection E4 as <-. apply aset_lt in E5 as [H5 L5].
        destruct (aset_some X' i (gdiv t' d)) as (X1' & F5 & L5'); [lia|]. rewrite F5. cbn [obind]. eexists. split; [reflexivity|]. cbn [same_X]. lia.
    - intros _ E. cbn [back_step] in *. injection E as <-. exists None. split; [reflexivity|exact I].
  Qed.
  Lemma gauss_solve_len X X' A B B' n r : length X = length X' -> length B = length B' -> gauss_solve X A B n = Ok r -> exists r', gauss_solve X' A B' n = Ok r' /\ same_X r r'.
  Proof.
    intros LX LB E. unfold gauss_solve in *. apply obind_ok in E as (st & E1 & E).
    destruct (ofold_rel (elim_step n) (elim_step n) same_st (seq 0 n) (elim_step_len n) (Some (A, B, None)) (Some (A, B', None)) st) as (st' & F1 & Q1); [cbn; auto|exact E1|].
    rewrite F1. cbn [obind]. destruct st as [[[A1 B1] im]|], st' as [[[A1' B1'] im']|]; cbn [same_st] in Q1; try contradiction.
    - destruct Q1 as (<- & <- & L1).
      apply (ofold_rel (back_step n A1 B1) (back_step n A1 B1') same_X (rev (seq 0 n)) (fun s s' i r => back_step_len n A1 B1 B1' s s' i r L1) (Some X) (Some X') r LX E).
    - injection E as <-. exists None. split; [reflexivity|exact I].
  Qed.
  Lemma gauss_dense_len X X' (m m' : smat K) B B' x : si_nrows (sm_si m) = si_nrows (sm_si m') ->
    (forall i j, in_shape (si_nrows (sm_si m)) (si_nrows (sm_si m)) (i, j) -> sym_value m i j = sym_value m' i j) ->
    length X = length X' -> length B = length B' -> gauss_dense X m B = Ok x -> exists x', gauss_dense X' m' B' = Ok x'.
  Proof.
    intros HN HV LX LB E. unfold gauss_dense in *. rewrite <- HN. set (n := si_nrows (sm_si m)) in *. destruct (n <? 1000)%nat; [|discriminate]. cbn [checking] in *.
    apply obind_ok in E as (A & E1 & E). apply obind_ok in E as (r & E2 & E).
    assert (F1 : fill_dense m' n = Ok A).
    { rewrite <- E1. unfold fill_dense. symmetry.
      assert (Q : forall l acc, (forall p, In p l -> (fst p < n)%nat /\ (snd p < n)%nat) ->
        ofold (fun l ij => v <- sym_value m (fst ij + 1) (snd ij + 1) ;; Ok (l ++ [v])) l acc = ofold (fun l ij => v <- sym_value m' (fst ij + 1) (snd ij + 1) ;; Ok (l ++ [v])) l acc).
      { induction l as [|p l IH]; intros acc H; cbn [ofold]; [reflexivity|]. rewrite (HV (fst p + 1)%nat (snd p + 1)%nat).
        - destruct (sym_value m' _ _); cbn [obind]; auto. apply IH. intros q Hq. apply H. now right.
        - destruct (H p (or_introl eq_refl)). unfold in_shape. cbn [fst snd]. lia. }
      apply Q. intros p Hp. apply in_pairs in Hp. lia. }
    rewrite F1. cbn [obind]. destruct (gauss_solve_len X X' A B B' n r LX LB E2) as (r' & F2 & Q). rewrite F2. cbn [obind].
    destruct r as [y|], r' as [y'|]; cbn [same_X] in Q; try contradiction; [eauto|discriminate].
  Qed.
End Indep.

Section Stiff.
  Variable K : Rng.
  Local Open Scope rng_scope.
  Lemma stiff_res_K mesh s ks1 ks2 mpcs1 mpcs2 a b : Forall2 (Forall2 same_stiff) ks1 ks2 -> Forall2 (fun m1 m2 => mp_terms m1 = mp_terms m2) mpcs1 mpcs2 ->
    res_K K mesh s ks1 mpcs1 a b = res_K K mesh s ks2 mpcs2 a b.
  Proof.
    intros FK FM. unfold res_K.  f_equal.
    - unfold contribs. generalize (seq 1 (length mesh)). intros es. revert es. induction FK as [|l1 l2 ks1 ks2 H F IH]; intros [|e es]; try reflexivity.
      cbn [combine flat_map fst snd]. rewrite !(sumof_app K), IH.  f_equal. clear -H.
      induction H as [|c1 c2 l1 l2 H F IH]; [reflexivity|]. cbn [map]. rewrite !(sumof_cons K), IH.  f_equal.
      unfold eff. cbn [snd kpart dpart]. destruct c1, c2; cbn [same_stiff] in H; try contradiction; decompose [and] H; subst; reflexivity.
    - unfold mpc_matrix, mpc_list. generalize (map snd (ns_mpc s)). intros es. revert es. induction FM as [|m1 m2 ms1 ms2 H F IH]; intros [|e es]; try reflexivity.
      cbn [combine]. rewrite !(sumof_cons K), IH. cbn [fst snd]. now rewrite H.
  Qed.
End Stiff.

Section Solvable.
  Variable K : GNum.
  Variable L : glaws K.
  Add Ring Kg : (gl_ring K L).
  Local Open Scope rng_scope.
  Variables (big : K -> bool) (u : nat -> list K).
  Hypothesis HU : forall n, length (u n) = n.
  Lemma solvable nn mesh regs ks1 ks2 mpcs1 mpcs2 loads1 loads2 fixes1 fixes2 st1 :
    good_linear nn mesh regs ks1 mpcs1 loads1 fixes1 -> good_linear nn mesh regs ks2 mpcs2 loads2 fixes2 ->
    Forall2 (Forall2 same_stiff) ks1 ks2 -> Forall2 (fun m1 m2 => mp_terms m1 = mp_terms m2) mpcs1 mpcs2 -> map bc_key fixes1 = map bc_key fixes2 ->
    linear_solve big (gauss_slv u) nn mesh regs ks1 mpcs1 loads1 fixes1 = Ok st1 ->
    exists st2, linear_solve big (gauss_slv u) nn mesh regs ks2 mpcs2 loads2 fixes2 = Ok st2.
  Proof.
    intros G1 G2 FK FM EF S1.
    destruct (linear_start (GR K L) big (gauss_slv u) nn mesh regs ks1 mpcs1 loads1 fixes1 G1) as (s & g0 & g & U & R & E0 & N0 & HN & EG & I1 & EB & LU & LR & _ & _ & EL).
    destruct (linear_start (GR K L) big (gauss_slv u) nn mesh regs ks2 mpcs2 loads2 fixes2 G2) as (s' & g0' & g' & U' & R' & E0' & N0' & HN' & EG' & I1' & EB' & LU' & LR' & _ & _ & EL').
    assert (LM : length mpcs1 = length mpcs2) by (clear -FM; induction FM; cbn; lia).
    assert (ES : s' = s).
    { unfold prepare in E0, E0'. apply obind_ok in E0 as (t & E1 & E0). apply obind_ok in E0' as (t' & E1' & E0').
      assert (EM : map (fun m => length (mp_terms m)) mpcs2 = map (fun m => length (mp_terms m)) mpcs1) by (clear -FM; induction FM as [|? ? ? ? H]; cbn; congruence).
      cbn [gn GR rnum] in *. rewrite <- EF, EM, E1 in E1'. injection E1' as <-.
      assert (Q : forall (ms : list (mpc K)) g, initSolutionData false t mesh ms = Ok g -> g_num g = t).
      { intros ms h H. unfold initSolutionData in H. repeat (apply obind_ok in H as (? & _ & H)). injection H as <-. reflexivity. }
      rewrite <- N0, <- N0'. now rewrite (Q _ _ E0), (Q _ _ E0'). }
    clear N0'. subst s'. cbn [gn GR rnum] in HN', I1', LU', LR'. rewrite <- LM in HN', I1', LU', LR'.
    pose proof (pn_sum _ _ _ _ _ _ HN) as SUM.
    assert (LUc : length (seg U 0 (ns_ncon s)) = ns_ncon s) by (apply (seg_length (GR K L)); cbn [gn GR rnum] in *; lia).
    assert (LUc' : length (seg U' 0 (ns_ncon s)) = ns_ncon s) by (apply (seg_length (GR K L)); cbn [gn GR rnum] in *; lia).
    destruct (core_ok (GR K L) nn mesh regs (map bc_key fixes1) s _ HN (all_es (GR K L) nn mesh s mpcs1) big (gauss_slv u) g _ _ _ _ _ I1
      (fun a b => res_K_sym (GR K L) mesh regs s ks1 mpcs1 a b (gl_contribs _ _ _ _ _ _ _ G1)) LUc LR) as (K22 & rhs & E1 & D & V & LL & _ & CORE).
    destruct (core_ok (GR K L) nn mesh regs (map bc_key fixes2) s _ HN' (all_es (GR K L) nn mesh s mpcs2) big (gauss_slv u) g' _ _ _ _ _ I1'
      (fun a b => res_K_sym (GR K L) mesh regs s ks2 mpcs2 a b (gl_contribs _ _ _ _ _ _ _ G2)) LUc' LR') as (K22' & rhs' & E1' & D' & V' & LL' & _ & CORE').
    cbn [gn GR rnum] in *. rewrite EL in S1. rewrite EL'.
    assert (EX : exists x, gauss_slv u K22 rhs = Ok x).
    { destruct (gauss_slv u K22 rhs) as [x| | |]; [eauto| | |]; rewrite CORE in S1; discriminate. }
    destruct EX as [x ES]. unfold gauss_slv in ES.
    destruct (gauss_dense_len K (u (si_nrows (sm_si K22))) (u (si_nrows (sm_si K22'))) K22 K22' rhs rhs' x) as (x' & ES').
    - exact (eq_trans D (eq_sym D')).
    - intros i j Hij. assert (H2 : in_shape (ns_nunk s + length mpcs1) (ns_nunk s + length mpcs1) (i, j)) by (rewrite <- D; exact Hij).
      refine (eq_trans (V i j H2) (eq_trans _ (eq_sym (V' i j H2)))). f_equal. now apply (stiff_res_K (GR K L)).
    - rewrite !HU. exact (eq_trans D (eq_sym D')).
    - exact (eq_trans LL (eq_sym LL')).
    - exact ES.
    - unfold gauss_slv in CORE'. rewrite ES' in CORE'. destruct CORE' as (Rc & E2 & _).
      + destruct (gauss_exact K L u HU K22' (ns_nunk s + length mpcs1)%nat (fun i j => res_K (GR K L) mesh s ks2 mpcs2 (ns_ncon s + i) (ns_ncon s + j)) rhs' x' D' V' LL' ES') as [Lx _]. exact Lx.
      + unfold gauss_slv. rewrite E2. cbn [obind]. eauto.
  Qed.
End Solvable.
