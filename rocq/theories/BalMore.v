(* A known displacement in balance with the loads is the solution *)
From Verif Require Import Base BaseProofs SparseModel SpecSparse SparseMatProofs SparseFinal BlockModel SpecBlock BlockProofs
  DofModel SpecDof DofProofs NumberingProofs AsmModel SpecAsm AsmLists AsmCalls AsmProofs AsmRun AsmFinal SolveModel SpecSolve
  GaussModel SpecGauss GaussProofs SolveProofs LinearProofs SpecBal BalProofs.

Section Known.
  Variable K : GNum.
  Variable L : glaws K.
  Add Ring Kg7 : (gl_ring K L).
  Local Open Scope rng_scope.
  Lemma stiff_diff (v1 v2 : key -> K) k x : stiff_on (fun k => v1 k - v2 k) k x = force_on v1 k x - force_on v2 k x.
  Proof.
    unfold stiff_on, force_on. symmetry. rewrite <- (sumof_sub (GR K L)). apply (sumof_ext (GR K L)). intros p _. cbn [rnum GR].
    destruct (key_dec _ k); [|ring]. destruct x as [[en nodes] c]. cbn [elem_force elem_stiff].
    transitivity (sumof (fun q => cmat (cdim nodes c) c p q * v1 (nth q (ckeys en nodes c) dkey) - cmat (cdim nodes c) c p q * v2 (nth q (ckeys en nodes c) dkey))
      (seq 0 (length (ckeys en nodes c)))).
    - rewrite (sumof_sub (GR K L)). cbn [rnum GR]. ring.
    - apply (sumof_ext (GR K L)). intros q _. cbn [rnum GR]. ring.
  Qed.
  Lemma known_solution (big : K -> bool) (u : nat -> list K) : (forall n, length (u n) = n) ->
    forall nn mesh regs ks loads fixes st, good_linear nn mesh regs ks [] loads fixes -> distinct_nodes mesh ks ->
    (forall x v, last_fix fixes x = Some v -> big v = false -> v = 0) ->
    linear_solve big (gauss_slv u) nn mesh regs ks [] loads fixes = Ok st ->
    forall v : key -> K, (forall k y, last_fix fixes k = Some y -> v k = y) ->
      (forall k, In k (reg_keys regs) -> last_fix fixes k = None -> sumof (force_on v k) (contribs mesh ks) = total_load loads k) ->
      forall k, In k (reg_keys regs) -> vget (g_num (so_g st)) (so_U st) k = v k.
  Proof.
    intros HU nn mesh regs ks loads fixes st GL DN HB HS v VF VL k Hk.
    destruct (nodal_balance (GR K L) big (gauss_slv u) (gauss_exact K L u HU) nn mesh regs ks [] loads fixes st GL DN HB HS) as (B1 & B2 & B3).
    cbv zeta in *. cbn [rnum GR] in *. set (U := vget (g_num (so_g st)) (so_U st)) in *.
    assert (Z : (fun k => U k - v k) k = 0).
    { apply (held K L big u HU nn mesh regs ks loads fixes st GL DN HS (fun k => U k - v k)); [| |exact Hk].
      - intros x Nx Hx. destruct (last_fix fixes x) as [y|] eqn:E; [|congruence]. rewrite (VF x y E), (B3 x y E). ring.
      - intros x Hx Nx. rewrite (sumof_ext (GR K L) _ (fun z => force_on U x z - force_on v x z)) by (intros; apply stiff_diff).
        rewrite (sumof_sub (GR K L)). cbn [rnum GR]. rewrite (VL x Hx Nx). rewrite <- (B2 x Hx Nx). rewrite <- (B1 x Hx).
        assert (M0 : mpc_on (g_num (so_g st)) (so_U st) ([] : list (mpc K)) x = 0).
        { unfold mpc_on, mpc_list. destruct (map snd (ns_mpc (g_num (so_g st)))); reflexivity. }
        rewrite M0. ring. }
    cbv beta in Z. transitivity (U k - v k + v k); [ring|]. rewrite Z. ring.
  Qed.
End Known.

(* work *)
Section Work.
  Variable K : Rng.
  Add Ring Kw : (rth K).
  Local Open Scope rng_scope.
  Lemma cmat_sym nodes (c : contrib K) en p q : good_sizes nodes c -> (p < length (ckeys en nodes c))%nat -> (q < length (ckeys en nodes c))%nat ->
    cmat (cdim nodes c) c p q = cmat (cdim nodes c) c q p.
  Proof.
    intros G P Q. assert (SC : forall n, sym_comp n p q = sym_comp n q p) by (intros; unfold sym_comp; rewrite Nat.min_comm, Nat.max_comm; reflexivity).
    destruct c; cbn [cmat]; rewrite ?SC; try reflexivity.
    - rewrite Nat.min_comm, Nat.max_comm. reflexivity.
    - destruct (Nat.ltb_spec p (cdim nodes (CMixed Kuu Kup Kpp Fu Fp))), (Nat.ltb_spec q (cdim nodes (CMixed Kuu Kup Kpp Fu Fp))); try reflexivity.
    - destruct G as (L4 & _ & _ & _ & S). cbn [ckeys] in P, Q. rewrite app_length, node_keys_length, L4 in P, Q. cbn in P, Q. apply S; lia.
  Qed.
  Lemma stiff_work_sym mesh regs ks (v w : key -> K) x : good_contribs mesh regs ks -> In x (contribs mesh ks) -> stiff_work v w x = stiff_work w v x.
  Proof.
    intros [_ G] Hx. destruct x as [[en nodes] c]. destruct (G _ _ _ Hx) as [GS _]. unfold stiff_work. cbn [x_keys elem_stiff].
    rewrite (sumof_ext K _ (fun p => sumof (fun q => cmat (cdim nodes c) c p q * v (nth q (ckeys en nodes c) dkey) * w (nth p (ckeys en nodes c) dkey)) (seq 0 (length (ckeys en nodes c)))))
      by (intros; now rewrite sumof_scal_r).
    rewrite sumof_swap. apply sumof_ext. intros q Hq. apply in_seq in Hq. rewrite <- sumof_scal_r. apply sumof_ext. intros p Hp. apply in_seq in Hp.
    rewrite (cmat_sym nodes c en p q GS) by lia. ring.
  Qed.
  Variable big : K -> bool.
  Variable slv : eqsolver K.
  Hypothesis EX : exact_solver slv.
  Lemma outer_inner nn mesh regs ks (mpcs : list (mpc K)) loads fixes st (w : key -> K) : good_linear nn mesh regs ks mpcs loads fixes -> distinct_nodes mesh ks ->
    (forall x v, last_fix fixes x = Some v -> big v = false -> v = 0) ->
    linear_solve big slv nn mesh regs ks mpcs loads fixes = Ok st ->
    (forall m, In m mpcs -> sumof (fun t => snd t * w (term_key t)) (mp_terms m) = mp_b m) ->
    outer_work mesh regs ks mpcs st w = sumof (stiff_work (vget (g_num (so_g st)) (so_U st)) w) (contribs mesh ks).
  Proof.
    intros GL DN HB HS HM. destruct (nodal_balance K big slv EX nn mesh regs ks mpcs loads fixes st GL DN HB HS) as (N1 & _ & _). cbv zeta in N1.
    set (s := g_num (so_g st)) in *. set (U := so_U st) in *.
    unfold outer_work. fold s U. rewrite (work_balance K mesh regs ks mpcs s U (vget s (so_R st)) (vget s U) w (gl_contribs _ _ _ _ _ _ _ GL)); [| |exact N1].
    - rewrite (sumof_ext K (fun x => nth (fst x - 1) U 0 * sumof (fun t => snd t * w (term_key t)) (mp_terms (snd x))) (fun x => nth (fst x - 1) U 0 * mp_b (snd x))).
      2:{ intros [e m] Hx. cbn [fst snd]. apply in_combine_r in Hx. now rewrite HM. }
      rewrite (sumof_ext K (fun x => sumof (fun p => elem_force (vget s U) x p * w (nth p (x_keys x) dkey)) (seq 0 (length (x_keys x))))
        (fun x => stiff_work (vget s U) w x - load_work w x)).
      2:{ intros [[en nodes] c] _. unfold stiff_work, load_work. cbn [elem_force x_keys]. rewrite <- sumof_sub. apply sumof_ext. intros p _. ring. }
      rewrite sumof_sub. ring.
    - intros [e m] t Hx Ht. apply in_combine_r in Hx. cbn [snd] in Ht.
      destruct GL as [P _ _ _ _]. exact (gp_term_keys _ _ _ _ _ P m t Hx Ht).
  Qed.
  Lemma solution_mpcs nn mesh regs ks (mpcs : list (mpc K)) loads fixes st : good_linear nn mesh regs ks mpcs loads fixes ->
    (forall x v, last_fix fixes x = Some v -> big v = false -> v = 0) ->
    linear_solve big slv nn mesh regs ks mpcs loads fixes = Ok st ->
    forall m, In m mpcs -> sumof (fun t => snd t * vget (g_num (so_g st)) (so_U st) (term_key t)) (mp_terms m) = mp_b m.
  Proof.
    intros GL HB HS m Hm. destruct (linear_solution K big slv EX nn mesh regs ks mpcs loads fixes st GL HB HS) as (Kf & _ & _ & _ & _ & _ & _ & _ & _ & MP).
    destruct (linear_start K big slv nn mesh regs ks mpcs loads fixes GL) as (s & g0 & g & U & R & E0 & N0 & HN & EG & I1 & EB & _ & _ & _ & _ & EL).
    assert (SG : so_g st = g).
    { rewrite EL in HS. apply obind_ok in HS as (xr & _ & HS). injection HS as <-. reflexivity. }
    rewrite SG in *. rewrite (gi_num _ _ _ _ _ _ _ _ _ I1) in *.
    pose proof (n_mpc_nm nn mesh regs (map bc_key fixes) s _ HN) as NM.
    destruct (In_nth _ _ m Hm) as (i & Hi & Em).
    apply (MP (nth i (map snd (ns_mpc s)) 0%nat) m). unfold mpc_list.
    replace (nth i (map snd (ns_mpc s)) 0%nat, m) with (nth i (combine (map snd (ns_mpc s)) mpcs) (0%nat, m)).
    - apply nth_In. rewrite combine_length, map_length. unfold n_mpc in NM. lia.
    - rewrite combine_nth by (rewrite map_length; exact NM). now rewrite Em.
  Qed.
  Lemma reciprocity nn mesh regs ks (mpcs : list (mpc K)) loads1 fixes1 loads2 fixes2 st1 st2 : distinct_nodes mesh ks ->
    good_linear nn mesh regs ks mpcs loads1 fixes1 -> good_linear nn mesh regs ks mpcs loads2 fixes2 ->
    (forall x v, last_fix fixes1 x = Some v -> big v = false -> v = 0) -> (forall x v, last_fix fixes2 x = Some v -> big v = false -> v = 0) ->
    linear_solve big slv nn mesh regs ks mpcs loads1 fixes1 = Ok st1 -> linear_solve big slv nn mesh regs ks mpcs loads2 fixes2 = Ok st2 ->
    outer_work mesh regs ks mpcs st1 (vget (g_num (so_g st2)) (so_U st2)) = outer_work mesh regs ks mpcs st2 (vget (g_num (so_g st1)) (so_U st1)).
  Proof.
    intros DN G1 G2 B1 B2 S1 S2.
    rewrite (outer_inner nn mesh regs ks mpcs loads1 fixes1 st1 _ G1 DN B1 S1 (solution_mpcs _ _ _ _ _ _ _ _ G2 B2 S2)).
    rewrite (outer_inner nn mesh regs ks mpcs loads2 fixes2 st2 _ G2 DN B2 S2 (solution_mpcs _ _ _ _ _ _ _ _ G1 B1 S1)).
    apply sumof_ext. intros x Hx. eapply stiff_work_sym; [apply G1|exact Hx].
  Qed.
End Work.
