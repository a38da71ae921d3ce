(* Balance of forces for every solution *)
From Verif Require Import Base BaseProofs SparseModel SpecSparse SparseMatProofs SparseFinal BlockModel SpecBlock BlockProofs
  DofModel SpecDof DofProofs NumberingProofs AsmModel SpecAsm AsmLists AsmCalls AsmProofs AsmRun AsmFinal SolveModel SpecSolve
  GaussModel SpecGauss GaussProofs SolveProofs LinearProofs SpecBal.

Section Bal.
  Variable K : Rng.
  Add Ring Kr : (rth K).
  Local Open Scope rng_scope.
  Implicit Types (ks : list (list (contrib K))) (mpcs : list (mpc K)) (loads fixes : list (bc K)).

  Lemma if_and (a b : bool) (x : K) : (if a && b then x else 0) = (if a then (if b then x else 0) else 0).
  Proof. destruct a, b; reflexivity. Qed.
  Lemma if_mul (a : bool) (x y : K) : (if a then x else 0) * y = if a then x * y else 0.
  Proof. destruct a; ring. Qed.
  Lemma if_sum {A} (a : bool) (f : A -> K) l : sumof (fun x => if a then f x else 0) l = if a then sumof f l else 0.
  Proof. destruct a; [reflexivity|]. apply sumof_zero. auto. Qed.

  (* a scattered element matrix times a vector *)
  Lemma mat_part_mv s keys (ke : nat -> nat -> K) N V a : (forall x, In x keys -> (1 <= eqn s x <= N)%nat) ->
    sumof (fun b => mat_part s keys ke a b * nth (b - 1) V 0) (seq 1 N) =
    sumof (fun p => if at_eq s keys p a then sumof (fun q => ke p q * vget s V (nth q keys dkey)) (seq 0 (length keys)) else 0) (seq 0 (length keys)).
  Proof.
    intros B. unfold mat_part.
    rewrite (sumof_ext K _ (fun b => sumof (fun p => sumof (fun q =>
       (if at_eq s keys p a then (if at_eq s keys q b then ke p q * nth (b - 1) V 0 else 0) else 0)) (seq 0 (length keys))) (seq 0 (length keys)))).
    2:{ intros b _. rewrite <- sumof_scal_r. apply sumof_ext. intros p _. rewrite <- sumof_scal_r. apply sumof_ext. intros q _.
        rewrite if_and, if_mul. destruct (at_eq s keys p a); [|reflexivity]. apply if_mul. }
    rewrite sumof_swap. apply sumof_ext. intros p _. rewrite sumof_swap.
    rewrite (sumof_ext K _ (fun q => if at_eq s keys p a then ke p q * vget s V (nth q keys dkey) else 0)).
    - apply if_sum.
    - intros q Q. apply in_seq in Q. rewrite if_sum. destruct (at_eq s keys p a); [|reflexivity].
      unfold at_eq, vget. rewrite (sumof_ext K _ (fun b => if Nat.eqb b (eqn s (nth q keys dkey)) then ke p q * nth (b - 1) V 0 else 0))
        by (intros b _; rewrite Nat.eqb_sym; reflexivity).
      apply (sumof_delta_nat K (eqn s (nth q keys dkey)) (fun b => ke p q * nth (b - 1) V 0)); [apply seq_NoDup|].
      apply in_seq. destruct (B (nth q keys dkey)); [apply nth_In; lia|lia].
  Qed.

  Variables (nn : nat) (mesh : list (list nat)) (regs : list reg) (fx : list key) (s : numst) (nm : nat).
  Hypothesis HN : prob_num nn (length mesh) regs fx nm s.
  Lemma rng x : In x (reg_keys regs) -> (1 <= eqn s x <= ns_ndofs s)%nat.
  Proof. intros H. apply (pn_eq _ _ _ _ _ _ HN x H). Qed.
  Lemma same_key x y : In x (reg_keys regs) -> In y (reg_keys regs) -> Nat.eqb (eqn s x) (eqn s y) = if key_dec x y then true else false.
  Proof.
    intros A B. destruct (key_dec x y) as [->|N]; [apply Nat.eqb_refl|]. apply Nat.eqb_neq. intros E. apply N. exact (pn_inj _ _ _ _ _ _ HN x y A B E).
  Qed.

  Lemma elements_mv ks V k : good_contribs mesh regs ks -> In k (reg_keys regs) ->
    mv (fun a b => sumof (kpart s a b) (contribs mesh ks)) (ns_ndofs s + nm) V (eqn s k) - sum_vector s mesh ks (eqn s k) =
    sumof (force_on (vget s V) k) (contribs mesh ks).
  Proof.
    intros G Hk. unfold mv.
    rewrite (sumof_ext K _ (fun b => sumof (fun x => kpart s (eqn s k) b x * nth (b - 1) V 0) (contribs mesh ks)))
      by (intros b _; symmetry; apply sumof_scal_r).
    rewrite sumof_swap. unfold sum_vector. rewrite <- sumof_sub. apply sumof_ext. intros [[en nodes] c] Hx.
    destruct G as [_ G]. destruct (G _ _ _ Hx) as [_ GK]. rewrite Forall_forall in GK. cbn [kpart fpart].
    rewrite mat_part_mv by (intros x I; destruct (rng x (GK x I)); lia).
    unfold vec_part, force_on. cbn [x_keys elem_force elem_stiff]. rewrite <- sumof_sub. apply sumof_ext. intros p P. apply in_seq in P.
    unfold at_eq. rewrite same_key by (auto; apply GK, nth_In; lia). destruct (key_dec _ k); [reflexivity|ring].
  Qed.
  Lemma elements_stiff ks V k : good_contribs mesh regs ks -> In k (reg_keys regs) ->
    mv (fun a b => sumof (kpart s a b) (contribs mesh ks)) (ns_ndofs s + nm) V (eqn s k) = sumof (stiff_on (vget s V) k) (contribs mesh ks).
  Proof.
    intros G Hk. unfold mv.
    rewrite (sumof_ext K _ (fun b => sumof (fun x => kpart s (eqn s k) b x * nth (b - 1) V 0) (contribs mesh ks)))
      by (intros b _; symmetry; apply sumof_scal_r).
    rewrite sumof_swap. apply sumof_ext. intros [[en nodes] c] Hx.
    destruct G as [_ G]. destruct (G _ _ _ Hx) as [_ GK]. rewrite Forall_forall in GK. cbn [kpart].
    rewrite mat_part_mv by (intros x I; destruct (rng x (GK x I)); lia).
    unfold stiff_on. cbn [x_keys elem_stiff]. apply sumof_ext. intros p P. apply in_seq in P.
    unfold at_eq. rewrite same_key by (auto; apply GK, nth_In; lia). destruct (key_dec _ k); reflexivity.
  Qed.
  Lemma mpc_mv mpcs V k : length mpcs = nm -> In k (reg_keys regs) -> (forall m t, In m mpcs -> In t (mp_terms m) -> In (term_key t) (reg_keys regs)) ->
    mv (mpc_matrix s mpcs) (ns_ndofs s + nm) V (eqn s k) = mpc_on s V mpcs k.
  Proof.
    intros L Hk T. unfold mv, mpc_matrix.
    rewrite (sumof_ext K _ (fun b => sumof (fun x => sumof (fun t => (if same_pair (fst x) (eqn s (term_key t)) (eqn s k) b then snd t else 0) * nth (b - 1) V 0) (mp_terms (snd x))) (mpc_list s mpcs))).
    2:{ intros b _. rewrite <- sumof_scal_r. apply sumof_ext. intros x _. symmetry. apply sumof_scal_r. }
    rewrite sumof_swap. unfold mpc_on. apply sumof_ext. intros x Hx. rewrite sumof_swap. apply sumof_ext. intros t Ht.
    destruct (mpc_list_in K nn mesh regs fx s _ HN mpcs x L Hx) as [Hm He]. pose proof (rng k Hk) as Rk.
    pose proof (T _ _ Hm Ht) as RT. pose proof (rng _ RT) as Rt.
    rewrite (sumof_ext K _ (fun b => if Nat.eqb b (fst x) then (if key_dec (term_key t) k then snd t * nth (b - 1) V 0 else 0) else 0)).
    - apply (sumof_delta_nat K (fst x) (fun b => if key_dec (term_key t) k then snd t * nth (b - 1) V 0 else 0)); [apply seq_NoDup|]. apply in_seq. lia.
    - intros b Hb. pose proof (same_key (term_key t) k RT Hk) as SK. unfold same_pair, here.
      assert (Nat.eqb (fst x) (eqn s k) = false) as E1 by (apply Nat.eqb_neq; lia). rewrite E1. cbn [andb orb]. rewrite SK, (Nat.eqb_sym b).
      destruct (key_dec (term_key t) k), (Nat.eqb (fst x) b); cbn [andb]; ring.
  Qed.
End Bal.

Section Rows.
  Variable K : Rng.
  Add Ring Kr2 : (rth K).
  Local Open Scope rng_scope.
  Lemma res_K_sum nn mesh regs fx s nm (ks : list (list (contrib K))) (mpcs : list (mpc K)) a b : prob_num nn (length mesh) regs fx nm s ->
    good_contribs mesh regs ks -> only_K ks -> distinct_nodes mesh ks ->
    res_K K mesh s ks mpcs a b = sumof (kpart s a b) (contribs mesh ks) + mpc_matrix s mpcs a b.
  Proof.
    intros HN G O DN. unfold res_K. rewrite eff_TK by exact O. rewrite (sum_dup_zero K nn mesh regs fx _ s ks TK a b HN); auto.
    unfold sum_matrix. rewrite (filter_all (has_target TK)).
    - ring.
    - intros [[en nodes] c] Hx. unfold has_target. cbn [snd]. apply in_contribs in Hx as (l & Hx & _ & Hc).
      apply in_combine_r in Hx. unfold only_K in O. rewrite Forall_forall in O. specialize (O l Hx). rewrite Forall_forall in O. now rewrite (O c Hc).
  Qed.
  Lemma last_fix_none (fixes : list (bc K)) k : last_fix fixes k = None <-> ~ In k (map bc_key fixes).
  Proof.
    unfold last_fix.
    assert (LF : forall fs o, fold_left (fun o f => if key_dec (bc_key f) k then Some (bc_val f) else o) fs o = (None : option K) <->
      o = None /\ ~ In k (map bc_key fs)).
    { induction fs as [|f fs IH]; intros o; cbn [fold_left map]; [cbn; tauto|]. rewrite IH. cbn [In].
      destruct (key_dec (bc_key f) k) as [E|E]; split; intros [A B]; split; try discriminate; try tauto.
      }
    rewrite LF. tauto.
  Qed.
End Rows.

Section Sol.
  Variable K : Rng.
  Add Ring Kr3 : (rth K).
  Local Open Scope rng_scope.
  Variable big : K -> bool.
  Variable slv : eqsolver K.
  Hypothesis EX : exact_solver slv.

  (* every DoF is in balance: element forces, MPC forces, load or reaction *)
  Lemma nodal_balance nn mesh regs ks mpcs loads fixes st : good_linear nn mesh regs ks mpcs loads fixes -> distinct_nodes mesh ks ->
    (forall x v, last_fix fixes x = Some v -> big v = false -> v = 0) ->
    linear_solve big slv nn mesh regs ks mpcs loads fixes = Ok st ->
    let s := g_num (so_g st) in
    (forall k, In k (reg_keys regs) ->
       sumof (force_on (vget s (so_U st)) k) (contribs mesh ks) + mpc_on s (so_U st) mpcs k = vget s (so_R st) k) /\
    (forall k, In k (reg_keys regs) -> last_fix fixes k = None -> vget s (so_R st) k = total_load loads k) /\
    (forall k v, last_fix fixes k = Some v -> vget s (so_U st) k = v).
  Proof.
    intros GL DN HB HS.
    destruct (linear_solution K big slv EX nn mesh regs ks mpcs loads fixes st GL HB HS) as (Kf & N & LU & LR & LF & KV & EQ & FX & LD & MP).
    destruct (linear_start K big slv nn mesh regs ks mpcs loads fixes GL)
      as (s & g0 & g & U & R & E0 & N0 & HN & EG & I1 & EB & _ & _ & _ & _ & EL).
    assert (SG : so_g st = g).
    { rewrite EL in HS. apply obind_ok in HS as (xr & _ & HS). injection HS as <-. reflexivity. }
    cbv zeta. rewrite SG in *. pose proof I1 as [A1 A2 A3 A4 A5 A6 A7]. rewrite A1 in *.
    pose proof GL as [P C G O L].
    pose proof (n_mpc_nm nn mesh regs (map bc_key fixes) s _ HN) as NM.
    assert (GS : g_size g = (ns_ndofs s + length mpcs)%nat) by (unfold g_size; rewrite A1; congruence).
    split; [|split; [exact LD|exact FX]].
    intros k Hk. pose proof (rng nn mesh regs (map bc_key fixes) s _ HN k Hk) as Rk.
    assert (Ha : (1 <= eqn s k <= g_size g)%nat) by (rewrite GS; lia).
    pose proof (EQ _ Ha) as E. unfold vget at 2. rewrite A7 in E by lia.
    assert (FE : res_F K mesh s ks [] mpcs (eqn s k) = sum_vector s mesh ks (eqn s k)).
    { unfold res_F. assert (Q : forall l v, (forall x, In x l -> (ns_ndofs s < fst x)%nat) ->
        fold_left (fun (v : K) (x : nat * mpc K) => if Nat.eqb (eqn s k) (fst x) then mp_b (snd x) else v) l v = v).
      { induction l as [|x l IH]; intros v B; [reflexivity|]. cbn [fold_left]. destruct (Nat.eqb_spec (eqn s k) (fst x)) as [X|_].
        - specialize (B x (or_introl eq_refl)). lia.
        - apply IH. intros y Y. apply B. now right. }
      rewrite Q; [reflexivity|]. intros x Hx. destruct (mpc_list_in K nn mesh regs (map bc_key fixes) s _ HN mpcs x eq_refl Hx) as [_ He]. lia. }
    rewrite FE in E.
    assert (KE : mv Kf (g_size g) (so_U st) (eqn s k) =
      mv (fun a b => sumof (kpart s a b) (contribs mesh ks)) (ns_ndofs s + length mpcs) (so_U st) (eqn s k) +
      mv (mpc_matrix s mpcs) (ns_ndofs s + length mpcs) (so_U st) (eqn s k)).
    { rewrite GS. unfold mv. rewrite <- sumof_add. apply sumof_ext. intros b Hb. apply in_seq in Hb.
      assert (V : gvalue (g_K g) (eqn s k) b = Ok (res_K K mesh s ks mpcs (eqn s k) b)).
      { pose proof (rows_sum nn mesh regs (map bc_key fixes) s _ HN) as RS.
        apply (gvalue_ok K s (all_es K nn mesh s mpcs) 0 (g_K g) _ (eqn s k) b A3); [|lia|lia].
        intros; apply (res_K_sym K mesh regs); auto. }
      rewrite KV in V by lia. injection V as V. rewrite V.
      rewrite (res_K_sum K nn mesh regs (map bc_key fixes) s (length mpcs) ks mpcs _ _ HN G O DN). ring. }
    rewrite KE in E.
    rewrite (mpc_mv K nn mesh regs (map bc_key fixes) s _ HN mpcs (so_U st) k eq_refl Hk (gp_term_keys _ _ _ _ _ P)) in E.
    rewrite <- (elements_mv K nn mesh regs (map bc_key fixes) s _ HN ks (so_U st) k G Hk).
    unfold vget in *.
    match goal with |- _ = ?r => transitivity (sum_vector s mesh ks (eqn s k) + r - sum_vector s mesh ks (eqn s k)); [rewrite <- E; ring|ring] end.
  Qed.

  Lemma key_delta (k : key) (f : key -> K) l : NoDup l -> In k l -> sumof (fun x => if key_dec k x then f x else 0) l = f k.
  Proof.
    induction l as [|x l IH]; intros D I; [destruct I|]. inversion D as [|? ? N D2]; subst. rewrite sumof_cons. destruct I as [->|I].
    - destruct (key_dec k k) as [_|C]; [|congruence]. rewrite sumof_zero; [ring|]. intros y Y. destruct (key_dec k y) as [->|]; [contradiction|reflexivity].
    - destruct (key_dec k x) as [->|_]; [contradiction|]. rewrite IH by assumption. ring.
  Qed.
  (* the work of the external forces on any displacement w *)
  Lemma work_balance mesh regs ks (mpcs : list (mpc K)) s (U : list K) (Rf v w : key -> K) :
    good_contribs mesh regs ks -> (forall x t, In x (mpc_list s mpcs) -> In t (mp_terms (snd x)) -> In (term_key t) (reg_keys regs)) ->
    (forall k, In k (reg_keys regs) -> sumof (force_on v k) (contribs mesh ks) + mpc_on s U mpcs k = Rf k) ->
    sumof (fun k => Rf k * w k) (reg_keys regs) =
    sumof (fun x => sumof (fun p => elem_force v x p * w (nth p (x_keys x) dkey)) (seq 0 (length (x_keys x)))) (contribs mesh ks) +
    sumof (fun x => nth (fst x - 1) U 0 * sumof (fun t => snd t * w (term_key t)) (mp_terms (snd x))) (mpc_list s mpcs).
  Proof.
    intros [_ G] T H. assert (ND : NoDup (reg_keys regs)) by apply NoDup_nodup.
    rewrite (sumof_ext K _ (fun k => sumof (fun x => force_on v k x * w k) (contribs mesh ks) +
      sumof (fun x => sumof (fun t => if key_dec (term_key t) k then snd t * nth (fst x - 1) U 0 * w k else 0) (mp_terms (snd x))) (mpc_list s mpcs))).
    2:{ intros k Hk. rewrite <- (H k Hk). rewrite sumof_scal_r. unfold mpc_on.
        transitivity (sumof (force_on v k) (contribs mesh ks) * w k +
          sumof (fun x => sumof (fun t => if key_dec (term_key t) k then snd t * nth (fst x - 1) U 0 else 0) (mp_terms (snd x))) (mpc_list s mpcs) * w k); [ring|].
        f_equal. rewrite <- sumof_scal_r. apply sumof_ext. intros x _. rewrite <- sumof_scal_r. apply sumof_ext. intros t _.
        destruct (key_dec (term_key t) k); ring. }
    rewrite sumof_add. f_equal.
    - rewrite sumof_swap. apply sumof_ext. intros [[en nodes] c] Hx. unfold force_on.
      rewrite (sumof_ext K _ (fun k => sumof (fun p => if key_dec (nth p (x_keys (en, nodes, c)) dkey) k then elem_force v (en, nodes, c) p * w k else 0) (seq 0 (length (x_keys (en, nodes, c)))))).
      2:{ intros k _. rewrite <- sumof_scal_r. apply sumof_ext. intros p _. destruct (key_dec _ k); ring. }
      rewrite sumof_swap. apply sumof_ext. intros p P. apply in_seq in P.
      apply (key_delta _ (fun k => elem_force v (en, nodes, c) p * w k)); [exact ND|].
      destruct (G _ _ _ Hx) as [_ GK]. rewrite Forall_forall in GK. apply GK. apply nth_In. cbn [x_keys] in P |- *. lia.
    - rewrite sumof_swap. apply sumof_ext. intros x Hx. rewrite sumof_swap, <- sumof_scal. apply sumof_ext. intros t Ht.
      rewrite (key_delta _ (fun k => snd t * nth (fst x - 1) U 0 * w k)); [ring|exact ND|]. eapply T; eauto.
  Qed.
  (* an element that resists w by no force does no work on it *)
  Definition floats (w : key -> K) (x : nat * list nat * contrib K) : Prop :=
    match x with (en, nodes, c) =>
      (forall q, (q < length (ckeys en nodes c))%nat ->
        sumof (fun p => cmat (cdim nodes c) c p q * w (nth p (ckeys en nodes c) dkey)) (seq 0 (length (ckeys en nodes c))) = 0) /\
      sumof (fun p => cvec (cdim nodes c) c p * w (nth p (ckeys en nodes c) dkey)) (seq 0 (length (ckeys en nodes c))) = 0 end.
  Lemma floats_work v w x : floats w x ->
    sumof (fun p => elem_force v x p * w (nth p (x_keys x) dkey)) (seq 0 (length (x_keys x))) = 0.
  Proof.
    destruct x as [[en nodes] c]. intros [A B]. cbn [x_keys elem_force elem_stiff].
    set (ky := ckeys en nodes c) in *. set (n := cdim nodes c) in *.
    rewrite (sumof_ext K _ (fun p => sumof (fun q => cmat n c p q * v (nth q ky dkey) * w (nth p ky dkey)) (seq 0 (length ky)) - cvec n c p * w (nth p ky dkey))).
    2:{ intros p _. rewrite sumof_scal_r. ring. }
    rewrite sumof_sub, B, sumof_swap.
    rewrite (sumof_zero K _ (seq 0 (length ky))); [ring|]. intros q Q. apply in_seq in Q.
    rewrite (sumof_ext K _ (fun p => v (nth q ky dkey) * (cmat n c p q * w (nth p ky dkey)))) by (intros; ring).
    rewrite sumof_scal, A by lia. ring.
  Qed.
  Lemma float_balance mesh regs ks (mpcs : list (mpc K)) s (U : list K) (Rf v w : key -> K) :
    good_contribs mesh regs ks -> (forall x t, In x (mpc_list s mpcs) -> In t (mp_terms (snd x)) -> In (term_key t) (reg_keys regs)) ->
    (forall k, In k (reg_keys regs) -> sumof (force_on v k) (contribs mesh ks) + mpc_on s U mpcs k = Rf k) ->
    (forall x, In x (contribs mesh ks) -> floats w x) ->
    (forall m, In m mpcs -> sumof (fun t => snd t * w (term_key t)) (mp_terms m) = 0) ->
    sumof (fun k => Rf k * w k) (reg_keys regs) = 0.
  Proof.
    intros G T H F M. rewrite (work_balance mesh regs ks mpcs s U Rf v w G T H).
    rewrite sumof_zero by (intros x Hx; apply floats_work, F, Hx).
    rewrite sumof_zero; [ring|]. intros [e m] Hx. cbn [fst snd]. apply in_combine_r in Hx. rewrite M by assumption. ring.
  Qed.
End Sol.

(* when the default equation solver gives up, the supports do not hold the structure: some displacement that
   moves no support needs (almost) no force *)
Section Refused.
  Variable K : GNum.
  Variable L : glaws K.
  Add Ring Kg5 : (gl_ring K L).
  Local Open Scope rng_scope.
  Lemma refused (big : K -> bool) (u : nat -> list K) : (forall n, length (u n) = n) ->
    forall nn mesh regs ks loads fixes, good_linear nn mesh regs ks [] loads fixes -> distinct_nodes mesh ks -> (length (reg_keys regs) < 1000)%nat ->
    linear_solve big (gauss_slv u) nn mesh regs ks [] loads fixes = Fatal ->
    exists w : key -> K, (forall k, last_fix fixes k <> None -> In k (reg_keys regs) -> w k = 0) /\
      (exists k, In k (reg_keys regs) /\ last_fix fixes k = None /\ w k = 1) /\
      forall k, In k (reg_keys regs) -> last_fix fixes k = None ->
        glt (gabs (sumof (stiff_on w k) (contribs mesh ks))) gtiny = true.
  Proof.
    intros HU nn mesh regs ks loads fixes GL DN HL HF.
    destruct (linear_start (GR K L) big (gauss_slv u) nn mesh regs ks [] loads fixes GL)
      as (s & g0 & g & U & R & E0 & N0 & HN & EG & I1 & EB & LU & LR & _ & _ & EL).
    destruct GL as [P C G O LD]. cbn [length] in *.
    pose proof (pn_sum _ _ _ _ _ _ HN) as SUM. pose proof (pn_nd _ _ _ _ _ _ HN) as ND.
    assert (LUc : length (seg U 0 (ns_ncon s)) = ns_ncon s) by (apply (seg_length (GR K L)); lia).
    destruct (core_ok (GR K L) nn mesh regs (map bc_key fixes) s _ HN (all_es (GR K L) nn mesh s []) big (gauss_slv u) g _ _ _ _ _ I1
      (fun a b => res_K_sym (GR K L) mesh regs s ks [] a b G) LUc LR) as (K22 & rhs & E1 & D & V & LL & _ & CORE).
    cbn [gn GR rnum] in *. rewrite EL in HF.
    destruct (gauss_slv u K22 rhs) as [x| | |] eqn:ES.
    - destruct (gauss_exact K L u HU _ _ _ _ _ D V LL ES) as [Lx _]. destruct (CORE Lx) as (Rc & E2 & _). rewrite E2 in HF. discriminate.
    - unfold gauss_slv in ES.
      destruct (gauss_dense_fail K L K22 (ns_nunk s + 0) (fun i j => res_K (GR K L) mesh s ks [] (ns_ncon s + i) (ns_ncon s + j)) rhs (u (si_nrows (sm_si K22))) D) as (x & i & Lx & Hi & Xi & Q); [lia|exact V|exact LL|rewrite D; auto|exact ES|].
      set (V0 := repeat 0 (ns_ncon s) ++ x).
      assert (L0 : length (repeat (0 : K) (ns_ncon s)) = ns_ncon s) by apply repeat_length.
      exists (vget s V0). split; [|split].
      + intros k Nk Hk. destruct (pn_eq _ _ _ _ _ _ HN k Hk) as (_ & Hr & Hc).
        assert (eqn s k <= ns_ncon s)%nat.
        { apply Hc. destruct (in_dec key_dec k (map bc_key fixes)) as [I|I]; auto. exfalso. apply Nk. now apply (last_fix_none (GR K L)). }
        unfold vget, V0. rewrite app_nth1 by lia. apply nth_repeat.
      + destruct (pn_surj _ _ _ _ _ _ HN (ns_ncon s + S i)%nat) as (k & Hk & Ek); [lia|]. exists k. split; [exact Hk|].
        destruct (pn_eq _ _ _ _ _ _ HN k Hk) as (_ & Hr & Hc). split.
        * apply (last_fix_none (GR K L)). rewrite <- Hc. lia.
        * unfold vget, V0. rewrite app_nth2 by lia. rewrite <- Xi. f_equal. lia.
      + intros k Hk Nk. apply (last_fix_none (GR K L)) in Nk. destruct (pn_eq _ _ _ _ _ _ HN k Hk) as (_ & Hr & Hc).
        assert (~ (eqn s k <= ns_ncon s)%nat) by tauto.
        specialize (Q (eqn s k - ns_ncon s - 1)%nat). rewrite <- Q by lia. f_equal. f_equal.
        pose proof (elements_stiff (GR K L) nn mesh regs (map bc_key fixes) s 0 HN ks V0 k G Hk) as ST. cbn [rnum GR] in ST. rewrite <- ST. clear ST.
        replace (ns_ndofs s + 0)%nat with (ns_ncon s + (ns_nunk s + 0))%nat by lia. unfold V0.
        rewrite (mv_split (GR K L)) by exact L0.
        replace (mv _ (ns_ncon s) (repeat 0 (ns_ncon s)) (eqn s k)) with (0 : K).
        2:{ symmetry. unfold mv. apply (sumof_zero (GR K L)). intros j _. cbn [rnum GR]. rewrite nth_repeat. cbn. ring. }
        transitivity (sumof (fun j : nat => sumof (kpart s (eqn s k) (ns_ncon s + j)) (contribs mesh ks) * nth (j - 1) x 0) (seq 1 (ns_nunk s + 0))); [cbn; ring|].
        unfold mv. apply (sumof_ext (GR K L)). intros j Hj. cbn [rnum GR]. f_equal.
        rewrite (res_K_sum (GR K L) nn mesh regs (map bc_key fixes) s 0 ks [] _ _ HN G O DN). replace (ns_ncon s + S (eqn s k - ns_ncon s - 1))%nat with (eqn s k) by lia.
        assert (M0 : mpc_matrix s ([] : list (mpc K)) (eqn s k) (ns_ncon s + j) = 0).
        { unfold mpc_matrix, mpc_list. destruct (map snd (ns_mpc s)); reflexivity. }
        cbn [rnum GR]. rewrite M0. ring.
    - rewrite CORE in HF. discriminate.
    - rewrite CORE in HF. discriminate.
  Qed.
End Refused.

(* a solved structure is held by its supports: no displacement other than zero is free of forces *)
Section Held.
  Variable K : GNum.
  Variable L : glaws K.
  Add Ring Kg6 : (gl_ring K L).
  Local Open Scope rng_scope.
  Lemma held (big : K -> bool) (u : nat -> list K) : (forall n, length (u n) = n) ->
    forall nn mesh regs ks loads fixes st, good_linear nn mesh regs ks [] loads fixes -> distinct_nodes mesh ks ->
    linear_solve big (gauss_slv u) nn mesh regs ks [] loads fixes = Ok st ->
    forall w : key -> K, (forall k, last_fix fixes k <> None -> In k (reg_keys regs) -> w k = 0) ->
      (forall k, In k (reg_keys regs) -> last_fix fixes k = None -> sumof (stiff_on w k) (contribs mesh ks) = 0) ->
      forall k, In k (reg_keys regs) -> w k = 0.
  Proof.
    intros HU nn mesh regs ks loads fixes st GL DN HF w W0 W1 k0 Hk0.
    destruct (linear_start (GR K L) big (gauss_slv u) nn mesh regs ks [] loads fixes GL)
      as (s & g0 & g & U & R & E0 & N0 & HN & EG & I1 & EB & LU & LR & _ & _ & EL).
    destruct GL as [P C G O LD]. cbn [length] in *.
    pose proof (pn_sum _ _ _ _ _ _ HN) as SUM. pose proof (pn_nd _ _ _ _ _ _ HN) as ND.
    assert (LUc : length (seg U 0 (ns_ncon s)) = ns_ncon s) by (apply (seg_length (GR K L)); lia).
    destruct (core_ok (GR K L) nn mesh regs (map bc_key fixes) s _ HN (all_es (GR K L) nn mesh s []) big (gauss_slv u) g _ _ _ _ _ I1
      (fun a b => res_K_sym (GR K L) mesh regs s ks [] a b G) LUc LR) as (K22 & rhs & E1 & D & V & LL & _ & CORE).
    cbn [gn GR rnum] in *. rewrite EL in HF. set (n := (ns_nunk s + 0)%nat) in *.
    set (A := fun i j => res_K (GR K L) mesh s ks [] (ns_ncon s + i) (ns_ncon s + j)).
    assert (EX : exists x, gauss_slv u K22 rhs = Ok x).
    { destruct (gauss_slv u K22 rhs) as [x| | |]; [eauto| | |]; rewrite CORE in HF; discriminate. }
    destruct EX as [x ES]. clear CORE HF. unfold gauss_slv in ES.
    assert (N1000 : (n < 1000)%nat).
    { destruct (Nat.lt_ge_cases n 1000) as [H|H]; [exact H|]. rewrite gauss_dense_limit in ES; [discriminate|]. exact (eq_ind_r (fun k => (1000 <= k)%nat) H D). }
    destruct (gauss_dense_sol K L K22 n A rhs (u (si_nrows (sm_si K22))) D N1000 V LL) as [(x' & E' & Lx & SX & UX)|E']; [rewrite D; auto| |congruence].
    set (pick := fun e => match find (fun k => Nat.eqb (eqn s k) e) (reg_keys regs) with Some k => w k | None => 0 end).
    assert (PK : forall k, In k (reg_keys regs) -> pick (eqn s k) = w k).
    { intros k Hk. unfold pick. destruct (find _ (reg_keys regs)) as [k'|] eqn:F.
      - apply find_some in F as [Hk' F]. apply Nat.eqb_eq in F. now rewrite (pn_inj _ _ _ _ _ _ HN k' k Hk' Hk F).
      - exfalso. pose proof (find_none _ _ F k Hk) as Q. cbv beta in Q. rewrite Nat.eqb_refl in Q. discriminate. }
    set (z := map (fun i => pick (ns_ncon s + i + 1)%nat) (seq 0 n)).
    assert (Lz : length z = n) by (unfold z; now rewrite map_length, seq_length).
    assert (Nz : forall i, (i < n)%nat -> nth i z 0 = pick (ns_ncon s + i + 1)%nat).
    { intros i Hi. unfold z. rewrite (nth_indep _ 0 (pick (ns_ncon s + 0 + 1)%nat)) by (fold z; lia).
      rewrite (map_nth (fun i => pick (ns_ncon s + i + 1)%nat)), seq_nth by lia. reflexivity. }
    set (V0 := repeat 0 (ns_ncon s) ++ z).
    assert (L0 : length (repeat (0 : K) (ns_ncon s)) = ns_ncon s) by apply repeat_length.
    assert (VW : forall k, In k (reg_keys regs) -> vget s V0 k = w k).
    { intros k Hk. destruct (pn_eq _ _ _ _ _ _ HN k Hk) as (_ & Hr & Hc). unfold vget, V0. destruct (Nat.le_gt_cases (eqn s k) (ns_ncon s)) as [Q|Q].
      - rewrite app_nth1 by lia. rewrite nth_repeat. symmetry. apply W0; [|exact Hk]. intros X. apply (last_fix_none (GR K L)) in X. tauto.
      - rewrite app_nth2 by lia. rewrite L0, Nz by lia. rewrite <- (PK k Hk). f_equal. lia. }
    assert (Z0 : forall i, (i < n)%nat -> mv A n z (S i) = 0).
    { intros i Hi. destruct (pn_surj _ _ _ _ _ _ HN (ns_ncon s + S i)%nat) as (k & Hk & Ek); [lia|].
      destruct (pn_eq _ _ _ _ _ _ HN k Hk) as (_ & Hr & Hc).
      assert (Fk : last_fix fixes k = None) by (apply (last_fix_none (GR K L)); rewrite <- Hc; lia).
      transitivity (sumof (stiff_on w k) (contribs mesh ks)); [|exact (W1 k Hk Fk)].
      assert (SO : sumof (stiff_on w k) (contribs mesh ks) = sumof (stiff_on (vget s V0) k) (contribs mesh ks)).
      { apply (sumof_ext (GR K L)). intros [[en nodes] c] Hx. unfold stiff_on. apply (sumof_ext (GR K L)). intros p Hp. destruct (key_dec _ k); [|reflexivity].
        cbn [elem_stiff]. apply (sumof_ext (GR K L)). intros q Hq. apply in_seq in Hq. cbn [rnum GR]. f_equal. symmetry. apply VW.
        destruct G as [_ G]. destruct (G _ _ _ Hx) as [_ GK]. rewrite Forall_forall in GK. apply GK, nth_In. lia. }
      rewrite SO. pose proof (elements_stiff (GR K L) nn mesh regs (map bc_key fixes) s 0 HN ks V0 k G Hk) as ST. cbn [rnum GR] in ST. rewrite <- ST. clear ST SO.
      replace (ns_ndofs s + 0)%nat with (ns_ncon s + n)%nat by lia. unfold V0.
      rewrite (mv_split (GR K L)) by exact L0.
      replace (mv _ (ns_ncon s) (repeat 0 (ns_ncon s)) (eqn s k)) with (0 : K).
      2:{ symmetry. unfold mv. apply (sumof_zero (GR K L)). intros j _. cbn [rnum GR]. rewrite nth_repeat. cbn. ring. }
      transitivity (sumof (fun j : nat => sumof (kpart s (eqn s k) (ns_ncon s + j)) (contribs mesh ks) * nth (j - 1) z 0) (seq 1 n)); [|cbn; ring].
      unfold mv. apply (sumof_ext (GR K L)). intros j Hj. cbn [rnum GR]. f_equal. unfold A.
      rewrite (res_K_sum (GR K L) nn mesh regs (map bc_key fixes) s 0 ks [] _ _ HN G O DN). rewrite Ek.
      assert (M0 : mpc_matrix s ([] : list (mpc K)) (ns_ncon s + S i) (ns_ncon s + j) = 0).
      { unfold mpc_matrix, mpc_list. destruct (map snd (ns_mpc s)); reflexivity. }
      cbn [rnum GR]. rewrite M0. ring. }
    destruct (in_dec key_dec k0 (map bc_key fixes)) as [I|I].
    { apply W0; [|exact Hk0]. intros X. apply (last_fix_none (GR K L)) in X. tauto. }
    destruct (pn_eq _ _ _ _ _ _ HN k0 Hk0) as (_ & Hr & Hc). assert (NI : ~ (eqn s k0 <= ns_ncon s)%nat) by tauto.
    set (y := map (fun j => nth j x' 0 + nth j z 0) (seq 0 n)).
    assert (Ny : forall i, (i < n)%nat -> nth i y 0 = nth i x' 0 + nth i z 0).
    { intros i Hi. unfold y. rewrite (nth_indep _ 0 (nth 0 x' 0 + nth 0 z 0)) by (rewrite map_length, seq_length; lia).
      rewrite (map_nth (fun j => nth j x' 0 + nth j z 0)), seq_nth by lia. reflexivity. }
    assert (Ey : y = x').
    { apply UX; [unfold y; now rewrite map_length, seq_length|]. intros i Hi.
      transitivity (mv A n x' (S i) + mv A n z (S i)); [|rewrite SX, Z0 by auto; cbn [rnum GR]; ring].
      unfold mv. rewrite <- (sumof_add (GR K L)). apply (sumof_ext (GR K L)). intros j Hj. apply in_seq in Hj. cbn [rnum GR].
      rewrite Ny by lia. ring. }
    rewrite <- (PK k0 Hk0). replace (eqn s k0) with (ns_ncon s + (eqn s k0 - ns_ncon s - 1) + 1)%nat by lia. rewrite <- Nz by lia.
    assert (Q := Ny (eqn s k0 - ns_ncon s - 1)%nat). rewrite Ey in Q.
    match goal with |- ?a = 0 => transitivity (nth (eqn s k0 - ns_ncon s - 1) x' 0 + a - nth (eqn s k0 - ns_ncon s - 1) x' 0); [ring|] end.
    rewrite <- Q by lia. ring.
  Qed.
End Held.
