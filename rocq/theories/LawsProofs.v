(* The solution is the only state of balance *)
From Coq Require Import Permutation.
From Verif Require Import Base BaseProofs SparseModel SpecSparse SparseMatProofs SparseFinal BlockModel SpecBlock BlockProofs
  DofModel SpecDof DofProofs NumberingProofs AsmModel SpecAsm AsmLists AsmCalls AsmProofs AsmRun AsmFinal SolveModel SpecSolve
  GaussModel SpecGauss GaussProofs SolveProofs LinearProofs SpecBal BalProofs BalMore SpecLaws.

Section Pull.
  Variable K : Rng.
  Add Ring Kr : (rth K).
  Local Open Scope rng_scope.
  Lemma combine_mults (U : list K) es (mpcs : list (mpc K)) :
    combine (map (fun e => nth (e - 1) U 0) es) mpcs = map (fun x => (nth (fst x - 1) U 0, snd x)) (combine es mpcs).
  Proof. revert mpcs. induction es as [|e es IH]; intros [|m ms]; cbn [map combine]; auto. now rewrite IH. Qed.
  Lemma mpc_pull_on s (U : list K) mpcs k : mpc_pull (map (fun e => nth (e - 1) U 0) (map snd (ns_mpc s))) mpcs k = mpc_on s U mpcs k.
  Proof. unfold mpc_pull, mpc_on, mpc_list. rewrite combine_mults, sumof_map. reflexivity. Qed.
  Variable big : K -> bool.
  Variable slv : eqsolver K.
  Hypothesis EX : exact_solver slv.
  Lemma result_balanced nn mesh regs ks (mpcs : list (mpc K)) loads fixes st : good_linear nn mesh regs ks mpcs loads fixes -> distinct_nodes mesh ks ->
    (forall x v, last_fix fixes x = Some v -> big v = false -> v = 0) ->
    linear_solve big slv nn mesh regs ks mpcs loads fixes = Ok st ->
    balanced mesh regs ks mpcs loads fixes (sol_U st) (sol_mult st) (sol_R st).
  Proof.
    intros GL DN HB HS. destruct (nodal_balance K big slv EX nn mesh regs ks mpcs loads fixes st GL DN HB HS) as (B1 & B2 & B3). cbv zeta in *.
    destruct (linear_start K big slv nn mesh regs ks mpcs loads fixes GL) as (s & g0 & g & U & R & E0 & N0 & HN & EG & I1 & EB & _ & _ & _ & _ & EL).
    assert (SG : so_g st = g).
    { rewrite EL in HS. apply obind_ok in HS as (xr & _ & HS). injection HS as <-. reflexivity. }
    split.
    - unfold sol_mult. rewrite !map_length, SG, (gi_num _ _ _ _ _ _ _ _ _ I1). exact (n_mpc_nm nn mesh regs (map bc_key fixes) s _ HN).
    - intros k Hk. unfold sol_mult. rewrite mpc_pull_on. apply B1. exact Hk.
    - exact B2.
    - exact B3.
    - exact (solution_mpcs K big slv EX nn mesh regs ks mpcs loads fixes st GL HB HS).
  Qed.
  (* a balanced state, written as one vector, fulfils all equations *)
  Lemma balanced_rows nn mesh regs ks (mpcs : list (mpc K)) loads fixes s (Y : list K) r :
    good_linear nn mesh regs ks mpcs loads fixes -> distinct_nodes mesh ks ->
    prob_num nn (length mesh) regs (map bc_key fixes) (length mpcs) s ->
    balanced mesh regs ks mpcs loads fixes (vget s Y) (map (fun e => nth (e - 1) Y 0) (map snd (ns_mpc s))) r ->
    (forall k, In k (reg_keys regs) -> mv (res_K K mesh s ks mpcs) (ns_ndofs s + length mpcs) Y (eqn s k) = sum_vector s mesh ks (eqn s k) + r k) /\
    (forall x, In x (mpc_list s mpcs) -> mv (res_K K mesh s ks mpcs) (ns_ndofs s + length mpcs) Y (fst x) = mp_b (snd x)).
  Proof.
    intros [P C G O LD] DN HN [B0 B1 B2 B3 B4]. split.
    - intros k Hk. rewrite <- (B1 k Hk), mpc_pull_on.
      rewrite <- (mpc_mv K nn mesh regs (map bc_key fixes) s _ HN mpcs Y k eq_refl Hk (gp_term_keys _ _ _ _ _ P)).
      rewrite <- (elements_mv K nn mesh regs (map bc_key fixes) s _ HN ks Y k G Hk).
      unfold mv. rewrite (sumof_ext K _ (fun j => sumof (kpart s (eqn s k) j) (contribs mesh ks) * nth (j - 1) Y 0 + mpc_matrix s mpcs (eqn s k) j * nth (j - 1) Y 0)).
      2:{ intros j _. rewrite (res_K_sum K nn mesh regs (map bc_key fixes) s (length mpcs) ks mpcs _ _ HN G O DN). ring. }
      rewrite sumof_add. ring.
    - intros x Hx. destruct (mpc_list_in K nn mesh regs (map bc_key fixes) s _ HN mpcs x eq_refl Hx) as [Hm He].
      rewrite <- (B4 _ Hm). unfold mpc_value.
      rewrite <- (mpc_row K nn mesh regs (map bc_key fixes) s _ HN mpcs x Y eq_refl Hx (gp_term_keys _ _ _ _ _ P)).
      apply mv_ext; auto. intros j _. unfold res_K.
      rewrite (kpart_high K nn mesh regs (map bc_key fixes) s _ HN) by (auto; lia). ring.
  Qed.
End Pull.

Section Unique.
  Variable K : GNum.
  Variable L : glaws K.
  Add Ring Kg : (gl_ring K L).
  Local Open Scope rng_scope.
  Variables (big : K -> bool) (u : nat -> list K).
  Hypothesis HU : forall n, length (u n) = n.
  Lemma held_all nn mesh regs ks mpcs loads fixes st : good_linear nn mesh regs ks mpcs loads fixes ->
    linear_solve big (gauss_slv u) nn mesh regs ks mpcs loads fixes = Ok st ->
    let s := g_num (so_g st) in let N := (ns_ndofs s + length mpcs)%nat in
    prob_num nn (length mesh) regs (map bc_key fixes) (length mpcs) s /\
    forall V : list K, length V = N -> (forall i, (i < ns_ncon s)%nat -> nth i V 0 = 0) ->
      (forall a, (ns_ncon s < a <= N)%nat -> mv (res_K (GR K L) mesh s ks mpcs) N V a = 0) ->
      forall i, nth i V 0 = 0.
  Proof.
    intros GL HF.
    destruct (linear_start (GR K L) big (gauss_slv u) nn mesh regs ks mpcs loads fixes GL)
      as (s & g0 & g & U & R & E0 & N0 & HN & EG & I1 & EB & LU & LR & _ & _ & EL).
    destruct GL as [P C G O LD].
    pose proof (pn_sum _ _ _ _ _ _ HN) as SUM. pose proof (pn_nd _ _ _ _ _ _ HN) as ND.
    assert (LUc : length (seg U 0 (ns_ncon s)) = ns_ncon s) by (apply (seg_length (GR K L)); lia).
    destruct (core_ok (GR K L) nn mesh regs (map bc_key fixes) s _ HN (all_es (GR K L) nn mesh s mpcs) big (gauss_slv u) g _ _ _ _ _ I1
      (fun a b => res_K_sym (GR K L) mesh regs s ks mpcs a b G) LUc LR) as (K22 & rhs & E1 & D & V & LL & _ & CORE).
    cbn [gn GR rnum] in *. rewrite EL in HF.
    assert (SG : so_g st = g).
    { apply obind_ok in HF as (xr & _ & HF). injection HF as <-. reflexivity. }
    pose proof (gi_num _ _ _ _ _ _ _ _ _ I1) as A1. cbn [gn GR rnum] in A1. cbv zeta. rewrite SG, A1. split; [exact HN|].
    set (n := (ns_nunk s + length mpcs)%nat) in *.
    set (A := fun i j => res_K (GR K L) mesh s ks mpcs (ns_ncon s + i) (ns_ncon s + j)).
    assert (EX : exists x, gauss_slv u K22 rhs = Ok x).
    { destruct (gauss_slv u K22 rhs) as [x| | |]; [eauto| | |]; rewrite CORE in HF; discriminate. }
    destruct EX as [x ES]. clear CORE HF. unfold gauss_slv in ES.
    assert (N1000 : (n < 1000)%nat).
    { destruct (Nat.lt_ge_cases n 1000) as [H|H]; [exact H|]. rewrite gauss_dense_limit in ES; [discriminate|]. exact (eq_ind_r (fun k => (1000 <= k)%nat) H D). }
    destruct (gauss_dense_sol K L K22 n A rhs (u (si_nrows (sm_si K22))) D N1000 V LL) as [(x' & E' & Lx & SX & UX)|E']; [rewrite D; auto| |congruence].
    intros W LW W0 W1 i0.
    destruct (Nat.lt_ge_cases i0 (ns_ncon s)) as [Hi0|Hi0]; [auto|].
    destruct (Nat.lt_ge_cases i0 (ns_ndofs s + length mpcs)) as [Hi1|Hi1]; [|apply nth_overflow; lia].
    set (z := map (fun i => nth (ns_ncon s + i) W 0) (seq 0 n)).
    assert (Nz : forall i, (i < n)%nat -> nth i z 0 = nth (ns_ncon s + i) W 0).
    { intros i Hi. unfold z. rewrite (nth_indep _ 0 (nth (ns_ncon s + 0) W 0)) by (rewrite map_length, seq_length; lia).
      rewrite (map_nth (fun i => nth (ns_ncon s + i) W 0)), seq_nth by lia. reflexivity. }
    assert (Z0 : forall i, (i < n)%nat -> mv A n z (S i) = 0).
    { intros i Hi. transitivity (mv (res_K (GR K L) mesh s ks mpcs) (ns_ndofs s + length mpcs) W (ns_ncon s + S i)); [|apply W1; lia].
      replace (ns_ndofs s + length mpcs)%nat with (ns_ncon s + n)%nat by lia.
      assert (EW : W = firstn (ns_ncon s) W ++ skipn (ns_ncon s) W) by (symmetry; apply firstn_skipn).
      assert (LW1 : length (firstn (ns_ncon s) W) = ns_ncon s) by (rewrite firstn_length; lia).
      rewrite EW, (mv_split (GR K L)) by exact LW1.
      replace (mv _ (ns_ncon s) (firstn (ns_ncon s) W) (ns_ncon s + S i)) with (0 : K).
      2:{ symmetry. unfold mv. apply (sumof_zero (GR K L)). intros j Hj. apply in_seq in Hj. pose proof (nth_firstn_lt (GR K L) W (ns_ncon s) (j - 1)) as NF. cbn [rnum GR] in *.
          rewrite NF, W0 by lia. cbn. ring. }
      cbn [rnum GR]. match goal with |- _ = 0 + ?q => transitivity q; [|ring] end.
      unfold mv. apply (sumof_ext (GR K L)). intros j Hj. apply in_seq in Hj. cbn [rnum GR]. unfold A. f_equal. rewrite Nz by lia.
      rewrite EW at 1. rewrite app_nth2 by lia. f_equal. lia. }
    set (y := map (fun j => nth j x' 0 + nth j z 0) (seq 0 n)).
    assert (Ny : forall i, (i < n)%nat -> nth i y 0 = nth i x' 0 + nth i z 0).
    { intros i Hi. unfold y. rewrite (nth_indep _ 0 (nth 0 x' 0 + nth 0 z 0)) by (rewrite map_length, seq_length; lia).
      rewrite (map_nth (fun j => nth j x' 0 + nth j z 0)), seq_nth by lia. reflexivity. }
    assert (Ey : y = x').
    { apply UX; [unfold y; now rewrite map_length, seq_length|]. intros i Hi.
      transitivity (mv A n x' (S i) + mv A n z (S i)); [|rewrite SX, Z0 by auto; cbn [rnum GR]; ring].
      unfold mv. rewrite <- (sumof_add (GR K L)). apply (sumof_ext (GR K L)). intros j Hj. apply in_seq in Hj. cbn [rnum GR].
      rewrite Ny by lia. ring. }
    assert (Q := Ny (i0 - ns_ncon s)%nat). rewrite Ey, Nz in Q by lia. replace (ns_ncon s + (i0 - ns_ncon s))%nat with i0 in Q by lia.
    transitivity (nth (i0 - ns_ncon s) x' 0 + nth i0 W 0 - nth (i0 - ns_ncon s) x' 0); [ring|].
    rewrite <- Q by lia. ring.
  Qed.

  Lemma mult_nth nn (mesh : list (list nat)) regs fx s nm (Y : list K) i : prob_num nn (length mesh) regs fx nm s -> (i < nm)%nat ->
    nth i (map (fun e => nth (e - 1) Y 0) (map snd (ns_mpc s))) 0 = nth (ns_ndofs s + i) Y 0.
  Proof.
    intros HN Hi. rewrite (pn_mpc _ _ _ _ _ _ HN). rewrite (nth_indep _ 0 (nth (0 - 1) Y 0)) by (rewrite map_length, seq_length; lia).
    rewrite (map_nth (fun e => nth (e - 1) Y 0)), seq_nth by lia. f_equal. lia.
  Qed.
  Lemma result_unique nn mesh regs ks mpcs loads fixes st : good_linear nn mesh regs ks mpcs loads fixes -> distinct_nodes mesh ks ->
    (forall x v, last_fix fixes x = Some v -> big v = false -> v = 0) ->
    linear_solve big (gauss_slv u) nn mesh regs ks mpcs loads fixes = Ok st ->
    forall v l r, balanced mesh regs ks mpcs loads fixes v l r ->
      (forall k, In k (reg_keys regs) -> sol_U st k = v k) /\ (forall k, In k (reg_keys regs) -> sol_R st k = r k) /\ sol_mult st = l.
  Proof.
    intros GL DN HB HS v l r BV.
    pose proof (result_balanced (GR K L) big (gauss_slv u) (gauss_exact K L u HU) nn mesh regs ks mpcs loads fixes st GL DN HB HS) as BU.
    destruct (held_all nn mesh regs ks mpcs loads fixes st GL HS) as [HN HA]. cbv zeta in *.
    unfold sol_U, sol_R, sol_mult in *. cbn [rnum GR gn] in *. set (s := g_num (so_g st)) in *. set (U := so_U st) in *.
    pose proof (pn_sum _ _ _ _ _ _ HN) as SUM. pose proof (pn_nd _ _ _ _ _ _ HN) as ND. pose proof (n_mpc_nm nn mesh regs (map bc_key fixes) s _ HN) as NM.
    set (N := (ns_ndofs s + length mpcs)%nat) in *.
    set (pick := fun e => match find (fun k => Nat.eqb (eqn s k) e) (reg_keys regs) with Some k => v k | None => 0 end).
    assert (PK : forall k, In k (reg_keys regs) -> pick (eqn s k) = v k).
    { intros k Hk. unfold pick. destruct (find _ (reg_keys regs)) as [k'|] eqn:F.
      - apply find_some in F as [Hk' F]. apply Nat.eqb_eq in F. now rewrite (pn_inj _ _ _ _ _ _ HN k' k Hk' Hk F).
      - exfalso. pose proof (find_none _ _ F k Hk) as Q. cbv beta in Q. rewrite Nat.eqb_refl in Q. discriminate. }
    set (Y := map pick (seq 1 (ns_ndofs s)) ++ l).
    assert (LY1 : length (map pick (seq 1 (ns_ndofs s))) = ns_ndofs s) by now rewrite map_length, seq_length.
    assert (LY : length Y = N) by (unfold Y; rewrite app_length, LY1, (ba_mult _ _ _ _ _ _ _ _ _ _ BV); reflexivity).
    assert (YV : forall k, In k (reg_keys regs) -> vget s Y k = v k).
    { intros k Hk. destruct (pn_eq _ _ _ _ _ _ HN k Hk) as (_ & Hr & _). unfold vget, Y. rewrite app_nth1 by lia.
      rewrite (nth_indep _ 0 (pick 0%nat)) by lia. rewrite (map_nth pick), seq_nth by lia. rewrite <- (PK k Hk). f_equal. lia. }
    assert (YL : map (fun e => nth (e - 1) Y 0) (map snd (ns_mpc s)) = l).
    { apply (nth_ext _ _ 0 0).
      - rewrite !map_length, (ba_mult _ _ _ _ _ _ _ _ _ _ BV). exact NM.
      - intros i Hi. rewrite !map_length in Hi. unfold n_mpc in NM. rewrite (mult_nth nn mesh regs (map bc_key fixes) s (length mpcs) Y i HN) by lia.
        unfold Y. rewrite app_nth2 by lia. f_equal. lia. }
    assert (GC := gl_contribs _ _ _ _ _ _ _ GL). assert (GT := gp_term_keys _ _ _ _ _ (gl_problem _ _ _ _ _ _ _ GL)).
    assert (BY : balanced mesh regs ks mpcs loads fixes (vget s Y) (map (fun e => nth (e - 1) Y 0) (map snd (ns_mpc s))) r).
    { destruct BV as [B0 B1 B2 B3 B4]. rewrite YL. split; auto.
      - intros k Hk. rewrite <- (B1 k Hk). f_equal. apply (sumof_ext (GR K L)). intros [[en nodes] c] Hx. unfold force_on.
        apply (sumof_ext (GR K L)). intros p Hp. cbn [rnum GR]. destruct (key_dec _ k); [|reflexivity].
        cbn [elem_force elem_stiff]. f_equal. apply (sumof_ext (GR K L)). intros q Hq. apply in_seq in Hq. cbn [rnum GR]. f_equal. apply YV.
        destruct GC as [_ G]. destruct (G _ _ _ Hx) as [_ GK]. rewrite Forall_forall in GK. apply GK, nth_In. lia.
      - intros k y Hy. rewrite YV; [now apply B3|]. destruct (in_dec key_dec k (map bc_key fixes)) as [I|I].
        + pose proof (gp_fixes _ _ _ _ _ (gl_problem _ _ _ _ _ _ _ GL)) as PF. rewrite Forall_forall in PF. auto.
        + apply (last_fix_none (GR K L)) in I. cbn [rnum GR] in I. congruence.
      - intros m Hm. rewrite <- (B4 m Hm). unfold mpc_value. apply (sumof_ext (GR K L)). intros t Ht. cbn [rnum GR]. f_equal. apply YV. eauto. }
    destruct (balanced_rows (GR K L) nn mesh regs ks mpcs loads fixes s Y r GL DN HN BY) as [RY1 RY2].
    destruct (balanced_rows (GR K L) nn mesh regs ks mpcs loads fixes s U _ GL DN HN BU) as [RU1 RU2].
    cbn [rnum GR] in *. fold N in RY1, RY2, RU1, RU2.
    set (V := map (fun i => nth i U 0 - nth i Y 0) (seq 0 N)).
    assert (LV : length V = N) by (unfold V; now rewrite map_length, seq_length).
    assert (NV : forall i, (i < N)%nat -> nth i V 0 = nth i U 0 - nth i Y 0).
    { intros i Hi. unfold V. rewrite (nth_indep _ 0 (nth 0 U 0 - nth 0 Y 0)) by (fold V; lia).
      rewrite (map_nth (fun i => nth i U 0 - nth i Y 0)), seq_nth by lia. reflexivity. }
    assert (MV : forall a, mv (res_K (GR K L) mesh s ks mpcs) N V a = mv (res_K (GR K L) mesh s ks mpcs) N U a - mv (res_K (GR K L) mesh s ks mpcs) N Y a).
    { intros a. unfold mv. rewrite <- (sumof_sub (GR K L)). apply (sumof_ext (GR K L)). intros j Hj. apply in_seq in Hj. cbn [rnum GR]. rewrite NV by lia. ring. }
    assert (Z : forall i, nth i V 0 = 0).
    { apply HA; [exact LV| |].
      - intros i Hi. rewrite NV by lia. destruct (pn_surj _ _ _ _ _ _ HN (i + 1)%nat) as (k & Hk & Ek); [lia|].
        destruct (pn_eq _ _ _ _ _ _ HN k Hk) as (_ & Hr & Hc).
        destruct (last_fix fixes k) as [y|] eqn:F.
        2:{ exfalso. apply (last_fix_none (GR K L)) in F. apply F, Hc. lia. }
        pose proof (ba_fix _ _ _ _ _ _ _ _ _ _ BY k y F) as Q1. pose proof (ba_fix _ _ _ _ _ _ _ _ _ _ BU k y F) as Q2.
        unfold vget in Q1, Q2. rewrite Ek in Q1, Q2. replace (i + 1 - 1)%nat with i in Q1, Q2 by lia. cbn [rnum GR] in *. rewrite Q1, Q2. cbn [rnum GR]. ring.
      - intros a Ha. rewrite MV. destruct (Nat.le_gt_cases a (ns_ndofs s)) as [Q|Q].
        + destruct (pn_surj _ _ _ _ _ _ HN a) as (k & Hk & Ek); [lia|]. destruct (pn_eq _ _ _ _ _ _ HN k Hk) as (_ & Hr & Hc).
          assert (F : last_fix fixes k = None) by (apply (last_fix_none (GR K L)); rewrite <- Hc; lia).
          rewrite <- Ek, RY1, RU1 by exact Hk.
          pose proof (ba_load _ _ _ _ _ _ _ _ _ _ BY k Hk F) as Q1. pose proof (ba_load _ _ _ _ _ _ _ _ _ _ BU k Hk F) as Q2. cbn [rnum GR] in *. rewrite Q1, Q2. cbn [rnum GR]. ring.
        + set (x := nth (a - ns_ndofs s - 1) (mpc_list s mpcs) (0%nat, mkMpc (0 : K) [])).
          assert (LM : length (mpc_list s mpcs) = length mpcs) by (unfold mpc_list; rewrite combine_length, map_length; unfold n_mpc in NM; lia).
          assert (Hx : In x (mpc_list s mpcs)) by (apply nth_In; lia).
          assert (Ex : fst x = a).
          { unfold x, mpc_list. rewrite combine_nth by (rewrite map_length; exact NM). cbn [fst]. rewrite (pn_mpc _ _ _ _ _ _ HN), seq_nth by lia. lia. }
          rewrite <- Ex. rewrite RY2, RU2 by exact Hx. cbn [rnum GR]. ring. }
    assert (UY : forall i, (i < N)%nat -> nth i U 0 = nth i Y 0).
    { intros i Hi. transitivity (nth i U 0 - nth i Y 0 + nth i Y 0); [ring|]. rewrite <- NV by exact Hi. rewrite Z. ring. }
    assert (UV : forall k, In k (reg_keys regs) -> vget s U k = vget s Y k).
    { intros k Hk. destruct (pn_eq _ _ _ _ _ _ HN k Hk) as (_ & Hr & _). unfold vget. apply UY. lia. }
    split; [|split].
    - intros k Hk. rewrite UV, YV by exact Hk. reflexivity.
    - intros k Hk.
      assert (E : mv (res_K (GR K L) mesh s ks mpcs) N U (eqn s k) = mv (res_K (GR K L) mesh s ks mpcs) N Y (eqn s k)).
      { unfold mv. apply (sumof_ext (GR K L)). intros j Hj. apply in_seq in Hj. cbn [rnum GR]. rewrite UY by lia. reflexivity. }
      assert (Q : sum_vector s mesh ks (eqn s k) + vget s (so_R st) k = sum_vector s mesh ks (eqn s k) + r k).
      { etransitivity; [symmetry; exact (RU1 k Hk)|]. etransitivity; [exact E|exact (RY1 k Hk)]. }
      match goal with |- ?a = ?b => transitivity (sum_vector s mesh ks (eqn s k) + a - sum_vector s mesh ks (eqn s k)); [ring|] end.
      rewrite Q. ring.
    - rewrite <- YL. rewrite (pn_mpc _ _ _ _ _ _ HN). apply map_ext_in. intros e He. apply in_seq in He. apply UY. lia.
  Qed.
End Unique.
