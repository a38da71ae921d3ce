(* The program nla3d_truss: its result, and what its checks accept *)
From Coq Require Import Reals Lra Lia.
From Verif Require Import Base BaseProofs RealBase MatModel SparseModel BlockModel DofModel SpecDof NumberingProofs AsmModel SpecAsm AsmLists AsmProofs AsmRun AsmFinal
  SolveModel SpecSolve SolveProofs LinearProofs GaussModel SpecGauss GaussProofs IsoModel SpecIso IsoProofs ElemModel SpecElem ElemBase ElemProofs ElemMore SpecBal BalProofs BalMore
  StructModel SpecStruct StructProofs StructFinal StructMore TrussModel.
Local Open Scope R_scope.

Lemma struct_small nn pos ms loads fixes : Forall (m_ok nn pos) ms -> Forall (fun l => s_key ms (bc_key l)) loads -> Forall (fun f => s_key ms (bc_key f)) fixes ->
  (exists k, s_key ms k /\ ~ In k (map bc_key fixes)) -> (length (skeys ms) <= 100)%nat -> struct_ok nn pos ms loads fixes.
Proof.
  intros M LO FI FR LE. split; auto. apply (small_capacity RRng); [|cbn [length]; rewrite Nat.add_0_r; exact LE].
  rewrite Forall_forall in M. split.
  - intros nodes n Hn H. apply in_map_iff in Hn as (m & <- & Hm). destruct (M m Hm) as (_ & RN & _). rewrite Forall_forall in RN. auto.
  - apply Forall_forall. intros r Hr. apply in_flat_map in Hr as (m & Hm & Hr). unfold m_regs in Hr. apply in_map_iff in Hr as (n & <- & Hn).
    destruct (M m Hm) as (_ & RN & _). rewrite Forall_forall in RN. cbn [good_reg entities]. split; [now apply RN|].
    repeat constructor; vm_compute; lia.
  - apply Forall_forall. intros k Hk. apply in_map_iff in Hk as (f & <- & Hf). rewrite Forall_forall in FI. apply s_keys. auto.
  - destruct FR as (k & Hk & Nk). exists k. split; [now apply s_keys|exact Nk].
  - constructor.
  - intros m t [].
Qed.

Lemma s_node_in ms n : In n (flat_map m_nodes ms) -> s_node ms n.
Proof. intros H. apply in_flat_map in H as (m & Hm & Hn). exists m. auto. Qed.
Lemma tr_node n : (1 <= n <= 5)%nat -> s_node tr_members n.
Proof. intros H. apply s_node_in. assert (n = 1 \/ n = 2 \/ n = 3 \/ n = 4 \/ n = 5)%nat as [->|[->|[->|[->| ->]]]] by lia; cbn; auto 20. Qed.
Lemma tr_key n t : (1 <= n <= 5)%nat -> (t < 3)%nat -> s_key tr_members (KNode, n, t).
Proof. intros H1 H2. split; [now apply tr_node|exact H2]. Qed.
Lemma tr_key_inv k : s_key tr_members k -> exists n t, k = (KNode, n, t) /\ (1 <= n <= 5)%nat /\ (t < 3)%nat.
Proof.
  destruct k as [[[|] n] t]; [intros []|]. intros [(m & Hm & Hn) Ht]. exists n, t. split; [reflexivity|]. split; [|exact Ht].
  unfold tr_members, tr_elements in Hm. cbn [map fst snd] in Hm.
  repeat (destruct Hm as [<-|Hm]; [cbn in Hn; lia|]). destruct Hm.
Qed.
Lemma tr_ok : struct_ok 5 tr_pos tr_members tr_loads tr_fixes.
Proof.
  apply struct_small.
  - unfold tr_members, tr_elements. cbn [map fst snd]. repeat (apply Forall_cons || apply Forall_nil).
    1-8: unfold m_ok; cbn [m_nodes]; split; [constructor; [cbn; intuition lia|constructor; [cbn; intuition lia|constructor]]|split; [constructor; [lia|constructor; [lia|constructor]]|]].
    1-8: first [exists 0%nat; split; [lia|]; unfold at_nodes, tr_pos; cbn; apply Rgt_not_eq || apply Rlt_not_eq; lra|exists 1%nat; split; [lia|]; unfold at_nodes, tr_pos; cbn; apply Rgt_not_eq || apply Rlt_not_eq; lra].
  - unfold tr_loads. repeat (apply Forall_cons || apply Forall_nil); apply tr_key; vm_compute; lia.
  - unfold tr_fixes. cbn [map seq app]. repeat (apply Forall_cons || apply Forall_nil); apply tr_key; vm_compute; lia.
  - exists (KNode, 2%nat, 0%nat). split; [apply tr_key; lia|]. cbn. intros H. decompose [or] H; discriminate || assumption.
  - vm_compute. lia.
Qed.
Lemma tr_fix_zero k v : last_fix tr_fixes k = Some v -> v = 0.
Proof.
  unfold last_fix, tr_fixes. cbn [map seq app fold_left bc_val bc_key bc_node bc_dof].
  repeat (destruct (key_dec _ k); [|]); congruence.
Qed.
Lemma tr_plain big : plain_fixes big tr_fixes.
Proof. intros k v H _. exact (tr_fix_zero k v H). Qed.
Lemma tr_fixed n t : In (n, t) [(1, 0); (1, 1); (1, 2); (2, 2); (3, 2); (4, 0); (4, 1); (4, 2); (5, 2)]%nat -> last_fix tr_fixes (KNode, n, t) = Some 0.
Proof. intros H. cbn in H. decompose [or] H; try contradiction; match goal with E : (_, _) = _ |- _ => injection E as <- <- end; reflexivity. Qed.
Lemma tr_free n t : In (n, t) [(2, 0); (2, 1); (3, 0); (3, 1); (5, 0); (5, 1)]%nat -> last_fix tr_fixes (KNode, n, t) = None.
Proof. intros H. cbn in H. decompose [or] H; try contradiction; match goal with E : (_, _) = _ |- _ => injection E as <- <- end; reflexivity. Qed.

Lemma sq_len x y : 0 <= y -> x = y * y -> sqrt x = y.
Proof. intros H ->. now apply sqrt_square. Qed.
(* lengths of the bars *)
Lemma tr_len a b y : In (a, b, y) [(1, 3, 240); (1, 2, 192); (2, 3, 144); (3, 5, 192); (3, 4, 240); (2, 5, 240); (2, 4, 192); (4, 5, 144)]%nat ->
  dist3 (tr_pos a) (tr_pos b) = INR y.
Proof.
  intros H. cbn [In] in H. decompose [or] H; try contradiction; match goal with E : (_, _, _) = _ |- _ => injection E as <- <- <- end;
    (apply sq_len; [apply pos_INR|]); unfold tr_pos; cbn [nth Nat.sub tr_table fst snd]; rewrite INR_IZR_INZ; cbn [Z.of_nat Pos.of_succ_nat Pos.succ]; lra.
Qed.
Lemma tr_bar v a b y n i : In (a, b, y) [(1, 3, 240); (1, 2, 192); (2, 3, 144); (3, 5, 192); (3, 4, 240); (2, 5, 240); (2, 4, 192); (4, 5, 144)]%nat ->
  pull tr_pos (Bar 10 30000 a b) (bar_stress tr_pos v (Bar 10 30000 a b)) n i =
  300000 / INR y ^ 3 * ((v (KNode, b, 0%nat) - v (KNode, a, 0%nat)) * (tr_pos b 0 - tr_pos a 0) + (v (KNode, b, 1%nat) - v (KNode, a, 1%nat)) * (tr_pos b 1 - tr_pos a 1))
  * (tr_pos b i - tr_pos a i) * ((if (b =? n)%nat then 1 else 0) - (if (a =? n)%nat then 1 else 0)).
Proof.
  intros H. cbn [pull bar_stress]. unfold stretch, axis, at_nodes. cbn [nth]. rewrite rs3, (tr_len a b y H).
  assert (Y : INR y <> 0).
  { apply not_0_INR. cbn [In] in H. decompose [or] H; try contradiction; match goal with E : (_, _, _) = _ |- _ => injection E as <- <- <- end; discriminate. }
  assert (Z : tr_pos b 2 - tr_pos a 2 = 0) by (unfold tr_pos; ring). rewrite Z.
  field. exact Y.
Qed.
Definition tr_sum (v : key -> R) (n i : nat) : R := @sumof RNum _ (fun m => pull tr_pos m (bar_stress tr_pos v m) n i) tr_members.
Ltac lens := cbv beta; rewrite (tr_bar _ 1 3 240) by (cbn; auto 20); rewrite (tr_bar _ 1 2 192) by (cbn; auto 20); rewrite (tr_bar _ 2 3 144) by (cbn; auto 20); rewrite (tr_bar _ 3 5 192) by (cbn; auto 20); rewrite (tr_bar _ 3 4 240) by (cbn; auto 20); rewrite (tr_bar _ 2 5 240) by (cbn; auto 20); rewrite (tr_bar _ 2 4 192) by (cbn; auto 20); rewrite (tr_bar _ 4 5 144) by (cbn; auto 20).
Lemma tr_sums v : (forall n t, In (n, t) [(1, 0); (1, 1); (1, 2); (2, 2); (3, 2); (4, 0); (4, 1); (4, 2); (5, 2)]%nat -> v (KNode, n, t) = 0) ->
  let x2 := v (KNode, 2, 0)%nat in let y2 := v (KNode, 2, 1)%nat in let x3 := v (KNode, 3, 0)%nat in let y3 := v (KNode, 3, 1)%nat in
  let x5 := v (KNode, 5, 0)%nat in let y5 := v (KNode, 5, 1)%nat in
  tr_sum v 2 0 = (3925) * x2 + (600) * y2 + (-800) * x5 + (-600) * y5 /\
  tr_sum v 2 1 = (600) * x2 + (7600 / 3) * y2 + (-6250 / 3) * y3 + (-600) * x5 + (-450) * y5 /\
  tr_sum v 3 0 = (6325 / 2) * x3 + (-3125 / 2) * x5 /\
  tr_sum v 3 1 = (-6250 / 3) * y2 + (8950 / 3) * y3 /\
  tr_sum v 5 0 = (-800) * x2 + (-600) * y2 + (-3125 / 2) * x3 + (4725 / 2) * x5 + (600) * y5 /\
  tr_sum v 5 1 = (-600) * x2 + (-450) * y2 + (600) * x5 + (7600 / 3) * y5.
Proof.
  intros F. cbv zeta. repeat split; unfold tr_sum, tr_members, tr_elements; cbn [map fst snd]; rewrite !(sumof_cons RRng); lens;
    cbn [Nat.eqb]; rewrite (F 1 0)%nat, (F 1 1)%nat, (F 4 0)%nat, (F 4 1)%nat by (cbn; auto 20);
    unfold tr_pos; cbn [nth Nat.sub tr_table fst snd]; rewrite !INR_IZR_INZ; cbn [Z.of_nat Pos.of_succ_nat Pos.succ].
  all: change (@sumof RNum member ?f []) with 0; req; cbn; field.
Qed.

Lemma tr_bars : Forall is_bar tr_members.
Proof. repeat constructor. Qed.
Section Run.
  Variable big : R -> bool.
  Variable u : nat -> list R.
  Hypothesis HU : forall n, length (u n) = n.
  Let gs : eqsolver RNum := gauss_slv (K := RG) u.
  Lemma tr_solves : exists st rs, struct_solve big gs 5 tr_pos tr_members tr_loads tr_fixes = Ok (st, rs).
  Proof.
    destruct (struct_ends big u HU 5 tr_pos tr_members tr_loads tr_fixes tr_ok) as [F|H]; [|exact H]. exfalso.
    destruct (truss_refused big u HU 5 tr_pos tr_members tr_loads tr_fixes tr_ok tr_bars ltac:(vm_compute; lia) F) as (w & W0 & (k & Hk & Fk & Wk) & WF).
    assert (Z : forall n t, In (n, t) [(1, 0); (1, 1); (1, 2); (2, 2); (3, 2); (4, 0); (4, 1); (4, 2); (5, 2)]%nat -> w (KNode, n, t) = 0).
    { intros n t H. apply W0; [rewrite (tr_fixed n t H); discriminate|]. cbn [In] in H.
      apply tr_key; decompose [or] H; try contradiction; match goal with E : (_, _) = _ |- _ => injection E as <- <- end; lia. }
    destruct (tr_sums w Z) as (S1 & S2 & S3 & S4 & S5 & S6).
    assert (Q : forall n t, (1 <= n <= 5)%nat -> (t < 3)%nat -> last_fix tr_fixes (KNode, n, t) = None -> - / 10 ^ 20 < tr_sum w n t < / 10 ^ 20).
    { intros n t Hn Ht Fn. specialize (WF n t (tr_node n Hn) Ht Fn). apply Rabs_def2 in WF. unfold tr_sum. lra. }
    pose proof (Q 2%nat 0%nat ltac:(lia) ltac:(lia) eq_refl) as Q1. pose proof (Q 2%nat 1%nat ltac:(lia) ltac:(lia) eq_refl) as Q2.
    pose proof (Q 3%nat 0%nat ltac:(lia) ltac:(lia) eq_refl) as Q3. pose proof (Q 3%nat 1%nat ltac:(lia) ltac:(lia) eq_refl) as Q4.
    pose proof (Q 5%nat 0%nat ltac:(lia) ltac:(lia) eq_refl) as Q5. pose proof (Q 5%nat 1%nat ltac:(lia) ltac:(lia) eq_refl) as Q6.
    rewrite S1 in Q1. rewrite S2 in Q2. rewrite S3 in Q3. rewrite S4 in Q4. rewrite S5 in Q5. rewrite S6 in Q6.
    destruct (tr_key_inv k Hk) as (n & t & -> & Hn & Ht).
    clear - Fk Wk Hn Ht Q1 Q2 Q3 Q4 Q5 Q6.
    assert (n = 1 \/ n = 2 \/ n = 3 \/ n = 4 \/ n = 5)%nat as [->|[->|[->|[->| ->]]]] by lia;
      destruct t as [|[|[|]]]; try lia; try (vm_compute in Fk; discriminate); lra.
  Qed.
  Lemma tr_result st rs : struct_solve big gs 5 tr_pos tr_members tr_loads tr_fixes = Ok (st, rs) ->
    disp st (KNode, 2%nat, UX) = 2191 / 150000 /\ disp st (KNode, 2%nat, UY) = - 251137 / 2400000 /\
    disp st (KNode, 3%nat, UX) = 209 / 76800 /\ disp st (KNode, 3%nat, UY) = - 1403 / 19200 /\
    disp st (KNode, 5%nat, UX) = 52877 / 9600000 /\ disp st (KNode, 5%nat, UY) = - 6573 / 400000.
  Proof.
    intros HS. pose proof (gs_exact u HU) as EX.
    destruct (solved big 5 tr_pos tr_members tr_loads tr_fixes gs st rs HS) as (b & B & E2 & RS).
    destruct (struct_nodal big 5 tr_pos tr_members tr_loads tr_fixes tr_ok (tr_plain big) gs st EX b B E2) as (_ & N2 & N3).
    assert (Z : forall n t, In (n, t) [(1, 0); (1, 1); (1, 2); (2, 2); (3, 2); (4, 0); (4, 1); (4, 2); (5, 2)]%nat -> disp st (KNode, n, t) = 0).
    { intros n t H. apply N3. now apply tr_fixed. }
    destruct (tr_sums (disp st) Z) as (S1 & S2 & S3 & S4 & S5 & S6).
    assert (Q : forall n t, (1 <= n <= 5)%nat -> (t < 3)%nat -> last_fix tr_fixes (KNode, n, t) = None -> tr_sum (disp st) n t = total_load tr_loads (KNode, n, t)).
    { intros n t Hn Ht Fn. unfold tr_sum. rewrite (truss_nodal big gs 5 tr_pos tr_members tr_loads tr_fixes st rs tr_ok HS tr_bars (tr_plain big) EX n t (tr_node n Hn) Ht).
      apply N2; [now apply tr_key|exact Fn]. }
    pose proof (Q 2%nat 0%nat ltac:(lia) ltac:(lia) eq_refl) as Q1. pose proof (Q 2%nat 1%nat ltac:(lia) ltac:(lia) eq_refl) as Q2.
    pose proof (Q 3%nat 0%nat ltac:(lia) ltac:(lia) eq_refl) as Q3. pose proof (Q 3%nat 1%nat ltac:(lia) ltac:(lia) eq_refl) as Q4.
    pose proof (Q 5%nat 0%nat ltac:(lia) ltac:(lia) eq_refl) as Q5. pose proof (Q 5%nat 1%nat ltac:(lia) ltac:(lia) eq_refl) as Q6.
    rewrite S1 in Q1. rewrite S2 in Q2. rewrite S3 in Q3. rewrite S4 in Q4. rewrite S5 in Q5. rewrite S6 in Q6.
    cbn in Q1, Q2, Q3, Q4, Q5, Q6. clear - Q1 Q2 Q3 Q4 Q5 Q6. unfold UX, UY. repeat split; lra.
  Qed.
  Lemma tr_stresses st rs : struct_solve big gs 5 tr_pos tr_members tr_loads tr_fixes = Ok (st, rs) ->
    rs = map RBar [-125 / 24; 2191 / 960; 4209 / 640; 209 / 480; -2209 / 384; 2191 / 384; -2191 / 960; -2191 / 640].
  Proof.
    intros HS. pose proof (gs_exact u HU) as EX. destruct (tr_result st rs HS) as (D1 & D2 & D3 & D4 & D5 & D6). unfold UX, UY in *.
    destruct (solved big 5 tr_pos tr_members tr_loads tr_fixes gs st rs HS) as (b & B & E2 & RS).
    destruct (struct_nodal big 5 tr_pos tr_members tr_loads tr_fixes tr_ok (tr_plain big) gs st EX b B E2) as (_ & _ & N3).
    assert (Z : forall n t, In (n, t) [(1, 0); (1, 1); (1, 2); (2, 2); (3, 2); (4, 0); (4, 1); (4, 2); (5, 2)]%nat -> disp st (KNode, n, t) = 0).
    { intros n t H. apply N3. now apply tr_fixed. }
    rewrite (truss_reports big gs 5 tr_pos tr_members tr_loads tr_fixes st rs tr_ok HS tr_bars).
    unfold tr_members, tr_elements. cbn [map fst snd]. cbn [bar_stress]. unfold stretch, axis, at_nodes. cbn [nth]. rewrite !rs3.
    rewrite (tr_len 1 3 240), (tr_len 1 2 192), (tr_len 2 3 144), (tr_len 3 5 192), (tr_len 3 4 240), (tr_len 2 5 240), (tr_len 2 4 192), (tr_len 4 5 144) by (cbn; auto 20).
    rewrite D1, D2, D3, D4, D5, D6, (Z 1 0)%nat, (Z 1 1)%nat, (Z 1 2)%nat, (Z 2 2)%nat, (Z 3 2)%nat, (Z 4 0)%nat, (Z 4 1)%nat, (Z 4 2)%nat, (Z 5 2)%nat by (cbn; auto 20).
    unfold tr_pos; cbn [nth Nat.sub tr_table fst snd]; rewrite !INR_IZR_INZ; cbn [Z.of_nat Pos.of_succ_nat Pos.succ].
    repeat (match goal with |- RBar ?a :: _ = RBar ?b :: _ => replace a with b by lra end; f_equal).
  Qed.
  Lemma truss_main : exists st rs, main_truss big gs = Ok (st, rs) /\
    forall n t ref, In (n, t, ref) tr_refs -> Rabs (disp st (KNode, n, t) - ref) < / 10 ^ 7.
  Proof.
    destruct tr_solves as (st & rs & HS). exists st, rs. destruct (tr_result st rs HS) as (D1 & D2 & D3 & D4 & D5 & D6).
    split.
    - assert (C : tr_checks (disp st) tr_refs = Ok tt).
      { unfold tr_refs, tr_checks. rewrite D1, D2, D3, D4, D5, D6.
        repeat (match goal with |- context [Rlt_dec ?a ?b] => destruct (Rlt_dec a b) as [_|C]; [|exfalso; lra] end). reflexivity. }
      unfold main_truss. rewrite HS. cbn [obind fst]. change (tr_checks _ tr_refs) with (tr_checks (disp st) tr_refs). rewrite C. reflexivity.
    - intros n t ref H. unfold tr_refs in H. cbn [In] in H. decompose [or] H; try contradiction; match goal with E : (_, _, _) = _ |- _ => injection E as <- <- <- end;
        rewrite ?D1, ?D2, ?D3, ?D4, ?D5, ?D6; apply Rabs_def1; lra.
  Qed.
End Run.

Lemma tr_ref_ok n t ref : In (n, t, ref) tr_refs -> s_key tr_members (KNode, n, t) /\ ~ In (KNode, n, t) (map bc_key tr_fixes) /\ -1 - ref < / 10 ^ 7.
Proof.
  intros H. unfold tr_refs in H. cbn [In] in H.
  repeat (destruct H as [H|H]; [injection H as <- <- <-; split; [apply tr_key; unfold UX, UY; lia|split; [cbn; intros Q; decompose [or] Q; discriminate || assumption|lra]]|]).
  destruct H.
Qed.
(* an equation solver that returns -1 for every unknown: the program accepts it *)
Definition slv_m1 : eqsolver RNum := fun m b => Ok (repeat (-1) (length b)).
Lemma tr_accepts big : exists st rs, main_truss big slv_m1 = Ok (st, rs) /\
  forall n t ref, In (n, t, ref) tr_refs -> disp st (KNode, n, t) = -1.
Proof.
  destruct (struct_each 5 tr_pos tr_members tr_loads tr_fixes tr_ok) as (b & E & B).
  destruct (struct_good 5 tr_pos tr_members tr_loads tr_fixes b tr_ok B) as [GL DN].
  destruct (linear_start RRng big slv_m1 5 _ _ _ [] tr_loads tr_fixes GL) as (s & g0 & g & U & Rv & E0 & N0 & HN & EG & I1 & EB & LU & LR & _ & _ & EL).
  destruct GL as [P C G O LD]. cbn [length] in *.
  pose proof (pn_sum _ _ _ _ _ _ HN) as SUM. pose proof (pn_nd _ _ _ _ _ _ HN) as ND.
  assert (LUc : length (seg (K := RNum) U 0 (ns_ncon s)) = ns_ncon s) by (apply (seg_length RRng); etransitivity; [|apply Nat.eq_le_incl; symmetry; exact LU]; lia).
  destruct (core_ok RRng 5 _ _ (map bc_key tr_fixes) s _ HN (all_es RRng 5 (map m_nodes tr_members) s []) big slv_m1 g _ _ _ _ _ I1
    (fun x y => res_K_sym RRng _ _ s _ [] x y G) LUc LR) as (K22 & rhs & E1 & D & V & LL & _ & CORE).
  set (x := repeat (-1) (length rhs)). assert (ES : slv_m1 K22 rhs = Ok x) by reflexivity. rewrite ES in CORE.
  assert (Lx : length x = (ns_nunk s + 0)%nat) by (unfold x; rewrite repeat_length; exact LL).
  destruct (CORE Lx) as (Rc & E2 & _). cbn [rnum RRng] in EL, E2. rewrite E2 in EL. cbn [obind fst snd] in EL.
  match type of EL with _ = Ok ?z => set (st := z) in EL end.
  assert (NS : g_num (so_g st) = s) by exact (gi_num _ _ _ _ _ _ _ _ _ I1).
  assert (DV : forall n t ref, In (n, t, ref) tr_refs -> disp st (KNode, n, t) = -1).
  { intros n t ref H.
    assert (Hk : In (KNode, n, t) (reg_keys (flat_map m_regs tr_members)) /\ ~ In (KNode, n, t) (map bc_key tr_fixes)).
    { destruct (tr_ref_ok n t ref H) as (Q1 & Q2 & _). split; [apply s_keys; exact Q1|exact Q2]. }
    destruct Hk as [Hk Nk]. destruct (pn_eq _ _ _ _ _ _ HN _ Hk) as (_ & Hr & Hc).
    unfold disp, vget. rewrite NS. cbn [so_U st]. etransitivity; [apply (nth_put_seg RRng)|].
    - etransitivity; [|apply Nat.eq_le_incl; symmetry; exact LU]. match goal with |- context [@length ?T x] => assert (Lx2 : @length T x = (ns_nunk s + 0)%nat) by exact Lx; rewrite Lx2 end. lia.
    - match goal with |- context [@length ?T x] => assert (Lx2 : @length T x = (ns_nunk s + 0)%nat) by exact Lx; rewrite Lx2 end. assert (~ (eqn s (KNode, n, t) <= ns_ncon s)%nat) by tauto.
      replace (_ && _)%bool with true by (symmetry; apply andb_true_iff; split; [apply Nat.leb_le|apply Nat.ltb_lt]; lia).
      unfold x. rewrite (nth_indep _ _ (-1)) by (rewrite repeat_length; rewrite LL; lia). apply nth_repeat. }
  assert (CH : tr_checks (disp st) tr_refs = Ok tt).
  { assert (Q : forall l, (forall n t ref, In (n, t, ref) l -> In (n, t, ref) tr_refs /\ -1 - ref < / 10 ^ 7) -> tr_checks (disp st) l = Ok tt).
    { induction l as [|[[n t] ref] l IH]; intros H; [reflexivity|]. cbn [tr_checks]. destruct (H n t ref (or_introl eq_refl)) as [H1 H2].
      rewrite (DV n t ref H1). destruct (Rlt_dec _ _); [|contradiction]. apply IH. intros. apply H. now right. }
    apply Q. intros n t ref H. split; [exact H|]. apply (tr_ref_ok n t ref H). }
  destruct (each_total (update_member tr_pos (disp st)) (map fst b)) as [rs RS].
  { intros m' Hm. apply in_map_iff in Hm as ([m1 l1] & <- & Hb). cbn [fst].
    pose proof (sk_members _ _ _ _ _ tr_ok) as M. clear - B Hb M. induction B as [|m y ms b E B IH]; [destruct Hb|].
    inversion M as [|? ? M1 M2]; subst. destruct Hb as [->|Hb]; [|now apply IH].
    destruct (build_ok 5 tr_pos m M1) as (m' & c & E' & _). rewrite E' in E. injection E as <- <-. eapply update_total; eauto. }
  exists st, rs. split; [|exact DV]. unfold main_truss, struct_solve. rewrite E. cbn [obind]. cbn [rnum RRng] in EL. rewrite EL. cbn [obind].
  change (each _ (map fst b)) with (each (update_member tr_pos (disp st)) (map fst b)). rewrite RS. cbn [obind fst].
  change (tr_checks _ tr_refs) with (tr_checks (disp st) tr_refs). rewrite CH. reflexivity.
Qed.
