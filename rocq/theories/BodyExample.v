(* A body that is solved: one PLANE41 element (integration order 2), a unit square stretched to 1.5 by its prescribed displacements. Two
   iterations: the first moves the nodes and meets the equation of the pressure, the second changes nothing *)
From Coq Require Import Reals Lra Lia.
Set Warnings "-ambiguous-paths".
From Coquelicot Require Import Coquelicot.
From Verif Require Import Base BaseProofs RealBase MatModel MatProofs SparseModel SpecSparse BlockModel SpecBlock DofModel SpecDof NumberingProofs AsmModel SpecAsm AsmLists AsmCalls AsmProofs AsmRun AsmFinal
  SolveModel SpecSolve SolveProofs LinearProofs GaussModel SpecGauss GaussProofs TimeModel NonlinModel SpecNonlin NonlinProofs NonlinFinal IsoModel SpecIso ElemModel
  ElemBase SpecElem ElemProofs HyperModel SpecHyper HyperProofs HyperElem HyperTangent HyperPlane HyperMore HyperBalance HyperBalance2 HyperFinal SpecBal BalProofs BalMore StructModel SpecStruct StructProofs
  StructFinal StructMore PartProofs SpecLaws LawsProofs SpecNewton NewtonProofs NewtonTotal BodyModel SpecBody BodyProofs BodyMore BodyFinal.
From Verif Require Prop_Asm.
Local Open Scope R_scope.

Definition sq_pos (n i : nat) : R :=
  match nth_error [(0, 0, 0); (1, 0, 0); (1, 1, 0); (0, 1, 0)] (n - 1) with Some (x, y, z) => nth i [x; y; z] 0 | None => 0 end.
Definition sq_val (n : nat) : R := match n with 2%nat => 1 / 2 | 3%nat => 1 / 2 | _ => 0 end.
Definition sq_el : body_el := mkEl P41 2 [1; 2; 3; 4]%nat.
Definition sq_fix (n : nat) : list (bc RNum) := [mkBC (K := RNum) n UX (sq_val n); mkBC (K := RNum) n UY 0].
Definition sq_fixes : list (bc RNum) := sq_fix 1 ++ sq_fix 2 ++ sq_fix 3 ++ sq_fix 4.
Definition sq_mat : hyper := neo_hookean 1 1.
Definition sq_cfg : nlset RG := mkSet (K := RG) 1 3 (1 / 1000) 1000000.
(* one unknown *)
Definition slv1 : eqsolver RNum := fun m b =>
  if (si_nrows (sm_si m) =? 1)%nat then
    a <- sym_value m 1 1 ;; if Req_EM_T a 0 then Fatal else Ok [nth 0 b 0 / a]
  else Fatal.
Lemma slv1_exact : exact_solver slv1.
Proof.
  intros m n A b x D V LB H. unfold slv1 in H. rewrite D in H. destruct (Nat.eqb_spec n 1) as [->|]; [|discriminate].
  rewrite (V 1%nat 1%nat) in H by (unfold in_shape; cbn; lia). cbn [obind] in H. destruct (Req_EM_T _ _) as [|NZ]; [discriminate|].
  injection H as <-. split; [reflexivity|]. intros i Hi. replace i with 0%nat by lia. destruct b as [|b0 [|]]; try discriminate.
  change (A 1%nat 1%nat * (b0 / A 1%nat 1%nat) + 0 = b0). change (A 1%nat 1%nat <> 0) in NZ. field. exact NZ.
Qed.
Lemma slv1_ok m b (a : R) : si_nrows (sm_si m) = 1%nat -> sym_value (K := RNum) m 1 1 = Ok a -> a <> 0 -> exists x, slv1 m b = Ok x.
Proof. intros D V N. unfold slv1. rewrite D. cbn [Nat.eqb]. rewrite V. cbn [obind]. destruct (Req_EM_T a 0); [congruence|eauto]. Qed.
Lemma slv1_noub : forall mt b n A, si_nrows (sm_si mt) = n -> (forall i j, in_shape n n (i, j) -> sym_value (K := RNum) mt i j = Ok (A i j)) -> length b = n -> slv1 mt b <> UB.
Proof.
  intros m b n A D V LB. unfold slv1. rewrite D. destruct (Nat.eqb_spec n 1) as [->|]; [|discriminate].
  rewrite (V 1%nat 1%nat) by (unfold in_shape; cbn; lia). cbn [obind]. destruct (Req_EM_T _ _); discriminate.
Qed.
Notation sq_regs := (body_regs 1 [sq_el]).
Lemma sq_good : good_problem (K := RNum) 4 (map be_nodes [sq_el]) sq_regs (map bc_key sq_fixes) [].
Proof. apply Prop_Asm.problem_check_ok. vm_compute. reflexivity. Qed.
Lemma sq_ok : body_ok 4 [sq_el] [] (fun _ => []) [] sq_fixes.
Proof.
  split.
  - repeat constructor; cbn; try lia; intuition discriminate.
  - constructor.
  - apply Forall_forall. intros f Hf. apply Prop_Asm.key_in_ok. revert f Hf. apply forallb_forall. vm_compute. reflexivity.
  - exists (KEl, 1%nat, HYDRO_PRESSURE). split; [apply Prop_Asm.key_in_ok; vm_compute; reflexivity|].
    intros H. apply Prop_Asm.key_in_ok in H. vm_compute in H. discriminate.
  - constructor.
  - intros c t [].
  - intros v. constructor.
  - apply (small_capacity RRng); [exact sq_good|]. vm_compute. lia.
Qed.
Lemma sq_det r s : quad_det (at_nodes sq_pos [1; 2; 3; 4]%nat) r s = / 4.
Proof. unfold quad_det, jdet, mdet. cbn. replace (-0.25) with (- (/ 4)) by lra. replace 0.25 with (/ 4) by lra. field. Qed.
Lemma sq_regular : regular_geo sq_pos sq_el.
Proof.
  unfold regular_geo. cbn [be_kind sq_el be_ord be_nodes]. intros r s w H. rewrite sq_det. lra.
Qed.
Lemma sq_weights : map fst (be_geo sq_pos sq_el) = [/ 4; / 4; / 4; / 4].
Proof. unfold be_geo. cbn [be_kind sq_el be_ord be_nodes]. let l := eval vm_compute in (quad_quad (i_int 2)) in change (quad_quad (i_int 2)) with l. cbn [map fst]. rewrite !sq_det. unfold dec. repeat f_equal; field. Qed.
Lemma sq_repro g : In g (be_geo sq_pos sq_el) -> reproduces 4 2 (snd g) (at_nodes sq_pos [1; 2; 3; 4]%nat).
Proof. apply (geo_reproduces sq_pos sq_el sq_regular). Qed.

(* the nodes are displaced by c times the prescribed values *)
Definition at_c (c : R) (v : key -> R) : Prop := forall n i, (1 <= n <= 4)%nat -> (i < 2)%nat -> v (KNode, n, i) = if (i =? 0)%nat then c * sq_val n else 0.
Lemma at_c_F c v g : In g (be_geo sq_pos sq_el) -> at_c c v -> det3 (be_F v sq_el (snd g)) = 1 + c / 2.
Proof.
  intros Hg H. destruct (sq_repro g Hg) as (R1 & R2). set (sq_nx := snd g) in *. clearbody sq_nx. pose proof (R1 0%nat ltac:(lia)) as A0. pose proof (R1 1%nat ltac:(lia)) as A1.
  pose proof (R2 0%nat 0%nat ltac:(lia) ltac:(lia)) as B00. pose proof (R2 0%nat 1%nat ltac:(lia) ltac:(lia)) as B01.
  rewrite rs4 in A0, A1, B00, B01. unfold at_nodes in B00, B01. unfold sq_pos in B00, B01. cbn [nth nth_error Nat.sub] in B00, B01. change (dlt 0 0) with 1 in B00. change (dlt 0 1) with 0 in B01.
  assert (EU : be_U v sq_el = [0; 0; c * (1 / 2); 0; c * (1 / 2); 0; 0; 0]).
  { change (be_U v sq_el) with [v (KNode, 1%nat, 0%nat); v (KNode, 1%nat, 1%nat); v (KNode, 2%nat, 0%nat); v (KNode, 2%nat, 1%nat);
      v (KNode, 3%nat, 0%nat); v (KNode, 3%nat, 1%nat); v (KNode, 4%nat, 0%nat); v (KNode, 4%nat, 1%nat)].
    rewrite !H by lia. cbn [Nat.eqb sq_val]. repeat f_equal; field. }
  unfold be_F. cbn [be_kind sq_el]. rewrite EU. set (U := arr _).
  assert (G : forall i j, (i < 2)%nat -> (j < 2)%nat -> grad2 sq_nx U i j = sq_nx 0%nat j * U i + sq_nx 1%nat j * U (2 + i)%nat + sq_nx 2%nat j * U (4 + i)%nat + sq_nx 3%nat j * U (6 + i)%nat).
  { intros i j Hi Hj. unfold grad2. rewrite (proj2 (Nat.ltb_lt i 2) Hi), (proj2 (Nat.ltb_lt j 2) Hj). cbn [andb]. rewrite rs4. reflexivity. }
  assert (Z : forall i j, (2 <= i)%nat \/ (2 <= j)%nat -> grad2 sq_nx U i j = 0).
  { intros i j [Q|Q]; unfold grad2; apply Nat.ltb_ge in Q; rewrite Q; [reflexivity|]. now rewrite Bool.andb_false_r. }
  unfold det3, defgrad. rewrite !(Z 2%nat), !(Z _ 2%nat) by lia. rewrite !G by lia. cbn [Nat.add]. unfold U, arr. cbn [nth].
  change (dlt 0 0) with 1. change (dlt 0 1) with 0. change (dlt 1 0) with 0. change (dlt 1 1) with 1. change (dlt 2 2) with 1. change (dlt 0 2) with 0. change (dlt 2 0) with 0. change (dlt 1 2) with 0. change (dlt 2 1) with 0.
  assert (S0 : sq_nx 1%nat 0%nat + sq_nx 2%nat 0%nat = 1) by lra. assert (S1 : sq_nx 1%nat 1%nat + sq_nx 2%nat 1%nat = 0) by lra.
  replace (sq_nx 2%nat 0%nat) with (1 - sq_nx 1%nat 0%nat) by lra. field.
Qed.
Lemma sq_unflat c v : -2 < c -> at_c c v -> unflat sq_pos [sq_el] v.
Proof.
  intros Hc H e g [<-|[]] Hg. rewrite (at_c_F c v g Hg H). lra.
Qed.
Definition kp : key := (KEl, 1%nat, HYDRO_PRESSURE).
Lemma sq_force v c : -2 < c -> at_c c v -> body_force sq_mat sq_pos 1 [sq_el] v kp = c / 2 - v kp.
Proof.
  intros Hc H. cbn [body_force]. unfold el_force, vol_row. change (be_nn sq_el) with 4%nat. change (be_dim sq_el) with 2%nat.
  match goal with |- rsumn 4 ?f + _ + _ = _ => assert (Z : rsumn 4 f = 0) end.
  { apply rsumn_zero. intros a Ha. apply rsumn_zero. intros i Hi. destruct (key_dec _ _) as [X|]; [discriminate|reflexivity]. }
  rewrite Z. unfold kp at 1. destruct (key_dec _ _) as [_|N]; [|congruence].
  match goal with |- 0 + rsuml _ ?f + 0 = _ => assert (Q : rsuml (be_geo sq_pos sq_el) f = rsuml (map fst (be_geo sq_pos sq_el)) (fun w => w * (c / 2 - v kp))) end.
  { assert (G : forall l, (forall g, In g l -> In g (be_geo sq_pos sq_el)) ->
      rsuml l (fun g => fst g * (Rabs (det3 (be_F v sq_el (snd g))) - 1 - be_p v 1 / hK sq_mat)) = rsuml (map fst l) (fun w => w * (c / 2 - v kp))).
    { induction l as [|g l IH]; intros HI; [reflexivity|].
      change (fst g * (Rabs (det3 (be_F v sq_el (snd g))) - 1 - be_p v 1 / hK sq_mat) + rsuml l (fun g => fst g * (Rabs (det3 (be_F v sq_el (snd g))) - 1 - be_p v 1 / hK sq_mat))
        = fst g * (c / 2 - v kp) + rsuml (map fst l) (fun w => w * (c / 2 - v kp))).
      rewrite IH by (intros; apply HI; now right). apply (f_equal2 Rplus); [|reflexivity]. apply (f_equal (Rmult (fst g))).
      rewrite (at_c_F c v g (HI g ltac:(now left)) H), Rabs_right by lra. change (be_p v 1) with (v kp). change (hK sq_mat) with 1. field. }
    apply G. auto. }
  rewrite Q, sq_weights. set (x := c / 2 - v kp). change (0 + (/ 4 * x + (/ 4 * x + (/ 4 * x + (/ 4 * x + 0)))) + 0 = x). field.
Qed.

(* the numbering: eight prescribed equations, then the pressure *)
Lemma sq_num : exists s, init_sequence (fresh_storage 4 1 (map (fun m : mpc RNum => length (mp_terms m)) [])) sq_regs [] (map bc_key sq_fixes) = Ok s /\
  ns_ncon s = 8%nat /\ ns_nunk s = 1%nat /\ ns_ndofs s = 9%nat /\ eqn s kp = 9%nat /\
  (forall n i, (1 <= n <= 4)%nat -> (i < 2)%nat -> (1 <= eqn s (KNode, n, i) <= 8)%nat).
Proof.
  eexists. split; [vm_compute; reflexivity|]. repeat (split; [vm_compute; reflexivity|]).
  intros n i Hn Hi. assert (n = 1 \/ n = 2 \/ n = 3 \/ n = 4)%nat as [ |[ |[ | ]]] by lia; assert (i = 0 \/ i = 1)%nat as [ | ] by lia; subst; vm_compute; lia.
Qed.
Lemma sq_keys k : In k (reg_keys sq_regs) -> k = kp \/ exists n i, (1 <= n <= 4)%nat /\ (i < 2)%nat /\ k = (KNode, n, i).
Proof.
  intros H. vm_compute in H. repeat (destruct H as [<-|H]; [first [left; reflexivity|right; do 2 eexists; split; [|split; [|reflexivity]]; lia]|]). destruct H.
Qed.
Lemma sq_in n i : (1 <= n <= 4)%nat -> (i < 2)%nat -> In (KNode, n, i) (reg_keys sq_regs).
Proof.
  intros Hn Hi. apply Prop_Asm.key_in_ok. assert (n = 1 \/ n = 2 \/ n = 3 \/ n = 4)%nat as [ |[ |[ | ]]] by lia; assert (i = 0 \/ i = 1)%nat as [ | ] by lia; subst; vm_compute; reflexivity.
Qed.
Lemma sq_kp : In kp (reg_keys sq_regs).
Proof. apply Prop_Asm.key_in_ok. vm_compute; reflexivity. Qed.
Lemma sq_last n i : (1 <= n <= 4)%nat -> (i < 2)%nat -> last_fix sq_fixes (KNode, n, i) = Some (if (i =? 0)%nat then sq_val n else 0).
Proof. intros Hn Hi. assert (n = 1 \/ n = 2 \/ n = 3 \/ n = 4)%nat as [ |[ |[ | ]]] by lia; assert (i = 0 \/ i = 1)%nat as [ | ] by lia; subst; reflexivity. Qed.
Lemma sq_free : last_fix sq_fixes kp = None.
Proof. reflexivity. Qed.

Lemma seg_last (d : list R) : length d = 9%nat -> seg (K := RNum) d 8 1 = [nth (9 - 1) d 0].
Proof. destruct d as [|a0 [|a1 [|a2 [|a3 [|a4 [|a5 [|a6 [|a7 [|a8 [|]]]]]]]]]]; try discriminate. reflexivity. Qed.
Section Sq.
  Variable big : R -> bool.
  Variable s : numst.
  Hypothesis EI : init_sequence (fresh_storage 4 1 (map (fun m : mpc RNum => length (mp_terms m)) [])) sq_regs [] (map bc_key sq_fixes) = Ok s.
  Hypothesis N1 : ns_ncon s = 8%nat.
  Hypothesis N2 : ns_nunk s = 1%nat.
  Hypothesis N3 : ns_ndofs s = 9%nat.
  Hypothesis N4 : eqn s kp = 9%nat.
  Hypothesis N5 : forall n i, (1 <= n <= 4)%nat -> (i < 2)%nat -> (1 <= eqn s (KNode, n, i) <= 8)%nat.
  Notation mpf := (fun _ : key -> R => [] : list (mpc RNum)).
  Notation ph := (body_physics sq_mat sq_pos [sq_el] mpf s).
  Notation mesh := (map be_nodes [sq_el]).
  Notation regs := sq_regs.
  Hypothesis HN : prob_num 4 (length mesh) regs (map bc_key sq_fixes) (@length (mpc RNum) []) s.
  Hypothesis HG : good_mpcs RRng regs (@length (mpc RNum) []) [].
  Notation inv := (ninv RG RG_laws (list (list point)) ph big 4 mesh regs [] [] sq_fixes s).
  Notation J := (Jinv big sq_mat sq_pos [sq_el] mpf [] sq_fixes s).
  Notation vof U := (vget (K := RNum) s U).
  Notation bf := (body_force sq_mat sq_pos 1 [sq_el]).

  (* the only unknown has a pivot *)
  Lemma sq_pivot v ps c : -2 < c -> at_c c v -> each (el_good sq_mat sq_pos v) 1 [sq_el] ps ->
    good_contribs (K := RNum) mesh regs (p_ks ps) -> only_K (K := RNum) (p_ks ps) -> distinct_nodes (K := RNum) mesh (p_ks ps) ->
    res_K RRng mesh s (p_ks ps) [] 9 9 = -1.
  Proof.
    intros Hc HV EP GC OK DN.
    assert (W : forall x : R, res_K RRng mesh s (p_ks ps) [] 9 9 * x - sum_vector (K := RRng) s mesh (p_ks ps) 9%nat = bf v kp - x).
    { intros x. set (V := repeat 0 8 ++ [x]).
      pose proof (force_row RRng 4 mesh regs (map bc_key sq_fixes) s 0 (p_ks ps) [] V kp HN GC OK DN eq_refl ltac:(intros ? ? []) sq_kp) as F.
      rewrite N4, N3 in F.
      destruct (body_forces sq_mat sq_pos v (vof V) kp [sq_el] 1 ps (els_len _ _ _ _ _ _ sq_ok) EP) as (F1 & F2).
      specialize (F2 (known_nh 1 1) ltac:(cbn; lra) (sq_unflat c v Hc HV)).
      assert (A : forall t, at_c c (along v (vof V) t)).
      { intros t n i Hn Hi. pose proof (N5 n i Hn Hi) as BB.
        assert (Z : vof V (KNode, n, i) = 0).
        { unfold vget, V. transitivity (nth (eqn s (KNode, n, i) - 1) (repeat 0 8) 0); [apply app_nth1; rewrite repeat_length; lia|].
          destruct (nth_in_or_default (eqn s (KNode, n, i) - 1) (repeat 0 8) 0) as [Y|Y]; [now apply repeat_spec in Y|exact Y]. }
        unfold along. rewrite (HV n i Hn Hi). transitivity ((if (i =? 0)%nat then c * sq_val n else 0) + t * 0); [apply f_equal, f_equal, Z|]. ring. }
      assert (VX : vof V kp = x) by (unfold vget; rewrite N4; reflexivity).
      assert (D : @sumof RNum _ (stiff_on (vof V) kp) (p_forms 1 ps) = - x).
      { apply (is_derive_unique' _ _ _ _ F2). apply (is_derive_ext (fun t => c / 2 - (v kp + t * x))).
        - intros t. rewrite (sq_force _ c Hc (A t)). unfold along. rewrite VX. reflexivity.
        - auto_derive; [exact I|]. ring. }
      rewrite D in F1. rewrite <- (each_contribs [sq_el] _ _ EP) in F1.
      assert (M0 : forall l, mpc_pull (K := RNum) l [] kp = 0) by (intros [|]; reflexivity).
      match type of F with ?a = ?b => change (a = b :> R) in F end.
      set (k9 := fun j => res_K RRng mesh s (p_ks ps) [] 9 j : R) in *.
      assert (F' : k9 1%nat * 0 + (k9 2%nat * 0 + (k9 3%nat * 0 + (k9 4%nat * 0 + (k9 5%nat * 0 + (k9 6%nat * 0 + (k9 7%nat * 0 + (k9 8%nat * 0 + (k9 9%nat * x + 0))))))))
        - (sum_vector (K := RRng) s mesh (p_ks ps) 9%nat : R) = (bf v kp + - x) + 0).
      { etransitivity; [exact F|]. apply (f_equal2 Rplus); [exact F1|apply M0]. }
      change (k9 9%nat * x - (sum_vector (K := RRng) s mesh (p_ks ps) 9%nat : R) = bf v kp - x). clear -F'. lra. }
    pose proof (W 0) as W0. pose proof (W 1) as W1. change (car RRng) with R in *. lra.
  Qed.

  (* an iteration from a state with the nodes at c times their values *)
  Lemma sq_iter st c : 0 <= c <= 1 -> inv st -> J st -> at_c c (vof (nl_U st)) -> norm_time (nl_tc st) = 1 ->
    exists st' cr d, iteration (K := RG) ph sq_cfg big slv1 [] sq_fixes st = Ok (st', Some cr) /\ inv st' /\ J st' /\ (exists it, nl_log st' = nl_log st ++ [it] /\ g_num (it_g it) = s /\ it_before it = nl_U st /\ vof (it_d it) kp = d /\ at_c (1 - c) (vof (it_d it))) /\
      at_c 1 (vof (nl_U st')) /\ nl_tc st' = next_eq (nl_tc st) /\ vof (nl_U st') kp = vof (nl_U st) kp + d /\
      d = 1 / 2 - vof (nl_U st) kp /\ cr = Rabs d / (1 / 1000).
  Proof.
    intros HC I HJ HA HT. assert (Hc : -2 < c) by lra. destruct (body_good sq_mat sq_pos 4 [sq_el] [] mpf [] sq_fixes sq_ok s) as (GN & HD).
    destruct (J_asm big sq_mat sq_pos 4 [sq_el] [] mpf [] sq_fixes sq_ok s st HJ) as (ps & EA & EP).
    destruct (gn_physics _ _ _ _ _ _ _ GN _ _ _ _ _ EA) as (P1 & P2 & _). pose proof (HD _ _ _ _ _ EA) as DN.
    destruct (iteration_total RG RG_laws _ ph sq_cfg big slv1 slv1_exact 4 mesh regs [] [] sq_fixes GN s HN HG st _ _ _ I EA) as (m & b & D & V & LB & M).
    { intros U. apply (upd_total sq_mat sq_pos 4 [sq_el] [] mpf [] sq_fixes sq_ok). }
    cbn [length] in D, V. rewrite N2 in D, V. rewrite N1 in V. cbn [Nat.add] in D, V.
    specialize (V 1%nat 1%nat ltac:(unfold in_shape; cbn; lia)). cbn [Nat.add] in V.
    pose proof (sq_pivot _ ps c Hc HA EP P1 P2 DN) as PV.
    assert (SO : exists x, slv1 m b = Ok x).
    { refine (slv1_ok m b _ D V _). intros Z. pose proof (eq_trans (eq_sym PV) Z). lra. }
    destruct SO as (x & ES). rewrite ES in M. destruct M as (st' & cr & HI). 
    destruct (iteration_ok RG RG_laws _ ph sq_cfg big slv1 slv1_exact 4 mesh regs [] [] sq_fixes GN s HN HG st st' cr I HI) as (I' & _).
    destruct (iteration_step RG RG_laws _ ph sq_cfg big slv1 slv1_exact 4 mesh regs [] [] sq_fixes GN HD s HN HG st st' cr I HI)
      as (e1 & ks & mps & it & _ & _ & EL & EB & EF & _ & ET & EGg & EN & EC & ELd & _).
    pose proof (J_step sq_cfg big slv1 slv1_exact sq_mat sq_pos 4 [sq_el] [] mpf [] sq_fixes sq_ok (known_nh 1 1) ltac:(cbn; lra) s HN HG st st' cr I HJ HI) as HJ'.
    assert (NW : newton_step big sq_mat sq_pos [sq_el] mpf [] sq_fixes it).
    { destruct HJ' as (_ & F). rewrite EL in F. apply Forall_app in F as (_ & F). now inversion F. }
    assert (TC : nl_tc st' = next_eq (nl_tc st)).
    { unfold iteration in HI. apply obind_ok in HI as ([? [? ?]] & _ & HI). apply obind_ok in HI as ([[[[? ?] ?] ?] ?] & _ & HI).
      apply obind_ok in HI as (? & _ & HI). injection HI as <- _. reflexivity. }
    assert (T1 : it_time it = 1) by (rewrite ET, TC; exact HT).
    destruct NW as [W1 _ W3 W4 _ _]. cbv zeta in W1, W3, W4. rewrite EN, EB, EF, T1 in *.
    destruct (W1 (sq_unflat c _ Hc HA)) as (Dv & D1 & D2 & _). specialize (D2 kp sq_kp sq_free).
    assert (A1 : at_c 1 (vof (nl_U st'))).
    { intros n i Hn Hi. rewrite (W3 _ _ (sq_last n i Hn Hi)). destruct (i =? 0)%nat; ring. }
    assert (SEG : seg (it_d it) 8 1 = [vof (it_d it) kp]).
    { unfold vget. rewrite N4. apply seg_last. rewrite N3 in ELd. exact ELd. }
    rewrite N1, N2, SEG in EC. unfold criteria in EC. cbn [length Nat.eqb sq_cfg nl_crit] in EC.
    assert (G1 : glt (g := RG) 0 (gabs (g := RG) (1 / 1000)) = true).
    { cbn. unfold Rltb. destruct (Rlt_dec _ _) as [|N]; [reflexivity|]. exfalso. apply N. rewrite Rabs_right; lra. }
    match type of EC with _ = (if ?g then _ else _) => change g with (glt (g := RG) 0 (gabs (g := RG) (1 / 1000))) in EC end. rewrite G1 in EC.
    destruct cr as [cr|]; [|discriminate]. injection EC as EC.
    exists st', cr, (vof (it_d it) kp). split; [exact HI|]. split; [exact I'|]. split; [exact HJ'|]. split.
    { exists it. split; [exact EL|]. split; [exact EN|]. split; [exact EB|]. split; [reflexivity|]. intros n i Hn Hi.
      pose proof (W4 _ (sq_in n i Hn Hi)) as Q. rewrite (A1 n i Hn Hi), (HA n i Hn Hi) in Q. change (car RNum) with R in *. destruct (i =? 0)%nat; lra. }
    split; [exact A1|]. split; [exact TC|]. split; [apply W4, sq_kp|].
    assert (DZ : forall t, at_c (c + t * (1 - c)) (along (vof (nl_U st)) (vof (it_d it)) t)).
    { intros t n i Hn Hi. unfold along. pose proof (W4 _ (sq_in n i Hn Hi)) as Q. rewrite (A1 n i Hn Hi), (HA n i Hn Hi) in Q. rewrite (HA n i Hn Hi).
      assert (Z : vof (it_d it) (KNode, n, i) = if (i =? 0)%nat then (1 - c) * sq_val n else 0) by (change (car RNum) with R in *; destruct (i =? 0)%nat; lra).
      rewrite Z. destruct (i =? 0)%nat; ring. }
    assert (DV : Dv kp = (1 - c) / 2 - vof (it_d it) kp).
    { apply (is_derive_unique' _ _ _ _ (D1 kp)). apply (is_derive_ext_loc (fun t => (c + t * (1 - c)) / 2 - (vof (nl_U st) kp + t * vof (it_d it) kp))).
      - exists (mkposreal 1 Rlt_0_1). intros t Ht. symmetry. refine (sq_force (along (vof (nl_U st)) (vof (it_d it)) t) (c + t * (1 - c)) _ (DZ t)).
        change (Rabs (t - 0) < 1) in Ht. apply Rabs_def2 in Ht. nra.
      - auto_derive; [exact Logic.I|]. change (car RNum) with R. field. }
    assert (Dd : vof (it_d it) kp = 1 / 2 - vof (nl_U st) kp).
    { rewrite DV, (sq_force _ c Hc HA) in D2.
      assert (M0 : forall l, mpc_pull (K := RNum) l [] kp = 0) by (intros [|]; reflexivity). rewrite M0 in D2. 
      assert (TL : total_load (K := RNum) [] kp * 1 = 0) by (change (total_load (K := RNum) [] kp) with 0; ring).
      pose proof (eq_trans D2 TL) as Q. change (car RNum) with R in *. lra. }
    split; [exact Dd|]. rewrite EC. unfold abs_sum. cbn [fold_left length gnat].
    change ((0 + Rabs (vof (it_d it) kp)) / (0 + 1) / (1 / 1000) = Rabs (vof (it_d it) kp) / (1 / 1000)). field.
  Qed.
End Sq.

Lemma Rltb_t a b : a < b -> glt (g := RG) a b = true.
Proof. intros H. cbn. unfold Rltb. now destruct (Rlt_dec a b). Qed.
Lemma Rltb_f a b : b <= a -> glt (g := RG) a b = false.
Proof. intros H. cbn. unfold Rltb. destruct (Rlt_dec a b); [lra|reflexivity]. Qed.
Lemma tc_go : next_step (K := RG) 1 (tc_init (K := RG) 0 1) = (true, mkTc (K := RG) [] [] 0 0 (1 - 0) 1 0 (0 + (1 - 0))).
Proof.
  unfold next_step, gge. cbn [tc_init tc_cur tc_time tc_end tc_conv tc_eqs tc_tot tc_start]. cbn [N.ltb N.compare].
  change (@r0 (gn RG)) with 0. rewrite (Rltb_t 0 1) by lra. cbn [negb].
  rewrite (Rltb_f (@radd (gn RG) 0 1) 1) by (cbn; lra). reflexivity.
Qed.
Lemma sq_solved big : exists st, body_solve sq_cfg big slv1 1 4 sq_mat sq_pos [sq_el] [] (fun _ => []) 0 1 [] sq_fixes = Ok st /\
  vget (K := RNum) (g_num (nl_g st)) (nl_U st) kp = 1 / 2 /\
  exists it, nl_log st = [fst it; snd it] /\
    (let s := g_num (it_g (fst it)) in unflat sq_pos [sq_el] (vget (K := RNum) s (it_before (fst it))) /\ vget (K := RNum) s (it_d (fst it)) (KNode, 2%nat, UX) = 1 / 2) /\
    (let s := g_num (it_g (snd it)) in unflat sq_pos [sq_el] (vget (K := RNum) s (it_before (snd it))) /\ forall k, In k (reg_keys sq_regs) -> vget (K := RNum) s (it_d (snd it)) k = 0).
Proof.
  destruct sq_num as (s & EI & N1 & N2 & N3 & N4 & N5).
  destruct (body_good sq_mat sq_pos 4 [sq_el] [] (fun _ => []) [] sq_fixes sq_ok s) as (GN & HD).
  destruct (solve_starts RG RG_laws _ (body_physics sq_mat sq_pos [sq_el] (fun _ => []) s) sq_cfg big slv1 4 (map be_nodes [sq_el]) sq_regs [] [] sq_fixes GN)
    as (s' & g0 & E1 & HN & HG & UNF & I0).
  assert (X : Ok s' = Ok s) by (etransitivity; [symmetry; exact E1|exact EI]). injection X as ->.
  unfold body_solve. assert (EI' : init_sequence (fresh_storage 4 (length [sq_el]) (map (fun m : mpc RNum => length (mp_terms m)) [])) sq_regs [] (map bc_key sq_fixes) = Ok s) by exact EI.
  rewrite EI'. cbn [obind]. rewrite UNF.
  replace (gdiv (g := RG) (@rsub (gn RG) 1 0) (gnat (K := RG) (nl_steps sq_cfg))) with 1 by (cbn; field).
  set (tc1 := mkTc (K := RG) [] [] 0 0 (1 - 0) 1 0 (0 + (1 - 0))).
  assert (T1 : forall k : nat, norm_time (K := RG) tc1 = 1 /\ norm_time (K := RG) (next_eq tc1) = 1) by (intros _; unfold norm_time; cbn; split; field).
  destruct (T1 0%nat) as (T2 & T3).
  match goal with |- context [load_loop _ _ _ _ _ _ _ _ (mkNl ?g ?u ?r ?uc ?e ?tc ?l)] => set (st0 := mkNl (K := RG) g u r uc e tc1 l) end.
  assert (J0 : Jinv big sq_mat sq_pos [sq_el] (fun _ => []) [] sq_fixes s st0) by apply (J_start big sq_mat sq_pos 4 [sq_el] [] (fun _ => []) [] sq_fixes sq_ok).
  assert (A0 : at_c 0 (vget (K := RNum) s (nl_U st0))).
  { intros n i _ _. etransitivity; [unfold vget; apply (nth_zeros RRng)|]. change (@r0 RRng) with 0. destruct (i =? 0)%nat; ring. }
  assert (Z0 : vget (K := RNum) s (nl_U st0) kp = 0) by (unfold vget; apply (nth_zeros RRng)).
  destruct (sq_iter big s N1 N2 N3 N4 N5 HN HG st0 0 ltac:(lra) (I0 _ _) J0 A0 T2) as (st1 & c1 & d1 & H1 & I1 & J1 & L1 & A1 & C1 & P1 & Q1 & R1).
  rewrite Z0 in Q1, P1. cbn [nl_tc st0] in C1.
  destruct (sq_iter big s N1 N2 N3 N4 N5 HN HG st1 1 ltac:(lra) I1 J1 A1) as (st2 & c2 & d2 & H2 & I2 & J2 & L2 & A2 & C2 & P2 & Q2 & R2).
  { rewrite C1. exact T3. }
  rewrite P1, Q1 in Q2, P2. assert (D2 : d2 = 0) by lra. assert (D1 : d1 = 1 / 2) by lra.
  assert (Q : c1 = 500) by (rewrite R1, D1; change (Rabs (1 / 2) / (1 / 1000) = 500); rewrite Rabs_right by lra; field).
  assert (Q' : c2 = 0) by (rewrite R2, D2; change (Rabs 0 / (1 / 1000) = 0); rewrite Rabs_R0; field).
  clear R1 R2. subst c1 c2.
  assert (LL : exists it, nl_log st2 = [fst it; snd it] /\
    (let s := g_num (it_g (fst it)) in unflat sq_pos [sq_el] (vget (K := RNum) s (it_before (fst it))) /\ vget (K := RNum) s (it_d (fst it)) (KNode, 2%nat, UX) = 1 / 2) /\
    (let s := g_num (it_g (snd it)) in unflat sq_pos [sq_el] (vget (K := RNum) s (it_before (snd it))) /\ forall k, In k (reg_keys sq_regs) -> vget (K := RNum) s (it_d (snd it)) k = 0)).
  { destruct L1 as (i1 & L1 & G1 & B1 & K1 & M1). destruct L2 as (i2 & L2 & G2 & B2 & K2 & M2). exists (i1, i2). cbn [fst snd]. cbv zeta. rewrite G1, G2, B1, B2.
    split; [rewrite L2, L1; reflexivity|]. split; (split; [|]).
    - exact (sq_unflat 0 _ ltac:(lra) A0).
    - rewrite (M1 2%nat UX) by (cbv; lia). cbn. lra.
    - exact (sq_unflat 1 _ ltac:(lra) A1).
    - intros k Hk. destruct (sq_keys k Hk) as [->|(n & i & Hn & Hi & ->)]; [rewrite K2; exact D2|]. rewrite (M2 n i Hn Hi). change ((if (i =? 0)%nat then (1 - 1) * sq_val n else 0) = 0). destruct (i =? 0)%nat; ring. }
  cbn [load_loop nl_tc]. rewrite tc_go. fold tc1. cbn [nl_g nl_U nl_R nl_Uc nl_E nl_log]. fold st0.
  change (S (nl_iters sq_cfg)) with 4%nat. cbn [iterate]. rewrite H1. cbn [obind fst snd].
  change (nl_crit sq_cfg) with (1 / 1000). change (nl_far sq_cfg) with 1000000.
  rewrite (Rltb_f 500 (1 / 1000)) by lra. rewrite (Rltb_f 1000000 500) by lra.
  rewrite C1. match goal with |- context [N.leb ?a ?b] => change (N.leb a b) with false end. cbv iota.
  rewrite H2. cbn [obind fst snd]. change (nl_crit sq_cfg) with (1 / 1000). rewrite (Rltb_t 0 (1 / 1000)) by lra. cbv iota. cbn [obind].
  rewrite C2, C1. unfold next_step at 1.
  assert (G : gge (K := RG) (tc_time (next_eq (next_eq tc1))) (tc_end (next_eq (next_eq tc1))) = true).
  { unfold gge. cbn [next_eq tc1 tc_time tc_end]. rewrite (Rltb_f (0 + (1 - 0)) 1) by lra. reflexivity. }
  destruct (0 <? _)%N; rewrite G; (eexists; split; [reflexivity|]); cbn [nl_log nl_g nl_U]; (split; [|apply LL]);
    destruct I2 as ((FK & Fv & I2) & _); pose proof (gi_num _ _ _ _ _ _ _ _ _ I2) as GS; change (g_num (nl_g st2) = s) in GS; rewrite GS, P2, D2; lra.
Qed.
