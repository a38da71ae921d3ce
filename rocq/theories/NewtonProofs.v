(* Equilibrium iterations: every iteration DoF by DoF; what all iterations keep *)
From Coq Require Import NArith Lia.
From Verif Require Import Base BaseProofs SparseModel SpecSparse SparseMatProofs SparseFinal BlockModel SpecBlock BlockProofs
  DofModel SpecDof DofProofs NumberingProofs AsmModel SpecAsm AsmLists AsmCalls AsmProofs AsmRun AsmFinal SolveModel SpecSolve
  SolveProofs LinearProofs GaussModel SpecGauss GaussProofs TimeModel NonlinModel SpecNonlin NonlinProofs NonlinFinal SpecBal BalProofs BalMore SpecLaws LawsProofs
  SpecNewton.

Section Rows.
  Variable K : Rng.
  Add Ring Kr : (rth K).
  Local Open Scope rng_scope.
  (* a row of the assembled system at a DoF, as forces *)
  Lemma force_row nn mesh regs fx s nm ks (mpcs : list (mpc K)) (V : list K) k : prob_num nn (length mesh) regs fx nm s ->
    good_contribs mesh regs ks -> only_K ks -> distinct_nodes mesh ks -> length mpcs = nm ->
    (forall m t, In m mpcs -> In t (mp_terms m) -> In (term_key t) (reg_keys regs)) -> In k (reg_keys regs) ->
    mv (res_K K mesh s ks mpcs) (ns_ndofs s + nm) V (eqn s k) - sum_vector s mesh ks (eqn s k) =
    sumof (force_on (vget s V) k) (contribs mesh ks) + mpc_pull (map (fun e => nth (e - 1) V 0) (map snd (ns_mpc s))) mpcs k.
  Proof.
    intros HN G O DN LM T Hk. rewrite mpc_pull_on.
    rewrite <- (mpc_mv K nn mesh regs fx s nm HN mpcs V k LM Hk T).
    rewrite <- (elements_mv K nn mesh regs fx s nm HN ks V k G Hk).
    unfold mv. rewrite (sumof_ext K (fun j => res_K K mesh s ks mpcs (eqn s k) j * nth (j - 1) V 0)
      (fun j => sumof (kpart s (eqn s k) j) (contribs mesh ks) * nth (j - 1) V 0 + mpc_matrix s mpcs (eqn s k) j * nth (j - 1) V 0)).
    2:{ intros j _. rewrite (res_K_sum K nn mesh regs fx s nm ks mpcs _ _ HN G O DN). ring. }
    rewrite sumof_add. ring.
  Qed.
  Lemma res_F_key nn mesh regs fx s nm ks (mpcs : list (mpc K)) k : prob_num nn (length mesh) regs fx nm s -> length mpcs = nm ->
    In k (reg_keys regs) -> res_F K mesh s ks [] mpcs (eqn s k) = sum_vector s mesh ks (eqn s k).
  Proof.
    intros HN LM Hk. destruct (pn_eq _ _ _ _ _ _ HN k Hk) as (_ & Hr & _). unfold res_F.
    assert (Q : forall l v, (forall x, In x l -> (ns_ndofs s < fst x)%nat) ->
      fold_left (fun (v : K) (x : nat * mpc K) => if Nat.eqb (eqn s k) (fst x) then mp_b (snd x) else v) l v = v).
    { induction l as [|x l IH]; intros v B; [reflexivity|]. cbn [fold_left]. destruct (Nat.eqb_spec (eqn s k) (fst x)) as [X|_].
      - specialize (B x (or_introl eq_refl)). lia.
      - apply IH. intros y Y. apply B. now right. }
    apply Q. intros x Hx. destruct (mpc_list_in K nn mesh regs fx s nm HN mpcs x LM Hx) as [_ He]. lia.
  Qed.
  (* constrained DoFs are the first equations *)
  Lemma con_key nn (mesh : list (list nat)) regs fx s nm i : prob_num nn (length mesh) regs fx nm s -> (i < ns_ncon s)%nat ->
    exists k, In k fx /\ In k (reg_keys regs) /\ eqn s k = S i.
  Proof.
    intros HN Hi. pose proof (pn_sum _ _ _ _ _ _ HN). pose proof (pn_nd _ _ _ _ _ _ HN) as ND.
    destruct (pn_surj _ _ _ _ _ _ HN (S i)) as (k & Hk & E); [lia|].
    exists k. destruct (pn_eq _ _ _ _ _ _ HN k Hk) as (_ & Hr & Hc). split; [apply Hc; lia|auto].
  Qed.
End Rows.

Section Gen.
  Variable K : GNum.
  Variable L : glaws K.
  Notation RK := (GR K L).
  Add Ring KrN : (gl_ring K L).
  Variable E : Type.
  Variable ph : physics K E.
  Variable cfg : nlset K.
  Variable big : K -> bool.
  Variable slv : eqsolver K.
  Hypothesis EX : exact_solver slv.
  Variables (nn : nat) (mesh : list (list nat)) (regs : list reg) (mpcs0 : list (mpc K)) (loads fixes : list (bc K)).
  Hypothesis GN : good_nonlin ph nn mesh regs mpcs0 loads fixes.
  Hypothesis HD : forall e U e' ks mpcs, ph_asm ph e U = Ok (e', (ks, mpcs)) -> distinct_nodes mesh ks.
  Variable s : numst.
  Hypothesis HN : prob_num nn (length mesh) regs (map bc_key fixes) (length mpcs0) s.
  Hypothesis HG : good_mpcs RK regs (length mpcs0) mpcs0.
  Notation total := (ns_ndofs s + length mpcs0)%nat.
  Notation inv := (ninv K L E ph big nn mesh regs mpcs0 loads fixes s).

  Lemma iteration_step st st' c : inv st -> iteration ph cfg big slv loads fixes st = Ok (st', c) ->
    exists e1 ks mps it, ph_asm ph (nl_E st) (nl_U st) = Ok (e1, (ks, mps)) /\ ph_upd ph e1 (nl_U st') = Ok (nl_E st') /\
      nl_log st' = nl_log st ++ [it] /\ it_before it = nl_U st /\ it_after it = nl_U st' /\ it_R it = nl_R st' /\
      it_time it = norm_time (nl_tc st') /\ it_g it = nl_g st' /\ g_num (it_g it) = s /\
      c = criteria cfg (seg (it_d it) (ns_ncon s) (ns_nunk s)) /\ length (it_d it) = total /\
      one_step big mesh regs loads fixes s ks mps it.
  Proof.
    intros (I1 & I2 & I3 & I4) HI. unfold iteration in HI.
    apply obind_ok in HI as ([e1 [ks mpcs]] & EA & HI). cbn beta iota in HI.
    apply obind_ok in HI as ([[[[g d] U] R] Uc] & EI & HI). cbn beta iota in HI.
    apply obind_ok in HI as (e2 & EU & HI). injection HI as <- <-.
    destruct (gn_physics _ _ _ _ _ _ _ GN _ _ _ _ _ EA) as (P1 & P2 & P3).
    pose proof (HD _ _ _ _ _ EA) as DN.
    pose proof (gn_problem _ _ _ _ _ _ _ GN) as P.
    assert (PF : Forall (fun f => In (bc_key f) (reg_keys regs)) fixes).
    { apply Forall_forall. intros f Hf. pose proof (gp_fixes _ _ _ _ _ P) as PF. rewrite Forall_forall in PF. apply PF. now apply in_map. }
    destruct (increment_ok RK big slv EX nn mesh regs s (length mpcs0) fixes HN (gp_nodes _ _ _ _ _ P) PF mpcs0 eq_refl HG
      (nl_g st) ks mpcs (norm_time (next_eq (nl_tc st))) loads (nl_U st) (nl_Uc st) g d U R Uc I1 P1 P2 P3
      (gn_loads _ _ _ _ _ _ _ GN) I2 I3 EI)
      as (Q1 & Q2 & Q3 & Q4 & Q5 & Q6 & Q7 & Q8 & Q9 & Q10 & Q11 & Q12 & Q13 & Q14).
    destruct (same_terms_good RK regs (length mpcs0) mpcs0 HG mpcs P3) as [LM TK].
    pose proof (n_mpc_nm nn mesh regs (map bc_key fixes) s _ HN) as NM. unfold n_mpc in NM.
    pose proof (pn_sum _ _ _ _ _ _ HN) as SUM.
    change (@g_num (gn K) g = s) in Q2.
    exists e1, ks, mpcs, (mkIter (norm_time (next_eq (nl_tc st))) (nl_U st) g d U R).
    cbn [nl_log nl_U nl_R nl_g nl_Uc nl_tc nl_E it_time it_before it_g it_d it_after it_R].
    split; [exact EA|]. split; [exact EU|]. do 6 (split; [reflexivity|]). split; [exact Q2|]. split; [now rewrite Q2|]. split; [exact Q5|].
    assert (ROW : forall k, In k (reg_keys regs) ->
      mv (res_K RK mesh s ks mpcs) total d (eqn s k) = radd (nth (eqn s k - 1) (g_F g) r0) (nth (eqn s k - 1) R r0) ->
      radd (sumof (force_on (vget s d) k) (contribs mesh ks)) (mpc_pull (mults s d) mpcs k) = vget s R k).
    { intros k Hk E1.
      pose proof (force_row RK nn mesh regs (map bc_key fixes) s (length mpcs0) ks mpcs d k HN P1 P2 DN LM TK Hk) as E2.
      assert (GF : nth (eqn s k - 1) (g_F g) r0 = sum_vector s mesh ks (eqn s k)).
      { destruct I1 as (FK & Fv & I5).
        destruct (assemble_inv RK nn mesh regs (map bc_key fixes) s _ HN (gp_nodes _ _ _ _ _ P) mpcs0 HG (nl_g st) _ _ _ ks [] mpcs I5) as (g1 & EG & I6).
        { split; auto. split; auto. split; [discriminate|auto]. }
        { apply (only_CM_nil RK). }
        assert (g1 = g) by (rewrite Q3 in EG; congruence). subst g1.
        destruct (pn_eq _ _ _ _ _ _ HN k Hk) as (_ & Hr & _).
        etransitivity; [|exact (res_F_key RK nn mesh regs (map bc_key fixes) s (length mpcs0) ks mpcs k HN LM Hk)].
        apply (gi_F _ _ _ _ _ _ _ _ _ I6). lia. }
      unfold mults. cbn [rnum GR] in *. rewrite <- E2, E1, GF. unfold vget. ring. }
    assert (NCON : forall k, In k (reg_keys regs) -> last_fix fixes k = None -> ~ (eqn s k <= ns_ncon s)%nat).
    { intros k Hk Hf H. destruct (pn_eq _ _ _ _ _ _ HN k Hk) as (_ & Hr & Hc). apply Hc in H.
      now apply (last_fix_none RK fixes k) in Hf. }
    assert (LD : forall k, In k (reg_keys regs) -> last_fix fixes k = None -> vget s R k = rmul (total_load loads k) (norm_time (next_eq (nl_tc st)))).
    { intros k Hk Hf. specialize (Q13 k Hk). cbn [rnum GR] in Q13. rewrite Hf in Q13. exact Q13. }
    split; cbn [it_time it_before it_g it_d it_after it_R].
    - intros k Hk Hf. rewrite <- (LD k Hk Hf). apply ROW; [exact Hk|]. apply Q9.
      destruct (pn_eq _ _ _ _ _ _ HN k Hk) as (_ & Hr & _). specialize (NCON k Hk Hf). lia.
    - exact LD.
    - intros HB k Hk. apply ROW; [exact Hk|]. destruct (pn_eq _ _ _ _ _ _ HN k Hk) as (_ & Hr & _). apply Q10; [|lia].
      intros v Hv. apply (In_nth _ _ r0) in Hv as (i & Hi & <-). rewrite firstn_length in Hi.
      destruct (con_key nn mesh regs (map bc_key fixes) s (length mpcs0) i HN) as (k0 & K1 & K2 & K3); [lia|].
      specialize (HB k0 K1). unfold vget in HB. rewrite K3 in HB. cbn [Nat.sub] in HB. rewrite Nat.sub_0_r in HB.
      rewrite (nth_firstn_lt RK d (ns_ncon s) i) by lia. exact HB.
    - intros k y Hf. assert (Hk : In k (reg_keys regs)).
      { apply (last_fix_in RK) in Hf. apply in_map_iff in Hf as (f & <- & Hf). rewrite Forall_forall in PF. auto. }
      specialize (Q13 k Hk). cbn [rnum GR] in Q13. rewrite Hf in Q13. exact Q13.
    - intros k Hk. destruct (pn_eq _ _ _ _ _ _ HN k Hk) as (_ & Hr & _). apply Q11. lia.
    - assert (MS : forall e, In e (map snd (ns_mpc s)) -> (ns_ndofs s < e <= total)%nat).
      { rewrite (pn_mpc _ _ _ _ _ _ HN). intros e He. apply in_seq in He. lia. }
      unfold mults. split.
      + apply map_ext_in. intros e He. specialize (MS e He). apply Q12. lia.
      + rewrite !map_length. cbn [rnum GR] in *. congruence.
    - intros m Hm. apply (In_nth _ _ m) in Hm as (i & Hi & <-).
      assert (IN : In (nth i (map snd (ns_mpc s)) 0%nat, nth i mpcs m) (mpc_list s mpcs)).
      { unfold mpc_list. rewrite <- combine_nth by (rewrite map_length; cbn [rnum GR] in *; congruence).
        apply nth_In. rewrite combine_length, map_length. cbn [rnum GR] in *. lia. }
      exact (Q14 _ _ IN).
  Qed.

  (* what every iteration keeps, all iterations keep; the time control is free *)
  Variable J : nlst K E -> Prop.
  Hypothesis HJ : forall st st' c, inv st -> J st -> iteration ph cfg big slv loads fixes st = Ok (st', c) -> J st'.
  Hypothesis HT : forall st tc, J st -> J (mkNl (nl_g st) (nl_U st) (nl_R st) (nl_Uc st) (nl_E st) tc (nl_log st)).
  Lemma iterate_keeps fuel : forall st st', inv st -> J st -> iterate ph cfg big slv fuel loads fixes st = Ok st' -> inv st' /\ J st'.
  Proof.
    induction fuel as [|fuel IH]; intros st st' I HPst H; cbn [iterate] in H; [discriminate|].
    apply obind_ok in H as ([st1 c] & E1 & H). cbn [fst snd] in H.
    destruct (iteration_ok K L E ph cfg big slv EX nn mesh regs mpcs0 loads fixes GN s HN HG st st1 c I E1) as (I' & _).
    pose proof (HJ _ _ _ I HPst E1) as P1.
    destruct c as [c|]; [|discriminate].
    destruct (glt c (nl_crit cfg)); [injection H as <-; auto|].
    destruct (glt (nl_far cfg) c); [discriminate|]. destruct (_ <=? _)%N; [discriminate|]. eauto.
  Qed.
  Lemma loop_keeps fuel delta : forall st st', inv st -> J st -> load_loop ph cfg big slv fuel delta loads fixes st = Ok st' -> inv st' /\ J st'.
  Proof.
    induction fuel as [|fuel IH]; intros st st' I HPst H; cbn [load_loop] in H; destruct (next_step delta (nl_tc st)) as [b tc]; destruct b; try discriminate.
    - injection H as <-. split; [exact I|]. apply HT. exact HPst.
    - apply obind_ok in H as (st1 & E1 & H).
      destruct (iterate_keeps _ (mkNl (nl_g st) (nl_U st) (nl_R st) (nl_Uc st) (nl_E st) tc (nl_log st)) st1 I (HT _ _ HPst) E1) as (I1 & J1). eauto.
    - injection H as <-. split; [exact I|]. apply HT. exact HPst.
  Qed.
End Gen.

Section Start.
  Variable K : GNum.
  Variable L : glaws K.
  Notation RK := (GR K L).
  Variable E : Type.
  Variable ph : physics K E.
  Variable cfg : nlset K.
  Variable big : K -> bool.
  Variable slv : eqsolver K.
  Hypothesis EX : exact_solver slv.
  Variables (nn : nat) (mesh : list (list nat)) (regs : list reg) (mpcs0 : list (mpc K)) (loads fixes : list (bc K)).
  Hypothesis GN : good_nonlin ph nn mesh regs mpcs0 loads fixes.
  Lemma solve_keeps fuel e start end_ st :
    nonlin_solve ph cfg big slv fuel nn mesh regs mpcs0 e start end_ loads fixes = Ok st ->
    exists s, init_sequence (fresh_storage nn (length mesh) (map (fun m => length (mp_terms m)) mpcs0)) regs [] (map bc_key fixes) = Ok s /\
      prob_num nn (length mesh) regs (map bc_key fixes) (length mpcs0) s /\ good_mpcs RK regs (length mpcs0) mpcs0 /\
      forall J : nlst K E -> Prop,
      (forall st tc, J st -> J (mkNl (nl_g st) (nl_U st) (nl_R st) (nl_Uc st) (nl_E st) tc (nl_log st))) ->
      (forall st st' c, ninv K L E ph big nn mesh regs mpcs0 loads fixes s st -> J st -> iteration ph cfg big slv loads fixes st = Ok (st', c) -> J st') ->
      (forall g tc, J (mkNl g (zeros (ns_ndofs s + length mpcs0)) (zeros (ns_ndofs s + length mpcs0)) (zeros (ns_ncon s)) e tc [])) ->
      ninv K L E ph big nn mesh regs mpcs0 loads fixes s st /\ J st.
  Proof.
    intros H. unfold nonlin_solve in H. apply obind_ok in H as (s1 & EI & H). apply obind_ok in H as (g0 & EG & H).
    destruct (whole RK false nn mesh regs (map bc_key fixes) mpcs0 (gn_problem _ _ _ _ _ _ _ GN)
      (gn_capacity _ _ _ _ _ _ _ GN)) as (s & g1 & E1 & HN & HG & I0 & _).
    change (prepare false nn mesh regs (map bc_key fixes) mpcs0 = Ok g1) in E1. unfold prepare in E1. rewrite EI in E1. cbn [obind] in E1.
    assert (g1 = g0) by congruence. subst g1. clear E1.
    pose proof (gi_num _ _ _ _ _ _ _ _ _ I0) as A1. change (@g_num K g0 = s) in A1.
    assert (s1 = s).
    { unfold initSolutionData in EG. apply obind_ok in EG as (es & _ & EG). apply obind_ok in EG as (B0 & _ & EG). apply obind_ok in EG as (B1 & _ & EG).
      apply obind_ok in EG as (B & _ & EG). cbn [obind] in EG. injection EG as <-. exact A1. }
    subst s1. exists s. split; [exact EI|]. split; [exact HN|]. split; [exact HG|]. intros J HT HJ H0.
    pose proof (n_mpc_nm nn mesh regs (map bc_key fixes) s _ HN) as NM.
    pose proof (pn_sum _ _ _ _ _ _ HN) as SUM.
    unfold nonlin_run in H. rewrite A1, NM in H.
    assert (IV : ninv K L E ph big nn mesh regs mpcs0 loads fixes s (mkNl g0 (zeros (ns_ndofs s + length mpcs0)) (zeros (ns_ndofs s + length mpcs0)) (zeros (ns_ncon s)) e (tc_init start end_) [])).
    { split; cbn [nl_g nl_U nl_Uc nl_log].
      - do 2 eexists. exact I0.
      - split; [apply repeat_length|]. split; [|constructor].
        apply nth_ext with (d := @r0 K) (d' := @r0 K).
        + rewrite (seg_length RK); unfold zeros; rewrite ?repeat_length; auto. lia.
        + intros i Hi. unfold zeros in Hi. rewrite repeat_length in Hi. rewrite (nth_seg RK) by auto.
          rewrite !(nth_zeros RK). reflexivity. }
    exact (loop_keeps K L E ph cfg big slv EX nn mesh regs mpcs0 loads fixes GN s HN HG J HJ HT _ _ _ _ IV (H0 _ _) H).
  Qed.
End Start.
