(* The nonlinear solution: one iteration *)
From Verif Require Import Base BaseProofs SparseModel SpecSparse SparseMatProofs SparseFinal BlockModel SpecBlock BlockProofs
  DofModel SpecDof DofProofs NumberingProofs AsmModel SpecAsm AsmLists AsmCalls AsmProofs AsmRun AsmFinal SolveModel SpecSolve
  SolveProofs LinearProofs GaussModel TimeModel NonlinModel.

Section Inc.
  Variable K : Rng.
  Add Ring Kr : (rth K).
  Local Open Scope rng_scope.
  Implicit Types (ks : list (list (contrib K))) (mpcs : list (mpc K)) (loads fixes : list (bc K)).
  Variable big : K -> bool.
  Variable slv : eqsolver K.
  Hypothesis EX : exact_solver slv.
  Variables (nn : nat) (mesh : list (list nat)) (regs : list reg) (s : numst) (nm : nat) (fixes : list (bc K)).
  Hypothesis HN : prob_num nn (length mesh) regs (map bc_key fixes) nm s.
  Hypothesis PN : forall nodes n, In nodes mesh -> In n nodes -> (1 <= n <= nn)%nat.
  Hypothesis PF : Forall (fun f => In (bc_key f) (reg_keys regs)) fixes.
  Variable mpcs0 : list (mpc K).
  Hypothesis LM : length mpcs0 = nm.
  Hypothesis HG : good_mpcs K regs nm mpcs0.
  Notation total := (ns_ndofs s + nm)%nat.
  Notation es := (all_es K nn mesh s mpcs0).

  (* unknown rows do not depend on the dropped entries *)
  Lemma core_unknown g FK cm Fv Uc R x Rc : ginv K mesh s nm es g FK cm Fv -> (forall a b, FK a b = FK b a) ->
    length Uc = ns_ncon s -> length R = total -> solve_core big slv g Uc R = Ok (x, Rc) ->
    length x = (ns_nunk s + nm)%nat /\ length Rc = ns_ncon s /\
    forall a, (ns_ncon s < a <= total)%nat -> mv FK total (Uc ++ x) a = Fv a + nth (a - 1) R 0.
  Proof.
    intros G HF LU LR HC. pose proof (pn_sum _ _ _ _ _ _ HN) as SUM.
    destruct (core_ok K nn mesh regs _ s nm HN es big slv g FK cm Fv Uc R G HF LU LR) as (K22 & rhs & E1 & D & V & L & VR & CORE).
    destruct (slv K22 rhs) as [x'| | |] eqn:ES; try congruence.
    destruct (EX _ _ _ _ _ D V L ES) as [Lx HX].
    destruct (CORE Lx) as (Rc' & E2 & LRc & VRc). rewrite E2 in HC. injection HC as -> ->.
    split; auto. split; auto. intros a Ha.
    replace total with (ns_ncon s + (ns_nunk s + nm))%nat in * by lia.
    rewrite mv_split by auto.
    specialize (HX (a - ns_ncon s - 1)%nat). rewrite VR in HX by lia.
    replace (ns_ncon s + (a - ns_ncon s - 1) + 1)%nat with a in HX by lia.
    replace (ns_ncon s + (a - ns_ncon s - 1))%nat with (a - 1)%nat in HX by lia.
    replace (ns_ncon s + S (a - ns_ncon s - 1))%nat with a in HX by lia.
    assert (EM : sumof (fun j => FK a (ns_ncon s + j)%nat * nth (j - 1) x 0) (seq 1 (ns_nunk s + nm)) =
      Fv a + nth (a - 1) R 0 - sumof (fun k => FK k a * nth (k - 1) Uc 0) (seq 1 (ns_ncon s))).
    { rewrite <- HX by lia. unfold mv. apply sumof_ext. intros j _. do 2 f_equal. lia. }
    rewrite EM. unfold mv.
    rewrite (sumof_ext K (fun k => FK k a * nth (k - 1) Uc 0) (fun k => FK a k * nth (k - 1) Uc 0))
      by (intros k _; now rewrite HF). ring.
  Qed.

  Lemma same_terms_good mpcs : Forall2 same_terms mpcs0 mpcs -> length mpcs = nm /\
    forall m t, In m mpcs -> In t (mp_terms m) -> In (term_key t) (reg_keys regs).
  Proof.
    intros F. destruct HG as (H1 & _ & H2). rewrite <- H1. clear -F H2. induction F as [|m m' l l' Hm F IH].
    - split; [reflexivity|]. intros ? ? H. destruct H.
    - destruct IH as [I1 I2]; [intros; eapply H2; eauto; now right|]. split; [cbn [length]; congruence|].
      intros m1 t [<-|Hm1] Ht; [|eauto].
      assert (Hk : In (term_key t) (map term_key (mp_terms m'))) by now apply in_map.
      rewrite <- Hm in Hk. apply in_map_iff in Hk as (t0 & <- & Ht0). apply (H2 m t0); auto. now left.
  Qed.

  Lemma last_fix_in y v : last_fix fixes y = Some v -> In y (map bc_key fixes).
  Proof.
    unfold last_fix.
    assert (LF : forall fs o, fold_left (fun o f => if key_dec (bc_key f) y then Some (bc_val f) else o) fs o = Some v ->
      o = Some v \/ In y (map bc_key fs)).
    { induction fs as [|f fs IH]; intros o H; cbn [fold_left map] in *; auto.
      apply IH in H as [H|H]; [|right; now right]. destruct (key_dec (bc_key f) y) as [Ey|_]; auto. right. now left. }
    intros H. apply LF in H as [H|H]; [discriminate|auto].
  Qed.
  Lemma last_fix_none y : last_fix fixes y = None -> ~ In y (map bc_key fixes).
  Proof.
    unfold last_fix.
    assert (LF : forall fs o, (o <> None \/ In y (map bc_key fs)) ->
       fold_left (fun o f => if key_dec (bc_key f) y then Some (bc_val f) else o) fs o <> (None : option K)).
    { induction fs as [|f fs IH]; intros o H; cbn [fold_left map] in *; [destruct H as [H|[]]; auto|].
      apply IH. destruct (key_dec (bc_key f) y) as [Ey|Ey]; [left; discriminate|].
      destruct H as [H|[H|H]]; [left; auto|congruence|right; auto]. }
    intros H Hin. apply (LF fixes None) in H; auto.
  Qed.
  Lemma resF_mpc ks mpcs e m : In (e, m) (mpc_list s mpcs) -> res_F K mesh s ks [] mpcs e = mp_b m.
  Proof.
    intros Hem. unfold res_F. pose proof (mpc_nodup K nn mesh regs (map bc_key fixes) s _ HN mpcs) as NDm.
    generalize (sum_vector s mesh ks e). revert Hem NDm. clear. generalize (mpc_list s mpcs). intros l.
    induction l as [|y l IH]; intros Hin ND v; [contradiction|]. cbn [map] in ND. inversion ND as [|? ? N1 N2]; subst.
    cbn [fold_left]. destruct Hin as [->|Hin]; [|now apply IH]. cbn [fst snd]. rewrite Nat.eqb_refl.
    cbn [fst] in N1. clear -N1. revert N1. generalize (mp_b m). induction l as [|y l IH]; intros v N1; cbn [fold_left]; auto.
    cbn [map] in N1. destruct (Nat.eqb_spec e (fst y)) as [E|_]; [exfalso; apply N1; now left|].
    apply IH. intros H. apply N1. now right.
  Qed.

  Definition some_inv (g : gst K) : Prop := exists FK Fv, ginv K mesh s nm es g FK None Fv.

  Lemma increment_ok g0 ks mpcs t loads U Ucp g d U' R Uc : some_inv g0 ->
    good_contribs mesh regs ks -> only_K ks -> Forall2 same_terms mpcs0 mpcs ->
    Forall (fun l => In (bc_key l) (reg_keys regs)) loads ->
    length U = total -> Ucp = seg U 0 (ns_ncon s) ->
    increment big slv g0 ks mpcs t loads fixes U Ucp = Ok (g, d, U', R, Uc) ->
    some_inv g /\ g_num g = s /\ assembleGlobal g0 ks [] mpcs = Ok g /\
    length U' = total /\ length d = total /\ length R = total /\ Uc = seg U' 0 (ns_ncon s) /\
    (forall a b, (1 <= a <= total)%nat -> (1 <= b <= total)%nat -> gvalue (g_K g) a b = Ok (res_K K mesh s ks mpcs a b)) /\
    (forall a, (ns_ncon s < a <= total)%nat ->
       mv (res_K K mesh s ks mpcs) total d a = nth (a - 1) (g_F g) 0 + nth (a - 1) R 0) /\
    ((forall v, In v (firstn (ns_ncon s) d) -> big v = false -> v = 0) -> forall a, (1 <= a <= total)%nat ->
       mv (res_K K mesh s ks mpcs) total d a = nth (a - 1) (g_F g) 0 + nth (a - 1) R 0) /\
    (forall i, (i < ns_ndofs s)%nat -> nth i U' 0 = nth i U 0 + nth i d 0) /\
    (forall i, (ns_ndofs s <= i < total)%nat -> nth i U' 0 = nth i d 0) /\
    (forall x, In x (reg_keys regs) ->
      match last_fix fixes x with
      | Some v => vget s U' x = v * t
      | None => vget s R x = total_load loads x * t
      end) /\
    (forall e m, In (e, m) (mpc_list s mpcs) ->
      sumof (fun t => snd t * vget s d (term_key t)) (mp_terms m) = mp_b m).
  Proof.
    intros (FK & Fv & G0) GC OK ST HL LU EU HI. unfold increment in HI.
    rewrite (gi_num _ _ _ _ _ _ _ _ _ G0) in HI.
    pose proof (n_mpc_nm nn mesh regs (map bc_key fixes) s _ HN) as NM.
    pose proof (pn_sum _ _ _ _ _ _ HN) as SUM. pose proof (pn_nd _ _ _ _ _ _ HN) as ND.
    destruct (assemble_inv K nn mesh regs (map bc_key fixes) s _ HN PN mpcs0 HG g0 _ _ _ ks [] mpcs G0)
      as (g1 & EG & I1).
    { split; auto. split; auto. split; [discriminate|auto]. }
    { apply only_CM_nil. }
    rewrite EG in HI. cbn [obind] in HI. pose proof I1 as [A1 A2 A3 A4 A5 A6 A7]. rewrite A1, NM in HI.
    destruct (applyBC_ok K nn mesh regs (map bc_key fixes) s _ HN t loads fixes U (zeros total) HL)
      as (Ub & Rb & EB & LUb & LRb & VR & VU); auto.
    { apply Forall_forall. intros f Hf. split; [now apply in_map|]. rewrite Forall_forall in PF. auto. }
    { apply zeros_length. }
    rewrite EB in HI. cbn [obind fst snd] in HI.
    assert (LUc : length (seg Ub 0 (ns_ncon s)) = ns_ncon s) by (apply seg_length; lia).
    assert (LUp : length Ucp = ns_ncon s) by (subst Ucp; apply seg_length; lia).
    destruct (vzip_ok K rsub (seg Ub 0 (ns_ncon s)) Ucp) as (dUc & EV & LD & VD); [congruence|].
    rewrite EV in HI. cbn [obind] in HI. rewrite LUc in LD, VD.
    apply obind_ok in HI as ([x Rc] & EC & HI). cbn [fst snd] in HI.
    destruct (core_unknown g1 _ _ _ _ _ _ _ I1 (fun a b => res_K_sym K mesh regs s ks mpcs a b GC) LD LRb EC) as (Lx & LRc & UNK).
    assert (SYS : (forall v, In v dUc -> big v = false -> v = 0) -> forall a, (1 <= a <= total)%nat ->
      mv (res_K K mesh s ks mpcs) total (dUc ++ x) a = res_F K mesh s ks [] mpcs a + if (a <=? ns_ncon s)%nat then nth (a - 1) Rc 0 else nth (a - 1) Rb 0).
    { intros HB. apply (core_solves K nn mesh regs (map bc_key fixes) s _ HN es big slv EX g1 _ _ _ _ _ _ _ I1
        (fun a b => res_K_sym K mesh regs s ks mpcs a b GC) LD LRb HB EC). }
    assert (LS1 : length (seg Ub (ns_ncon s) (ns_nunk s)) = ns_nunk s) by (apply seg_length; lia).
    assert (LS2 : length (seg x 0 (ns_nunk s)) = ns_nunk s) by (apply seg_length; lia).
    assert (LS3 : length (seg x (ns_nunk s) nm) = nm) by (apply seg_length; lia).
    destruct (vzip_ok K radd (seg Ub (ns_ncon s) (ns_nunk s)) (seg x 0 (ns_nunk s))) as (Us & ES & LSs & VS); [congruence|].
    rewrite ES in HI. cbn [obind] in HI. rewrite LS1 in LSs, VS.
    assert (HI' : (g1, dUc ++ x, put_seg (put_seg Ub (ns_ncon s) Us) (ns_ncon s + ns_nunk s) (seg x (ns_nunk s) nm),
        put_seg Rb 0 Rc, seg Ub 0 (ns_ncon s)) = (g, d, U', R, Uc)) by (injection HI; congruence).
    clear HI. injection HI' as <- <- <- <- <-.
    assert (LP : length (put_seg Ub (ns_ncon s) Us) = total) by (rewrite put_seg_length; lia).
    set (U' := put_seg (put_seg Ub (ns_ncon s) Us) (ns_ncon s + ns_nunk s) (seg x (ns_nunk s) nm)) in *.
    assert (VU' : forall i, (i < total)%nat -> nth i U' 0 =
      if (i <? ns_ncon s)%nat then nth i Ub 0 else if (i <? ns_ndofs s)%nat then nth i Ub 0 + nth (i - ns_ncon s) x 0
      else nth (i - ns_ncon s) x 0).
    { intros i Hi. unfold U'. rewrite nth_put_seg by lia. rewrite LS3, nth_put_seg by lia. rewrite LSs.
      destruct (Nat.ltb_spec i (ns_ncon s)).
      - replace (ns_ncon s + ns_nunk s <=? i)%nat with false by (symmetry; apply Nat.leb_gt; lia).
        replace (ns_ncon s <=? i)%nat with false by (symmetry; apply Nat.leb_gt; lia). reflexivity.
      - destruct (Nat.ltb_spec i (ns_ndofs s)).
        + replace (ns_ncon s + ns_nunk s <=? i)%nat with false by (symmetry; apply Nat.leb_gt; lia).
          replace (ns_ncon s <=? i)%nat with true by (symmetry; apply Nat.leb_le; lia).
          replace (i <? ns_ncon s + ns_nunk s)%nat with true by (symmetry; apply Nat.ltb_lt; lia). cbn [andb].
          rewrite VS by lia. rewrite !nth_seg by lia. f_equal; f_equal; lia.
        + replace (ns_ncon s + ns_nunk s <=? i)%nat with true by (symmetry; apply Nat.leb_le; lia).
          replace (i <? ns_ncon s + ns_nunk s + nm)%nat with true by (symmetry; apply Nat.ltb_lt; lia). cbn [andb].
          rewrite nth_seg by lia. f_equal; lia. }
    assert (VRn : forall a, (1 <= a <= total)%nat ->
      nth (a - 1) (put_seg Rb 0 Rc) 0 = if (a <=? ns_ncon s)%nat then nth (a - 1) Rc 0 else nth (a - 1) Rb 0).
    { intros a Ha. rewrite nth_put_seg by lia. cbn [Nat.leb Nat.add andb]. rewrite LRc, Nat.sub_0_r.
      destruct (Nat.ltb_spec (a - 1) (ns_ncon s)), (Nat.leb_spec a (ns_ncon s)); auto; lia. }
    assert (VDx : forall i, (i < total)%nat -> nth i (dUc ++ x) 0 =
      if (i <? ns_ncon s)%nat then nth i Ub 0 - nth i U 0 else nth (i - ns_ncon s) x 0).
    { intros i Hi. destruct (Nat.ltb_spec i (ns_ncon s)).
      - rewrite app_nth1 by lia. rewrite VD by lia. rewrite nth_seg by lia. subst Ucp. rewrite nth_seg by lia. reflexivity.
      - rewrite app_nth2 by lia. now rewrite LD. }
    assert (REG : forall f, In f fixes -> In (bc_key f) (reg_keys regs)) by (now apply Forall_forall).
    (* free DoFs are not touched by the boundary conditions *)
    assert (VFREE : forall i, (ns_ncon s <= i < total)%nat -> nth i Ub 0 = nth i U 0).
    { intros i Hi. specialize (VU (i + 1)%nat). replace (i + 1 - 1)%nat with i in VU by lia. rewrite VU by lia.
      apply fix_at_other. intros f Hf. destruct (pn_eq _ _ _ _ _ _ HN _ (REG f Hf)) as (_ & Hr & Hc).
      assert (eqn s (bc_key f) <= ns_ncon s)%nat by (apply Hc, in_map, Hf). lia. }
    assert (EUc : seg Ub 0 (ns_ncon s) = seg U' 0 (ns_ncon s)).
    { apply nth_ext with (d := 0) (d' := 0).
      - rewrite LUc. symmetry. apply seg_length. unfold U'. rewrite put_seg_length; lia.
      - intros i Hi. rewrite LUc in Hi. rewrite !nth_seg by auto. rewrite VU' by lia.
        replace (0 + i <? ns_ncon s)%nat with true by (symmetry; apply Nat.ltb_lt; lia). reflexivity. }
    split; [exists (res_K K mesh s ks mpcs), (res_F K mesh s ks [] mpcs); exact I1|].
    split; [auto|]. split; [auto|]. split; [unfold U'; rewrite put_seg_length; lia|].
    split; [rewrite app_length; lia|]. split; [rewrite put_seg_length; lia|]. split; [exact EUc|].
    split.
    { intros a b Ha Hb. pose proof (rows_sum nn mesh regs (map bc_key fixes) s _ HN) as RS.
      apply (gvalue_ok K s es 0 (g_K g1) _ a b A3); [|lia|lia]. intros; apply (res_K_sym K mesh regs); auto. }
    split.
    { intros a Ha. rewrite A7, VRn by lia. replace (a <=? ns_ncon s)%nat with false by (symmetry; apply Nat.leb_gt; lia).
      apply UNK. lia. }
    split.
    { intros HB a Ha. rewrite A7, VRn by lia. apply SYS; auto. intros v Hv. apply HB.
      rewrite firstn_app, LD, Nat.sub_diag. apply in_or_app. left. rewrite firstn_all2 by lia. auto. }
    split.
    { intros i Hi. rewrite VU', VDx by lia. destruct (Nat.ltb_spec i (ns_ncon s)); [ring|].
      replace (i <? ns_ndofs s)%nat with true by (symmetry; apply Nat.ltb_lt; lia). rewrite VFREE by lia. reflexivity. }
    split.
    { intros i Hi. rewrite VU', VDx by lia. replace (i <? ns_ncon s)%nat with false by (symmetry; apply Nat.ltb_ge; lia).
      replace (i <? ns_ndofs s)%nat with false by (symmetry; apply Nat.ltb_ge; lia). reflexivity. }
    assert (RMPC : forall a, (ns_ndofs s < a <= total)%nat -> nth (a - 1) Rb 0 = 0).
    { intros a Ha. rewrite VR, nth_zeros by lia. unfold load_at. rewrite sumof_zero; [ring|]. intros l Hl. rewrite Forall_forall in HL.
      destruct (pn_eq _ _ _ _ _ _ HN _ (HL l Hl)) as (_ & Hr & _).
      destruct (Nat.eqb_spec (eqn s (bc_key l)) a); [lia|reflexivity]. }
    split.
    { intros y Hy. destruct (pn_eq _ _ _ _ _ _ HN y Hy) as (_ & Hr & Hc). unfold vget.
      destruct (last_fix fixes y) as [v|] eqn:Ey.
      - assert (eqn s y <= ns_ncon s)%nat by (apply Hc; eapply last_fix_in; eauto).
        rewrite VU' by lia. replace (eqn s y - 1 <? ns_ncon s)%nat with true by (symmetry; apply Nat.ltb_lt; lia).
        rewrite VU by lia. rewrite (fix_at_key K nn mesh regs (map bc_key fixes) s _ HN) by auto. now rewrite Ey.
      - assert (~ (eqn s y <= ns_ncon s)%nat) by (intros H; apply (last_fix_none y Ey); now apply Hc).
        rewrite VRn by lia. replace (eqn s y <=? ns_ncon s)%nat with false by (symmetry; apply Nat.leb_gt; lia).
        rewrite VR, nth_zeros by lia. rewrite (load_at_key K nn mesh regs (map bc_key fixes) s _ HN) by auto. ring. }
    intros e m Hem. destruct (same_terms_good mpcs ST) as [LMm TK'].
    destruct (mpc_list_in K nn mesh regs (map bc_key fixes) s _ HN mpcs (e, m) LMm Hem) as [Hm He].
    cbn [fst snd] in *. specialize (UNK e). rewrite RMPC in UNK by lia. rewrite (resF_mpc ks mpcs e m Hem) in UNK.
    assert (ME : mv (res_K K mesh s ks mpcs) total (dUc ++ x) e = mv (mpc_matrix s mpcs) total (dUc ++ x) e).
    { apply mv_ext; auto. intros j _. unfold res_K.
      rewrite (kpart_high K nn mesh regs (map bc_key fixes) s _ HN) by (auto; lia). ring. }
    rewrite ME in UNK.
    pose proof (mpc_row K nn mesh regs (map bc_key fixes) s _ HN mpcs (e, m) (dUc ++ x) LMm Hem TK') as MR.
    cbn [fst snd] in MR. rewrite <- MR, UNK by lia. ring.
  Qed.
End Inc.
