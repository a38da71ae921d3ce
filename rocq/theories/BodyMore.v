(* Hyperelastic bodies: all elements together; every iteration is a step of Newton's method *)
From Coq Require Import Reals Lra Lia.
Set Warnings "-ambiguous-paths".
From Coquelicot Require Import Coquelicot.
From Verif Require Import Base BaseProofs RealBase MatModel MatProofs SparseModel SpecSparse BlockModel SpecBlock DofModel SpecDof NumberingProofs AsmModel SpecAsm AsmLists AsmCalls AsmProofs AsmRun AsmFinal
  SolveModel SpecSolve SolveProofs LinearProofs GaussModel SpecGauss GaussProofs TimeModel NonlinModel SpecNonlin NonlinProofs NonlinFinal IsoModel SpecIso ElemModel
  ElemBase SpecElem ElemProofs HyperModel SpecHyper HyperProofs HyperElem HyperTangent HyperPlane HyperMore HyperBalance HyperBalance2 HyperFinal SpecBal BalProofs BalMore StructModel SpecStruct StructProofs
  StructFinal StructMore PartProofs SpecLaws LawsProofs SpecNewton NewtonProofs NewtonTotal BodyModel SpecBody BodyProofs.
Local Open Scope R_scope.

(* whatever is stored at the points, buildK hands over a matrix of the right form *)
Record shape (en : nat) (e : body_el) (c : contrib RNum) : Prop := {
  sh_keys : ckeys en (be_nodes e) c = el_x en e;
  sh_types : ctypes c = be_dofs e;
  sh_target : ctarget c = TK;
  sh_sizes : good_sizes (be_nodes e) c }.
Lemma good_shape m pos v en e c : el_good m pos v en e c -> shape en e c.
Proof. intros [A B C D _ _]. now split. Qed.
Lemma build_shape m pos v en e pts c : length (be_nodes e) = be_nn e -> be_build m pos v en e pts = Ok c -> shape en e c.
Proof.
  intros L H. unfold be_build in H. destruct (be_sized pos e pts) eqn:SZ; [|discriminate].
  unfold be_sized in SZ. apply andb_prop in SZ as [S1 S2]. apply Nat.eqb_eq in S1. rewrite forallb_forall in S2.
  destruct (be_kind e) eqn:HK.
  - unfold s81_buildK in H. apply obind_ok in H as (r & ER & H). injection H as <-.
    destruct (s81_fold_ok m (be_p v en) (combine (be_geo pos e) pts) (mkMixed (repeat 0 300) (repeat 0 24) 0 (repeat 0 24) 0)) as (r' & ER' & L1 & L2 & L3 & _); try apply repeat_length.
    { apply Forall_forall. intros [g pt] Hx. cbn [snd]. apply in_combine_r in Hx. apply Nat.eqb_eq. now apply S2. }
    assert (r' = r) by congruence. subst r'.
    assert (N8 : be_nn e = 8%nat) by (unfold be_nn; now rewrite HK).
    split.
    + unfold ckeys, el_x, be_dofs. now rewrite HK.
    + unfold be_dofs. now rewrite HK.
    + reflexivity.
    + unfold good_sizes, cdim. cbn [ctypes length]. rewrite L, N8. change (tri (8 * 3)) with 300%nat. auto.
  - injection H as <-. assert (N8 : be_nn e = 4%nat) by (unfold be_nn; now rewrite HK). set (w := combine (be_geo pos e) pts).
    split.
    + unfold ckeys, el_x, be_dofs. now rewrite HK.
    + unfold be_dofs. now rewrite HK.
    + reflexivity.
    + unfold good_sizes. cbv zeta. split; [congruence|]. split; [reflexivity|]. split.
      { repeat constructor. }
      split; [reflexivity|].
      assert (KE : forall p q, (p < 9)%nat -> (q < 9)%nat -> nth q (nth p (map (fun i => map (p41_Ke m (be_p v en) w i) (seq 0 9)) (seq 0 9)) []) 0 = p41_Ke m (be_p v en) w p q).
      { intros p q Hp Hq. rewrite (nth_indep _ [] (map (p41_Ke m (be_p v en) w 0%nat) (seq 0 9))) by (rewrite map_length, seq_length; lia).
        rewrite (map_nth (fun i => map (p41_Ke m (be_p v en) w i) (seq 0 9))), seq_nth by lia. apply (ElemBase.nth_map_seq (p41_Ke m (be_p v en) w (0 + p)) 9 q). lia. }
      intros p q Hp Hq. etransitivity; [exact (KE p q Hp Hq)|]. etransitivity; [apply p41_Ke_sym|]. symmetry. exact (KE q p Hq Hp).
Qed.

Fixpoint each (P : nat -> body_el -> contrib RNum -> Prop) (en : nat) (els : list body_el) (ps : list part) : Prop :=
  match els, ps with
  | [], [] => True
  | e :: els, p :: ps => fst p = be_nodes e /\ P en e (snd p) /\ each P (S en) els ps
  | _, _ => False
  end.
Lemma each_mesh P : forall els en ps, each P en els ps -> p_mesh ps = map be_nodes els.
Proof.
  induction els as [|e els IH]; intros en [|p ps] H; cbn [each] in H; try contradiction; [reflexivity|].
  destruct H as (A & _ & H). unfold p_mesh. cbn [map]. f_equal; [exact A|]. now apply (IH (S en)).
Qed.
Lemma each_imp (P Q : nat -> body_el -> contrib RNum -> Prop) : (forall en e c, P en e c -> Q en e c) -> forall els en ps, each P en els ps -> each Q en els ps.
Proof.
  intros PQ. induction els as [|e els IH]; intros en [|p ps] H; cbn [each] in *; try contradiction; [exact I|].
  destruct H as (A & B & H). split; [exact A|]. split; [now apply PQ|now apply IH].
Qed.
Lemma each_forms P : forall els en ps x, each P en els ps -> In x (p_forms en ps) ->
  exists i e c, nth_error els i = Some e /\ x = ((en + i)%nat, be_nodes e, c) /\ P (en + i)%nat e c.
Proof.
  induction els as [|e els IH]; intros en [|p ps] x H Hx; cbn [each] in H; try contradiction.
  destruct H as (A & B & H). unfold p_forms in Hx. cbn [length seq combine map] in Hx. destruct Hx as [<-|Hx].
  - exists 0%nat, e, (snd p). split; [reflexivity|]. unfold pform. cbn [fst snd]. rewrite A, Nat.add_0_r. auto.
  - destruct (IH (S en) ps x H Hx) as (i & e' & c & E1 & E2 & E3). exists (S i), e', c. split; [exact E1|].
    replace (en + S i)%nat with (S en + i)%nat by lia. auto.
Qed.
Lemma each_in P : forall els en ps p, each P en els ps -> In p ps -> exists i e, In e els /\ fst p = be_nodes e /\ P i e (snd p).
Proof.
  induction els as [|e els IH]; intros en [|p' ps] p H Hp; cbn [each] in H; try contradiction.
  destruct H as (A & B & H). destruct Hp as [<-|Hp].
  - exists en, e. repeat split; auto. now left.
  - destruct (IH (S en) ps p H Hp) as (i & e' & E1 & E2 & E3). exists i, e'. repeat split; auto. now right.
Qed.

Lemma build_each m pos v : forall els en st ks, Forall (fun e => length (be_nodes e) = be_nn e) els -> body_build m pos v en els st = Ok ks ->
  exists ps, ks = p_ks ps /\ each shape en els ps.
Proof.
  induction els as [|e els IH]; intros en [|pts st] ks F H; cbn [body_build] in H; try discriminate.
  - injection H as <-. exists []. split; [reflexivity|exact I].
  - apply obind_ok in H as (c & E1 & H). apply obind_ok in H as (r & E2 & H). injection H as <-. inversion F; subst.
    destruct (IH (S en) st r H2 E2) as (ps & -> & EP). exists ((be_nodes e, c) :: ps). split; [reflexivity|].
    cbn [each fst snd]. split; [reflexivity|]. split; [|exact EP]. now apply (build_shape m pos v en e pts).
Qed.
Lemma steps_each m pos v : forall els en, Forall (fun e => length (be_nodes e) = be_nn e) els ->
  exists st ps, body_update m pos v en els = Ok st /\ body_build m pos v en els st = Ok (p_ks ps) /\ each (el_good m pos v) en els ps.
Proof.
  induction els as [|e els IH]; intros en F.
  - exists [], []. repeat split.
  - inversion F; subst. destruct (el_steps m pos v en e H1) as (pts & c & E1 & E2 & G). destruct (IH (S en) H2) as (st & ps & E3 & E4 & E5).
    exists (pts :: st), ((be_nodes e, c) :: ps). cbn [body_update body_build each fst snd]. rewrite E1, E2. cbn [obind]. rewrite E3, E4. cbn [obind].
    split; [reflexivity|]. split; [reflexivity|]. auto.
Qed.

(* DoFs of the body *)
Lemma body_keys k : forall els en, In k (reg_keys (body_regs en els)) <-> exists i e, nth_error els i = Some e /\ In k (el_x (en + i) e).
Proof.
  assert (Q : forall en e, In k (flat_map (fun r : reg => let '(kd, n, ts) := r in map (pair (kd, n)) ts) (be_regs en e)) <-> In k (el_x en e)).
  { intros en e. unfold be_regs, el_x. rewrite flat_map_app, !in_app_iff. cbn [flat_map map app]. 
    assert (F : flat_map (fun r : reg => let '(kd, n, ts) := r in map (pair (kd, n)) ts) (map (fun n => (KNode, n, be_dofs e)) (be_nodes e)) = node_keys (be_nodes e) (be_dofs e)).
    { unfold node_keys. induction (be_nodes e) as [|n l IH]; [reflexivity|]. cbn [map flat_map]. now rewrite IH. }
    rewrite <- F. reflexivity. }
  induction els as [|e els IH]; intros en.
  - split; [intros []|intros ([|i] & e & H & _); discriminate].
  - unfold reg_keys in *. cbn [body_regs]. rewrite nodup_In, flat_map_app, in_app_iff, Q. specialize (IH (S en)). rewrite nodup_In in IH. rewrite IH. split.
    + intros [H|(i & e' & H & H')].
      * exists 0%nat, e. rewrite Nat.add_0_r. auto.
      * exists (S i), e'. replace (en + S i)%nat with (S en + i)%nat by lia. auto.
    + intros ([|i] & e' & H & H'); cbn [nth_error] in H.
      * injection H as <-. rewrite Nat.add_0_r in H'. auto.
      * right. exists i, e'. replace (en + S i)%nat with (S en + i)%nat in H' by lia. auto.
Qed.
Lemma body_regs_good nn n0 : forall els en, Forall (be_ok nn) els -> (1 <= en)%nat -> (en + length els <= S n0)%nat -> Forall (good_reg nn n0) (body_regs en els).
Proof.
  induction els as [|e els IH]; intros en F H1 H2; cbn [body_regs]; [constructor|]. cbn [length] in H2. inversion F as [|? ? (A & B & C) F']; subst.
  apply Forall_app. split; [|apply IH; auto; lia]. unfold be_regs. apply Forall_app. split.
  - apply Forall_forall. intros r Hr. apply in_map_iff in Hr as (n & <- & Hn). rewrite Forall_forall in C. cbn [good_reg entities]. split; [now apply C|].
    unfold be_dofs. destruct (be_kind e); repeat constructor.
  - constructor; [|constructor]. cbn [good_reg entities]. split; [lia|]. repeat constructor.
Qed.

(* the problem as the theorems about the solver want it *)
Section Good.
  Variables (m : hyper) (pos : nat -> nat -> R) (nn : nat) (els : list body_el) (mpcs : list (mpc RNum)) (mpf : (key -> R) -> list (mpc RNum)).
  Variables (loads fixes : list (bc RNum)).
  Hypothesis OK : body_ok nn els mpcs mpf loads fixes.
  Notation mesh := (map be_nodes els).
  Lemma els_len : Forall (fun e => length (be_nodes e) = be_nn e) els.
  Proof. eapply Forall_impl; [|exact (bk_els _ _ _ _ _ _ OK)]. intros e (A & _). exact A. Qed.
  Lemma each_contribs P ps : each P 1 els ps -> contribs (K := RNum) mesh (p_ks ps) = p_forms 1 ps.
  Proof. intros H. rewrite <- (each_mesh _ _ _ _ H). apply p_contribs. Qed.
  Lemma each_good ps : each shape 1 els ps -> good_contribs (K := RNum) mesh (body_regs 1 els) (p_ks ps) /\ only_K (K := RNum) (p_ks ps) /\ distinct_nodes (K := RNum) mesh (p_ks ps).
  Proof.
    intros H. pose proof (bk_els _ _ _ _ _ _ OK) as FE. rewrite Forall_forall in FE. split; [|split].
    - split; [rewrite <- (each_mesh _ _ _ _ H); unfold p_ks, p_mesh; rewrite !map_length; reflexivity|].
      intros en nodes c Hx. rewrite (each_contribs _ _ H) in Hx. apply (each_forms _ _ _ _ _ H) in Hx as (i & e & c' & E1 & E2 & E3).
      injection E2 as -> -> ->. split; [apply E3|]. apply Forall_forall. intros k Hk. pose proof (sh_keys _ _ _ E3) as SK. apply body_keys. exists i, e. split; [exact E1|]. rewrite <- SK. exact Hk.
    - apply Forall_forall. intros l Hl. apply Forall_forall. intros c Hc. apply in_map_iff in Hl as (p & <- & Hp). destruct Hc as [<-|[]].
      destruct (each_in _ _ _ _ _ H Hp) as (i & e & A & B & C). apply C.
    - split.
      + apply Forall_forall. intros nodes Hn. apply in_map_iff in Hn as (e & <- & He). apply FE. exact He.
      + apply Forall_forall. intros l Hl. apply Forall_forall. intros c Hc. apply in_map_iff in Hl as (p & <- & Hp). destruct Hc as [<-|[]].
        destruct (each_in _ _ _ _ _ H Hp) as (i & e & A & B & C). rewrite (sh_types _ _ _ C). unfold be_dofs. destruct (be_kind e); repeat constructor; cbn; intuition discriminate.
  Qed.
  Lemma body_good s : good_nonlin (K := RG) (body_physics m pos els mpf s) nn mesh (body_regs 1 els) mpcs loads fixes /\
    (forall e U e' ks mpcs', ph_asm (body_physics m pos els mpf s) e U = Ok (e', (ks, mpcs')) -> distinct_nodes (K := RG) mesh ks).
  Proof.
    assert (B : forall e U e' ks mpcs', ph_asm (body_physics m pos els mpf s) e U = Ok (e', (ks, mpcs')) ->
      exists ps, ks = p_ks ps /\ each shape 1 els ps /\ mpcs' = mpf (fun k => nth (eqn s k - 1) U 0) /\ e' = e).
    { intros e U e' ks mpcs' H. cbn [ph_asm body_physics] in H. apply obind_ok in H as (ks' & E1 & H). injection H as <- <- <-.
      destruct (build_each _ _ _ _ _ _ _ els_len E1) as (ps & -> & EP). exists ps. auto. }
    split.
    - split.
      + split.
        * intros nodes n Hn H. apply in_map_iff in Hn as (e & <- & He). pose proof (bk_els _ _ _ _ _ _ OK) as FE. rewrite Forall_forall in FE.
          destruct (FE e He) as (_ & _ & C). rewrite Forall_forall in C. now apply C.
        * apply body_regs_good; [apply OK|lia|rewrite map_length; lia].
        * apply Forall_forall. intros k Hk. apply in_map_iff in Hk as (f & <- & Hf). pose proof (bk_fixes _ _ _ _ _ _ OK) as FF. rewrite Forall_forall in FF. auto.
        * apply OK.
        * apply OK.
        * intros c t Hc Ht. exact (bk_keys _ _ _ _ _ _ OK c t Hc Ht).
      + exact (bk_capacity _ _ _ _ _ _ OK).
      + intros e U e' ks mpcs' H. destruct (B _ _ _ _ _ H) as (ps & -> & EP & -> & _). destruct (each_good ps EP) as (G1 & G2 & _).
        split; [exact G1|]. split; [exact G2|]. apply (bk_mpf _ _ _ _ _ _ OK).
      + exact (bk_loads _ _ _ _ _ _ OK).
    - intros e U e' ks mpcs' H. destruct (B _ _ _ _ _ H) as (ps & -> & EP & _ & _). apply (each_good ps EP).
  Qed.
End Good.

(* ---- forces of all elements *)
Lemma el_force_rows m pos v en e k : length (be_nodes e) = be_nn e ->
  el_force m pos v en e k = rsumn (length (el_x en e)) (fun p => if key_dec (nth p (el_x en e) dkey) k then el_row m pos v en e p else 0).
Proof.
  intros L. rewrite el_x_length by exact L. rewrite rsumn_app, rsumn_grid. unfold el_force. f_equal.
  - apply rsumn_ext. intros a Ha. apply rsumn_ext. intros i Hi.
    assert (HB : (a * be_dim e + i < be_nn e * be_dim e)%nat) by nia.
    unfold el_x. rewrite app_nth1 by (rewrite be_keys_length by exact L; exact HB). rewrite be_key by assumption.
    destruct (key_dec _ k); [|reflexivity]. unfold el_row. apply Nat.ltb_lt in HB. rewrite HB.
    rewrite Nat.div_add_l, (Nat.div_small i), Nat.add_0_r by lia. rewrite Nat.add_comm, Nat.mod_add, Nat.mod_small by lia. reflexivity.
  - unfold rsumn. cbn [seq]. rewrite rsuml_cons, rsuml_nil, Rplus_0_r, Nat.add_0_r. unfold el_x.
    rewrite app_nth2; rewrite be_keys_length by exact L; [|lia]. rewrite Nat.sub_diag. cbn [nth].
    destruct (key_dec _ k); [|reflexivity]. unfold el_row. rewrite Nat.ltb_irrefl. reflexivity.
Qed.
Lemma el_force_on m pos v en e c d k : length (be_nodes e) = be_nn e -> el_good m pos v en e c ->
  force_on (K := RNum) d k (en, be_nodes e, c) = el_force m pos v en e k + stiff_on (K := RNum) d k (en, be_nodes e, c).
Proof.
  intros L G. rewrite el_force_rows by exact L. unfold force_on, stiff_on, x_keys. rewrite (eg_keys _ _ _ _ _ _ G).
  change (rsumn (length (el_x en e)) (fun p => if key_dec (nth p (el_x en e) dkey) k then elem_force (K := RNum) d (en, be_nodes e, c) p else 0) =
    rsumn (length (el_x en e)) (fun p => if key_dec (nth p (el_x en e) dkey) k then el_row m pos v en e p else 0) +
    rsumn (length (el_x en e)) (fun p => if key_dec (nth p (el_x en e) dkey) k then elem_stiff (K := RNum) d (en, be_nodes e, c) p else 0)).
  rewrite <- rsumn_plus. apply rsumn_ext. intros p Hp. destruct (key_dec _ k); [|ring]. unfold elem_force.
  etransitivity; [apply (f_equal (Rminus _)); apply (eg_vec _ _ _ _ _ _ G); rewrite el_x_length in Hp by exact L; exact Hp|]. ring.
Qed.
Lemma el_force_der m pos v en e c d k : length (be_nodes e) = be_nn e -> el_good m pos v en e c -> known m -> hK m <> 0 ->
  (forall g, In g (be_geo pos e) -> det3 (be_F v e (snd g)) <> 0) ->
  is_derive (fun t => el_force m pos (along v d t) en e k) 0 (stiff_on (K := RNum) d k (en, be_nodes e, c)).
Proof.
  intros L G KN HK D. eapply is_derive_ext; [intros t; symmetry; apply el_force_rows; exact L|].
  unfold stiff_on, x_keys. rewrite (eg_keys _ _ _ _ _ _ G).
  apply (d_sumn (length (el_x en e)) (fun p t => if key_dec (nth p (el_x en e) dkey) k then el_row m pos (along v d t) en e p else 0)
    (fun p => if key_dec (nth p (el_x en e) dkey) k then elem_stiff (K := RNum) d (en, be_nodes e, c) p else 0)).
  intros p Hp. destruct (key_dec _ k); [|apply d_const]. rewrite el_x_length in Hp by exact L. now apply (eg_der _ _ _ _ _ _ G).
Qed.
Lemma body_forces m pos v d k : forall els en ps, Forall (fun e => length (be_nodes e) = be_nn e) els -> each (el_good m pos v) en els ps ->
  @sumof RNum _ (force_on d k) (p_forms en ps) = body_force m pos en els v k + @sumof RNum _ (stiff_on d k) (p_forms en ps) /\
  (known m -> hK m <> 0 -> unflat pos els v ->
   is_derive (fun t => body_force m pos en els (along v d t) k) 0 (@sumof RNum _ (stiff_on d k) (p_forms en ps))).
Proof.
  induction els as [|e els IH]; intros en [|p ps] F H; cbn [each] in H; try contradiction.
  - split; [symmetry; apply Rplus_0_l|]. intros. cbn [body_force]. apply d_const.
  - destruct H as (A & B & H). inversion F; subst. destruct (IH (S en) ps H3 H) as (I1 & I2).
    unfold p_forms. cbn [length seq combine map fst snd]. rewrite !(sumof_cons RRng).
    unfold pform. cbn [fst snd]. rewrite A. cbn [body_force]. split.
    + etransitivity; [apply (f_equal2 Rplus); [exact (el_force_on _ _ _ _ _ _ d k H2 B)|exact I1]|]. 
      change (el_force m pos v en e k + stiff_on (K := RNum) d k (en, be_nodes e, snd p) + (body_force m pos (S en) els v k + @sumof RNum _ (stiff_on d k) (p_forms (S en) ps)) =
        el_force m pos v en e k + body_force m pos (S en) els v k + (stiff_on (K := RNum) d k (en, be_nodes e, snd p) + @sumof RNum _ (stiff_on d k) (p_forms (S en) ps))). ring.
    + intros KN HK UF. apply (d_plus (fun t => el_force m pos (along v d t) en e k)).
      * apply (el_force_der m pos v en e (snd p) d k H2 B KN HK). intros g Hg. apply (UF e g); [now left|exact Hg].
      * apply I2; auto. intros e' g He Hg. apply (UF e' g); [now right|exact Hg].
Qed.

(* ---- the state at the start *)
Lemma S_rest m C k : (forall i, (i < 6)%nat -> C i = mI i) -> (k < 6)%nat -> S_comp m C 0 k = 0.
Proof.
  intros HC Hk. unfold S_comp. cbv zeta. 
  generalize (al (W_first m (IC_C C 0 * pow_m23 (IC_C C 2)) (IC_C C 1 * (pow_m23 (IC_C C 2) * pow_m23 (IC_C C 2))) 0) 0%nat) as a1.
  generalize (al (W_first m (IC_C C 0 * pow_m23 (IC_C C 2)) (IC_C C 1 * (pow_m23 (IC_C C 2) * pow_m23 (IC_C C 2))) 0) 1%nat) as a2. intros a2 a1.
  generalize (pow_m23 (IC_C C 2)) as pp. intros pp.
  assert (J1 : IC_C C 2 = 1).
  { unfold IC_C, J_C. rewrite !HC by lia. cbn [mI]. replace (1 * (1 * 1 - 0 * 0) - 0 * (0 * 1 - 0 * 0) + 0 * (0 * 0 - 1 * 0)) with 1 by ring. apply sqrt_1. }
  rewrite J1. assert (A0 : hA C (invC_C C 1) k = 0 /\ hB C (invC_C C 1) k = 0).
  { unfold hA, hB, IC_C, invC_C. rewrite !HC by lia. case6 Hk; cbn [mI]; split; field. }
  destruct A0 as [-> ->]. ring.
Qed.
Lemma upd_ext m pos v w en e : (forall k, v k = w k) -> be_update m pos v en e = be_update m pos w en e.
Proof.
  intros H. unfold be_update. replace (be_U w e) with (be_U v e) by (rewrite !be_U_map; now apply map_ext). unfold be_p. rewrite H. reflexivity.
Qed.
Lemma be_rest m pos v en e : length (be_nodes e) = be_nn e -> (forall k, v k = 0) -> be_update m pos v en e = Ok (be_fresh pos e).
Proof.
  intros L Z. assert (UZ : forall q, nth q (be_U v e) 0 = 0).
  { intros q. rewrite be_U_map. destruct (lt_dec q (length (node_keys (be_nodes e) (be_dofs e)))) as [Hq|Hq].
    - rewrite (nth_indep _ 0 (v dkey)) by (rewrite map_length; exact Hq). rewrite map_nth. apply Z.
    - apply nth_overflow. rewrite map_length. lia. }
  unfold be_update, be_fresh, be_p. rewrite Z. destruct (be_kind e) eqn:HK.
  - assert (LU : length (be_U v e) = 24%nat) by (rewrite be_U_length by exact L; unfold be_nn, be_dim; rewrite HK; reflexivity).
    rewrite (s81_all_ok m _ _ 0 LU). cbn [obind]. f_equal. rewrite map_map. apply map_ext. intros g. cbn [snd].
    destruct (s81_update_ok m (snd g) (be_U v e) 0 LU) as (pt & E & L1 & L2 & L3 & P1 & P2 & P3).
    unfold s81_pt. rewrite E. destruct pt as [S C O]. cbn [ptS ptC ptO] in *.
    assert (OZ : O = repeat 0 9).
    { apply (nth_ext _ _ 0 0); [now rewrite repeat_length|]. intros i Hi. rewrite L1 in Hi. rewrite nth_repeat. etransitivity; [exact (P1 i Hi)|].
      unfold grad3. unfold rsumn. apply rsuml_zero. intros a _. unfold arr. rewrite UZ. ring. }
    assert (CE : C = [1; 0; 0; 1; 0; 1]) by (rewrite P2, OZ; unfold s81_C, arr; cbn [repeat nth]; repeat f_equal; ring).
    f_equal; auto. rewrite P3, CE. unfold getS_UP, defaultTensorComponents. cbn [map].
    rewrite !S_rest; [reflexivity|..]; try lia; intros i Hi; case6 Hi; reflexivity.
  - f_equal. unfold p41_update_all. rewrite map_map. apply map_ext. intros g. cbn [snd]. unfold p41_update.
    assert (OZ : map (fun k => rsumn 8 (fun c => p41_Bomega (snd g) k c * arr (be_U v e) c)) (seq 0 4) = repeat 0 4).
    { cbn [seq map repeat]. assert (Q : forall k, rsumn 8 (fun c => p41_Bomega (snd g) k c * arr (be_U v e) c) = 0).
      { intros k. unfold rsumn. apply rsuml_zero. intros a _. unfold arr. rewrite UZ. ring. }
      rewrite !Q. reflexivity. }
    rewrite OZ. assert (CE : p41_C (arr (repeat 0 4)) = [1; 1; 0]) by (unfold p41_C, arr; cbn [repeat nth]; repeat f_equal; ring).
    rewrite CE. f_equal. unfold getS_UP, p41_components. cbn [map].
    rewrite !S_rest; [reflexivity|..]; try lia; intros i Hi; case6 Hi; reflexivity.
Qed.
Lemma body_rest m pos v : (forall k, v k = 0) -> forall els en, Forall (fun e => length (be_nodes e) = be_nn e) els ->
  body_update m pos v en els = Ok (map (be_fresh pos) els).
Proof.
  intros Z. induction els as [|e els IH]; intros en F; [reflexivity|]. inversion F; subst. cbn [body_update map].
  rewrite (be_rest m pos v en e H1 Z). cbn [obind]. rewrite (IH (S en) H2). reflexivity.
Qed.

(* ---- the solution *)
Section Run.
  Variables (cfg : nlset RG) (big : R -> bool) (slv : eqsolver RNum).
  Hypothesis EX : exact_solver slv.
  Variables (m : hyper) (pos : nat -> nat -> R) (nn : nat) (els : list body_el) (mpcs : list (mpc RNum)) (mpf : (key -> R) -> list (mpc RNum)).
  Variables (loads fixes : list (bc RNum)).
  Hypothesis OK : body_ok nn els mpcs mpf loads fixes.
  Hypothesis KN : known m.
  Hypothesis HK : hK m <> 0.
  Notation mesh := (map be_nodes els).
  Notation regs := (body_regs 1 els).
  Notation vof s U := (vget (K := RNum) s U).

  Definition Jinv (s : numst) (st : nlst RG (list (list point))) : Prop :=
    body_update m pos (vof s (nl_U st)) 1 els = Ok (nl_E st) /\ Forall (newton_step big m pos els mpf loads fixes) (nl_log st).
  (* assembly at such a state *)
  Lemma J_asm s st : Jinv s st -> exists ps, ph_asm (body_physics m pos els mpf s) (nl_E st) (nl_U st) = Ok (nl_E st, (p_ks ps, mpf (vof s (nl_U st)))) /\
    each (el_good m pos (vof s (nl_U st))) 1 els ps.
  Proof.
    intros (H & _). destruct (steps_each m pos (vof s (nl_U st)) els 1 (els_len _ _ _ _ _ _ OK)) as (st' & ps & E1 & E2 & E3).
    assert (st' = nl_E st) by congruence. subst st'. exists ps. split; [|exact E3]. cbn [ph_asm body_physics].
    change (fun k => nth (eqn s k - 1) (nl_U st) 0) with (vof s (nl_U st)). rewrite E2. reflexivity.
  Qed.
  Lemma upd_total s (E : list (list point)) (U : list R) : exists e2, ph_upd (body_physics m pos els mpf s) E U = Ok e2.
  Proof.
    destruct (steps_each m pos (vof s U) els 1 (els_len _ _ _ _ _ _ OK)) as (st' & ps & E1 & _). exists st'. exact E1.
  Qed.

  Section Num.
    Variable s : numst.
    Hypothesis HN : prob_num nn (length mesh) regs (map bc_key fixes) (length mpcs) s.
    Hypothesis HG : good_mpcs RRng regs (length mpcs) mpcs.
    Notation ph := (body_physics m pos els mpf s).
    Notation inv := (ninv RG RG_laws (list (list point)) ph big nn mesh regs mpcs loads fixes s).
    Lemma J_step st st' c : inv st -> Jinv s st -> iteration (K := RG) ph cfg big slv loads fixes st = Ok (st', c) -> Jinv s st'.
    Proof.
      intros I HJ HI. destruct (body_good m pos nn els mpcs mpf loads fixes OK s) as (GN & HD).
      destruct (iteration_step RG RG_laws _ ph cfg big slv EX nn mesh regs mpcs loads fixes GN HD s HN HG st st' c I HI)
        as (e1 & ks & mps & it & EA & EU & EL & EB & EF & ER & ET & EGg & ES & EC & ELd & OS).
      destruct (J_asm s st HJ) as (ps & EA' & EP). rewrite EA' in EA. injection EA as <- <- <-.
      split; [exact EU|]. rewrite EL. apply Forall_app. split; [apply HJ|]. constructor; [|constructor].
      destruct OS as [O1 O2 O3 O4 O5 O6 O7]. rewrite <- EB in *. 
      assert (FS : forall k, @sumof RNum _ (force_on (vof s (it_d it)) k) (contribs (K := RNum) mesh (p_ks ps)) =
        body_force m pos 1 els (vof s (it_before it)) k + @sumof RNum _ (stiff_on (vof s (it_d it)) k) (p_forms 1 ps)).
      { intros k. rewrite (each_contribs els _ _ EP). apply (body_forces m pos (vof s (it_before it)) (vof s (it_d it)) k els 1 ps (els_len _ _ _ _ _ _ OK) EP). }
      split; rewrite ES; cbv zeta.
      - intros UF. exists (fun k => @sumof RNum _ (stiff_on (vof s (it_d it)) k) (p_forms 1 ps)). split; [|split].
        + intros k. apply (body_forces m pos (vof s (it_before it)) (vof s (it_d it)) k els 1 ps (els_len _ _ _ _ _ _ OK) EP); assumption.
        + intros k Hk Hf. rewrite <- FS. exact (O1 k Hk Hf).
        + intros HB k Hk. rewrite <- FS. exact (O3 HB k Hk).
      - exact O2.
      - exact O4.
      - exact O5.
      - exact (proj1 O6).
      - exact O7.
    Qed.
  End Num.

  Lemma J_start s g tc : Jinv s (mkNl (K := RG) g (zeros (K := RNum) (ns_ndofs s + length mpcs)) (zeros (K := RNum) (ns_ndofs s + length mpcs)) (zeros (K := RNum) (ns_ncon s)) (map (be_fresh pos) els) tc []).
  Proof.
    split; [|constructor]. cbn [nl_U nl_E]. apply body_rest; [|exact (els_len _ _ _ _ _ _ OK)]. intros k. unfold vget. apply (nth_zeros RRng).
  Qed.

  Lemma body_newton fuel start end_ st : body_solve cfg big slv fuel nn m pos els mpcs mpf start end_ loads fixes = Ok st ->
    Forall (newton_step big m pos els mpf loads fixes) (nl_log st) /\
    body_update m pos (vof (g_num (nl_g st)) (nl_U st)) 1 els = Ok (nl_E st) /\
    chain (K := RG) (zeros (K := RNum) (length (nl_U st))) (nl_log st) (nl_U st).
  Proof.
    intros H. unfold body_solve in H. apply obind_ok in H as (s & EI & H).
    destruct (body_good m pos nn els mpcs mpf loads fixes OK s) as (GN & HD).
    destruct (solve_keeps RG RG_laws _ (body_physics m pos els mpf s) cfg big slv EX nn mesh regs mpcs loads fixes GN fuel _ start end_ st H)
      as (s' & EI' & HN & HG & KEEP). rewrite map_length in EI'.
    assert (X : Ok s' = Ok s) by (etransitivity; [symmetry; exact EI'|exact EI]). injection X as ->.
    destruct (KEEP (fun st => Jinv s st /\ chain (K := RG) (zeros (K := RNum) (ns_ndofs s + length mpcs)) (nl_log st) (nl_U st))) as (I & HJ & HC).
    - intros st0 tc (A & B). split; [exact A|exact B].
    - intros st0 st1 c I (HJ & HC) HI. split; [exact (J_step s HN HG st0 st1 c I HJ HI)|].
      destruct (iteration_ok RG RG_laws _ (body_physics m pos els mpf s) cfg big slv EX nn mesh regs mpcs loads fixes GN s HN HG st0 st1 c I HI)
        as (_ & _ & it & EL & _ & EB & EA & _). rewrite EL, <- EA. rewrite <- EB in HC. clear -HC.
      revert HC. generalize (zeros (K := RNum) (ns_ndofs s + length mpcs)). induction (nl_log st0) as [|i l IH]; intros z HC; cbn [chain app] in *.
      + split; [exact HC|reflexivity].
      + split; [apply HC|apply IH, HC].
    - intros g tc. split; [apply J_start|reflexivity].
    - destruct I as (I1 & I2 & _). destruct HJ as (J1 & J2).
      assert (GS : g_num (nl_g st) = s) by (destruct I1 as (FK & Fv & I1); exact (gi_num _ _ _ _ _ _ _ _ _ I1)).
      split; [exact J2|]. split; [rewrite GS; exact J1|]. rewrite I2. exact HC.
  Qed.

  Lemma body_noub : (forall mt b n A, si_nrows (sm_si mt) = n -> (forall i j, in_shape n n (i, j) -> sym_value (K := RNum) mt i j = Ok (A i j)) -> length b = n -> slv mt b <> UB) ->
    forall fuel start end_, body_solve cfg big slv fuel nn m pos els mpcs mpf start end_ loads fixes <> UB.
  Proof.
    intros NU fuel start end_. unfold body_solve.
    destruct (init_sequence _ _ _ _) as [s| | |] eqn:EI; cbn [obind]; try discriminate.
    2:{ exfalso. destruct (body_good m pos nn els mpcs mpf loads fixes OK (fresh_storage nn 0 [])) as (GN & HD).
        destruct (solve_starts RG RG_laws _ (body_physics m pos els mpf (fresh_storage nn 0 [])) cfg big slv nn mesh regs mpcs loads fixes GN) as (s & g0 & E1 & _).
        rewrite map_length in E1.
        assert (X : Ok s = UB) by (etransitivity; [symmetry; exact E1|exact EI]). discriminate. }
    destruct (body_good m pos nn els mpcs mpf loads fixes OK s) as (GN & HD).
    destruct (solve_starts RG RG_laws _ (body_physics m pos els mpf s) cfg big slv nn mesh regs mpcs loads fixes GN) as (s' & g0 & E1 & HN & HG & UNF & I0).
    rewrite map_length in E1.
    assert (X : Ok s' = Ok s) by (etransitivity; [symmetry; exact E1|exact EI]). injection X as ->. rewrite UNF.
    apply (loop_noub RG RG_laws _ (body_physics m pos els mpf s) cfg big slv EX nn mesh regs mpcs loads fixes GN s HN HG (Jinv s)).
    - intros st st' c I HJ HI. exact (J_step s HN HG st st' c I HJ HI).
    - intros st tc HJ. exact HJ.
    - intros st I HJ. destruct (J_asm s st HJ) as (ps & EA & _). do 3 eexists. split; [exact EA|]. intros U. apply upd_total.
    - exact NU.
    - apply I0.
    - apply J_start.
  Qed.
End Run.
