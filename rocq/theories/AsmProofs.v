(* Assembly: registered positions, absence of aborts, values *)
From Coq Require Import Permutation.
From Verif Require Import Base BaseProofs SparseModel SpecSparse SparseFinal BlockModel SpecBlock BlockProofs
  DofModel SpecDof DofProofs NumberingProofs AsmModel SpecAsm AsmLists AsmCalls.

(* the facts about the numbering used here *)
Record prob_num (nn ne : nat) (regs : list reg) (fixes : list key) (nm : nat) (s : numst) : Prop := {
  pn_nodes : ns_nodes s = nn;
  pn_els : ns_els s = ne;
  pn_nd : ns_ndofs s = length (reg_keys regs);
  pn_nc : ns_ncon s = length (fix_keys fixes);
  pn_sum : ns_ncon s + ns_nunk s = ns_ndofs s;
  pn_eq : forall x, In x (reg_keys regs) -> key_eq s x = Ok (eqn s x) /\ 1 <= eqn s x <= ns_ndofs s /\
            (eqn s x <= ns_ncon s <-> In x fixes);
  pn_inj : forall x y, In x (reg_keys regs) -> In y (reg_keys regs) -> eqn s x = eqn s y -> x = y;
  pn_surj : forall e, 1 <= e <= ns_ndofs s -> exists x, In x (reg_keys regs) /\ eqn s x = e;
  pn_ent : forall k n, 1 <= n <= entities nn ne k -> exists ds, getEntityDofs (table s k) n = Ok ds /\
            forall e, In e (eqs ds) <-> exists t, In (k, n, t) (reg_keys regs) /\ eqn s (k, n, t) = e;
  pn_rng : forall k n t, In (k, n, t) (reg_keys regs) -> 1 <= n <= entities nn ne k;
  pn_mpc : map snd (ns_mpc s) = seq (ns_ndofs s + 1) nm }.

Lemma free_lt regs fixes : Forall (fun x => In x (reg_keys regs)) fixes ->
  (exists x, In x (reg_keys regs) /\ ~ In x fixes) -> length (fix_keys fixes) < length (reg_keys regs).
Proof.
  intros K (x & Ix & NF).
  assert (incl (x :: fix_keys fixes) (reg_keys regs)) as IC.
  { intros y [<-|Hy]; auto. unfold fix_keys in Hy. apply nodup_In in Hy.
    rewrite Forall_forall in K. now apply K. }
  apply NoDup_incl_length in IC; [cbn in IC; lia|].
  constructor; [|apply NoDup_nodup]. unfold fix_keys. now rewrite nodup_In.
Qed.

Lemma prob_num_ok nn ne m regs fixes :
  Forall (good_reg nn ne) regs -> Forall (fun x => In x (reg_keys regs)) fixes ->
  (exists x, In x (reg_keys regs) /\ ~ In x fixes) -> Forall (fun k => 0 < k) m ->
  exists s, init_sequence (fresh_storage nn ne m) regs [] fixes = Ok s /\
    prob_num nn ne regs fixes (length m) s.
Proof.
  intros G K FREE M.
  assert (K' : Forall (kregistered regs) fixes).
  { rewrite Forall_forall in *. intros x Hx. apply reg_keys_in. auto. }
  destruct (init_sequence_ok nn ne m regs [] fixes (fresh_storage nn ne m)) as (s & E & N & X & I & MP); auto.
  { cbn. rewrite map_map. apply map_id. }
  { now apply free_lt. }
  { now rewrite app_nil_r. }
  exists s. split; [exact X|].
  destruct (numbering nn ne m regs [] fixes G K FREE) as (s' & X' & ND & NC & NU & EQ & IJ & SJ & MS).
  { now rewrite app_nil_r. }
  rewrite X in X'. injection X' as <-.
  assert (EQN : forall x e, key_eq s x = Ok e -> eqn s x = e) by (intros x e Q; unfold eqn; now rewrite Q).
  assert (RNG : forall k n t, In (k, n, t) (reg_keys regs) -> 1 <= n <= entities nn ne k).
  { intros k n t Hx. apply reg_keys_in in Hx. destruct Hx as (ts & J & _). cbn [fst] in J.
    rewrite Forall_forall in G. apply G in J. apply J. }
  split; auto.
  - apply I. - apply I.
  - pose proof (free_lt regs fixes K FREE). lia.
  - intros x Hx. destruct (EQ x Hx) as (e & Q & R). rewrite (EQN _ _ Q). auto.
  - intros x y Hx Hy Q. destruct (EQ x Hx) as (e & Q1 & _). destruct (EQ y Hy) as (e' & Q2 & _).
    rewrite (EQN _ _ Q1), (EQN _ _ Q2) in Q. subst. eapply IJ; eauto.
  - intros e He. destruct (SJ e He) as (x & Hx & Q). eauto.
  - intros k n Hn. destruct I as [(Re & Rn & Le & Ln) Hnn Hne _ _ _ RG _ _ _].
    assert (R : rep (table s k) (segs_of E N k)) by (destruct k; auto).
    assert (LK : length (segs_of E N k) = entities nn ne k) by (destruct k; cbn; congruence).
    exists (seg (segs_of E N k) n). split; [apply seg_entity; auto; lia|].
    intros e. unfold eqs. rewrite in_map_iff. split.
    + intros (d & <- & Hd). exists (d_type d).
      assert (L : klook E N (k, n, d_type d) = Some d).
      { cbn [klook]. apply find_in; auto. destruct R as (_ & _ & _ & _ & ND').
        apply ND'. apply nth_In. lia. }
      assert (HR : In (k, n, d_type d) (reg_keys regs)).
      { apply reg_keys_in, RG; auto. congruence. }
      split; auto. apply EQN. cbn [key_eq]. eapply dof_eq_look; [split; [exact Re|split; [exact Rn|auto]]| |exact L].
      destruct k; cbn in Hn; lia.
    + intros (t & HR & <-). apply reg_keys_in in HR as HR'. apply (RG k n t Hn) in HR'.
      destruct (klook E N (k, n, t)) as [d|] eqn:L; [|congruence]. exists d. split.
      * symmetry. apply EQN. cbn [key_eq]. eapply dof_eq_look; [split; [exact Re|split; [exact Rn|auto]]| |exact L].
        destruct k; cbn in Hn; lia.
      * cbn [klook] in L. now apply find_some in L.
  - rewrite MS. f_equal. cbn. lia.
Qed.

(* ------------------------------------------------------------------ *)
Section Asm.
  Variable K : Rng.
  Add Ring Kr : (rth K).
  Variables (nn : nat) (mesh : list (list nat)) (regs : list reg) (fixes : list key) (s : numst) (nm : nat).
  Hypothesis HN : prob_num nn (length mesh) regs fixes nm s.
  Hypothesis HM : forall nodes n, In nodes mesh -> In n nodes -> 1 <= n <= nn.

  Definition edofs (k : kind) (n : nat) : list nat :=
    match getEntityDofs (table s k) n with Ok ds => eqs ds | _ => [] end.
  Lemma edofs_in k n e : 1 <= n <= entities nn (length mesh) k ->
    In e (edofs k n) <-> exists t, In (k, n, t) (reg_keys regs) /\ eqn s (k, n, t) = e.
  Proof.
    intros Hn. unfold edofs. destruct (pn_ent _ _ _ _ _ _ HN k n Hn) as (ds & E & H). rewrite E. apply H.
  Qed.
  Lemma getE k n : 1 <= n <= entities nn (length mesh) k ->
    exists ds, getEntityDofs (table s k) n = Ok ds /\ eqs ds = edofs k n.
  Proof.
    intros Hn. unfold edofs. destruct (pn_ent _ _ _ _ _ _ HN k n Hn) as (ds & E & H). rewrite E. eauto.
  Qed.

  Definition nodes_of (en : nat) : list nat := nth (en - 1) mesh [].
  Lemma nodes_ok en n : 1 <= en <= length mesh -> In n (nodes_of en) -> 1 <= n <= nn.
  Proof. intros He Hn. apply (HM (nodes_of en)); auto. apply nth_In. lia. Qed.
  Lemma topology_in n en : In en (topology mesh n) <-> 1 <= en <= length mesh /\ In n (nodes_of en).
  Proof.
    unfold topology. rewrite filter_In, in_seq, existsb_exists. fold (nodes_of en). split.
    - intros [H (x & Hx & Q)]. apply Nat.eqb_eq in Q. subst. split; [lia|auto].
    - intros [H Hx]. split; [lia|]. exists n. split; auto. apply Nat.eqb_refl.
  Qed.

  Definition node_es (n : nat) : list (nat * nat) :=
    flat_map (fun en =>
        list_prod (edofs KEl en) (edofs KNode n) ++
        flat_map (fun n2 => if n2 <? n then [] else list_prod (edofs KNode n2) (edofs KNode n)) (nodes_of en))
      (topology mesh n).
  Definition el_es (en : nat) : list (nat * nat) := list_prod (edofs KEl en) (edofs KEl en).
  Definition mpc_es (x : nat * mpc K) : list (nat * nat) :=
    map (fun t => (fst x, eqn s (term_key t))) (mp_terms (snd x)).
  Definition all_es (mpcs : list (mpc K)) : list (nat * nat) :=
    flat_map node_es (seq 1 nn) ++ flat_map el_es (seq 1 (length mesh)) ++ flat_map mpc_es (mpc_list s mpcs).

  Definition good_mpcs (mpcs : list (mpc K)) : Prop :=
    length mpcs = nm /\ Forall (fun m => mp_terms m <> []) mpcs /\
    forall m t, In m mpcs -> In t (mp_terms m) -> In (term_key t) (reg_keys regs).

  Lemma mpc_list_in (mpcs : list (mpc K)) x : length mpcs = nm -> In x (mpc_list s mpcs) ->
    In (snd x) mpcs /\ ns_ndofs s + 1 <= fst x <= ns_ndofs s + nm.
  Proof.
    intros L Hx. unfold mpc_list in Hx. rewrite (pn_mpc _ _ _ _ _ _ HN) in Hx. destruct x as [e m].
    apply in_combine_l in Hx as H1. apply in_combine_r in Hx. apply in_seq in H1. cbn [fst snd]. split; auto. lia.
  Qed.

  Lemma kd_ok x : In x (reg_keys regs) -> kd_eq s x = Ok (eqn s x).
  Proof. intros Hx. destruct (pn_eq _ _ _ _ _ _ HN x Hx) as (Q & _). exact Q. Qed.

  Lemma entries_ok mpcs : good_mpcs mpcs -> entries s mesh mpcs = Ok (all_es mpcs).
  Proof.
    intros (ML & MT & MK). unfold entries. rewrite (pn_nodes _ _ _ _ _ _ HN), (pn_els _ _ _ _ _ _ HN).
    replace (good_mesh nn mesh) with true.
    2:{ symmetry. unfold good_mesh. rewrite forallb_forall. intros l Hl. rewrite forallb_forall. intros n Hn.
        specialize (HM l n Hl Hn). apply andb_true_intro. split; apply Nat.leb_le; lia. }
    rewrite (oconcat_map _ node_es).
    - cbn [obind]. rewrite (oconcat_map _ el_es).
      + cbn [obind]. rewrite (oconcat_map _ mpc_es).
        * reflexivity.
        * intros x Hx. apply mpc_list_in in Hx as [Hm _]; auto. unfold mpc_entries.
          rewrite Forall_forall in MT. specialize (MT _ Hm).
          replace (0 <? length (mp_terms (snd x))) with true
            by (symmetry; apply Nat.ltb_lt; destruct (mp_terms (snd x)); [congruence|cbn; lia]).
          cbn [asserting]. unfold mpc_es. apply omap_map. intros t Ht. rewrite kd_ok by eauto. reflexivity.
      + intros en He. apply in_seq in He. unfold el_entries.
        destruct (getE KEl en) as (ds & E & Q); [cbn; lia|]. cbn [table] in E. rewrite E. cbn [obind].
        unfold el_es. now rewrite Q.
    - intros n Hn. apply in_seq in Hn. unfold node_entries.
      destruct (getE KNode n) as (ds & E & Q); [cbn; lia|]. cbn [table] in E. rewrite E. cbn [obind].
      unfold node_es. apply oconcat_map. intros en He. apply topology_in in He as [He Hin].
      destruct (getE KEl en) as (de & E' & Q'); [cbn; lia|]. cbn [table] in E'. rewrite E'. cbn [obind].
      rewrite (aget_nth _ _ []) by lia. cbn [obind]. fold (nodes_of en).
      rewrite (oconcat_map _ (fun n2 => if n2 <? n then [] else list_prod (edofs KNode n2) (edofs KNode n))).
      + cbn [obind]. now rewrite Q, Q'.
      + intros n2 H2. destruct (n2 <? n); auto.
        destruct (getE KNode n2) as (d2 & E2 & Q2).
        { cbn. eapply nodes_ok; eauto. }
        cbn [table] in E2. rewrite E2. cbn [obind]. now rewrite Q, Q2.
  Qed.

  (* two DoFs of one element *)
  Definition coupled (x y : key) : Prop :=
    exists en, 1 <= en <= length mesh /\ el_key mesh en x /\ el_key mesh en y.

  Lemma in_node_es i j : In (i, j) (flat_map node_es (seq 1 nn)) <->
    exists en n n2 k, 1 <= en <= length mesh /\ In n (nodes_of en) /\
      (k = KEl /\ n2 = en \/ k = KNode /\ In n2 (nodes_of en) /\ n <= n2) /\
      (exists t, In (k, n2, t) (reg_keys regs) /\ eqn s (k, n2, t) = i) /\
      (exists t, In (KNode, n, t) (reg_keys regs) /\ eqn s (KNode, n, t) = j).
  Proof.
    rewrite in_flat_map. split.
    - intros (n & Hn & H). apply in_seq in Hn. unfold node_es in H. rewrite in_flat_map in H.
      destruct H as (en & He & H). apply topology_in in He as [He Hin]. apply in_app_iff in H as [H|H].
      + apply in_prod_iff in H as [H1 H2]. apply edofs_in in H1; [|cbn; lia]. apply edofs_in in H2; [|cbn; lia].
        exists en, n, en, KEl. repeat (split; [solve [auto]|]). auto.
      + rewrite in_flat_map in H. destruct H as (n2 & Hn2 & H). destruct (Nat.ltb_spec n2 n); [contradiction|].
        apply in_prod_iff in H as [H1 H2]. pose proof (nodes_ok en n2 He Hn2).
        apply edofs_in in H1; [|cbn; lia]. apply edofs_in in H2; [|cbn; lia].
        exists en, n, n2, KNode. repeat (split; [solve [auto]|]). auto.
    - intros (en & n & n2 & k & He & Hn & Hk & H1 & H2). pose proof (nodes_ok en n He Hn).
      exists n. split; [apply in_seq; lia|]. unfold node_es. apply in_flat_map. exists en.
      split; [apply topology_in; auto|]. apply in_app_iff. apply edofs_in in H2; [|cbn; lia].
      destruct Hk as [[-> ->]|(-> & Hn2 & Hle)].
      + left. apply in_prod_iff. split; auto. apply edofs_in; auto; cbn; lia.
      + right. apply in_flat_map. exists n2. split; auto. destruct (Nat.ltb_spec n2 n); [lia|].
        apply in_prod_iff. split; auto. apply edofs_in; auto. cbn. eapply nodes_ok; eauto.
  Qed.
  Lemma in_el_es i j : In (i, j) (flat_map el_es (seq 1 (length mesh))) <->
    exists en, 1 <= en <= length mesh /\ (exists t, In (KEl, en, t) (reg_keys regs) /\ eqn s (KEl, en, t) = i) /\
      (exists t, In (KEl, en, t) (reg_keys regs) /\ eqn s (KEl, en, t) = j).
  Proof.
    rewrite in_flat_map. split.
    - intros (en & He & H). apply in_seq in He. apply in_prod_iff in H as [H1 H2].
      apply edofs_in in H1, H2; [|cbn; lia|cbn; lia]. exists en. split; [lia|auto].
    - intros (en & He & H1 & H2). exists en. split; [apply in_seq; lia|]. apply in_prod_iff.
      split; apply edofs_in; auto; cbn; lia.
  Qed.

  Lemma pattern mpcs i j : length mpcs = nm -> sym_in (all_es mpcs) i j <->
    (exists x y, In x (reg_keys regs) /\ In y (reg_keys regs) /\ coupled x y /\ eqn s x = i /\ eqn s y = j) \/
    (exists x t, In x (mpc_list s mpcs) /\ In t (mp_terms (snd x)) /\
       (i = fst x /\ j = eqn s (term_key t) \/ j = fst x /\ i = eqn s (term_key t))).
  Proof.
    intros ML.
    assert (MP : forall i j, In (i, j) (flat_map mpc_es (mpc_list s mpcs)) <->
      exists x t, In x (mpc_list s mpcs) /\ In t (mp_terms (snd x)) /\ i = fst x /\ j = eqn s (term_key t)).
    { clear i j. intros i j. rewrite in_flat_map. split.
      - intros (x & Hx & H). unfold mpc_es in H. apply in_map_iff in H as (t & [= <- <-] & Ht). eauto 8.
      - intros (x & t & Hx & Ht & -> & ->). exists x. split; auto. unfold mpc_es. apply in_map_iff. eauto. }
    assert (C1 : forall i j, In (i, j) (flat_map node_es (seq 1 nn)) \/ In (i, j) (flat_map el_es (seq 1 (length mesh))) ->
      exists x y, In x (reg_keys regs) /\ In y (reg_keys regs) /\ coupled x y /\ eqn s x = i /\ eqn s y = j).
    { clear i j. intros i j [H|H].
      - apply in_node_es in H as (en & n & n2 & k & He & Hn & Hk & (t1 & R1 & Q1) & (t2 & R2 & Q2)).
        exists (k, n2, t1), (KNode, n, t2). repeat (split; [solve [auto]|]). split; [|auto].
        exists en. split; auto. cbn [el_key]. split; auto. destruct Hk as [[-> ->]|(-> & Hn2 & _)]; auto.
      - apply in_el_es in H as (en & He & (t1 & R1 & Q1) & (t2 & R2 & Q2)).
        exists (KEl, en, t1), (KEl, en, t2). repeat (split; [solve [auto]|]). split; [|auto].
        exists en. cbn [el_key]. auto. }
    unfold sym_in, all_es. rewrite !in_app_iff, !MP. split.
    - intros [[H|[H|H]]|[H|[H|H]]].
      + left. apply C1; auto.
      + left. apply C1; auto.
      + right. destruct H as (x & t & Hx & Ht & Q1 & Q2). exists x, t. auto.
      + left. destruct (C1 j i) as (x & y & R1 & R2 & (en & He & E1 & E2) & Q1 & Q2); auto.
        exists y, x. repeat (split; [solve [auto]|]). split; [|auto]. exists en; auto.
      + left. destruct (C1 j i) as (x & y & R1 & R2 & (en & He & E1 & E2) & Q1 & Q2); auto.
        exists y, x. repeat (split; [solve [auto]|]). split; [|auto]. exists en; auto.
      + right. destruct H as (x & t & Hx & Ht & Q1 & Q2). exists x, t. auto.
    - intros [H|H].
      + destruct H as ([[k1 n1] t1] & [[k2 n2] t2] & R1 & R2 & (en & He & E1 & E2) & Q1 & Q2).
        destruct k1, k2; cbn [el_key] in E1, E2; rewrite ?in_node_es, ?in_el_es.
        * subst n1 n2. left. right. left. exists en. split; auto. split; eauto.
        * subst n1. left. left. exists en, n2, en, KEl. split; [auto|]. split; [auto|]. split; [auto|]. split; eauto.
        * subst n2. right. left. exists en, n1, en, KEl. split; [auto|]. split; [auto|]. split; [auto|]. split; eauto.
        * destruct (Nat.le_gt_cases n2 n1).
          -- left. left. exists en, n2, n1, KNode. split; [auto|]. split; [auto|]. split; [right; auto|]. split; eauto.
          -- right. left. exists en, n1, n2, KNode. split; [auto|]. split; [auto|].
             split; [right; repeat split; auto; lia|]. split; eauto.
      + destruct H as (x & t & Hx & Ht & [[-> ->]|[-> ->]]); [left|right]; right; right; exists x, t; auto.
  Qed.

  Lemma all_es_shape mpcs e : good_mpcs mpcs -> In e (all_es mpcs) ->
    in_shape (ns_ndofs s + nm) (ns_ndofs s + nm) e.
  Proof.
    intros (ML & MT & MK) He. destruct e as [i j].
    assert (HS : sym_in (all_es mpcs) i j) by (left; auto).
    assert (Q : forall x, In x (reg_keys regs) -> 1 <= eqn s x <= ns_ndofs s)
      by (intros x Hx; apply (pn_eq _ _ _ _ _ _ HN x Hx)).
    apply pattern in HS as [(x & y & Hx & Hy & _ & <- & <-)|(x & t & Hx & Ht & H)]; auto.
    - apply Q in Hx, Hy. split; cbn; lia.
    - apply mpc_list_in in Hx as [Hm Hx]; auto. specialize (Q _ (MK _ _ Hm Ht)).
      split; cbn; lia.
  Qed.

  Lemma rows_sum : list_sum [ns_ncon s; ns_nunk s + n_mpc s] = ns_ndofs s + nm.
  Proof.
    pose proof (pn_sum _ _ _ _ _ _ HN). pose proof (pn_mpc _ _ _ _ _ _ HN) as E.
    apply (f_equal (@length nat)) in E. rewrite map_length, seq_length in E.
    unfold list_sum, n_mpc. cbn [fold_right]. lia.
  Qed.
End Asm.
