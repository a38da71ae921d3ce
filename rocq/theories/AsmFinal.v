(* Results for whole assemblies *)
From Coq Require Import Permutation.
From Verif Require Import Base BaseProofs SparseModel SpecSparse SparseMatProofs SparseFinal BlockModel SpecBlock BlockProofs
  DofModel SpecDof DofProofs NumberingProofs AsmModel SpecAsm AsmLists AsmCalls AsmProofs AsmRun.

Lemma same_pair_sym i j a b : same_pair i j a b = same_pair i j b a.
Proof. unfold same_pair. apply orb_comm || (rewrite orb_comm; f_equal; apply andb_comm). Qed.

Section Final.
  Variable K : Rng.
  Add Ring Kr : (rth K).
  Local Open Scope rng_scope.
  Variables (nn : nat) (mesh : list (list nat)) (regs : list reg) (fixes : list key) (s : numst) (nm : nat).
  Hypothesis HN : prob_num nn (length mesh) regs fixes nm s.
  Hypothesis HM : forall nodes n, In nodes mesh -> In n nodes -> (1 <= n <= nn)%nat.
  Implicit Types (ks cs : list (list (contrib K))) (mpcs : list (mpc K)) (g : gst K).
  Variable mpcs0 : list (mpc K).
  Hypothesis HG : good_mpcs K regs nm mpcs0.
  Notation rows := [ns_ncon s; (ns_nunk s + n_mpc s)%nat].
  Notation total := (ns_ndofs s + nm)%nat.
  Notation es := (all_es K nn mesh s mpcs0).
  Notation inv := (ginv K mesh s nm es).

  Lemma es_shape e : In e es -> in_shape (list_sum rows) (list_sum rows) e.
  Proof. intros He. rewrite (rows_sum nn mesh regs fixes s nm HN). eapply all_es_shape; eauto. Qed.
  Lemma es_coupled x y : In x (reg_keys regs) -> In y (reg_keys regs) -> coupled mesh x y ->
    sym_in es (eqn s x) (eqn s y).
  Proof.
    intros Hx Hy Hc. apply (pattern K nn mesh regs fixes s nm HN HM mpcs0); [apply HG|].
    left. exists x, y. auto 6.
  Qed.

  Lemma callM_sym t a b c : callM K s t a b c = callM K s t b a c.
  Proof. destruct c; cbn [callM]; auto. now rewrite same_pair_sym. Qed.
  Lemma eff_sym t a b en c : good_sizes (nodes_of mesh en) c ->
    eff K s t a b (en, nodes_of mesh en, c) = eff K s t b a (en, nodes_of mesh en, c).
  Proof.
    intros G. destruct (contrib_ok K s en (nodes_of mesh en) c G) as (cs & _ & [_ S _]).
    unfold eff. cbn [snd kpart dpart]. rewrite <- !S. apply sumof_ext. intros x _. apply callM_sym.
  Qed.

  Definition goodst (tr : bool) (ks cs : list (list (contrib K))) (mpcs : list (mpc K)) : Prop :=
    good_contribs mesh regs ks /\ only_K ks /\
    (tr = true -> good_contribs mesh regs cs) /\ Forall2 same_terms mpcs0 mpcs.

  Lemma in_contribs en nodes c ks : In (en, nodes, c) (contribs mesh ks) <->
    exists l, In (en, l) (combine (seq 1 (length mesh)) ks) /\ nodes = nodes_of mesh en /\ In c l.
  Proof.
    unfold contribs. rewrite in_flat_map. split.
    - intros ([e l] & Hx & H). cbn [fst snd] in H. apply in_map_iff in H as (c' & E & Hc). injection E as -> <- ->.
      exists l. auto.
    - intros (l & Hx & -> & Hc). exists (en, l). split; auto. cbn [fst snd]. apply in_map_iff. exists c. auto.
  Qed.

  Lemma good_c_all cm ks : good_contribs mesh regs ks -> (only_K ks \/ cm <> None) ->
    Forall (fun x => (1 <= fst x <= length mesh)%nat /\ Forall (good_c K regs cm (fst x) (nodes_of mesh (fst x))) (snd x))
      (combine (seq 1 (length mesh)) ks).
  Proof.
    intros [L G] O. apply Forall_forall. intros [en l] Hx. cbn [fst snd].
    assert (H1 : In en (seq 1 (length mesh))) by (eapply in_combine_l; eauto). apply in_seq in H1.
    split; [lia|]. apply Forall_forall. intros c Hc.
    destruct (G en (nodes_of mesh en) c) as [G1 G2]; [apply in_contribs; eauto|].
    split; auto. split; auto. intros Ht. destruct O as [O|O]; auto. exfalso. apply Ht.
    apply in_combine_r in Hx. unfold only_K in O. rewrite Forall_forall in O. specialize (O l Hx).
    rewrite Forall_forall in O. auto.
  Qed.

  Lemma good_mpc_all mpcs : Forall2 same_terms mpcs0 mpcs -> Forall (mpc_ok K regs s nm es) (mpc_list s mpcs).
  Proof.
    intros H. destruct HG as (L & _ & GK). apply Forall_forall. intros [e m] Hx.
    assert (L' : length mpcs = nm) by (rewrite <- L; symmetry; clear -H; induction H; cbn [length]; congruence).
    destruct (mpc_list_in K nn mesh regs fixes s nm HN mpcs _ L' Hx) as [_ He]. cbn [fst snd] in *.
    split; [exact He|]. cbn [fst snd]. intros t Ht.
    assert (exists m0 t0, In (e, m0) (mpc_list s mpcs0) /\ In t0 (mp_terms m0) /\ term_key t0 = term_key t)
      as (m0 & t0 & H0 & Ht0 & E0).
    { unfold mpc_list in Hx |- *. clear -H Hx Ht. revert Hx. generalize (map snd (ns_mpc s)). intros l Hx.
      revert l Hx. induction H as [|m0 m1 l0 l1 E H IH]; intros [|e' l] Hx; cbn [combine] in Hx; try contradiction.
      destruct Hx as [Hx|Hx].
      - injection Hx as -> ->. unfold same_terms in E.
        assert (I : In (term_key t) (map term_key (mp_terms m0))) by (rewrite E; now apply in_map).
        apply in_map_iff in I as (t0 & E0 & I). exists m0, t0. split; [now left|]. auto.
      - destruct (IH l Hx) as (a & b & A & B). exists a, b. split; auto. now right. }
    split.
    - rewrite <- E0. apply in_combine_r in H0. eauto.
    - apply (pattern K nn mesh regs fixes s nm HN HM mpcs0); [exact L|]. right.
      exists (e, m0), t0. split; auto. split; auto. left. cbn [fst]. now rewrite E0.
  Qed.

  Lemma prepare_inv tr : fits_blocks rows max_in_row es ->
    exists g, initSolutionData tr s mesh mpcs0 = Ok g /\
      inv g (fun _ _ => 0) (if tr then Some (fun _ _ => 0, fun _ _ => 0) else None) (fun _ => 0).
  Proof.
    intros HF. unfold initSolutionData.
    rewrite (entries_ok K nn mesh regs fixes s nm HN HM mpcs0 HG). cbn [obind].
    destruct (new_block_ok K rows max_in_row es) as (B & E & C & HB).
    - vm_compute. discriminate.
    - unfold max_in_row. lia.
    - apply es_shape.
    - exact HF.
    - unfold new_block in E. cbn [length] in E. apply obind_ok in E as (B0 & E0 & E). rewrite E0. cbn [obind].
      apply obind_ok in E as (B1 & E1 & E). rewrite E1. cbn [obind]. rewrite E. cbn [obind].
      destruct tr.
      + destruct (copy_brep K 0 rows es B _ HB C) as (Bc & x & Ec & Cc & HBc).
        rewrite Ec. cbn [obind].
        destruct (recompress_brep K x rows es Bc _ HBc) as (Bc' & Ec' & Cc' & HBc').
        rewrite Ec'. cbn [obind]. eexists; split; [reflexivity|]. split; auto.
        * cbn [cm_inv g_CM]. exists Bc', Bc', x, x. auto.
        * cbn [g_F]. rewrite repeat_length. now rewrite (n_mpc_nm nn mesh regs fixes s nm HN).
        * intros a Ha. cbn [g_F]. apply nth_repeat.
      + cbn [obind]. eexists; split; [reflexivity|]. split; auto.
        * reflexivity.
        * cbn [g_F]. rewrite repeat_length. now rewrite (n_mpc_nm nn mesh regs fixes s nm HN).
        * intros a Ha. cbn [g_F]. apply nth_repeat.
  Qed.

  Definition res_K (ks : list (list (contrib K))) mpcs (a b : nat) : K :=
    sumof (eff K s TK a b) (contribs mesh ks) + mpc_matrix s mpcs a b.
  Definition res_CM t (cs : list (list (contrib K))) (a b : nat) : K :=
    sumof (eff K s t a b) (contribs mesh cs).
  Definition res_F (ks cs : list (list (contrib K))) mpcs (a : nat) : K :=
    fold_left (fun v x => if Nat.eqb a (fst x) then mp_b (snd x) else v) (mpc_list s mpcs)
      (sum_vector s mesh ks a).

  Lemma no_vector cs a : only_CM cs -> sumof (fpart s a) (contribs mesh cs) = 0 :> K.
  Proof.
    intros O. apply sumof_zero. intros [[en nodes] c] Hx. apply in_contribs in Hx as (l & Hx & -> & Hc).
    apply in_combine_r in Hx. unfold only_CM in O. rewrite Forall_forall in O. specialize (O l Hx).
    rewrite Forall_forall in O. specialize (O c Hc). cbn [fpart]. unfold vec_part. apply sumof_zero.
    intros p _. destruct (at_eq s _ p a); auto. destruct c; cbn [ctarget cvec] in *; congruence.
  Qed.
  Lemma no_K cs a b : only_CM cs -> sumof (eff K s TK a b) (contribs mesh cs) = 0.
  Proof.
    intros O. apply sumof_zero. intros [[en nodes] c] Hx. apply in_contribs in Hx as (l & Hx & -> & Hc).
    apply in_combine_r in Hx. unfold only_CM in O. rewrite Forall_forall in O. specialize (O l Hx).
    rewrite Forall_forall in O. specialize (O c Hc). unfold eff. cbn [snd]. destruct c; cbn in O |- *; congruence || auto.
  Qed.

  Lemma assemble_inv g FK cm Fv ks cs mpcs : inv g FK cm Fv ->
    goodst (match cm with Some _ => true | None => false end) ks cs mpcs -> only_CM cs ->
    exists g', assembleGlobal g ks cs mpcs = Ok g' /\
      inv g' (res_K ks mpcs)
        (match cm with Some _ => Some (res_CM TC cs, res_CM TM cs) | None => None end)
        (res_F ks cs mpcs).
  Proof.
    intros G (GK & OK & GC & GM) OC. pose proof G as [A1 A2 A3 A4 A5 A6 A7].
    unfold assembleGlobal. rewrite A4. cbn [asserting].
    destruct (brep_zero K 0 rows es _ _ A3) as (B & EB & HB). rewrite EB. cbn [obind].
    assert (G0 : inv (mkGst (g_num g) (g_mesh g) B (g_CM g) (repeat 0 (length (g_F g)))) (fun _ _ => 0) cm (fun _ => 0)).
    { split; auto.
      - apply zero_compressed in EB. cbn [g_K]. congruence.
      - cbn [g_F]. now rewrite repeat_length.
      - intros a Ha. cbn [g_F]. apply nth_repeat. }
    cbv zeta. set (g0 := mkGst (g_num g) (g_mesh g) B (g_CM g) (repeat 0 (length (g_F g)))) in *.
    rewrite A2. rewrite A1. clearbody g0.
    destruct (run_elements_ok K nn mesh regs fixes s nm HN es es_shape es_coupled
      (combine (seq 1 (length mesh)) ks) _ _ _ _ G0) as (g1 & E1 & G1).
    { apply good_c_all; auto. }
    rewrite E1. cbn [obind].
    destruct (run_mpcs_ok K nn mesh regs fixes s nm HN es es_shape (mpc_list s mpcs) _ _ _ _ G1) as (g2 & E2 & G2).
    { now apply good_mpc_all. }
    rewrite E2. cbn [obind]. fold (contribs mesh ks) in G2.
    change (flat K mesh (combine (seq 1 (length mesh)) ks)) with (contribs mesh ks) in G2.
    pose proof G2 as [C1 C2 C3 C4 C5 C6 C7].
    assert (KE : forall a b, 0 + sumof (eff K s TK a b) (contribs mesh ks) + sumof (mpc_part K s a b) (mpc_list s mpcs) = res_K ks mpcs a b).
    { intros a b. unfold res_K, mpc_matrix, mpc_part. ring. }
    destruct cm as [[FC FM]|]; cbn [cm_add cm_inv] in C5.
    - destruct C5 as (C & M & x & y & Q & B1 & B2 & Q1 & Q2). rewrite Q, Q1, Q2. cbn [asserting].
      destruct (brep_zero K x rows es _ _ B1) as (Cz & EC & HC). rewrite EC. cbn [obind].
      destruct (brep_zero K y rows es _ _ B2) as (Mz & EM & HMz). rewrite EM. cbn [obind].
      assert (G3 : inv (mkGst (g_num g2) (g_mesh g2) (g_K g2) (Some (Cz, Mz)) (g_F g2)) (res_K ks mpcs)
        (Some (fun _ _ => 0, fun _ _ => 0)) (res_F ks cs mpcs)).
      { split; auto.
        - eapply brep_ext; [exact C3|exact KE].
        - exists Cz, Mz, x, y. split; [reflexivity|]. split; auto. split; auto.
          apply zero_compressed in EC, EM. split; congruence.
        - intros a Ha. cbn [g_F]. rewrite C7 by auto. unfold res_F, sum_vector. f_equal. ring. }
      destruct (run_elements_ok K nn mesh regs fixes s nm HN es es_shape es_coupled
        (combine (seq 1 (length mesh)) cs) _ _ _ _ G3) as (g3 & E3 & G4).
      { apply good_c_all; auto. right. discriminate. }
      rewrite E3. exists g3. split; auto.
      change (flat K mesh (combine (seq 1 (length mesh)) cs)) with (contribs mesh cs) in G4.
      eapply ginv_ext; [exact G4| | |].
      + intros a b. cbn beta. rewrite no_K by auto. ring.
      + cbn [cm_add]. unfold res_CM. split; intros a b; cbn beta; ring.
      + intros a. cbn beta. rewrite no_vector by auto. ring.
    - rewrite C5. exists g2. split; auto. eapply ginv_ext; [exact G2|exact KE|exact I|].
      intros a. cbn beta. unfold res_F, sum_vector. f_equal. ring.
  Qed.
End Final.

Section Whole.
  Variable K : Rng.
  Add Ring Kr2 : (rth K).
  Local Open Scope rng_scope.
  Implicit Types (ks cs : list (list (contrib K))) (mpcs : list (mpc K)) (g : gst K) (h : step K).

  Lemma assemble_all_app g (h1 h2 : list (step K)) : assemble_all g (h1 ++ h2) =
    obind (assemble_all g h1) (fun g => assemble_all g h2).
  Proof. apply ofold_app. Qed.

  (* the complete description *)
  Lemma whole tr nn mesh regs fixes mpcs :
    good_problem nn mesh regs fixes mpcs -> capacity_ok nn mesh regs fixes mpcs ->
    exists s g, prepare tr nn mesh regs fixes mpcs = Ok g /\
      prob_num nn (length mesh) regs fixes (length mpcs) s /\ good_mpcs K regs (length mpcs) mpcs /\
      ginv K mesh s (length mpcs) (all_es K nn mesh s mpcs) g (fun _ _ => 0)
        (if tr then Some (fun _ _ => 0, fun _ _ => 0) else None) (fun _ => 0) /\
      forall hist, Forall (good_step tr mesh regs mpcs) hist ->
        exists g', assemble_all g hist = Ok g' /\
          match hist with
          | [] => g' = g
          | _ => let h := last hist (mkStep [] [] []) in
              ginv K mesh s (length mpcs) (all_es K nn mesh s mpcs) g' (res_K K mesh s (st_ks h) (st_mpcs h))
               (if tr then Some (res_CM K mesh s TC (st_cs h), res_CM K mesh s TM (st_cs h)) else None)
               (res_F K mesh s (st_ks h) (st_cs h) (st_mpcs h))
          end.
  Proof.
    intros [P1 P2 P3 P4 P5 P6] HC.
    destruct (prob_num_ok nn (length mesh) (map (fun m => length (mp_terms m)) mpcs) regs fixes) as (s & E & HN); auto.
    { rewrite Forall_forall in *. intros x Hx. apply in_map_iff in Hx as (m & <- & Hm). specialize (P5 m Hm).
      destruct (mp_terms m); [congruence|cbn; lia]. }
    rewrite map_length in HN.
    assert (HG : good_mpcs K regs (length mpcs) mpcs) by (repeat split; auto).
    assert (HF : fits_blocks [ns_ncon s; (ns_nunk s + n_mpc s)%nat] max_in_row (all_es K nn mesh s mpcs)).
    { apply (HC s); auto. exact (entries_ok K nn mesh regs fixes s _ HN P1 mpcs HG). }
    destruct (prepare_inv K nn mesh regs fixes s _ HN P1 mpcs HG tr HF) as (g & EG & G).
    exists s, g. split; [unfold prepare; rewrite E; exact EG|]. split; auto. split; auto. split; auto.
    assert (L : forall hist, Forall (good_step tr mesh regs mpcs) hist -> forall g FK cm Fv,
      ginv K mesh s (length mpcs) (all_es K nn mesh s mpcs) g FK cm Fv ->
      (if tr then cm <> None else cm = None) ->
      exists g', assemble_all g hist = Ok g' /\
        match hist with
        | [] => g' = g
        | _ => let h := last hist (mkStep [] [] []) in
            ginv K mesh s (length mpcs) (all_es K nn mesh s mpcs) g' (res_K K mesh s (st_ks h) (st_mpcs h))
             (if tr then Some (res_CM K mesh s TC (st_cs h), res_CM K mesh s TM (st_cs h)) else None)
             (res_F K mesh s (st_ks h) (st_cs h) (st_mpcs h))
        end).
    { clear g EG G. induction hist as [|h hist IH]; intros GS g FK cm Fv G Hcm.
      - exists g. split; reflexivity.
      - inversion GS as [|? ? (Q1 & Q2 & Q3 & Q4 & Q5) GS']; subst.
        destruct (assemble_inv K nn mesh regs fixes s _ HN P1 mpcs HG g FK cm Fv (st_ks h) (st_cs h) (st_mpcs h) G)
          as (g1 & E1 & G1); auto.
        { split; auto. split; auto. split; auto. destruct tr, cm as [[? ?]|]; auto; congruence. }
        unfold assemble_all in *. cbn [ofold]. rewrite E1. cbn [obind].
        destruct (IH GS' _ _ _ _ G1) as (g2 & E2 & G2).
        { destruct tr, cm; congruence. }
        exists g2. split; auto. destruct hist as [|h' hist]; [|exact G2].
        subst g2. cbn [last]. destruct tr, cm as [[? ?]|]; auto; congruence. }
    intros hist GS. apply (L hist GS g _ _ _ G). destruct tr; congruence.
  Qed.

  (* ---------- C19 ---------- *)
  Lemma assembly_never_aborts tr nn mesh regs fixes mpcs hist :
    good_problem nn mesh regs fixes mpcs -> capacity_ok nn mesh regs fixes mpcs ->
    Forall (good_step tr mesh regs mpcs) hist ->
    exists g g', prepare tr nn mesh regs fixes mpcs = Ok g /\ assemble_all g hist = Ok g'.
  Proof.
    intros P C H. destruct (whole tr nn mesh regs fixes mpcs P C) as (s & g & E & _ & _ & _ & W).
    destruct (W hist H) as (g' & E' & _). eauto.
  Qed.

  Lemma registered_positions tr nn mesh regs fixes mpcs :
    good_problem nn mesh regs fixes mpcs -> capacity_ok nn mesh regs fixes mpcs ->
    exists g, prepare tr nn mesh regs fixes mpcs = Ok g /\
      g_size g = (length (reg_keys regs) + length mpcs)%nat /\
      forall i j x, (1 <= i <= g_size g)%nat -> (1 <= j <= g_size g)%nat ->
        let s := g_num g in
        let reg_pos :=
          (exists x y, In x (reg_keys regs) /\ In y (reg_keys regs) /\ share_element mesh x y /\
             eqn s x = i /\ eqn s y = j) \/
          (exists e t, In e (mpc_list s mpcs) /\ In t (mp_terms (snd e)) /\
             (i = fst e /\ j = eqn s (term_key t) \/ j = fst e /\ i = eqn s (term_key t))) in
        (reg_pos -> exists B, b_addValue (g_K g) i j x = Ok B) /\
        (~ reg_pos -> b_addValue (g_K g) i j x = Fatal).
  Proof.
    intros P C. destruct (whole tr nn mesh regs fixes mpcs P C) as (s & g & E & HN & HG & [A1 A2 A3 A4 A5 A6 A7] & W).
    exists g. split; auto.
    assert (GS : g_size g = (ns_ndofs s + length mpcs)%nat).
    { unfold g_size. rewrite A1. f_equal. exact (n_mpc_nm nn mesh regs fixes s _ HN). }
    split. { rewrite GS. f_equal. apply HN. }
    intros i j x Hi Hj. rewrite GS in *. rewrite A1. cbv zeta.
    assert (HS := es_shape K nn mesh regs fixes s _ HN (gp_nodes _ _ _ _ _ P) mpcs HG).
    assert (PT := pattern K nn mesh regs fixes s _ HN (gp_nodes _ _ _ _ _ P) mpcs i j eq_refl).
    unfold share_element. unfold coupled in PT. rewrite <- PT. split.
    - intros HP. destruct (brep_add K 0 _ _ _ _ i j x A3 HS HP) as (B & EB & _). eauto.
    - intros HP. eapply brep_unregistered; eauto.
      split; cbn [fst snd]; rewrite (rows_sum nn mesh regs fixes s _ HN); lia.
  Qed.

  (* ---------- values ---------- *)
  Lemma filter_all {A} (f : A -> bool) l : (forall x, In x l -> f x = true) -> filter f l = l.
  Proof. induction l as [|x l IH]; intros H; cbn; auto. rewrite H by now left. f_equal. apply IH. intros; apply H; now right. Qed.

  Lemma eff_TK mesh s ks a b : only_K ks ->
    sumof (eff K s TK a b) (contribs mesh ks) = sum_matrix s mesh ks TK a b - sum_dup s mesh ks TK a b.
  Proof.
    intros O. unfold sum_matrix, sum_dup.
    assert (HT : forall x, In x (contribs mesh ks) -> ctarget (snd x) = TK).
    { intros [[en nodes] c] Hx. cbn [snd]. apply in_contribs in Hx as (l & Hx & -> & Hc).
      apply in_combine_r in Hx. unfold only_K in O. rewrite Forall_forall in O. specialize (O l Hx).
      rewrite Forall_forall in O. auto. }
    rewrite (filter_all (has_target TK)) by (intros x Hx; unfold has_target; now rewrite HT).
    rewrite <- sumof_sub. apply sumof_ext. intros x Hx. unfold eff. specialize (HT x Hx).
    destruct x as [[en nodes] c]. cbn [snd] in *. destruct c; cbn in HT |- *; auto; discriminate.
  Qed.
  Lemma eff_TC mesh s cs a b : only_CM cs ->
    sumof (eff K s TC a b) (contribs mesh cs) =
      sum_matrix s mesh cs TC a b - sum_dup s mesh cs TC a b + (sum_matrix s mesh cs TM a b - sum_dup s mesh cs TM a b).
  Proof.
    intros O. unfold sum_matrix, sum_dup. rewrite !sumof_filter, <- !sumof_sub, <- sumof_add.
    apply sumof_ext. intros [[en nodes] c] Hx. apply in_contribs in Hx as (l & Hx & -> & Hc).
    apply in_combine_r in Hx. unfold only_CM in O. rewrite Forall_forall in O. specialize (O l Hx).
    rewrite Forall_forall in O. specialize (O c Hc). unfold eff, has_target. cbn [snd].
    destruct c; cbn [real_target ctarget tgt_eqb] in *; try congruence; ring.
  Qed.
  Lemma eff_TM mesh s cs a b : sumof (eff K s TM a b) (contribs mesh cs) = 0.
  Proof.
    apply sumof_zero. intros [[en nodes] c] _. unfold eff. cbn [snd]. destruct c; reflexivity.
  Qed.
  Lemma effs_sym mesh regs s t ks a b : good_contribs mesh regs ks ->
    sumof (eff K s t a b) (contribs mesh ks) = sumof (eff K s t b a) (contribs mesh ks).
  Proof.
    intros [_ G]. apply sumof_ext. intros [[en nodes] c] Hx. destruct (G _ _ _ Hx) as [G1 _].
    apply in_contribs in Hx as (l & Hx & -> & Hc). now apply eff_sym.
  Qed.
  Lemma mpc_matrix_sym s mpcs a b : mpc_matrix s mpcs a b = mpc_matrix s mpcs b a.
  Proof. unfold mpc_matrix. apply sumof_ext. intros x _. apply sumof_ext. intros t _. now rewrite same_pair_sym. Qed.

  Lemma assembled_values tr nn mesh regs fixes mpcs hist h :
    good_problem nn mesh regs fixes mpcs -> capacity_ok nn mesh regs fixes mpcs ->
    Forall (good_step tr mesh regs mpcs) (hist ++ [h]) ->
    exists g g', prepare tr nn mesh regs fixes mpcs = Ok g /\ assemble_all g (hist ++ [h]) = Ok g' /\
      g_num g' = g_num g /\ prob_num nn (length mesh) regs fixes (length mpcs) (g_num g) /\
      g_size g' = g_size g /\ g_size g = (length (reg_keys regs) + length mpcs)%nat /\
      let s := g_num g in
      (forall a b, (1 <= a <= g_size g)%nat -> (1 <= b <= g_size g)%nat ->
         gvalue (g_K g') a b =
           Ok (sum_matrix s mesh (st_ks h) TK a b - sum_dup s mesh (st_ks h) TK a b + mpc_matrix s (st_mpcs h) a b)) /\
      length (g_F g') = g_size g /\
      (forall a, (1 <= a <= ns_ndofs s)%nat -> nth (a - 1) (g_F g') 0 = sum_vector s mesh (st_ks h) a) /\
      (forall x, In x (mpc_list s (st_mpcs h)) -> nth (fst x - 1) (g_F g') 0 = mp_b (snd x)) /\
      (tr = true -> exists C M, g_CM g' = Some (C, M) /\
         forall a b, (1 <= a <= g_size g)%nat -> (1 <= b <= g_size g)%nat ->
           gvalue C a b = Ok (sum_matrix s mesh (st_cs h) TC a b - sum_dup s mesh (st_cs h) TC a b
              + (sum_matrix s mesh (st_cs h) TM a b - sum_dup s mesh (st_cs h) TM a b)) /\
           gvalue M a b = Ok 0).
  Proof.
    intros P C H. destruct (whole tr nn mesh regs fixes mpcs P C) as (s & g & E & HN & HG & [A1 _ _ _ _ _ _] & W).
    destruct (W _ H) as (g' & E' & G'). exists g, g'. split; auto. split; auto.
    assert (Hh : good_step tr mesh regs mpcs h) by (rewrite Forall_forall in H; apply H; apply in_or_app; right; now left).
    assert (G2 : ginv K mesh s (length mpcs) (all_es K nn mesh s mpcs) g' (res_K K mesh s (st_ks h) (st_mpcs h))
               (if tr then Some (res_CM K mesh s TC (st_cs h), res_CM K mesh s TM (st_cs h)) else None)
               (res_F K mesh s (st_ks h) (st_cs h) (st_mpcs h))).
    { assert (L : last (hist ++ [h]) (mkStep [] [] []) = h) by apply last_last.
      destruct (hist ++ [h]) as [|h0 hs] eqn:Q; [destruct hist; discriminate|]. rewrite <- L. exact G'. }
    destruct G2 as [B1 B2 B3 B4 B5 B6 B7]. destruct Hh as (Q1 & Q2 & Q3 & Q4 & Q5).
    split; [congruence|]. rewrite A1. split; [exact HN|].
    assert (NM := n_mpc_nm nn mesh regs fixes s _ HN).
    assert (GS : g_size g = (ns_ndofs s + length mpcs)%nat) by (unfold g_size; rewrite A1; congruence).
    assert (GS' : g_size g' = (ns_ndofs s + length mpcs)%nat) by (unfold g_size; rewrite B1; congruence).
    split; [congruence|]. split. { rewrite GS. f_equal. apply HN. }
    rewrite GS. cbv zeta.
    assert (RS := rows_sum nn mesh regs fixes s _ HN).
    split; [|split; [|split; [|split]]].
    - intros a b Ha Hb.
      rewrite (gvalue_ok K s (all_es K nn mesh s mpcs) 0 (g_K g') _ a b B3); [| |lia|lia].
      + unfold res_K. now rewrite eff_TK.
      + intros a' b'. unfold res_K. rewrite (effs_sym mesh regs s TK (st_ks h) a' b') by auto.
        now rewrite mpc_matrix_sym.
    - exact B6.
    - intros a Ha. rewrite B7 by lia. unfold res_F.
      assert (L : forall l v, (forall x, In x l -> fst x <> a) ->
        fold_left (fun v (x : nat * mpc K) => if Nat.eqb a (fst x) then mp_b (snd x) else v) l v = v).
      { induction l as [|x l IH]; intros v Hl; cbn [fold_left]; auto.
        destruct (Nat.eqb_spec a (fst x)) as [Ea|_]; [exfalso; apply (Hl x); [now left|auto]|].
        apply IH. intros y Hy. apply Hl. now right. }
      apply L. intros x Hx.
      assert (LM : length (st_mpcs h) = length mpcs) by (clear -Q5; induction Q5; cbn [length]; congruence).
      destruct (mpc_list_in K nn mesh regs fixes s _ HN (st_mpcs h) x LM Hx). lia.
    - intros x Hx.
      assert (LM : length (st_mpcs h) = length mpcs) by (clear -Q5; induction Q5; cbn [length]; congruence).
      destruct (mpc_list_in K nn mesh regs fixes s _ HN (st_mpcs h) x LM Hx) as [_ Hr].
      rewrite B7 by lia. unfold res_F.
      assert (ND : NoDup (map fst (mpc_list s (st_mpcs h)))).
      { unfold mpc_list. rewrite (pn_mpc _ _ _ _ _ _ HN). 
        assert (L : forall (l : list nat) (m : list (mpc K)), NoDup l -> NoDup (map fst (combine l m))).
        { induction l as [|y l IH]; intros [|m0 m] N; cbn; constructor; inversion N; subst; auto.
          intros Hy. apply in_map_iff in Hy as ([u w] & Eu & Hu). cbn in Eu. subst u. apply in_combine_l in Hu. auto. }
        apply L, seq_NoDup. }
      revert Hx ND. generalize (mpc_list s (st_mpcs h)). intros l. generalize (sum_vector s mesh (st_ks h) (fst x)).
      induction l as [|y l IH]; intros v Hx ND; [contradiction|]. cbn [map] in ND. inversion ND as [|? ? N1 N2]; subst.
      cbn [fold_left]. destruct Hx as [->|Hx].
      + rewrite Nat.eqb_refl.
        assert (L : forall l v, ~ In (fst x) (map fst l) ->
          fold_left (fun v (y : nat * mpc K) => if Nat.eqb (fst x) (fst y) then mp_b (snd y) else v) l v = v).
        { clear. induction l as [|y l IH]; intros v N; cbn [fold_left]; auto. cbn [map] in N.
          destruct (Nat.eqb_spec (fst x) (fst y)) as [Ey|_]; [exfalso; apply N; left; auto|].
          apply IH. intros Hi. apply N. now right. }
        now apply L.
      + apply IH; auto.
    - intros ->. destruct B5 as (Cm & Mm & x & y & Q & C1 & C2 & _ & _). exists Cm, Mm. split; auto.
      intros a b Ha Hb. split.
      + rewrite (gvalue_ok K s (all_es K nn mesh s mpcs) x Cm _ a b C1); [| |lia|lia].
        * unfold res_CM. now rewrite eff_TC.
        * intros a' b'. unfold res_CM. apply effs_sym with (regs := regs). auto.
      + rewrite (gvalue_ok K s (all_es K nn mesh s mpcs) y Mm _ a b C2); [| |lia|lia].
        * unfold res_CM. now rewrite eff_TM.
        * intros a' b'. unfold res_CM. apply effs_sym with (regs := regs). auto.
  Qed.

  (* distinct nodes: no duplicates *)
  Lemma dup_zero s keys (ke : nat -> nat -> K) a b :
    (forall x y, In x keys -> In y keys -> eqn s x = eqn s y -> x = y) -> NoDup keys -> dup_part s keys ke a b = 0.
  Proof.
    intros IJ ND. unfold dup_part. destruct (Nat.eqb a b); auto. apply sumof_zero. intros p Hp. apply sumof_zero.
    intros q Hq. apply in_seq in Hp, Hq. unfold at_eq.
    destruct (Nat.eqb_spec (eqn s (nth p keys dkey)) a) as [E1|]; auto.
    destruct (Nat.eqb_spec (eqn s (nth q keys dkey)) a) as [E2|]; auto. exfalso.
    assert (E : nth p keys dkey = nth q keys dkey) by (apply IJ; [apply nth_In; lia|apply nth_In; lia|congruence]).
    apply NoDup_nth in E; auto; lia.
  Qed.
  Lemma node_keys_NoDup nodes types : NoDup nodes -> NoDup types -> NoDup (node_keys nodes types).
  Proof.
    intros N1 N2. unfold node_keys. induction N1 as [|n l Hn N1 IH]; cbn [flat_map]; [constructor|].
    apply NoDup_app_intro; auto.
    - apply FinFun.Injective_map_NoDup; auto. intros x y [= ->]. reflexivity.
    - intros x Hx Hy. apply in_map_iff in Hx as (t & <- & _). apply in_flat_map in Hy as (n' & Hn' & Hy).
      apply in_map_iff in Hy as (t' & [= -> _] & _). contradiction.
  Qed.
  Lemma ckeys_NoDup en nodes (c : contrib K) : NoDup nodes -> NoDup (ctypes c) -> NoDup (ckeys en nodes c).
  Proof.
    intros N1 N2. destruct c; cbn [ckeys ctypes] in *; try now apply node_keys_NoDup.
    - apply NoDup_app_intro; [now apply node_keys_NoDup|repeat constructor; intros []|].
      intros x Hx [<-|[]]. unfold node_keys in Hx. apply in_flat_map in Hx as (n & _ & Hx).
      apply in_map_iff in Hx as (t & [=] & _).
    - apply NoDup_app_intro; [now apply node_keys_NoDup|repeat constructor; intros []|].
      intros x Hx [<-|[]]. unfold node_keys in Hx. apply in_flat_map in Hx as (n & _ & Hx).
      apply in_map_iff in Hx as (t & [=] & _).
  Qed.
  Lemma sum_dup_zero nn mesh regs fixes nm s ks t a b : prob_num nn (length mesh) regs fixes nm s ->
    good_contribs mesh regs ks -> distinct_nodes mesh ks -> sum_dup s mesh ks t a b = 0.
  Proof.
    intros HN [_ G] [D1 D2]. unfold sum_dup. apply sumof_zero. intros [[en nodes] c] Hx. apply filter_In in Hx as [Hx _].
    destruct (G _ _ _ Hx) as [_ G2]. apply in_contribs in Hx as (l & Hx & -> & Hc).
    cbn [dpart]. apply dup_zero.
    - rewrite Forall_forall in G2. intros x y H1 H2. apply (pn_inj _ _ _ _ _ _ HN); auto.
    - apply in_combine_l in Hx as H1. apply in_combine_r in Hx. rewrite Forall_forall in D1, D2.
      specialize (D2 l Hx). rewrite Forall_forall in D2. apply ckeys_NoDup; auto. apply D1. apply in_seq in H1.
      unfold nodes_of. apply nth_In. lia.
  Qed.
End Whole.

(* problems with at most 100 equations always fit *)
Lemma small_capacity (K : Rng) nn mesh regs fixes (mpcs : list (mpc K)) :
  good_problem nn mesh regs fixes mpcs -> length (reg_keys regs) + length mpcs <= max_in_row ->
  capacity_ok nn mesh regs fixes mpcs.
Proof.
  intros P HL s es E1 E2.
  destruct (prob_num_ok nn (length mesh) (map (fun m => length (mp_terms m)) mpcs) regs fixes) as (s' & E & HN); try apply P.
  { pose proof (gp_terms _ _ _ _ _ P) as P5. rewrite Forall_forall in *. intros x Hx. apply in_map_iff in Hx as (m & <- & Hm). specialize (P5 m Hm).
    destruct (mp_terms m); [congruence|cbn; lia]. }
  rewrite map_length in HN. rewrite E in E1. injection E1 as ->.
  assert (HG : good_mpcs K regs (length mpcs) mpcs) by (repeat split; apply P).
  pose proof (entries_ok K nn mesh regs fixes s _ HN (gp_nodes _ _ _ _ _ P) mpcs HG) as E3.
  rewrite E3 in E2. injection E2 as <-.
  pose proof (es_shape K nn mesh regs fixes s _ HN (gp_nodes _ _ _ _ _ P) mpcs HG) as HS.
  apply fits_blocks_of_fits; [exact HS|]. intros i Hi.
  rewrite (rows_sum nn mesh regs fixes s _ HN) in *. rewrite (pn_nd _ _ _ _ _ _ HN) in *.
  etransitivity; [|exact HL]. rewrite <- (seq_length (length (reg_keys regs) + length mpcs) 1).
  unfold row_cols. apply NoDup_incl_length; [apply NoDup_nodup|]. intros j Hj. apply nodup_In in Hj.
  apply in_map_iff in Hj as ([u w] & <- & Hj). apply filter_In in Hj as [Hj _].
  apply in_map_iff in Hj as ([p q] & Eu & Hj). destruct (HS _ Hj) as [H1 H2]. cbn [fst snd] in *.
  apply in_seq. unfold up in Eu. cbn [fst snd] in Eu. destruct (q <? p); injection Eu as <- <-; lia.
Qed.

Lemma diagonal_exact (K : Rng) tr nn mesh regs fixes (mpcs : list (mpc K)) :
  good_problem nn mesh regs fixes mpcs -> capacity_ok nn mesh regs fixes mpcs ->
  exists g, prepare tr nn mesh regs fixes mpcs = Ok g /\
    (forall x v, In x (reg_keys regs) ->
       (share_element mesh x x -> exists B, b_addValue (g_K g) (eqn (g_num g) x) (eqn (g_num g) x) v = Ok B) /\
       (~ share_element mesh x x -> b_addValue (g_K g) (eqn (g_num g) x) (eqn (g_num g) x) v = Fatal)) /\
    (forall e v, ns_ndofs (g_num g) < e <= g_size g -> b_addValue (g_K g) e e v = Fatal).
Proof.
  intros P C. destruct (registered_positions K tr nn mesh regs fixes mpcs P C) as (g & E & GS & H).
  destruct (whole K tr nn mesh regs fixes mpcs P C) as (s & g' & E' & HN & HG & [A1 _ _ _ _ _ _] & _).
  rewrite E in E'. injection E' as <-. rewrite A1 in *.
  assert (ND : ns_ndofs s = length (reg_keys regs)) by apply HN.
  assert (R : forall x, In x (reg_keys regs) -> 1 <= eqn s x <= ns_ndofs s)
    by (intros x Hx; apply (pn_eq _ _ _ _ _ _ HN x Hx)).
  assert (M : forall e t, In e (mpc_list s mpcs) -> In t (mp_terms (snd e)) ->
    ns_ndofs s < fst e /\ eqn s (term_key t) <= ns_ndofs s).
  { intros e t He Ht. destruct (mpc_list_in K nn mesh regs fixes s _ HN mpcs e eq_refl He) as [Hm Hr].
    split; [lia|]. apply R. eapply gp_term_keys; eauto. }
  exists g. split; auto. rewrite A1. split.
  - intros x v Hx. specialize (R x Hx) as Rx. destruct (H (eqn s x) (eqn s x) v) as [H1 H2]; [lia|lia|].
    cbv zeta in H1, H2. split.
    + intros HS. apply H1. left. exists x, x. auto 6.
    + intros HS. apply H2. intros [(y & z & Hy & Hz & Hsh & Ey & Ez)|(e & t & He & Ht & Q)].
      * apply (pn_inj _ _ _ _ _ _ HN) in Ey, Ez; auto. now subst.
      * destruct (M e t He Ht). lia.
  - intros e v He. destruct (H e e v) as [_ H2]; [lia|lia|]. apply H2. cbv zeta.
    intros [(y & z & Hy & Hz & Hsh & Ey & Ez)|(e' & t & He' & Ht & Q)].
    + specialize (R y Hy). lia.
    + destruct (M e' t He' Ht). lia.
Qed.

Lemma distinct_assembly (K : Rng) tr nn mesh regs fixes (mpcs : list (mpc K)) hist h :
  good_problem nn mesh regs fixes mpcs -> capacity_ok nn mesh regs fixes mpcs ->
  Forall (good_step tr mesh regs mpcs) (hist ++ [h]) -> distinct_nodes mesh (st_ks h) ->
  exists g g', prepare tr nn mesh regs fixes mpcs = Ok g /\ assemble_all g (hist ++ [h]) = Ok g' /\
    g_size g = length (reg_keys regs) + length mpcs /\ length (g_F g') = g_size g /\
    let s := g_num g in
    (forall a b, 1 <= a <= g_size g -> 1 <= b <= g_size g ->
       gvalue (g_K g') a b = Ok (radd (sum_matrix s mesh (st_ks h) TK a b) (mpc_matrix s (st_mpcs h) a b))) /\
    (forall a, 1 <= a <= length (reg_keys regs) -> nth (a - 1) (g_F g') r0 = sum_vector s mesh (st_ks h) a) /\
    (forall x, In x (mpc_list s (st_mpcs h)) -> nth (fst x - 1) (g_F g') r0 = mp_b (snd x)).
Proof.
  intros P C H D. destruct (assembled_values K tr nn mesh regs fixes mpcs hist h P C H)
    as (g & g' & E & E' & N & HN & GS' & GS & V1 & V2 & V3 & V4 & _).
  exists g, g'. split; auto. split; auto. split; auto. split; auto. cbv zeta.
  assert (Hh : good_step tr mesh regs mpcs h) by (rewrite Forall_forall in H; apply H; apply in_or_app; right; now left).
  split; [|split].
  - intros a b Ha Hb. rewrite V1 by auto. f_equal.
    rewrite (sum_dup_zero K nn mesh regs fixes _ (g_num g) (st_ks h) TK a b HN); auto; [|apply Hh].
    generalize (sum_matrix (g_num g) mesh (st_ks h) TK a b) (mpc_matrix (g_num g) (st_mpcs h) a b). intros u w.
    rewrite (Ring_theory.Rsub_def (rth K)), (Ring_theory.Radd_comm (rth K) u). f_equal.
    assert (Z : ropp r0 = (r0 : K)) by (rewrite <- (Ring_theory.Radd_0_l (rth K) (ropp r0)); apply (Ring_theory.Ropp_def (rth K))).
    rewrite Z. apply (Ring_theory.Radd_0_l (rth K)).
  - intros a Ha. apply V3. pose proof (pn_nd _ _ _ _ _ _ HN). lia.
  - exact V4.
Qed.
