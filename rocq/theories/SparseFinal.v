(* Final lemmas for the sparse matrix properties C01-C11 *)
From Verif Require Import Base BaseProofs SparseModel SpecSparse SparseProofs SparseMatProofs
  SparseMoreProofs.
From Coq Require Import Permutation QArith Qcanon Qabs.
Local Open Scope nat_scope.

(* ------------------------------------------------------------------ *)
(* the assertions of addEntry and getIndex *)
Lemma si_addEntry_shape s i j s' : si_addEntry s i j = Ok s' ->
  in_shape (si_nrows s) (si_ncols s) (i, j) /\ si_nrows s' = si_nrows s /\ si_ncols s' = si_ncols s.
Proof.
  unfold si_addEntry. intros H. apply asserting_ok in H as [A H].
  apply asserting_ok in H as [B H]. apply asserting_ok in H as [_ H].
  apply andb_prop in A as [A1 A2]. apply andb_prop in B as [B1 B2].
  apply Nat.ltb_lt in A1, B1. apply Nat.leb_le in A2, B2.
  split; [split; cbn; lia|].
  apply obind_ok in H as (a & _ & H). apply obind_ok in H as (b & _ & H).
  apply obind_ok in H as ([q|] & _ & H).
  - apply obind_ok in H as (c & _ & H). injection H as <-. auto.
  - injection H as <-. auto.
Qed.

Lemma add_entries_shape es : forall s s', add_entries s es = Ok s' ->
  forall e, In e es -> in_shape (si_nrows s) (si_ncols s) e.
Proof.
  induction es as [|[i j] es IH]; cbn; intros s s' H e He; [tauto|].
  apply obind_ok in H as (s1 & E & H). apply si_addEntry_shape in E as (E1 & E2 & E3).
  destruct He as [<-|He]; auto. rewrite <- E2, <- E3. eapply IH; eauto.
Qed.

Lemma fits_dec nr m es : {fits nr m es} + {exists i, 1 <= i <= nr /\ m < length (row_cols es i)}.
Proof.
  destruct (forallb (fun i => length (row_cols es i) <=? m) (seq 1 nr)) eqn:E.
  - left. intros i Hi. rewrite forallb_forall in E. apply Nat.leb_le. apply E.
    apply in_seq. lia.
  - right. apply Bool.not_true_iff_false in E.
    destruct (existsb (fun i => m <? length (row_cols es i)) (seq 1 nr)) eqn:E'.
    + apply existsb_exists in E' as (i & Hi & H). apply in_seq in Hi. apply Nat.ltb_lt in H.
      exists i. split; auto. lia.
    + exfalso. apply E. apply forallb_forall. intros i Hi. apply Nat.leb_le.
      destruct (Nat.le_gt_cases (length (row_cols es i)) m) as [C|C]; auto. exfalso.
      apply Bool.not_true_iff_false in E'. apply E'. apply existsb_exists. exists i. split; auto.
      now apply Nat.ltb_lt.
Qed.

Lemma build_ok_inv nr nc m es s : build nr nc m es = Ok s ->
  0 < m /\ (forall e, In e es -> in_shape nr nc e) /\ fits nr m es /\
  exists rows, RepC s rows /\ rows_of rows es /\ si_nrows s = nr /\ si_ncols s = nc.
Proof.
  intros H. assert (Hm : 0 < m).
  { unfold build, si_reinit in H. destruct (Nat.ltb_spec 0 m); auto. discriminate. }
  assert (Hin : forall e, In e es -> in_shape nr nc e).
  { unfold build in H. apply obind_ok in H as (s0 & E0 & H). apply obind_ok in H as (s1 & E1 & _).
    destruct (si_reinit_ok nr nc m Hm) as (s0' & E0' & _ & N1 & N2 & _).
    rewrite E0 in E0'. injection E0' as <-. rewrite <- N1, <- N2.
    eapply add_entries_shape; eauto. }
  destruct (build_spec nr nc m es Hm Hin) as [A B].
  destruct (fits_dec nr m es) as [F|F].
  - split; auto. split; auto. split; auto.
    destruct (A F) as (s' & rows & E & HR & Ho & N1 & N2). rewrite H in E. injection E as <-.
    exists rows. auto.
  - rewrite B in H by auto. discriminate.
Qed.

Lemma nvals_positions s rows es : RepC s rows -> rows_of rows es ->
  (forall e, In e es -> in_shape (si_nrows s) (si_ncols s) e) ->
  si_nvals s = length (positions es).
Proof.
  intros HR Ho Hin. pose proof (RepC_len _ _ HR) as HL.
  set (L := concat (map (fun i => map (fun j => (i, j)) (nth (i - 1) rows [])) (seq 1 (si_nrows s)))).
  assert (Hlen : length L = si_nvals s).
  { unfold L. destruct HR as (_ & _ & _ & _ & ->). rewrite <- HL.
    assert (G : forall n, n <= length rows ->
      length (concat (map (fun i => map (fun j => (i, j)) (nth (i - 1) rows [])) (seq 1 n)))
        = psum rows n).
    { induction n as [|n IH]; intros Hn; [reflexivity|].
      rewrite seq_S, map_app, concat_app, app_length, IH by lia. cbn [map concat].
      rewrite app_nil_r, map_length. replace (1 + n - 1) with n by lia.
      rewrite psum_S by lia. reflexivity. }
    rewrite G by lia. apply psum_all. }
  rewrite <- Hlen. apply Permutation_length. apply NoDup_Permutation.
  - unfold L. assert (G : forall n s0, 1 <= s0 -> s0 + n <= S (length rows) ->
      NoDup (concat (map (fun i => map (fun j => (i, j)) (nth (i - 1) rows [])) (seq s0 n)))).
    { induction n as [|n IH]; intros s0 H1 H2; cbn; [constructor|].
      apply NoDup_app_iff_aux.
      - apply (NoDup_map_inv snd). rewrite map_map. cbn. rewrite map_id.
        destruct HR as (_ & _ & Hok & _). apply Hok. apply nth_In. lia.
      - apply IH; lia.
      - intros [a b] Ha Hb. apply in_map_iff in Ha as (j & E & _). injection E as <- <-.
        apply in_concat in Hb as (l & Hl & Hb). apply in_map_iff in Hl as (i & <- & Hi).
        apply in_map_iff in Hb as (j' & E & _). injection E as -> _. apply in_seq in Hi. lia. }
    apply G; lia.
  - apply NoDup_nodup.
  - intros [i j]. unfold positions. rewrite nodup_In. unfold L. rewrite in_concat. split.
    + intros (l & Hl & Hb). apply in_map_iff in Hl as (i' & <- & Hi).
      apply in_map_iff in Hb as (j' & E & Hj). injection E as -> ->. apply in_seq in Hi.
      apply Ho; auto. lia.
    + intros HI. destruct (Hin _ HI) as [Hi Hj]. cbn in Hi, Hj.
      exists (map (fun j => (i, j)) (nth (i - 1) rows [])). split.
      * apply in_map_iff. exists i. split; auto. apply in_seq. lia.
      * apply in_map. apply Ho; auto. lia.
Qed.

Lemma pattern_exact nr nc m es :
  0 < m -> (forall e, In e es -> in_shape nr nc e) -> fits nr m es ->
  exists s, build nr nc m es = Ok s /\
    si_nvals s = length (positions es) /\
    (forall i j, in_shape nr nc (i, j) ->
       (In (i, j) es -> exists k, si_getIndex s i j = Ok (Some k) /\ k < si_nvals s) /\
       (~ In (i, j) es -> si_getIndex s i j = Ok None)) /\
    (forall i j i' j' k, in_shape nr nc (i, j) -> in_shape nr nc (i', j') ->
       si_getIndex s i j = Ok (Some k) -> si_getIndex s i' j' = Ok (Some k) -> (i, j) = (i', j')) /\
    (forall k, k < si_nvals s -> exists i j, In (i, j) es /\ si_getIndex s i j = Ok (Some k)).
Proof.
  intros Hm Hin HF. destruct (build_spec nr nc m es Hm Hin) as [A _].
  destruct (A HF) as (s & rows & E & HR & Ho & N1 & N2). exists s.
  pose proof (RepC_len _ _ HR) as HL.
  split; [auto|]. split.
  { eapply nvals_positions; eauto. rewrite N1, N2. auto. }
  split; [|split].
  - intros i j [Hi Hj]. cbn in Hi, Hj.
    rewrite (si_getIndex_spec s rows) by (auto; lia). split; intros HI.
    + apply Ho in HI; [|lia]. destruct (slot rows i j) as [p|] eqn:Es.
      * exists p. split; auto.
        apply (slot_some s) in Es as (k & _ & _ & _ & Es); auto. lia.
      * apply slot_none in Es. tauto.
    + f_equal. apply slot_none. intros C. apply HI. apply Ho; auto. lia.
  - intros i j i' j' k [Hi Hj] [Hi' Hj']. cbn in *.
    rewrite !(si_getIndex_spec s rows) by (auto; lia). intros [= E1] [= E2].
    destruct (slot_inj s rows i j i' j' k HR) as [-> ->]; auto; lia.
  - intros k Hk. destruct (slot_surj s rows k HR Hk) as (i & j & Hi & Hj & Es).
    exists i, j. split.
    + apply Ho; [lia|]. apply (slot_some s) in Es as (q & _ & _ & Es & _); auto.
      eapply nth_error_In; eauto.
    + rewrite (si_getIndex_spec s rows) by (auto; lia). congruence.
Qed.

Lemma overflow_iff nr nc m es :
  0 < m -> (forall e, In e es -> in_shape nr nc e) ->
  (build nr nc m es = Fatal <-> ~ fits nr m es).
Proof.
  intros Hm Hin. destruct (build_spec nr nc m es Hm Hin) as [A B]. split.
  - intros H HF. destruct (A HF) as (s & rows & E & _). congruence.
  - intros H. apply B. destruct (fits_dec nr m es); tauto.
Qed.

Lemma readd nr nc m es e :
  0 < m -> (forall e, In e es -> in_shape nr nc e) -> In e es ->
  build nr nc m (es ++ [e]) = build nr nc m es.
Proof.
  intros Hm Hin HI. unfold build.
  destruct (si_reinit_ok nr nc m Hm) as (s0 & E0 & HR0 & N1 & N2 & N3). rewrite E0. cbn [obind].
  unfold add_entries. rewrite ofold_app. fold (add_entries s0 es).
  assert (Hin' : forall e, In e es -> in_shape (si_nrows s0) (si_ncols s0) e)
    by (rewrite N1, N2; auto).
  destruct (add_entries_gen es s0 (repeat [] nr) [] HR0 (rows_of_nil nr) Hin') as [A B].
  cbn [app] in A, B. rewrite N1, N3 in A, B.
  destruct (fits_dec nr (cap nc m) es) as [F|F].
  - destruct (A F) as (s1 & rows1 & E1 & HR1 & Ho1 & M1 & M2 & M3). rewrite E1. cbn [obind ofold].
    destruct e as [i j]. destruct (Hin _ HI) as [Hi Hj]. cbn in Hi, Hj. cbn [fst snd].
    pose proof (si_addEntry_spec s1 rows1 i j HR1 ltac:(lia) ltac:(lia)) as H. cbn zeta in H.
    destruct (in_dec Nat.eq_dec j (nth (i - 1) rows1 [])) as [I|N].
    + rewrite H. reflexivity.
    + exfalso. apply N. apply Ho1; auto. rewrite (RepU_len _ _ HR1). lia.
  - rewrite (B F). reflexivity.
Qed.

Lemma lookup_total nr nc m es s i j :
  build nr nc m es = Ok s -> in_shape nr nc (i, j) ->
  exists o, si_getIndex s i j = Ok o /\ (o = None <-> ~ In (i, j) es) /\
    (forall k, o = Some k -> k < si_nvals s).
Proof.
  intros H Hs. apply build_ok_inv in H as (_ & _ & _ & rows & HR & Ho & N1 & N2).
  destruct Hs as [Hi Hj]. cbn in Hi, Hj. pose proof (RepC_len _ _ HR) as HL.
  rewrite (si_getIndex_spec s rows) by (auto; lia). eexists; split; [reflexivity|]. split.
  - rewrite slot_none, (Ho i j) by lia. tauto.
  - intros k E. apply (slot_some s) in E as (q & _ & _ & _ & E); auto. lia.
Qed.

(* ------------------------------------------------------------------ *)
Section F.
  Variable K : Rng.
  Add Ring Kring : (rth K).
  Local Open Scope rng_scope.

  Lemma new_matrix_build nr nc cap es : forall m : smat K,
    new_matrix nr nc cap es = Ok m ->
    exists s, build nr nc cap es = Ok s /\ m = mkSM s (Some (repeat 0 (si_nvals s))).
  Proof.
    intros m. unfold new_matrix, build, mat_new.
    destruct (si_reinit nr nc cap) as [s0| | |] eqn:E0; cbn [obind]; try discriminate.
    assert (Hc0 : si_compressed s0 = false).
    { unfold si_reinit in E0. destruct (0 <? cap)%nat; cbn in E0; [|discriminate].
      injection E0 as <-. reflexivity. }
    unfold add_entries.
    assert (G : forall es s, ofold (fun (m : smat K) e => mat_addEntry m (fst e) (snd e)) es (mkSM s None) =
       (s' <- ofold (fun s e => si_addEntry s (fst e) (snd e)) es s ;; Ok (mkSM s' None))).
    { clear. induction es as [|e es IH]; intros s; cbn; auto. unfold mat_addEntry at 1. cbn.
      destruct (si_addEntry s (fst e) (snd e)); cbn; auto. }
    rewrite G. destruct (ofold _ es s0) as [s1| | |] eqn:E1; cbn [obind]; try discriminate.
    assert (Hc1 : si_compressed s1 = false).
    { eapply (ofold_inv_ok _ (fun s => si_compressed s = false)); eauto.
      intros s e s' _ Hs H. unfold si_addEntry in H.
      apply asserting_ok in H as [_ H]. apply asserting_ok in H as [_ H].
      apply asserting_ok in H as [_ H].
      apply obind_ok in H as (a & _ & H). apply obind_ok in H as (b & _ & H).
      apply obind_ok in H as ([q|] & _ & H).
      - apply obind_ok in H as (c & _ & H). injection H as <-. auto.
      - injection H as <-. auto. }
    unfold mat_compress. cbn [sm_si sm_vals]. rewrite Hc1.
    destruct (si_compress s1) as [s2| | |]; cbn [obind]; try discriminate.
    intros [= <-]. eauto.
  Qed.

  Lemma new_matrix_ok nr nc cap es :
    (0 < cap)%nat -> (forall e, In e es -> in_shape nr nc e) -> fits nr cap es ->
    exists m : smat K, new_matrix nr nc cap es = Ok m /\
      mrep m nr nc (fun i j => In (i, j) es) (fun _ _ => 0).
  Proof.
    intros Hc Hin HF.
    assert (E : exists m : smat K, new_matrix nr nc cap es = Ok m).
    { unfold new_matrix, mat_new.
      destruct (si_reinit_ok nr nc cap Hc) as (s0 & E0 & HR0 & N1 & N2 & N3).
      rewrite E0. cbn [obind].
      destruct (add_entries_gen es s0 (repeat [] nr) [] HR0 (rows_of_nil nr)) as [A _].
      { rewrite N1, N2; auto. }
      destruct A as (s1 & rows1 & E1 & HR1 & Ho1 & M1 & M2 & M3).
      { cbn [app]. intros i Hi. rewrite N3. rewrite N1 in Hi.
        apply (cap_cols es nr nc cap i); auto. }
      assert (G : forall es s, ofold (fun (m : smat K) e => mat_addEntry m (fst e) (snd e)) es (mkSM s None) =
         (s' <- ofold (fun s e => si_addEntry s (fst e) (snd e)) es s ;; Ok (mkSM s' None))).
      { clear. induction es as [|e es IH]; intros s; cbn; auto. unfold mat_addEntry at 1. cbn.
        destruct (si_addEntry s (fst e) (snd e)); cbn; auto. }
      rewrite G. unfold add_entries in E1. rewrite E1. cbn [obind].
      destruct (mat_compress_spec K (mkSM s1 None) rows1 nr nc es) as (m' & E & _ & HM);
        cbn [sm_si]; auto; try congruence.
      exists m'. auto. }
    destruct E as [m E]. exists m. split; auto.
    apply new_matrix_build in E as (s & Eb & ->).
    apply build_ok_inv in Eb as (_ & _ & _ & rows & HR & Ho & N1 & N2).
    eapply alloc_mrep; eauto.
  Qed.

  Lemma new_matrix_inv nr nc cap es (m : smat K) : new_matrix nr nc cap es = Ok m ->
    mrep m nr nc (fun i j => In (i, j) es) (fun _ _ => 0) /\
    (forall e, In e es -> in_shape nr nc e).
  Proof.
    intros E. apply new_matrix_build in E as (s & Eb & ->).
    apply build_ok_inv in Eb as (_ & Hin & _ & rows & HR & Ho & N1 & N2).
    split; auto. eapply alloc_mrep; eauto.
  Qed.

  (* an operation that succeeds was at a registered position *)
  Lemma run_vop_inv (m m' : smat K) nr nc P f o : mrep m nr nc P f -> run_vop m o = Ok m' ->
    (forall i j, vop_pos o = Some (i, j) -> (1 <= i <= nr)%nat /\ (1 <= j <= nc)%nat /\ P i j).
  Proof.
    intros HM H i j Hp.
    assert (E : exists r, mat_ref m i j = Ok r).
    { destruct o as [a b x|a b x|]; cbn in Hp; try discriminate; injection Hp as -> ->; cbn in H.
      - unfold mat_addValue in H. apply obind_ok in H as (r & E & _). eauto.
      - unfold mat_set in H. apply obind_ok in H as (r & E & _). eauto. }
    destruct E as [r E]. destruct (mrep_dims K m nr nc P f HM) as (D1 & D2 & _).
    assert (Hsh : (1 <= i <= nr)%nat /\ (1 <= j <= nc)%nat).
    { unfold mat_ref in E. destruct (sm_vals m); [|discriminate].
      apply obind_ok in E as (o' & E & _). unfold si_getIndex in E.
      apply asserting_ok in E as [A E]. apply asserting_ok in E as [B _].
      apply andb_prop in A as [A1 A2]. apply andb_prop in B as [B1 B2].
      apply Nat.ltb_lt in A1, B1. apply Nat.leb_le in A2, B2. lia. }
    split; [tauto|]. split; [tauto|].
    destruct (mrep_present K m nr nc P f i j HM) as [HP|HP]; try tauto.
    rewrite (mrep_ref K m nr nc P f i j HM) in E; try tauto. discriminate.
  Qed.

  Lemma run_vops_inv os : forall (m m' : smat K) nr nc P f, mrep m nr nc P f ->
    ofold run_vop os m = Ok m' ->
    mrep m' nr nc P (fold_left spec_vop os f) /\ sm_si m' = sm_si m.
  Proof.
    induction os as [|o os IH]; cbn; intros m m' nr nc P f HM H.
    - injection H as <-. auto.
    - apply obind_ok in H as (m1 & E & H).
      pose proof (run_vop_inv m m1 nr nc P f o HM E) as Hp.
      destruct (mrep_step K m nr nc P f o HM Hp) as (m1' & E' & Es & HM1).
      rewrite E in E'. injection E' as <-.
      destruct (IH m1 m' nr nc P _ HM1 H) as [A B]. split; auto. congruence.
  Qed.

  Lemma filled_inv nr nc cap es os (m : smat K) : filled nr nc cap es os = Ok m ->
    mrep m nr nc (fun i j => In (i, j) es) (spec_vops os).
  Proof.
    unfold filled. intros H. apply obind_ok in H as (m0 & E & H).
    apply new_matrix_inv in E as [HM _]. now apply run_vops_inv with (1 := HM) in H as [H _].
  Qed.

  Lemma spec_vops_absent os i j : forall f : nat -> nat -> K, f i j = 0 ->
    (forall o, In o os -> vop_pos o <> Some (i, j)) -> fold_left spec_vop os f i j = 0.
  Proof.
    induction os as [|o os IH]; cbn; intros f Hf Ho; auto.
    apply IH.
    - specialize (Ho o (or_introl eq_refl)). destruct o as [a b x|a b x|]; cbn in *; auto;
        destruct (here a b i j) eqn:E; auto; apply here_true in E as [-> ->]; tauto.
    - intros; apply Ho; auto.
  Qed.

  Lemma map_semantics nr nc cap es os :
    (0 < cap)%nat -> (forall e, In e es -> in_shape nr nc e) -> fits nr cap es ->
    (forall o p, In o os -> vop_pos o = Some p -> In p es) ->
    exists m : smat K, filled nr nc cap es os = Ok m /\
      forall i j, in_shape nr nc (i, j) -> mat_value m i j = Ok (spec_vops os i j).
  Proof.
    intros Hc Hin HF Ho. destruct (new_matrix_ok nr nc cap es Hc Hin HF) as (m & E & HM).
    destruct (mrep_run K os m nr nc _ _ HM) as (m' & E' & _ & HM').
    { intros o i j H1 H2. specialize (Ho o (i, j) H1 H2). destruct (Hin _ Ho). auto. }
    exists m'. unfold filled. rewrite E. cbn [obind]. split; auto.
    intros i j [Hi Hj]. eapply mrep_value; eauto.
  Qed.

  Lemma abort_unregistered nr nc cap es os o rest p (m : smat K) :
    filled nr nc cap es os = Ok m -> vop_pos o = Some p -> in_shape nr nc p -> ~ In p es ->
    filled nr nc cap es (os ++ o :: rest) = Fatal.
  Proof.
    intros H Hp [Hi Hj] HN. unfold filled in *. apply obind_ok in H as (m0 & E & H).
    rewrite E. cbn [obind]. rewrite ofold_app, H. cbn [obind ofold].
    assert (HM : mrep m nr nc (fun i j => In (i, j) es) (spec_vops os)).
    { apply new_matrix_inv in E as [HM _]. now apply run_vops_inv with (1 := HM) in H as [H _]. }
    destruct p as [i j]. cbn in Hi, Hj.
    destruct o as [a b x|a b x|]; cbn in Hp; try discriminate; injection Hp as -> ->; cbn [run_vop].
    - rewrite (mrep_add_absent K m nr nc _ _ i j x HM); auto.
    - rewrite (mrep_set_absent K m nr nc _ _ i j x HM); auto.
  Qed.

  Lemma BVprod_dense nr nc cap es os (m : smat K) A V coef R :
    filled nr nc cap es os = Ok m ->
    (forall i j, in_shape nr nc (i, j) -> mat_value m i j = Ok (A i j)) ->
    length V = nc -> (nr <= length R)%nat ->
    exists R', mat_BVprod m V coef R = Ok R' /\ length R' = length R /\
      forall k, nth k R' 0 = if (k <? nr)%nat then nth k R 0 + coef * mv A nc V (S k) else nth k R 0.
  Proof.
    intros H HA HV HR. pose proof (filled_inv _ _ _ _ _ _ H) as HM.
    assert (HM' : mrep m nr nc (fun i j => In (i, j) es) A).
    { eapply mrep_ext; [exact HM|]. intros i j Hi Hj. split; [tauto|].
      pose proof (mrep_value K m nr nc _ _ i j HM Hi Hj) as E. rewrite HA in E; [|split; auto].
      congruence. }
    eapply mat_BVprod_spec; eauto.
  Qed.

  Lemma BTVprod_dense nr nc cap es os (m : smat K) A V coef R :
    filled nr nc cap es os = Ok m ->
    (forall i j, in_shape nr nc (i, j) -> mat_value m i j = Ok (A i j)) ->
    length V = nr -> (nc <= length R)%nat ->
    exists R', mat_BTVprod m V coef R = Ok R' /\ length R' = length R /\
      forall k, nth k R' 0 = if (k <? nc)%nat then nth k R 0 + coef * mtv A nr V (S k) else nth k R 0.
  Proof.
    intros H HA HV HR. pose proof (filled_inv _ _ _ _ _ _ H) as HM.
    assert (HM' : mrep m nr nc (fun i j => In (i, j) es) A).
    { eapply mrep_ext; [exact HM|]. intros i j Hi Hj. split; [tauto|].
      pose proof (mrep_value K m nr nc _ _ i j HM Hi Hj) as E. rewrite HA in E; [|split; auto].
      congruence. }
    eapply mat_BTVprod_spec; eauto.
  Qed.

  (* ---------------------------------------------------------------- *)
  (* symmetric matrices *)
  Definition upo (o : vop K) : vop K :=
    match o with
    | VAdd i j x => if Nat.ltb j i then VAdd j i x else VAdd i j x
    | VSet i j x => if Nat.ltb j i then VSet j i x else VSet i j x
    | VZero => VZero
    end.

  Lemma run_sym_upo (m : smat K) o : run_sym_vop m o = run_vop m (upo o).
  Proof.
    destruct o as [i j x|i j x|]; cbn; auto; unfold sym_addValue, sym_set, upper;
      destruct (Nat.ltb j i); auto.
  Qed.

  Lemma new_sym_up n cap es : new_sym (K := K) n cap es = new_matrix n n cap (map up es).
  Proof.
    unfold new_sym, new_matrix, sym_reinit. destruct (mat_new K n n cap) as [m| | |]; cbn [obind]; auto.
    rewrite ofold_map. replace (ofold (fun m e => sym_addEntry m (fst e) (snd e)) es m) with
      (ofold (fun m e => mat_addEntry m (fst (up e)) (snd (up e))) es m); auto.
    apply ofold_ext. intros s e. unfold sym_addEntry, upper, up. destruct (snd e <? fst e)%nat; auto.
  Qed.

  Lemma run_sym_ops os : forall m : smat K,
    ofold run_sym_vop os m = ofold run_vop (map upo os) m.
  Proof.
    intros m. rewrite ofold_map. apply ofold_ext. intros; apply run_sym_upo.
  Qed.

  Lemma same_pair_sym i j a b : same_pair i j a b = same_pair i j b a.
  Proof. unfold same_pair. rewrite orb_comm. f_equal; unfold here; apply andb_comm. Qed.

  Lemma symf_spec_ext os : forall f g : nat -> nat -> K, (forall a b, symf f a b = g a b) ->
    forall a b, symf (fold_left spec_vop (map upo os) f) a b = fold_left spec_sym_vop os g a b.
  Proof.
    induction os as [|o os IH]; cbn; intros f g H a b; auto.
    apply IH. clear a b. intros a b.
    assert (Hup : forall i j, here (fst (up (i, j))) (snd (up (i, j))) (fst (up (a, b))) (snd (up (a, b)))
                    = same_pair i j a b).
    { intros i j. unfold up, same_pair, here. cbn [fst snd].
      destruct (Nat.ltb_spec j i), (Nat.ltb_spec b a); cbn [fst snd];
      apply Bool.eq_iff_eq_true; rewrite orb_true_iff, !andb_true_iff, !Nat.eqb_eq; lia. }
    assert (Hs : forall h : nat -> nat -> K, symf h a b = h (fst (up (a, b))) (snd (up (a, b)))).
    { intros h. unfold symf, up. cbn. destruct (Nat.ltb b a); auto. }
    rewrite Hs. specialize (H a b). rewrite Hs in H.
    destruct o as [i j x|i j x|]; cbn; auto.
    - rewrite <- (Hup i j), <- H. set (p := up (a, b)). unfold up. cbn [fst snd].
      destruct (Nat.ltb j i); reflexivity.
    - rewrite <- (Hup i j), <- H. set (p := up (a, b)). unfold up. cbn [fst snd].
      destruct (Nat.ltb j i); reflexivity.
  Qed.

  Lemma up_in es i j : In (up (i, j)) (map up es) <-> sym_in es i j.
  Proof.
    unfold sym_in. rewrite in_map_iff. split.
    - intros ([a b] & E & HI). unfold up in E. cbn in E.
      destruct (Nat.ltb_spec b a), (Nat.ltb_spec j i); injection E as -> ->; auto.
    - intros [H|H].
      + exists (i, j). auto.
      + exists (j, i). split; auto. unfold up; cbn.
        destruct (Nat.ltb_spec i j), (Nat.ltb_spec j i); auto; try lia. f_equal; lia.
  Qed.

  Lemma up_shape n e : in_shape n n (up e) <-> in_shape n n e.
  Proof. unfold in_shape, up. destruct (snd e <? fst e)%nat; cbn; tauto. Qed.

  Lemma filled_sym_inv n cap es os (m : smat K) : filled_sym n cap es os = Ok m ->
    exists f, mrep m n n (fun i j => In (i, j) (map up es)) f /\
      forall a b, symf f a b = spec_sym_vops os a b.
  Proof.
    unfold filled_sym. rewrite new_sym_up. intros H. apply obind_ok in H as (m0 & E & H).
    rewrite run_sym_ops in H. apply new_matrix_inv in E as [HM _].
    apply run_vops_inv with (1 := HM) in H as [H _].
    eexists; split; [exact H|]. intros a b. apply symf_spec_ext.
    intros c d. unfold symf. destruct (Nat.ltb d c); auto.
  Qed.

  Lemma sym_semantics n cap es os :
    (0 < cap)%nat -> (forall e, In e es -> in_shape n n e) -> fits n cap (map up es) ->
    (forall o i j, In o os -> vop_pos o = Some (i, j) -> sym_in es i j) ->
    exists m : smat K, filled_sym n cap es os = Ok m /\
      forall i j, in_shape n n (i, j) -> sym_value m i j = Ok (spec_sym_vops os i j).
  Proof.
    intros Hc Hin HF Ho.
    destruct (new_matrix_ok n n cap (map up es) Hc) as (m & E & HM); auto.
    { intros e He. apply in_map_iff in He as (e' & <- & He). apply up_shape. auto. }
    destruct (mrep_run K (map upo os) m n n _ _ HM) as (m' & E' & _ & HM').
    { intros o i j H1 H2. apply in_map_iff in H1 as (o' & <- & H1).
      assert (HI : exists a b, vop_pos o' = Some (a, b) /\ (i, j) = up (a, b)).
      { destruct o' as [a b x|a b x|]; cbn in H2; try discriminate; exists a, b; split; auto;
          unfold up; cbn; destruct (Nat.ltb b a); cbn in H2; congruence. }
      destruct HI as (a & b & E1 & E2). specialize (Ho o' a b H1 E1).
      apply up_in in Ho. rewrite <- E2 in Ho.
      apply in_map_iff in Ho as Ho'. destruct Ho' as (e & Ee & He).
      destruct (Hin e He) as [A1 A2]. assert (in_shape n n (up e)) as [B1 B2].
      { apply up_shape. split; auto. }
      rewrite Ee in B1, B2. cbn in B1, B2. auto. }
    assert (Ef : filled_sym (K := K) n cap es os = Ok m').
    { unfold filled_sym. rewrite new_sym_up, E. cbn [obind]. now rewrite run_sym_ops. }
    exists m'. split; auto.
    intros i j [Hi Hj]. cbn in Hi, Hj.
    rewrite (sym_value_spec K m' n _ _ i j HM') by auto. f_equal.
    apply symf_spec_ext. intros c d. unfold symf. destruct (Nat.ltb d c); auto.
  Qed.

  Lemma spec_sym_symmetric os : forall f : nat -> nat -> K, (forall a b, f a b = f b a) ->
    forall a b, fold_left spec_sym_vop os f a b = fold_left spec_sym_vop os f b a.
  Proof.
    induction os as [|o os IH]; cbn; intros f Hf a b; auto.
    apply IH. clear a b. intros a b. destruct o as [i j x|i j x|]; cbn; auto;
      rewrite (same_pair_sym i j a b); destruct (same_pair i j b a); auto. now rewrite Hf.
  Qed.

  Lemma symBV_dense big n cap es os (m : smat K) A V coef R :
    filled_sym n cap es os = Ok m ->
    (forall i j, in_shape n n (i, j) -> sym_value m i j = Ok (A i j)) ->
    length V = n -> (n <= length R)%nat ->
    exists R', sym_BVprod big m V coef R = Ok R' /\ length R' = length R /\
      forall k, nth k R' 0 =
        if (k <? n)%nat then nth k R 0 + coef * mv A n (map (chop big) V) (S k) else nth k R 0.
  Proof.
    intros H HA HV HR. apply filled_sym_inv in H as (f & HM & _).
    destruct (sym_BVprod_spec K big m n _ f V coef R HM HV HR) as (R' & E & L & F).
    exists R'. split; auto. split; auto. intros k. rewrite F.
    destruct (Nat.ltb_spec k n); auto. do 2 f_equal. unfold mv. apply sumof_ext.
    intros j Hj. apply in_seq in Hj. f_equal.
    pose proof (sym_value_spec K m n _ f (S k) j HM) as E1. rewrite HA in E1 by (split; cbn; lia).
    specialize (E1 ltac:(lia) ltac:(lia)). congruence.
  Qed.

  Lemma symBV_exact big n cap es os (m : smat K) A V coef R :
    filled_sym n cap es os = Ok m ->
    (forall i j, in_shape n n (i, j) -> sym_value m i j = Ok (A i j)) ->
    length V = n -> (n <= length R)%nat ->
    (forall x, In x V -> big x = false -> x = 0) ->
    exists R', sym_BVprod big m V coef R = Ok R' /\ length R' = length R /\
      forall k, nth k R' 0 = if (k <? n)%nat then nth k R 0 + coef * mv A n V (S k) else nth k R 0.
  Proof.
    intros H HA HV HR Hb.
    destruct (symBV_dense big n cap es os m A V coef R H HA HV HR) as (R' & E & L & F).
    exists R'. split; auto. split; auto. intros k. rewrite F.
    replace (map (chop big) V) with V; auto.
    clear -Hb. induction V as [|x V IH]; cbn; auto. f_equal; [|apply IH; intros; apply Hb; auto; now right].
    unfold chop. destruct (big x) eqn:E; auto. apply Hb; auto. now left.
  Qed.

  (* compare on filled matrices *)
  Lemma compare_filled differ nr1 nc1 cap1 es1 os1 nr2 nc2 cap2 es2 os2 (m1 m2 : smat K) :
    filled nr1 nc1 cap1 es1 os1 = Ok m1 -> filled nr2 nc2 cap2 es2 os2 = Ok m2 ->
    differ 0 0 = false ->
    exists b, mat_compare differ m1 m2 = Ok b /\
     (b = true <-> nr1 = nr2 /\ nc1 = nc2 /\
       forall i j, in_shape nr1 nc1 (i, j) ->
         (In (i, j) es1 <-> In (i, j) es2) /\
         exists x y, mat_value m1 i j = Ok x /\ mat_value m2 i j = Ok y /\ differ x y = false).
  Proof.
    intros H1 H2 D. apply filled_inv in H1. apply filled_inv in H2.
    destruct (SparseMoreProofs.compare_spec K differ m1 m2 _ _ _ _ _ _ _ _ H1 H2 D) as (b & E & Hb).
    exists b. split; auto. rewrite Hb. split.
    - intros (<- & <- & H). split; auto. split; auto. intros i j [Hi Hj]. cbn in Hi, Hj.
      destruct (H i j Hi Hj) as [A B]. split; auto.
      exists (spec_vops os1 i j), (spec_vops os2 i j). repeat split; auto.
      + eapply mrep_value; eauto.
      + eapply mrep_value; eauto.
    - intros (<- & <- & H). split; auto. split; auto. intros i j Hi Hj.
      destruct (H i j (conj Hi Hj)) as [A (x & y & E1 & E2 & E3)]. split; auto.
      rewrite (mrep_value K m1 _ _ _ _ i j H1 Hi Hj) in E1.
      rewrite (mrep_value K m2 _ _ _ _ i j H2 Hi Hj) in E2. congruence.
  Qed.

  Lemma roundtrip_filled (g : K -> K) differ nr nc cap es os (m : smat K) old :
    filled nr nc cap es os = Ok m -> differ 0 0 = false -> (forall x, differ x (g x) = false) ->
    exists recs m', mat_records m = Ok ((nr, nc, length recs), recs) /\
      mat_reinit_entries old nr nc (map (fun e => (fst e, g (snd e))) recs) = Ok m' /\
      mat_compare differ m m' = Ok true.
  Proof. intros H D0 Dg. apply filled_inv in H. eapply roundtrip_spec; eauto. Qed.

  Lemma entries_filled old nr nc (es : list (nat * nat * K)) :
    (forall e, In e es -> in_shape nr nc (fst e)) ->
    exists m, mat_reinit_entries old nr nc es = Ok m /\
      (forall i j, in_shape nr nc (i, j) -> mat_value m i j = Ok (last_value es i j)) /\
      (forall i j, in_shape nr nc (i, j) ->
         (mat_ref m i j = Fatal <-> ~ In (i, j) (map fst es))).
  Proof.
    intros Hin. destruct (reinit_entries_spec K old nr nc es Hin) as (m & E & HM).
    exists m. split; auto. split.
    - intros i j [Hi Hj]. eapply mrep_value; eauto.
    - intros i j [Hi Hj]. cbn in Hi, Hj. split.
      + intros EF HI. destruct (mrep_modify K m nr nc _ _ i j (fun x => x) HM Hi Hj HI)
          as (k & v & E' & _). congruence.
      + intros HN. eapply mrep_ref; eauto.
  Qed.

  (* diagonals *)
  Lemma sym_new_diag n cap : (0 < cap)%nat ->
    exists m m' : smat K, sym_new K n cap = Ok m /\ mat_compress m = Ok m' /\
      forall i, (1 <= i <= n)%nat -> exists k, si_getIndex (sm_si m') i i = Ok (Some k).
  Proof.
    intros Hc. set (es := map (fun i => (i, i)) (seq 1 n)).
    assert (Hin : forall e, In e es -> in_shape n n e).
    { intros e He. apply in_map_iff in He as (i & <- & Hi). apply in_seq in Hi. split; cbn; lia. }
    assert (HF : fits n cap es).
    { intros i Hi. transitivity (length [i]); [|cbn; lia]. apply NoDup_incl_length; [apply NoDup_nodup|].
      intros j Hj. apply row_cols_in in Hj. apply in_map_iff in Hj as (q & E & _).
      injection E as <- <-. now left. }
    destruct (new_matrix_ok n n cap es Hc Hin HF) as (m' & E & HM).
    assert (E' : exists m, sym_new K n cap = Ok m /\ mat_compress m = Ok m').
    { unfold new_matrix in E. unfold sym_new. apply obind_ok in E as (m0 & E0 & E).
      rewrite E0. cbn [obind]. unfold es in E. rewrite ofold_map in E. cbn [fst snd] in E.
      apply obind_ok in E as (m1 & E1 & E). exists m1. auto. }
    destruct E' as (m & E1 & E2). exists m, m'. split; auto. split; auto.
    intros i Hi. destruct (mrep_modify K m' n n _ _ i i (fun x => x) HM Hi Hi) as (k & v & E3 & _).
    - apply in_map_iff. exists i. split; auto. apply in_seq. lia.
    - unfold mat_ref in E3. destruct (sm_vals m'); [|discriminate].
      apply obind_ok in E3 as (o & E3 & E4). destruct o as [q|]; [|discriminate]. eauto.
  Qed.
End F.

(* ------------------------------------------------------------------ *)
Section SetSI.
  Variable K : Rng.
  Local Open Scope rng_scope.

  Lemma RepC_compressed s rows : RepC s rows -> si_compressed s = true.
  Proof. intros H. apply H. Qed.

  (* sharing a compressed pattern: what the matrix then holds *)
  Lemma setSI_compressed nr nc cap es s (m : smat K) :
    build nr nc cap es = Ok s ->
    let vals := match sm_vals m with Some v => v | None => repeat 0 (si_nvals s) end in
    mat_setSI m s = Ok (mkSM s (Some vals)) /\
    mat_compress (mkSM s (Some vals)) = Ok (mkSM s (Some vals)).
  Proof.
    intros Hb vals. apply build_ok_inv in Hb as (_ & _ & _ & rows & HR & _ & _ & _).
    pose proof (RepC_compressed _ _ HR) as Hc.
    unfold mat_setSI, mat_compress. cbn [sm_si sm_vals]. rewrite Hc.
    unfold vals. destruct (sm_vals m); auto.
  Qed.

  Lemma mat_set_total s (v : list K) i j x k : si_getIndex s i j = Ok (Some k) ->
    (k < length v)%nat ->
    mat_value (mkSM s (Some v)) i j = Ok (nth k v 0) /\
    exists m', mat_set (mkSM s (Some v)) i j x = Ok m'.
  Proof.
    intros E Hk. unfold mat_value, mat_set, mat_ref. cbn [sm_vals sm_si]. rewrite E. cbn [obind].
    split; [now apply aget_nth|].
    replace (Nat.ltb k (length v)) with true by (symmetry; now apply Nat.ltb_lt).
    cbn. rewrite aset_ok by auto. cbn. eauto.
  Qed.

  Lemma setSI_safe nr nc cap es s (m : smat K) :
    build nr nc cap es = Ok s ->
    (match sm_vals m with Some v => (si_nvals s <= length v)%nat | None => True end) ->
    exists m', mat_setSI m s = Ok m' /\ mat_compress m' = Ok m' /\
      forall i j x, In (i, j) es ->
        (exists y, mat_value m' i j = Ok y) /\ (exists m'', mat_set m' i j x = Ok m'').
  Proof.
    intros Hb Hv. destruct (setSI_compressed nr nc cap es s m Hb) as [E1 E2].
    eexists; split; [exact E1|]. split; [exact E2|]. intros i j x HI.
    pose proof (build_ok_inv _ _ _ _ _ Hb) as (_ & Hin & _).
    destruct (lookup_total nr nc cap es s i j Hb (Hin _ HI)) as (o & Eo & Ho & Hk).
    destruct o as [k|]; [|tauto]. specialize (Hk k eq_refl).
    match goal with |- context [mkSM s (Some ?v)] =>
      destruct (mat_set_total s v i j x k Eo) as [A B] end; eauto.
    destruct (sm_vals m); [lia|]. now rewrite repeat_length.
  Qed.

  Lemma setSI_unsafe nr nc cap es s (m : smat K) v :
    build nr nc cap es = Ok s -> sm_vals m = Some v -> (length v < si_nvals s)%nat ->
    exists m', mat_setSI m s = Ok m' /\ mat_compress m' = Ok m' /\
      exists i j, In (i, j) es /\ mat_value m' i j = UB /\ forall x, mat_set m' i j x = UB.
  Proof.
    intros Hb Hv Hl. destruct (setSI_compressed nr nc cap es s m Hb) as [E1 E2].
    rewrite Hv in E1, E2. eexists; split; [exact E1|]. split; [exact E2|].
    pose proof (build_ok_inv _ _ _ _ _ Hb) as (Hm & Hin & HF & _).
    destruct (pattern_exact nr nc cap es Hm Hin HF) as (s' & E & _ & _ & _ & Hs).
    rewrite Hb in E. injection E as <-. destruct (Hs (length v) Hl) as (i & j & HI & Ei).
    exists i, j. split; auto. unfold mat_value, mat_set, mat_ref. cbn [sm_vals sm_si].
    rewrite Ei. cbn [obind]. split.
    - unfold aget. rewrite (proj2 (nth_error_None v (length v))); auto.
    - intros x. replace (Nat.ltb (length v) (length v)) with false; auto.
      symmetry. apply Nat.ltb_ge. lia.
  Qed.

  (* sharing a pattern before it is compressed *)
  Lemma setSI_uncompressed nr nc cap es (m : smat K) :
    (0 < cap)%nat -> (forall e, In e es -> in_shape nr nc e) -> fits nr cap es ->
    exists s0 s m1 m',
      si_reinit nr nc cap = Ok s0 /\ add_entries s0 es = Ok s /\
      mat_setSI m s = Ok m1 /\ mat_compress m1 = Ok m' /\
      forall i j x, In (i, j) es ->
        (exists y, mat_value m' i j = Ok y) /\ (exists m'', mat_set m' i j x = Ok m'').
  Proof.
    intros Hc Hin HF.
    destruct (pattern_exact nr nc cap es Hc Hin HF) as (sc & Eb & _ & Hg & _).
    unfold build in Eb. apply obind_ok in Eb as (s0 & E0 & Eb). apply obind_ok in Eb as (s & E1 & Eb).
    assert (Hsc : si_compressed s = false).
    { destruct (si_reinit_ok nr nc cap Hc) as (s0' & E0' & HR0 & N1 & N2 & N3).
      rewrite E0 in E0'. injection E0' as <-.
      destruct (add_entries_gen es s0 (repeat [] nr) [] HR0 (rows_of_nil nr)) as [A _].
      { rewrite N1, N2; auto. }
      destruct A as (s1 & rows1 & E1' & HR1 & _).
      { cbn [app]. intros i Hi. rewrite N3. rewrite N1 in Hi.
        apply (cap_cols es nr nc cap i); auto. }
      rewrite E1 in E1'. injection E1' as <-. apply HR1. }
    exists s0, s, (mkSM s (sm_vals m)), (mkSM sc (Some (repeat 0 (si_nvals sc)))).
    split; auto. split; auto. split.
    { unfold mat_setSI. rewrite Hsc. reflexivity. }
    split.
    { unfold mat_compress. cbn [sm_si sm_vals]. rewrite Hsc, Eb. reflexivity. }
    intros i j x HI. destruct (Hg i j (Hin _ HI)) as [A _]. destruct (A HI) as (k & Ek & Hk).
    destruct (mat_set_total sc (repeat 0 (si_nvals sc)) i j x k Ek) as [B1 B2]; eauto.
    now rewrite repeat_length.
  Qed.
End SetSI.

(* compare with a tolerance on rational numbers *)
Lemma differ_close th a b : differ_Qc th a b = false <-> close_Qc th a b.
Proof. unfold differ_Qc, close_Qc. rewrite Bool.negb_false_iff. apply Qle_bool_iff. Qed.

Lemma close_refl th a : (0 <= th)%Q -> close_Qc th a a.
Proof.
  intros H. unfold close_Qc. setoid_replace (this a - this a)%Q with 0%Q by ring. exact H.
Qed.

Lemma compare_Qc th nr1 nc1 cap1 es1 os1 nr2 nc2 cap2 es2 os2 (m1 m2 : smat QcRng) :
  (0 <= th)%Q ->
  filled nr1 nc1 cap1 es1 os1 = Ok m1 -> filled nr2 nc2 cap2 es2 os2 = Ok m2 ->
  exists b, mat_compare (differ_Qc th) m1 m2 = Ok b /\
   (b = true <-> nr1 = nr2 /\ nc1 = nc2 /\
     forall i j, in_shape nr1 nc1 (i, j) ->
       (In (i, j) es1 <-> In (i, j) es2) /\
       exists x y, mat_value m1 i j = Ok x /\ mat_value m2 i j = Ok y /\ close_Qc th x y).
Proof.
  intros Hth H1 H2.
  assert (D : differ_Qc th r0 r0 = false) by (apply differ_close, close_refl; auto).
  destruct (compare_filled QcRng (differ_Qc th) _ _ _ _ _ _ _ _ _ _ m1 m2 H1 H2 D) as (b & E & Hb).
  exists b. split; auto. rewrite Hb.
  split; intros (A & B & C); (split; [auto|split; [auto|]]); intros i j Hij;
    destruct (C i j Hij) as (C1 & x & y & C2 & C3 & C4); split; auto;
    exists x, y; repeat split; auto; now apply differ_close.
Qed.

Lemma compare_refl_Qc th nr nc cap es os (m : smat QcRng) :
  (0 <= th)%Q -> filled nr nc cap es os = Ok m -> mat_compare (differ_Qc th) m m = Ok true.
Proof.
  intros Hth H. destruct (compare_Qc th _ _ _ _ _ _ _ _ _ _ m m Hth H H) as (b & E & Hb).
  rewrite E. f_equal. apply Hb. split; auto. split; auto. intros i j [Hi Hj]. split; [tauto|].
  apply filled_inv in H. pose proof (mrep_value QcRng m nr nc _ _ i j H Hi Hj) as Ev.
  eexists _, _; split; [exact Ev|]. split; [exact Ev|]. now apply close_refl.
Qed.
