(* Proofs about sparse matrices (values on top of a compressed pattern) *)
From Verif Require Import Base BaseProofs SparseModel SpecSparse SparseProofs.
From Coq Require Import Permutation Sorted.

Lemma rangeb i n : 1 <= i <= n -> (0 <? i) && (i <=? n) = true.
Proof. intros H. apply andb_true_intro; split; [apply Nat.ltb_lt|apply Nat.leb_le]; lia. Qed.

Lemma here_true i j a b : here i j a b = true <-> i = a /\ j = b.
Proof. unfold here. rewrite andb_true_iff, !Nat.eqb_eq. tauto. Qed.

Section MatProofs.
  Variable K : Rng.
  Add Ring Kring : (rth K).
  Local Open Scope rng_scope.
  Implicit Types (m : smat K) (v : list K) (f : nat -> nat -> K).

  (* m is a compressed nr x nc matrix with pattern P holding the values f *)
  Definition mrep m (nr nc : nat) (P : nat -> nat -> Prop) f : Prop :=
    exists rows v, RepC (sm_si m) rows /\ si_nrows (sm_si m) = nr /\ si_ncols (sm_si m) = nc /\
      sm_vals m = Some v /\ length v = si_nvals (sm_si m) /\
      (forall i j, (1 <= i <= nr)%nat -> (1 <= j <= nc)%nat ->
        (P i j <-> In j (nth (i - 1) rows [])) /\
        f i j = match slot rows i j with Some p => nth p v 0 | None => 0 end).

  Lemma mrep_ext m nr nc P P' f f' :
    mrep m nr nc P f ->
    (forall i j, (1 <= i <= nr)%nat -> (1 <= j <= nc)%nat -> (P i j <-> P' i j) /\ f i j = f' i j) ->
    mrep m nr nc P' f'.
  Proof.
    intros (rows & v & H1 & H2 & H3 & H4 & H5 & H6) HE. exists rows, v.
    do 5 (split; [assumption|]). intros i j Hi Hj.
    destruct (H6 i j Hi Hj) as [A1 A2]. destruct (HE i j Hi Hj) as [B1 B2].
    split; [tauto|congruence].
  Qed.

  Lemma mrep_dims m nr nc P f : mrep m nr nc P f ->
    si_nrows (sm_si m) = nr /\ si_ncols (sm_si m) = nc /\ si_compressed (sm_si m) = true.
  Proof. intros (rows & v & H1 & H2 & H3 & _). repeat split; auto. apply H1. Qed.

  (* zero outside the pattern *)
  Lemma mrep_absent m nr nc P f i j : mrep m nr nc P f ->
    (1 <= i <= nr)%nat -> (1 <= j <= nc)%nat -> ~ P i j -> f i j = 0.
  Proof.
    intros (rows & v & H1 & H2 & H3 & H4 & H5 & H6) Hi Hj HP.
    destruct (H6 i j Hi Hj) as [A ->]. destruct (slot rows i j) eqn:E; auto.
    exfalso. apply HP, A. destruct (in_dec Nat.eq_dec j (nth (i - 1) rows [])) as [I|N]; auto.
    apply slot_none in N. congruence.
  Qed.

  Lemma mrep_present m nr nc P f i j : mrep m nr nc P f ->
    (1 <= i <= nr)%nat -> (1 <= j <= nc)%nat -> {P i j} + {~ P i j}.
  Proof.
    intros HM Hi Hj.
    destruct (si_getIndex (sm_si m) i j) as [[k|]| | |] eqn:E.
    - left. destruct HM as (rows & v & H1 & H2 & H3 & H4 & H5 & H6).
      rewrite (si_getIndex_spec _ rows) in E; auto; try lia. injection E as E.
      apply H6; auto. destruct (in_dec Nat.eq_dec j (nth (i - 1) rows [])) as [I|N]; auto.
      apply slot_none in N. congruence.
    - right. destruct HM as (rows & v & H1 & H2 & H3 & H4 & H5 & H6).
      rewrite (si_getIndex_spec _ rows) in E; auto; try lia. injection E as E.
      intros HP. apply H6 in HP; auto. apply slot_none in E. tauto.
    - exfalso. destruct HM as (rows & v & H1 & H2 & H3 & _).
      rewrite (si_getIndex_spec _ rows) in E; auto; try lia. discriminate.
    - exfalso. destruct HM as (rows & v & H1 & H2 & H3 & _).
      rewrite (si_getIndex_spec _ rows) in E; auto; try lia. discriminate.
    - exfalso. destruct HM as (rows & v & H1 & H2 & H3 & _).
      rewrite (si_getIndex_spec _ rows) in E; auto; try lia. discriminate.
  Qed.

  Lemma mrep_value m nr nc P f i j : mrep m nr nc P f ->
    (1 <= i <= nr)%nat -> (1 <= j <= nc)%nat -> mat_value m i j = Ok (f i j).
  Proof.
    intros (rows & v & H1 & H2 & H3 & H4 & H5 & H6) Hi Hj.
    unfold mat_value. rewrite H4, (si_getIndex_spec _ rows) by (auto; lia). cbn [obind].
    destruct (H6 i j Hi Hj) as [_ ->]. destruct (slot rows i j) as [p|] eqn:E; auto.
    apply aget_nth. apply (slot_some (sm_si m)) in E as (k & _ & _ & _ & E); auto; lia.
  Qed.

  Lemma mrep_ref m nr nc P f i j : mrep m nr nc P f ->
    (1 <= i <= nr)%nat -> (1 <= j <= nc)%nat -> ~ P i j -> mat_ref m i j = Fatal.
  Proof.
    intros (rows & v & H1 & H2 & H3 & H4 & H5 & H6) Hi Hj HP.
    unfold mat_ref. rewrite H4, (si_getIndex_spec _ rows) by (auto; lia). cbn [obind].
    destruct (slot rows i j) as [p|] eqn:E; auto. exfalso.
    apply HP, H6; auto. destruct (in_dec Nat.eq_dec j (nth (i - 1) rows [])) as [I|N]; auto.
    apply slot_none in N. congruence.
  Qed.

  Lemma mrep_modify m nr nc P f i j (g : K -> K) : mrep m nr nc P f ->
    (1 <= i <= nr)%nat -> (1 <= j <= nc)%nat -> P i j ->
    exists k v, mat_ref m i j = Ok (k, v) /\ (k < length v)%nat /\ nth k v 0 = f i j /\
      mrep (mkSM (sm_si m) (Some (upd v k (g (f i j))))) nr nc P
           (fun a b => if here i j a b then g (f i j) else f a b).
  Proof.
    intros (rows & v & H1 & H2 & H3 & H4 & H5 & H6) Hi Hj HP.
    destruct (slot rows i j) as [p|] eqn:E.
    2:{ exfalso. apply slot_none in E. apply H6 in HP; auto. }
    assert (Hp : (p < length v)%nat).
    { apply (slot_some (sm_si m)) in E as (k & _ & _ & _ & E); auto; lia. }
    exists p, v. unfold mat_ref. rewrite H4, (si_getIndex_spec _ rows) by (auto; lia).
    cbn [obind]. rewrite E. apply Nat.ltb_lt in Hp as Hp'. rewrite Hp'. cbn [asserting].
    destruct (H6 i j Hi Hj) as [_ Ef]. rewrite E in Ef.
    split; [reflexivity|]. split; [auto|]. split; [auto|].
    exists rows, (upd v p (g (f i j))). cbn [sm_si sm_vals].
    split; [auto|]. split; [auto|]. split; [auto|]. split; [auto|].
    split; [now rewrite upd_length|]. intros a b Ha Hb.
    destruct (H6 a b Ha Hb) as [A1 A2]. split; auto.
    destruct (here i j a b) eqn:Eh.
    - apply here_true in Eh as [<- <-]. rewrite E, nth_upd_same; auto.
    - rewrite A2. destruct (slot rows a b) as [q|] eqn:E'; auto.
      rewrite nth_upd_diff; auto. intros ->.
      destruct (slot_inj (sm_si m) rows i j a b q) as [-> ->]; auto; try lia.
      assert (here a b a b = true) by (apply here_true; auto). congruence.
  Qed.

  Lemma mrep_addValue m nr nc P f i j x : mrep m nr nc P f ->
    (1 <= i <= nr)%nat -> (1 <= j <= nc)%nat -> P i j ->
    exists m', mat_addValue m i j x = Ok m' /\ sm_si m' = sm_si m /\
      mrep m' nr nc P (spec_vop f (VAdd i j x)).
  Proof.
    intros HM Hi Hj HP.
    destruct (mrep_modify m nr nc P f i j (fun y => y + x) HM Hi Hj HP) as (k & v & E & Hk & E1 & HM').
    unfold mat_addValue. rewrite E. cbn [obind]. rewrite (aget_nth _ _ 0) by auto.
    cbn [obind]. rewrite aset_ok by auto. cbn [obind]. rewrite E1.
    eexists; split; [reflexivity|]. split; [reflexivity|].
    eapply mrep_ext; [exact HM'|]. intros a b _ _. split; [tauto|]. cbn.
    destruct (here i j a b) eqn:Eh; auto. apply here_true in Eh as [-> ->]. reflexivity.
  Qed.

  Lemma mrep_set m nr nc P f i j x : mrep m nr nc P f ->
    (1 <= i <= nr)%nat -> (1 <= j <= nc)%nat -> P i j ->
    exists m', mat_set m i j x = Ok m' /\ sm_si m' = sm_si m /\
      mrep m' nr nc P (spec_vop f (VSet i j x)).
  Proof.
    intros HM Hi Hj HP.
    destruct (mrep_modify m nr nc P f i j (fun _ => x) HM Hi Hj HP) as (k & v & E & Hk & E1 & HM').
    unfold mat_set. rewrite E. cbn [obind]. rewrite aset_ok by auto. cbn [obind].
    eexists; split; [reflexivity|]. split; [reflexivity|]. exact HM'.
  Qed.

  Lemma mrep_add_absent m nr nc P f i j x : mrep m nr nc P f ->
    (1 <= i <= nr)%nat -> (1 <= j <= nc)%nat -> ~ P i j -> mat_addValue m i j x = Fatal.
  Proof. intros. unfold mat_addValue. erewrite mrep_ref; eauto. Qed.

  Lemma mrep_set_absent m nr nc P f i j x : mrep m nr nc P f ->
    (1 <= i <= nr)%nat -> (1 <= j <= nc)%nat -> ~ P i j -> mat_set m i j x = Fatal.
  Proof. intros. unfold mat_set. erewrite mrep_ref; eauto. Qed.

  Lemma nth_repeat0 (a : K) n i : nth i (repeat a n) a = a.
  Proof. revert i; induction n; intros [|i]; cbn; auto. Qed.

  Lemma mrep_zero m nr nc P f : mrep m nr nc P f ->
    exists m', mat_zero m = Ok m' /\ sm_si m' = sm_si m /\ mrep m' nr nc P (fun _ _ => 0).
  Proof.
    intros (rows & v & H1 & H2 & H3 & H4 & H5 & H6). unfold mat_zero. rewrite H4.
    replace (Nat.leb (si_nvals (sm_si m)) (length v)) with true
      by (symmetry; apply Nat.leb_le; lia).
    cbn [asserting]. eexists; split; [reflexivity|]. split; [reflexivity|].
    exists rows, (repeat 0 (si_nvals (sm_si m))). cbn [sm_si sm_vals].
    rewrite skipn_all2 by lia. rewrite app_nil_r.
    split; [auto|]. split; [auto|]. split; [auto|]. split; [auto|].
    split; [apply repeat_length|]. intros i j Hi Hj. split; [apply H6; auto|].
    destruct (slot rows i j); auto. now rewrite nth_repeat0.
  Qed.

  (* allocation on a compressed pattern *)
  Lemma alloc_mrep s rows nr nc es : RepC s rows -> rows_of rows es ->
    si_nrows s = nr -> si_ncols s = nc ->
    mrep (mkSM s (Some (repeat 0 (si_nvals s)))) nr nc (fun i j => In (i, j) es) (fun _ _ => 0).
  Proof.
    intros HR Ho H1 H2. exists rows, (repeat 0 (si_nvals s)). cbn [sm_si sm_vals].
    split; [auto|]. split; [auto|]. split; [auto|]. split; [auto|].
    split; [apply repeat_length|]. intros i j Hi Hj. split.
    - symmetry. apply Ho. rewrite (RepC_len _ _ HR). lia.
    - destruct (slot rows i j); auto. now rewrite nth_repeat0.
  Qed.

  Lemma mat_compress_spec m rows nr nc es : RepU (sm_si m) rows -> rows_of rows es ->
    si_nrows (sm_si m) = nr -> si_ncols (sm_si m) = nc ->
    exists m', mat_compress m = Ok m' /\
      si_compress (sm_si m) = Ok (sm_si m') /\
      mrep m' nr nc (fun i j => In (i, j) es) (fun _ _ => 0).
  Proof.
    intros HR Ho H1 H2. unfold mat_compress.
    replace (si_compressed (sm_si m)) with false by (symmetry; apply HR).
    destruct (si_compress_spec _ _ HR) as (s' & E & HR' & E1 & E2 & E3). rewrite E. cbn [obind].
    eexists; split; [reflexivity|]. split; [exact eq_refl|].
    eapply alloc_mrep; eauto; [|congruence|congruence]. now apply rows_of_sorted.
  Qed.

  (* histories *)
  Lemma mrep_step m nr nc P f (o : vop K) : mrep m nr nc P f ->
    (forall i j, vop_pos o = Some (i, j) -> (1 <= i <= nr)%nat /\ (1 <= j <= nc)%nat /\ P i j) ->
    exists m', run_vop m o = Ok m' /\ sm_si m' = sm_si m /\ mrep m' nr nc P (spec_vop f o).
  Proof.
    intros HM Ho. destruct o as [i j x|i j x|]; cbn in Ho.
    - destruct (Ho i j eq_refl) as (A & B & C). apply mrep_addValue; auto.
    - destruct (Ho i j eq_refl) as (A & B & C). apply mrep_set; auto.
    - apply (mrep_zero m nr nc P f HM).
  Qed.

  Lemma mrep_run os : forall m nr nc P f, mrep m nr nc P f ->
    (forall o i j, In o os -> vop_pos o = Some (i, j) ->
       (1 <= i <= nr)%nat /\ (1 <= j <= nc)%nat /\ P i j) ->
    exists m', ofold run_vop os m = Ok m' /\ sm_si m' = sm_si m /\
      mrep m' nr nc P (fold_left spec_vop os f).
  Proof.
    induction os as [|o os IH]; intros m nr nc P f HM Ho; cbn.
    - exists m; auto.
    - destruct (mrep_step m nr nc P f o HM) as (m1 & E & Es & HM1).
      + intros; eapply Ho; eauto. now left.
      + rewrite E. cbn. destruct (IH m1 nr nc P (spec_vop f o) HM1) as (m2 & E2 & Es2 & HM2).
        * intros; eapply Ho; eauto. now right.
        * exists m2. repeat split; auto. congruence.
  Qed.

  (* ---------------------------------------------------------------- *)
  (* products *)
  Lemma aadd_ok (R : list K) i x : (i < length R)%nat ->
    aadd K R i x = Ok (upd R i (nth i R 0 + x)).
  Proof. intros H. unfold aadd. rewrite (aget_nth _ _ 0) by auto. cbn. now apply aset_ok. Qed.

  Lemma upd_upd (l : list K) i a b : upd (upd l i a) i b = upd l i b.
  Proof. revert i; induction l; intros [|i]; cbn; f_equal; auto. Qed.
  Lemma upd_id (l : list K) i : (i < length l)%nat -> upd l i (nth i l 0) = l.
  Proof. revert i; induction l; intros [|i] H; cbn in *; try lia; auto. f_equal. apply IHl; lia. Qed.

  (* accumulate into one cell *)
  Lemma acc_cell {A} (g : A -> K) (step : list K -> A -> outcome (list K)) (i : nat) l R :
    (i < length R)%nat ->
    (forall R a, In a l -> (i < length R)%nat -> step R a = Ok (upd R i (nth i R 0 + g a))) ->
    ofold step l R = Ok (upd R i (nth i R 0 + sumof g l)).
  Proof.
    revert R; induction l as [|a l IH]; intros R Hi Hs; cbn [ofold].
    - rewrite sumof_nil. replace (nth i R 0 + 0) with (nth i R 0) by ring. now rewrite upd_id.
    - rewrite Hs by (auto; now left). cbn [obind]. rewrite IH.
      + rewrite upd_upd, nth_upd_same by auto. rewrite sumof_cons. do 2 f_equal. ring.
      + now rewrite upd_length.
      + intros; apply Hs; auto. now right.
  Qed.

  (* sum over the slots of a row = sum over all columns *)
  Lemma row_sum (r : list nat) (v : list K) (base : nat) nc (h : nat -> K -> K) :
    NoDup r -> (forall j, In j r -> (1 <= j <= nc)%nat) ->
    (forall j, h j 0 = 0) ->
    sumof (fun k => h (nth k r 0%nat) (nth (base + k) v 0)) (seq 0 (length r)) =
    sumof (fun j => h j (match index_of j r with Some k => nth (base + k) v 0 | None => 0 end))
          (seq 1 nc).
  Proof.
    intros ND Hr Hh.
    set (F := fun j => h j (match index_of j r with Some k => nth (base + k) v 0 | None => 0 end)).
    transitivity (sumof F r).
    - transitivity (sumof F (map (fun k => nth k r 0%nat) (seq 0 (length r)))).
      + rewrite sumof_map. apply sumof_ext. intros k Hk. apply in_seq in Hk. unfold F.
        rewrite (index_of_nth r k); auto. apply nth_error_nth'. lia.
      + f_equal. apply (list_ext_nth 0%nat).
        * now rewrite map_length, seq_length.
        * intros i Hi. rewrite map_length, seq_length in Hi.
          rewrite (nth_indep _ _ (nth 0 r 0%nat)) by (rewrite map_length, seq_length; auto).
          change (nth 0 r 0%nat) with ((fun k => nth k r 0%nat) 0%nat).
          rewrite map_nth, seq_nth; auto.
    - set (p := fun j => if in_dec Nat.eq_dec j r then true else false).
      rewrite (sumof_ext K F (fun j => if p j then F j else 0) (seq 1 nc)).
      + rewrite <- sumof_filter. apply sumof_perm. apply NoDup_Permutation; auto.
        * apply NoDup_filter, seq_NoDup.
        * intros j. rewrite filter_In, in_seq. unfold p. destruct (in_dec _ _ _) as [I|N].
          -- split; auto. intros _. split; auto. specialize (Hr j I). lia.
          -- split; [tauto|]. intros [_ C]; discriminate.
      + intros j _. unfold p. destruct (in_dec _ _ _) as [I|N]; auto.
        unfold F. apply index_of_none in N. rewrite N. apply Hh.
  Qed.

  Lemma mrep_slot_val m nr rows i k :
    RepC (sm_si m) rows -> si_nrows (sm_si m) = nr -> (i < nr)%nat ->
    (k < length (nth i rows []))%nat ->
    col_at (sm_si m) (psum rows i + k) = Ok (nth k (nth i rows []) 0%nat).
  Proof.
    intros HR Hn Hi Hk. unfold col_at.
    pose proof (RepC_len _ _ HR) as HL.
    rewrite (aget_nth_error _ _ (Some (nth k (nth i rows []) 0%nat))); auto.
    eapply RepC_cell; eauto; [lia|]. now apply nth_error_nth'.
  Qed.

  Lemma row_range rows i : (1 <= i)%nat -> (i - 1 < length rows)%nat ->
    psum rows i = (psum rows (i - 1) + length (nth (i - 1) rows (@nil nat)))%nat.
  Proof.
    intros H1 H2. replace i with (S (i - 1)) at 1 by lia. now rewrite psum_S.
  Qed.

  Lemma psum_bound s rows i k : RepC s rows -> (i < length rows)%nat ->
    (k < length (nth i rows []))%nat -> (psum rows i + k < si_nvals s)%nat.
  Proof.
    intros (_ & _ & _ & _ & Hn) Hi Hk. rewrite Hn, <- psum_all.
    apply Nat.lt_le_trans with (psum rows (S i)).
    - rewrite psum_S by lia. lia.
    - apply psum_mono. lia.
  Qed.

  Lemma seq_shift_map s n : seq s n = map (fun k => (s + k)%nat) (seq 0 n).
  Proof.
    apply (list_ext_nth 0%nat); rewrite ?map_length, ?seq_length; auto.
    intros i Hi. rewrite seq_nth by auto.
    rewrite (nth_indep _ _ ((fun k => (s + k)%nat) 0%nat)) by (rewrite map_length, seq_length; auto).
    rewrite map_nth, seq_nth; auto.
  Qed.

  Lemma prod_row_spec m nr nc P f v V coef R i :
    mrep m nr nc P f -> sm_vals m = Some v -> length V = nc -> (nr <= length R)%nat ->
    (1 <= i <= nr)%nat ->
    prod_row K m v V coef R i = Ok (upd R (i - 1) (nth (i - 1) R 0 + coef * mv f nc V i)).
  Proof.
    intros (rows & v' & HR & N1 & N2 & Hv & Hlen & Hf) Ev HV HRl Hi.
    rewrite Ev in Hv. injection Hv as <-.
    pose proof (RepC_len _ _ HR) as HL. unfold prod_row.
    rewrite (aget_nth_error _ _ _ (RepC_iofeir _ rows (i - 1) HR ltac:(lia))).
    rewrite (aget_nth_error _ _ _ (RepC_iofeir _ rows i HR ltac:(lia))). cbn [obind].
    pose proof (row_range rows i ltac:(lia) ltac:(lia)) as Er. rewrite Er.
    set (r := nth (i - 1) rows []) in *. set (base := psum rows (i - 1)) in *.
    assert (Hr : In r rows) by (apply nth_In; lia).
    assert (HIr : NoDup r /\ (forall j, In j r -> (1 <= j <= nc)%nat)).
    { destruct HR as (_ & _ & Hok & _). rewrite <- N2. apply Hok; auto. }
    assert (Esum : sumof (fun k => nth (base + k) v 0 * nth (nth k r 0%nat - 1) V 0 * coef)
                         (seq 0 (length r)) = coef * mv f nc V i).
    { rewrite (row_sum r v base nc (fun j x => x * nth (j - 1) V 0 * coef)); try tauto.
      - unfold mv. rewrite <- sumof_scal. apply sumof_ext. intros j Hj. apply in_seq in Hj.
        destruct (Hf i j) as [_ ->]; try lia. unfold slot. fold r. fold base.
        destruct (index_of j r); cbn [option_map]; ring.
      - intros; ring. }
    destruct (Nat.eqb_spec (S (base + length r) - S base) 0) as [E0|E0].
    - assert (length r = 0)%nat by lia. rewrite H in Esum. cbn in Esum. rewrite <- Esum.
      f_equal. rewrite <- (upd_id R (i - 1)) at 1 by lia. f_equal. unfold sumof; cbn. ring.
    - replace (S (base + length r) - 2 - (S base - 1))%nat with (length r - 1)%nat by lia.
      replace (S (length r - 1)) with (length r) by lia.
      replace (S base - 1)%nat with base by lia.
      rewrite seq_shift_map.
      rewrite (acc_cell (fun p => nth p v 0 * nth (nth (p - base) r 0%nat - 1) V 0 * coef) _ (i - 1)).
      + do 3 f_equal. rewrite sumof_map. rewrite <- Esum. apply sumof_ext.
        intros k _. replace (base + k - base)%nat with k by lia. reflexivity.
      + lia.
      + intros R' p Hp HR'. apply in_map_iff in Hp as (k & <- & Hk). apply in_seq in Hk.
        pose proof (mrep_slot_val m nr rows (i - 1) k HR N1) as Ec.
        fold base r in Ec. rewrite Ec by lia. clear Ec.
        cbn [obind]. rewrite (aget_nth v _ 0).
        2:{ rewrite Hlen. apply (psum_bound _ rows (i - 1) k HR); [lia|]. fold r; lia. }
        cbn [obind]. fold r.
        assert (Hin : In (nth k r 0%nat) r) by (apply nth_In; lia).
        destruct HIr as [_ HIr]. specialize (HIr _ Hin).
        rewrite (aget_nth V _ 0) by lia. cbn [obind].
        replace (base + k - base)%nat with k by lia. apply aadd_ok. lia.
  Qed.

  (* apply a row-wise update to all rows *)
  Lemma rows_loop (step : list K -> nat -> outcome (list K)) (g : nat -> K) n : forall R,
    (n <= length R)%nat ->
    (forall R i, (1 <= i <= n)%nat -> (n <= length R)%nat ->
       step R i = Ok (upd R (i - 1) (nth (i - 1) R 0 + g i))) ->
    exists R', ofold step (seq 1 n) R = Ok R' /\ length R' = length R /\
      forall k, nth k R' 0 = if (k <? n)%nat then nth k R 0 + g (S k) else nth k R 0.
  Proof.
    intros R HR Hs.
    assert (G : forall q, (q <= n)%nat -> exists R', ofold step (seq 1 q) R = Ok R' /\
      length R' = length R /\
      forall k, nth k R' 0 = if (k <? q)%nat then nth k R 0 + g (S k) else nth k R 0).
    { induction q as [|q IH]; intros Hq.
      - exists R. cbn. auto.
      - destruct IH as (R1 & E1 & L1 & F1); [lia|].
        rewrite seq_S, ofold_app, E1. cbn [obind ofold]. rewrite Hs by lia. cbn [obind].
        eexists; split; [reflexivity|]. split; [now rewrite upd_length|]. intros k.
        replace (1 + q - 1)%nat with q by lia.
        rewrite nth_upd by lia. destruct (Nat.eqb_spec q k) as [<-|NE].
        + rewrite F1, Nat.ltb_irrefl.
          replace (q <? S q)%nat with true by (symmetry; apply Nat.ltb_lt; lia). reflexivity.
        + rewrite F1. destruct (Nat.ltb_spec k q), (Nat.ltb_spec k (S q)); auto; lia. }
    apply G; lia.
  Qed.

  Lemma mat_BVprod_spec m nr nc P f V coef R :
    mrep m nr nc P f -> length V = nc -> (nr <= length R)%nat ->
    exists R', mat_BVprod m V coef R = Ok R' /\ length R' = length R /\
      forall k, nth k R' 0 = if (k <? nr)%nat then nth k R 0 + coef * mv f nc V (S k) else nth k R 0.
  Proof.
    intros HM HV HR. destruct (mrep_dims _ _ _ _ _ HM) as (D1 & D2 & D3).
    unfold mat_BVprod. rewrite D3. cbn [asserting].
    pose proof HM as (rows & v & _ & _ & _ & Ev & _). rewrite Ev.
    rewrite D1, D2. replace (Nat.eqb nc (length V)) with true by (symmetry; apply Nat.eqb_eq; auto).
    replace (Nat.leb nr (length R)) with true by (symmetry; apply Nat.leb_le; auto).
    cbn [asserting]. apply (rows_loop _ (fun i => coef * mv f nc V i)); auto.
    intros R1 i Hi HR1. eapply prod_row_spec; eauto.
  Qed.

  (* pointwise accumulation: R[j] += g a j for every step *)
  Lemma acc_all {A} (step : list K -> A -> outcome (list K)) (g : A -> nat -> K) n l : forall R,
    (n <= length R)%nat ->
    (forall R a, In a l -> (n <= length R)%nat -> exists R', step R a = Ok R' /\
       length R' = length R /\ forall k, nth k R' 0 = nth k R 0 + g a k) ->
    exists R', ofold step l R = Ok R' /\ length R' = length R /\
      forall k, nth k R' 0 = nth k R 0 + sumof (fun a => g a k) l.
  Proof.
    induction l as [|a l IH]; intros R HR Hs; cbn [ofold].
    - exists R. repeat split; auto. intros k. rewrite sumof_nil. ring.
    - destruct (Hs R a (or_introl eq_refl) HR) as (R1 & E1 & L1 & F1). rewrite E1. cbn [obind].
      destruct (IH R1) as (R2 & E2 & L2 & F2); [lia| |].
      + intros; apply Hs; auto. now right.
      + exists R2. split; auto. split; [lia|]. intros k. rewrite F2, F1, sumof_cons. ring.
  Qed.

  Lemma tprod_row_spec m nr nc P f v V coef R i :
    mrep m nr nc P f -> sm_vals m = Some v -> length V = nr -> (nc <= length R)%nat ->
    (1 <= i <= nr)%nat ->
    exists R', tprod_row K m v V coef R i = Ok R' /\ length R' = length R /\
      forall k, nth k R' 0 = nth k R 0 +
        (if (k <? nc)%nat then f i (S k) * nth (i - 1) V 0 * coef else 0).
  Proof.
    intros (rows & v' & HR & N1 & N2 & Hv & Hlen & Hf) Ev HV HRl Hi.
    rewrite Ev in Hv. injection Hv as <-.
    pose proof (RepC_len _ _ HR) as HL. unfold tprod_row.
    rewrite (aget_nth_error _ _ _ (RepC_iofeir _ rows (i - 1) HR ltac:(lia))).
    rewrite (aget_nth_error _ _ _ (RepC_iofeir _ rows i HR ltac:(lia))). cbn [obind].
    pose proof (row_range rows i ltac:(lia) ltac:(lia)) as Er. rewrite Er.
    set (r := nth (i - 1) rows []) in *. set (base := psum rows (i - 1)) in *.
    assert (Hr : In r rows) by (apply nth_In; lia).
    assert (HIr : NoDup r /\ (forall j, In j r -> (1 <= j <= nc)%nat)).
    { destruct HR as (_ & _ & Hok & _). rewrite <- N2. apply Hok; auto. }
    set (y := nth (i - 1) V 0).
    assert (Hterm : forall k,
      sumof (fun q => if Nat.eqb (nth q r 0%nat) (S k) then nth (base + q) v 0 * y * coef else 0)
            (seq 0 (length r)) =
      (if (k <? nc)%nat then f i (S k) * y * coef else 0)).
    { intros k.
      rewrite (row_sum r v base nc (fun j x => if Nat.eqb j (S k) then x * y * coef else 0)); try tauto.
      - destruct (Nat.ltb_spec k nc) as [C|C].
        + rewrite (sumof_delta_nat K (S k) (fun j => match index_of j r with
               | Some q => nth (base + q) v 0 | None => 0 end * y * coef)).
          * destruct (Hf i (S k)) as [_ ->]; try lia. unfold slot. fold r. fold base.
            destruct (index_of (S k) r); reflexivity.
          * apply seq_NoDup.
          * apply in_seq; lia.
        + apply sumof_zero. intros j Hj. apply in_seq in Hj.
          destruct (Nat.eqb_spec j (S k)); auto; lia.
      - intros j. destruct (Nat.eqb j (S k)); ring. }
    destruct (Nat.eqb_spec (S (base + length r) - S base) 0) as [E0|E0].
    - exists R. split; auto. split; auto. intros k. rewrite <- Hterm.
      replace (length r) with 0%nat by lia. unfold sumof; cbn. ring.
    - replace (S (base + length r) - 2 - (S base - 1))%nat with (length r - 1)%nat by lia.
      replace (S (length r - 1)) with (length r) by lia.
      replace (S base - 1)%nat with base by lia.
      rewrite seq_shift_map.
      destruct (acc_all (fun R p =>
             c <- col_at (sm_si m) p ;;
             x <- aget v p ;;
             y <- aget V (i - 1) ;;
             aadd K R (c - 1) (x * y * coef))
         (fun p k => if Nat.eqb (nth (p - base) r 0%nat) (S k) then nth p v 0 * y * coef else 0)
         nc (map (fun k => (base + k)%nat) (seq 0 (length r))) R HRl) as (R' & E' & L' & F').
      + intros R' p Hp HR'. apply in_map_iff in Hp as (q & <- & Hq). apply in_seq in Hq.
        pose proof (mrep_slot_val m nr rows (i - 1) q HR N1) as Ec.
        fold base r in Ec. rewrite Ec by lia. clear Ec.
        cbn [obind]. rewrite (aget_nth v _ 0).
        2:{ rewrite Hlen. apply (psum_bound _ rows (i - 1) q HR); [lia|]. fold r; lia. }
        cbn [obind]. fold r.
        assert (Hin : In (nth q r 0%nat) r) by (apply nth_In; lia).
        destruct HIr as [_ HIr]. specialize (HIr _ Hin).
        rewrite (aget_nth V _ 0) by lia. cbn [obind]. fold y.
        rewrite aadd_ok by lia. eexists; split; [reflexivity|]. split; [now rewrite upd_length|].
        intros k. rewrite nth_upd by lia. replace (base + q - base)%nat with q by lia.
        destruct (Nat.eqb_spec (nth q r 0%nat - 1) k) as [E|E];
        destruct (Nat.eqb_spec (nth q r 0%nat) (S k)) as [G|G]; try lia; [subst k|]; ring.
      + exists R'. split; auto. split; auto. intros k. rewrite F'. f_equal.
        rewrite sumof_map, <- Hterm. apply sumof_ext. intros q _.
        replace (base + q - base)%nat with q by lia. reflexivity.
  Qed.

  Lemma mat_BTVprod_spec m nr nc P f V coef R :
    mrep m nr nc P f -> length V = nr -> (nc <= length R)%nat ->
    exists R', mat_BTVprod m V coef R = Ok R' /\ length R' = length R /\
      forall k, nth k R' 0 = if (k <? nc)%nat then nth k R 0 + coef * mtv f nr V (S k) else nth k R 0.
  Proof.
    intros HM HV HR. destruct (mrep_dims _ _ _ _ _ HM) as (D1 & D2 & D3).
    unfold mat_BTVprod. rewrite D3. cbn [asserting].
    pose proof HM as (rows & v & _ & _ & _ & Ev & _). rewrite Ev.
    rewrite D1, D2. replace (Nat.eqb nr (length V)) with true by (symmetry; apply Nat.eqb_eq; auto).
    replace (Nat.leb nc (length R)) with true by (symmetry; apply Nat.leb_le; auto).
    cbn [asserting].
    destruct (acc_all (tprod_row K m v V coef)
       (fun i k => if (k <? nc)%nat then f i (S k) * nth (i - 1) V 0 * coef else 0)
       nc (seq 1 nr) R HR) as (R' & E' & L' & F').
    - intros R1 i Hi HR1. apply in_seq in Hi. eapply tprod_row_spec; eauto. lia.
    - exists R'. split; auto. split; auto. intros k. rewrite F'.
      destruct (Nat.ltb_spec k nc).
      + f_equal. unfold mtv. rewrite <- sumof_scal. apply sumof_ext. intros; ring.
      + rewrite sumof_zero by auto. ring.
  Qed.

  (* symmetric product *)
  Definition symf f : nat -> nat -> K := fun i j => if Nat.ltb j i then f j i else f i j.

  Lemma sym_value_spec m n P f i j : mrep m n n P f ->
    (1 <= i <= n)%nat -> (1 <= j <= n)%nat -> sym_value m i j = Ok (symf f i j).
  Proof.
    intros HM Hi Hj. unfold sym_value, upper, symf.
    destruct (Nat.ltb j i); eapply mrep_value; eauto.
  Qed.

  Lemma symf_sym f i j : symf f i j = symf f j i.
  Proof. unfold symf. destruct (Nat.ltb_spec j i), (Nat.ltb_spec i j); auto; try lia.
    assert (i = j) by lia. now subst. Qed.

  Definition chop (big : K -> bool) (x : K) : K := if big x then x else 0.

  Lemma sym_BVprod_spec big m n P f V coef R :
    mrep m n n P f -> length V = n -> (n <= length R)%nat ->
    exists R', sym_BVprod big m V coef R = Ok R' /\ length R' = length R /\
      forall k, nth k R' 0 =
        if (k <? n)%nat then nth k R 0 + coef * mv (symf f) n (map (chop big) V) (S k)
        else nth k R 0.
  Proof.
    intros HM HV HR. destruct (mrep_dims _ _ _ _ _ HM) as (D1 & D2 & D3).
    unfold sym_BVprod. rewrite D3. cbn [asserting].
    pose proof HM as (rows & v & _ & _ & _ & Ev & _). rewrite Ev.
    rewrite D1. replace (Nat.eqb n (length V)) with true by (symmetry; apply Nat.eqb_eq; auto).
    replace (Nat.leb n (length R)) with true by (symmetry; apply Nat.leb_le; auto).
    cbn [asserting].
    apply (rows_loop _ (fun i => coef * mv (symf f) n (map (chop big) V) i)); auto. clear R HR.
    intros R i Hi HR.
    assert (Hstep : forall j a b R, (1 <= j <= n)%nat -> (a = i /\ b = j \/ a = j /\ b = i) ->
      (i - 1 < length R)%nat ->
      (y <- aget V (j - 1) ;;
       if big y then x <- sym_value m a b ;; aadd K R (i - 1) (x * y * coef) else Ok R)
      = Ok (upd R (i - 1) (nth (i - 1) R 0 + coef * (symf f i j * nth (j - 1) (map (chop big) V) 0)))).
    { intros j a b R1 Hj Hab HR1. rewrite (aget_nth V _ 0) by lia. cbn [obind].
      rewrite (nth_indep (map _ _) 0 (chop big 0)) by (rewrite map_length; lia).
      rewrite map_nth. unfold chop.
      destruct (big (nth (j - 1) V 0)).
      - rewrite (sym_value_spec m n P f a b) by (auto; lia). cbn [obind].
        rewrite aadd_ok by auto. do 3 f_equal.
        destruct Hab as [[-> ->]|[-> ->]]; [|rewrite symf_sym]; ring.
      - f_equal. rewrite <- (upd_id R1 (i - 1)) at 1 by auto. f_equal. ring. }
    rewrite (acc_cell (fun j => coef * (symf f i j * nth (j - 1) (map (chop big) V) 0)) _ (i - 1)).
    - cbn [obind].
      rewrite (acc_cell (fun j => coef * (symf f i j * nth (j - 1) (map (chop big) V) 0)) _ (i - 1)).
      + rewrite upd_upd, nth_upd_same by lia. do 2 f_equal. unfold mv.
        rewrite !sumof_scal.
        replace n with (i + (n - i))%nat at 2 by lia.
        rewrite seq_app, sumof_app. replace (1 + i)%nat with (i + 1)%nat by lia. ring.
      + rewrite upd_length. lia.
      + intros R1 j Hj HR1. apply in_seq in Hj. apply Hstep; auto. lia.
    - lia.
    - intros R1 j Hj HR1. apply in_seq in Hj. apply Hstep; auto. lia.
  Qed.
End MatProofs.
Arguments mrep {K} m nr nc P f.
Arguments symf {K} f.
Arguments chop {K} big x.
