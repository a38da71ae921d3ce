(* construction from entry lists, text records, compare *)
From Verif Require Import Base BaseProofs SparseModel SpecSparse SparseProofs SparseMatProofs.
From Coq Require Import Permutation Sorted.

Lemma all_pairs_spec {A} (d : A) (f : A -> A -> bool) n : forall l1 l2,
  n <= length l1 -> n <= length l2 ->
  exists b, all_pairs f n l1 l2 = Ok b /\
    (b = true <-> forall k, k < n -> f (nth k l1 d) (nth k l2 d) = true).
Proof.
  induction n as [|n IH]; intros l1 l2 H1 H2; cbn.
  - exists true. split; auto. split; auto. intros _ k Hk; lia.
  - destruct l1 as [|x l1]; [cbn in H1; lia|]. destruct l2 as [|y l2]; [cbn in H2; lia|].
    cbn in H1, H2. destruct (f x y) eqn:E.
    + destruct (IH l1 l2) as (b & E1 & E2); try lia. exists b. split; auto.
      rewrite E2. split; intros H k Hk.
      * destruct k; auto. cbn. apply H; lia.
      * apply (H (S k)); lia.
    + exists false. split; auto. split; [discriminate|]. intros H.
      specialize (H 0 ltac:(lia)). cbn in H. congruence.
Qed.

Lemma rows_eq_of_layout (r1 r2 : list (list nat)) :
  length r1 = length r2 -> (forall i, i <= length r1 -> psum r1 i = psum r2 i) ->
  concat r1 = concat r2 -> r1 = r2.
Proof.
  intros HL HP HC. apply (list_ext_nth []); auto. intros i Hi.
  assert (Len : length (nth i r1 []) = length (nth i r2 [])).
  { pose proof (HP (S i) ltac:(lia)) as A. rewrite !psum_S in A by lia.
    rewrite (HP i) in A by lia. lia. }
  apply (list_ext_nth 0); auto. intros k Hk.
  assert (E : nth_error (nth i r1 []) k = nth_error (nth i r2 []) k).
  { rewrite <- !nth_error_concat by lia. rewrite HC, (HP i) by lia. reflexivity. }
  erewrite !nth_error_nth' with (d := 0) in E by lia. congruence.
Qed.

Lemma strict_ext l1 l2 : StronglySorted lt l1 -> StronglySorted lt l2 ->
  (forall x, In x l1 <-> In x l2) -> l1 = l2.
Proof.
  intros H1. revert l2; induction H1 as [|x l1 H1 IH F1]; intros l2 H2 HE.
  - destruct l2 as [|y l2]; auto. exfalso. apply (HE y). now left.
  - destruct H2 as [|y l2 H2 F2]; [exfalso; apply (HE x); now left|].
    rewrite Forall_forall in F1, F2.
    assert (x = y).
    { destruct (proj1 (HE x) (or_introl eq_refl)) as [E|E]; auto.
      destruct (proj2 (HE y) (or_introl eq_refl)) as [E'|E']; auto.
      specialize (F1 y E'). specialize (F2 x E). lia. }
    subst y. f_equal. apply IH; auto. intros z. split; intros Hz.
    + destruct (proj1 (HE z) (or_intror Hz)) as [E|E]; auto. subst. specialize (F1 z Hz). lia.
    + destruct (proj2 (HE z) (or_intror Hz)) as [E|E]; auto. subst. specialize (F2 z Hz). lia.
Qed.

Section More.
  Variable K : Rng.
  Add Ring Kring : (rth K).
  Local Open Scope rng_scope.

  Lemma mrep_rows_eq (m1 m2 : smat K) rows1 rows2 :
    RepC (sm_si m1) rows1 -> RepC (sm_si m2) rows2 ->
    si_nrows (sm_si m1) = si_nrows (sm_si m2) ->
    ((forall k, (k <= si_nrows (sm_si m1))%nat ->
        nth k (si_iofeir (sm_si m1)) 0%nat = nth k (si_iofeir (sm_si m2)) 0%nat) /\
     si_columns (sm_si m1) = si_columns (sm_si m2)) <-> rows1 = rows2.
  Proof.
    intros H1 H2 HN. pose proof (RepC_len _ _ H1) as L1. pose proof (RepC_len _ _ H2) as L2.
    split.
    - intros [Hi Hc]. apply rows_eq_of_layout; [lia| |].
      + intros i Hle.
        specialize (Hi i ltac:(lia)).
        rewrite (nth_error_nth _ _ 0%nat (RepC_iofeir _ rows1 i H1 ltac:(lia))) in Hi.
        rewrite (nth_error_nth _ _ 0%nat (RepC_iofeir _ rows2 i H2 ltac:(lia))) in Hi. lia.
      + destruct H1 as (_ & (_ & C1 & _) & _). destruct H2 as (_ & (_ & C2 & _) & _).
        rewrite C1, C2, <- !concat_map in Hc.
        clear -Hc. revert Hc. generalize (concat rows1) (concat rows2).
        induction l as [|x l IH]; intros [|y l'] H; cbn in H; try discriminate; auto.
        injection H as -> H. f_equal. auto.
    - intros <-. split.
      + intros k Hk.
        rewrite (nth_error_nth _ _ 0%nat (RepC_iofeir _ rows1 k H1 ltac:(lia))).
        rewrite (nth_error_nth _ _ 0%nat (RepC_iofeir _ rows1 k H2 ltac:(lia))). reflexivity.
      + destruct H1 as (_ & (_ & C1 & _) & _). destruct H2 as (_ & (_ & C2 & _) & _). congruence.
  Qed.

  Lemma compare_spec differ (m1 m2 : smat K) nr1 nc1 P1 f1 nr2 nc2 P2 f2 :
    mrep m1 nr1 nc1 P1 f1 -> mrep m2 nr2 nc2 P2 f2 -> differ 0 0 = false ->
    exists b, mat_compare differ m1 m2 = Ok b /\
     (b = true <-> nr1 = nr2 /\ nc1 = nc2 /\
       forall i j, (1 <= i <= nr1)%nat -> (1 <= j <= nc1)%nat ->
         (P1 i j <-> P2 i j) /\ differ (f1 i j) (f2 i j) = false).
  Proof.
    intros HM1 HM2 D0.
    destruct HM1 as (rows1 & v1 & R1 & N1 & C1 & V1 & L1 & F1).
    destruct HM2 as (rows2 & v2 & R2 & N2 & C2 & V2 & L2 & F2).
    unfold mat_compare. rewrite V1, V2.
    replace (si_compressed (sm_si m1)) with true by (symmetry; apply R1).
    replace (si_compressed (sm_si m2)) with true by (symmetry; apply R2).
    cbn [andb asserting]. rewrite N1, N2, C1, C2.
    destruct (Nat.eqb_spec nr1 nr2) as [E1|E1]; cbn [negb];
      [|exists false; split; auto; split; [discriminate|tauto]]. rewrite <- E1 in N2, F2 |- *. clear E1 nr2.
    destruct (Nat.eqb_spec nc1 nc2) as [E2|E2]; cbn [negb];
      [|exists false; split; auto; split; [discriminate|tauto]]. rewrite <- E2 in C2, F2 |- *. clear E2 nc2.
    pose proof (RepC_len _ _ R1) as HL1. pose proof (RepC_len _ _ R2) as HL2.
    (* equal patterns iff equal rows *)
    assert (HP : (forall i j, (1 <= i <= nr1)%nat -> (1 <= j <= nc1)%nat -> (P1 i j <-> P2 i j))
                 <-> rows1 = rows2).
    { split.
      - intros HE. apply (list_ext_nth []); [lia|]. intros i Hi.
        apply strict_ext.
        + apply R1, nth_In; auto.
        + apply R2, nth_In; lia.
        + intros j.
          assert (B1 : In j (nth i rows1 []) -> (1 <= j <= nc1)%nat).
          { intros HI. rewrite <- C1. destruct R1 as (_ & _ & Hok & _).
            apply (Hok (nth i rows1 [])); auto. apply nth_In; auto. }
          assert (B2 : In j (nth i rows2 []) -> (1 <= j <= nc1)%nat).
          { intros HI. rewrite <- C2. destruct R2 as (_ & _ & Hok & _).
            apply (Hok (nth i rows2 [])); auto. apply nth_In; lia. }
          pose proof (fun Hj => F1 (S i) j ltac:(lia) Hj) as G1.
          pose proof (fun Hj => F2 (S i) j ltac:(lia) Hj) as G2.
          pose proof (fun Hj => HE (S i) j ltac:(lia) Hj) as G3.
          replace (S i - 1)%nat with i in * by lia.
          split; intros HI.
          * specialize (B1 HI). apply (G2 B1), (G3 B1), (G1 B1); auto.
          * specialize (B2 HI). apply (G1 B2), (G3 B2), (G2 B2); auto.
      - intros <- i j Hi Hj. rewrite (proj1 (F1 i j Hi Hj)), (proj1 (F2 i j Hi Hj)). tauto. }
    destruct (Nat.eqb_spec (si_nvals (sm_si m1)) (si_nvals (sm_si m2))) as [E3|E3]; cbn [negb].
    2:{ exists false. split; auto. split; [discriminate|]. intros (_ & _ & H). exfalso. apply E3.
        assert (rows1 = rows2) by (apply HP; intros; apply H; auto). subst rows2.
        destruct R1 as (_ & _ & _ & _ & ->). destruct R2 as (_ & _ & _ & _ & ->). auto. }
    assert (LI1 : length (si_iofeir (sm_si m1)) = S nr1)
      by (destruct R1 as (_ & (_ & _ & A & _) & _); lia).
    assert (LI2 : length (si_iofeir (sm_si m2)) = S nr1)
      by (destruct R2 as (_ & (_ & _ & A & _) & _); lia).
    assert (LC1 : length (si_columns (sm_si m1)) = si_nvals (sm_si m1)).
    { destruct R1 as (_ & (_ & A & _) & _ & _ & B). rewrite A, B, <- concat_map, map_length. auto. }
    assert (LC2 : length (si_columns (sm_si m2)) = si_nvals (sm_si m1)).
    { destruct R2 as (_ & (_ & A & _) & _ & _ & B). rewrite E3, A, B, <- concat_map, map_length. auto. }
    destruct (all_pairs_spec 0%nat Nat.eqb (S nr1) (si_iofeir (sm_si m1)) (si_iofeir (sm_si m2)))
      as (b1 & Eb1 & Hb1); try lia.
    destruct (all_pairs_spec None opt_eqb (si_nvals (sm_si m1)) (si_columns (sm_si m1))
       (si_columns (sm_si m2))) as (b2 & Eb2 & Hb2); try lia.
    destruct (all_pairs_spec 0 (fun a b => negb (differ a b)) (si_nvals (sm_si m1)) v1 v2)
      as (b3 & Eb3 & Hb3); try lia.
    rewrite Eb1. cbn [obind].
    assert (Hopt : forall a b, opt_eqb a b = true <-> a = b).
    { intros [a|] [b|]; cbn; split; intros H; try congruence.
      - apply Nat.eqb_eq in H. congruence.
      - injection H as ->. apply Nat.eqb_refl. }
    assert (HR : b1 = true /\ b2 = true <-> rows1 = rows2).
    { rewrite <- (mrep_rows_eq m1 m2 rows1 rows2 R1 R2 ltac:(lia)).
      rewrite Hb1, Hb2. split; intros [A B]; split.
      - intros k Hk. apply Nat.eqb_eq. apply A. lia.
      - apply (list_ext_nth None); [lia|]. intros k Hk. apply Hopt. apply B. lia.
      - intros k Hk. apply Nat.eqb_eq. apply A. lia.
      - intros k Hk. apply Hopt. now rewrite B. }
    destruct b1; cbn [negb].
    2:{ exists false. split; auto. split; [discriminate|]. intros (_ & _ & H).
        assert (rows1 = rows2) by (apply HP; intros; apply H; auto).
        apply HR in H0 as [H0 _]. discriminate. }
    rewrite Eb2. cbn [obind]. destruct b2; cbn [negb].
    2:{ exists false. split; auto. split; [discriminate|]. intros (_ & _ & H).
        assert (rows1 = rows2) by (apply HP; intros; apply H; auto).
        apply HR in H0 as [_ H0]. discriminate. }
    assert (rows1 = rows2) by (apply HR; auto). subst rows2.
    exists b3. split; auto. rewrite Hb3. split.
    - intros H. split; auto. split; auto. intros i j Hi Hj. split; [apply HP; auto|].
      rewrite (proj2 (F1 i j Hi Hj)), (proj2 (F2 i j Hi Hj)).
      destruct (slot rows1 i j) as [p|] eqn:E; auto.
      apply (slot_some (sm_si m1)) in E as (k & _ & _ & _ & E); auto; try lia.
      specialize (H p E). now apply negb_true_iff in H.
    - intros (_ & _ & H) p Hp.
      destruct (slot_surj (sm_si m1) rows1 p R1 Hp) as (i & j & Hi & Hj & E).
      rewrite N1 in Hi. rewrite C1 in Hj.
      destruct (H i j Hi Hj) as [_ Hd].
      rewrite (proj2 (F1 i j Hi Hj)), (proj2 (F2 i j Hi Hj)), E in Hd. now rewrite Hd.
  Qed.

  (* ---------------------------------------------------------------- *)
  (* construction from a list of entries *)
  Definition epos (es : list (nat * nat * K)) : list (nat * nat) := map fst es.

  Lemma ofold_map {A B S} (f : S -> B -> outcome S) (g : A -> B) l : forall s,
    ofold f (map g l) s = ofold (fun s a => f s (g a)) l s.
  Proof. induction l as [|a l IH]; intros s; cbn; auto. destruct (f s (g a)); cbn; auto. Qed.

  Lemma ofold_ext {A S} (f g : S -> A -> outcome S) l : forall s,
    (forall s a, f s a = g s a) -> ofold f l s = ofold g l s.
  Proof. induction l as [|a l IH]; intros s H; cbn; auto. rewrite H. destruct (g s a); cbn; auto. Qed.

  Definition e2set (e : nat * nat * K) : vop K := VSet (fst (fst e)) (snd (fst e)) (snd e).

  Lemma last_value_spec es : forall i j,
    fold_left spec_vop (map e2set es) (fun _ _ => 0) i j = last_value es i j.
  Proof.
    induction es as [|e es IH] using rev_ind; intros i j; [reflexivity|].
    rewrite map_app, fold_left_app. cbn. unfold last_value. rewrite rev_app_distr. cbn.
    destruct e as [[a b] x]. cbn.
    replace (here i j a b) with (here a b i j)
      by (unfold here; now rewrite (Nat.eqb_sym a), (Nat.eqb_sym b)).
    destruct (here a b i j); auto. apply IH.
  Qed.

  Lemma list_max_ge l x : In x l -> (x <= list_max l)%nat.
  Proof.
    intros H. pose proof (proj1 (list_max_le l (list_max l)) (le_n _)) as F.
    rewrite Forall_forall in F. auto.
  Qed.

  Lemma row_cols_count es i : (length (row_cols (epos es) i) <= count_row K es i)%nat.
  Proof.
    unfold row_cols, count_row, epos.
    transitivity (length (map snd (filter (fun e => Nat.eqb (fst e) i) (map fst es)))).
    - apply NoDup_incl_length; [apply NoDup_nodup|]. intros x. now rewrite nodup_In.
    - rewrite map_length. induction es as [|e es IH]; cbn; auto.
      destruct (Nat.eqb (fst (fst e)) i); cbn; lia.
  Qed.

  Lemma reinit_entries_spec old nr nc (es : list (nat * nat * K)) :
    (forall e, In e es -> in_shape nr nc (fst e)) ->
    exists m, mat_reinit_entries old nr nc es = Ok m /\
      mrep m nr nc (fun i j => In (i, j) (epos es)) (last_value es).
  Proof.
    intros Hin. unfold mat_reinit_entries. destruct es as [|e0 es0].
    - destruct (si_reinit_ok nr nc 1 ltac:(lia)) as (s & E & HR & N1 & N2 & N3).
      rewrite E. cbn [obind].
      destruct (mat_compress_spec K (mkSM s old) (repeat [] nr) nr nc []) as (m & Em & _ & HM);
        auto using rows_of_nil.
      exists m. split; auto.
    - set (es := e0 :: es0) in *.
      replace (forallb _ es) with true.
      2:{ symmetry. apply forallb_forall. intros e He. destruct (Hin e He) as [H1 H2].
          apply andb_true_intro. split; [apply Nat.ltb_lt|apply Nat.leb_le]; lia. }
      cbn [asserting].
      set (mx := list_max (map (count_row K es) (seq 1 nr))).
      assert (Hmx : (0 < mx)%nat).
      { destruct (Hin e0 (or_introl eq_refl)) as [H1 _].
        assert (count_row K es (fst (fst e0)) <= mx)%nat.
        { apply list_max_ge. apply in_map_iff. exists (fst (fst e0)). split; auto.
          apply in_seq. lia. }
        unfold count_row, es in H. cbn in H. rewrite Nat.eqb_refl in H. cbn in H. lia. }
      destruct (si_reinit_ok nr nc mx Hmx) as (s & E & HR & N1 & N2 & N3).
      rewrite E. cbn [obind].
      destruct (add_entries_gen (epos es) s (repeat [] nr) [] HR (rows_of_nil nr)) as [A _].
      + intros e He. rewrite N1, N2. apply in_map_iff in He as (e' & <- & He). auto.
      + destruct A as (s1 & rows1 & E1 & HR1 & Ho1 & M1 & M2 & M3).
        { cbn [app]. intros i Hi. rewrite N3. rewrite N1 in Hi.
          apply (cap_cols (epos es) nr nc mx i); auto.
          - intros e He. apply in_map_iff in He as (e' & <- & He). auto.
          - etransitivity; [apply row_cols_count|]. apply list_max_ge, in_map, in_seq. lia. }
        assert (E1' : ofold (fun s e => si_addEntry s (fst (fst e)) (snd (fst e))) es s = Ok s1).
        { rewrite <- E1. unfold add_entries, epos. now rewrite ofold_map. }
        rewrite E1'. cbn [obind].
        destruct (mat_compress_spec K (mkSM s1 old) rows1 nr nc (epos es)) as (m & Em & _ & HM);
          auto; cbn [sm_si]; try congruence.
        rewrite Em. cbn [obind].
        destruct (mrep_run K (map e2set es) m nr nc _ _ HM) as (m' & Em' & _ & HM').
        { intros o i j Ho Hp. apply in_map_iff in Ho as (e & <- & He).
          cbn in Hp. injection Hp as <- <-. destruct (Hin e He) as [H1 H2].
          repeat split; try lia. apply in_map_iff. exists e. split; auto. now destruct (fst e). }
        exists m'. split.
        * rewrite <- Em'. rewrite ofold_map. apply ofold_ext. reflexivity.
        * eapply mrep_ext; [exact HM'|]. intros i j _ _. split; [tauto|]. apply last_value_spec.
  Qed.

  (* ---------------------------------------------------------------- *)
  (* text records *)
  Lemma ofold_snoc {A B} (g : A -> outcome B) (h : A -> B) l : forall acc,
    (forall a, In a l -> g a = Ok (h a)) ->
    ofold (fun acc a => r <- g a ;; Ok (acc ++ [r])) l acc = Ok (acc ++ map h l).
  Proof.
    induction l as [|a l IH]; intros acc H; cbn.
    - now rewrite app_nil_r.
    - rewrite H by (now left). cbn. rewrite IH by (intros; apply H; now right).
      now rewrite <- app_assoc.
  Qed.

  Lemma ofold_concat {A B} (g : A -> outcome (list B)) (h : A -> list B) l : forall acc,
    (forall a, In a l -> g a = Ok (h a)) ->
    ofold (fun acc a => r <- g a ;; Ok (acc ++ r)) l acc = Ok (acc ++ concat (map h l)).
  Proof.
    induction l as [|a l IH]; intros acc H; cbn.
    - now rewrite app_nil_r.
    - rewrite H by (now left). cbn. rewrite IH by (intros; apply H; now right).
      now rewrite <- app_assoc.
  Qed.

  Definition recs (rows : list (list nat)) (v : list K) (i : nat) : list (nat * nat * K) :=
    map (fun k => (i, nth k (nth (i - 1) rows []) 0%nat, nth (psum rows (i - 1) + k) v 0))
        (seq 0 (length (nth (i - 1) rows []))).

  Lemma write_row_spec (m : smat K) rows v i : RepC (sm_si m) rows -> sm_vals m = Some v ->
    length v = si_nvals (sm_si m) -> (1 <= i <= si_nrows (sm_si m))%nat ->
    write_row K (sm_si m) v i = Ok (recs rows v i).
  Proof.
    intros HR Hv Hl Hi. pose proof (RepC_len _ _ HR) as HL. unfold write_row.
    rewrite (aget_nth_error _ _ _ (RepC_iofeir _ rows (i - 1) HR ltac:(lia))).
    rewrite (aget_nth_error _ _ _ (RepC_iofeir _ rows i HR ltac:(lia))). cbn [obind].
    pose proof (row_range rows i ltac:(lia) ltac:(lia)) as Er. rewrite Er.
    set (r := nth (i - 1) rows []) in *. set (base := psum rows (i - 1)) in *.
    replace (S (base + length r) - 1 - (S base - 1))%nat with (length r) by lia.
    replace (S base - 1)%nat with base by lia. rewrite seq_shift_map, ofold_map.
    rewrite (ofold_ext _ (fun acc k =>
        rr <- (c <- col_at (sm_si m) (base + k) ;; x <- aget v (base + k) ;; Ok (i, c, x)) ;;
        Ok (acc ++ [rr]))).
    - rewrite (ofold_snoc _ (fun k => (i, nth k r 0%nat, nth (base + k) v 0))).
      + reflexivity.
      + intros k Hk. apply in_seq in Hk.
        pose proof (mrep_slot_val K m _ rows (i - 1) k HR eq_refl) as Ec.
        fold base r in Ec. rewrite Ec by lia. cbn [obind].
        rewrite (aget_nth v _ 0); auto. rewrite Hl.
        apply (psum_bound _ rows (i - 1) k HR); [lia|]. fold r; lia.
    - intros acc k. destruct (col_at (sm_si m) (base + k)); cbn; auto.
      destruct (aget v (base + k)); cbn; auto.
  Qed.

  Lemma records_spec (m : smat K) nr nc P f : mrep m nr nc P f ->
    exists es, mat_records m = Ok ((nr, nc, length es), es) /\
      (forall i j x, In (i, j, x) es <->
         (1 <= i <= nr)%nat /\ (1 <= j <= nc)%nat /\ P i j /\ x = f i j) /\
      NoDup (map fst es).
  Proof.
    intros (rows & v & HR & N1 & N2 & Hv & Hl & Hf).
    pose proof (RepC_len _ _ HR) as HL.
    unfold mat_records. rewrite Hv. replace (si_compressed (sm_si m)) with true
      by (symmetry; apply HR). cbn [asserting].
    rewrite (ofold_concat _ (recs rows v)).
    2:{ intros i Hi. apply in_seq in Hi. apply write_row_spec; auto. lia. }
    cbn [obind app].
    set (es := concat (map (recs rows v) (seq 1 (si_nrows (sm_si m))))).
    assert (Hin : forall i j x, In (i, j, x) es <->
         (1 <= i <= nr)%nat /\ (1 <= j <= nc)%nat /\ P i j /\ x = f i j).
    { intros i j x. unfold es. rewrite in_concat. split.
      - intros (l & Hl1 & Hl2). apply in_map_iff in Hl1 as (i' & <- & Hi'). apply in_seq in Hi'.
        unfold recs in Hl2. apply in_map_iff in Hl2 as (k & E & Hk). apply in_seq in Hk.
        injection E as -> <- <-.
        assert (HI : In (nth k (nth (i - 1) rows []) 0%nat) (nth (i - 1) rows []))
          by (apply nth_In; lia).
        assert (Hjr : (1 <= nth k (nth (i - 1) rows []) 0 <= nc)%nat).
        { rewrite <- N2. destruct HR as (_ & _ & Hok & _).
          apply (Hok (nth (i - 1) rows [])); auto. apply nth_In; lia. }
        destruct (Hf i _ ltac:(lia) Hjr) as [A B].
        split; [lia|]. split; [auto|]. split; [now apply A|]. rewrite B. unfold slot.
        rewrite (index_of_nth _ k).
        + reflexivity.
        + destruct HR as (_ & _ & Hok & _). apply Hok. apply nth_In; lia.
        + apply nth_error_nth'. lia.
      - intros (Hi & Hj & HP & ->). destruct (Hf i j Hi Hj) as [A B].
        apply A in HP. destruct (index_of_in _ _ HP) as [k Ek].
        exists (recs rows v i). split.
        + apply in_map. apply in_seq. lia.
        + unfold recs. apply in_map_iff. exists k. rewrite B. unfold slot. rewrite Ek.
          cbn [option_map]. apply index_of_some in Ek as [Ek1 Ek2]. split.
          * f_equal. f_equal. now apply nth_error_nth.
          * apply in_seq. lia. }
    assert (ND : NoDup (map fst es)).
    { unfold es. rewrite concat_map, map_map.
      assert (G : forall n s, (s + n <= S nr)%nat -> (1 <= s)%nat ->
         NoDup (concat (map (fun x => map fst (recs rows v x)) (seq s n)))).
      { induction n as [|n IH]; intros s Hs Hs1; cbn; [constructor|].
        apply NoDup_app_iff_aux.
        - unfold recs. rewrite map_map. cbn.
          apply (NoDup_map_inv snd). rewrite map_map. cbn.
          rewrite map_nth_seq. destruct HR as (_ & _ & Hok & _). apply Hok. apply nth_In; lia.
        - apply IH; lia.
        - intros [a b] Ha Hb. apply in_map_iff in Ha as ((c & x) & E1 & Ha).
          unfold recs in Ha. apply in_map_iff in Ha as (k & E2 & _).
          apply in_concat in Hb as (l & Hb1 & Hb2). apply in_map_iff in Hb1 as (s' & <- & Hs').
          apply in_seq in Hs'. apply in_map_iff in Hb2 as ((c' & x') & E3 & Hb2).
          unfold recs in Hb2. apply in_map_iff in Hb2 as (k' & E4 & _).
          cbn in *. subst. congruence || (injection E2; injection E4; intros; subst; lia). }
      apply G; lia. }
    assert (Hlen : length es = si_nvals (sm_si m)).
    { unfold es. destruct HR as (_ & _ & _ & _ & ->).
      rewrite <- HL. clear.
      assert (G : forall n, (n <= length rows)%nat ->
        length (concat (map (recs rows v) (seq 1 n))) = psum rows n).
      { induction n as [|n IH]; intros Hn; [reflexivity|].
        rewrite seq_S, map_app, concat_app, app_length, IH by lia. cbn [map concat].
        rewrite app_nil_r. unfold recs. rewrite map_length, seq_length.
        replace (1 + n - 1)%nat with n by lia. rewrite psum_S by lia. reflexivity. }
      rewrite G by lia. apply psum_all. }
    rewrite Hlen, Nat.eqb_refl. cbn [asserting]. exists es.
    rewrite Hlen, N1, N2. auto.
  Qed.


  Lemma last_value_in (es : list (nat * nat * K)) i j x :
    NoDup (epos es) -> In (i, j, x) es -> last_value es i j = x.
  Proof.
    intros ND HI. unfold last_value.
    destruct (find _ (rev es)) as [[[a b] y]|] eqn:E.
    - apply find_some in E as [E1 E2]. cbn in E2. apply here_true in E2 as [<- <-]. cbn in *.
      apply in_rev in E1. clear -ND E1 HI. unfold epos in ND.
      induction es as [|e es IH]; [destruct HI|]. cbn in ND.
      inversion ND as [|? ? N1 N2]; subst.
      destruct HI as [->|HI], E1 as [E1|E1].
      + congruence.
      + exfalso. apply N1. apply in_map_iff. now exists (i, j, y).
      + subst e. exfalso. apply N1. apply in_map_iff. now exists (i, j, x).
      + auto.
    - exfalso. apply in_rev in HI. pose proof (find_none _ _ E (i, j, x) HI) as H.
      cbn in H. assert (here i j i j = true) by (apply here_true; auto). congruence.
  Qed.

  Lemma last_value_out (es : list (nat * nat * K)) i j :
    ~ In (i, j) (epos es) -> last_value es i j = 0.
  Proof.
    intros HN. unfold last_value.
    destruct (find _ (rev es)) as [[[a b] y]|] eqn:E; auto.
    apply find_some in E as [E1 E2]. cbn in E2. apply here_true in E2 as [<- <-]. cbn in *.
    apply in_rev in E1. exfalso. apply HN. apply in_map_iff. now exists (i, j, y).
  Qed.

  (* writing and reading back; every number x comes back as g x *)
  Lemma roundtrip_spec (g : K -> K) differ (m : smat K) nr nc P f old :
    mrep m nr nc P f -> differ 0 0 = false -> (forall x, differ x (g x) = false) ->
    exists es m', mat_records m = Ok ((nr, nc, length es), es) /\
      mat_reinit_entries old nr nc (map (fun e => (fst e, g (snd e))) es) = Ok m' /\
      mat_compare differ m m' = Ok true.
  Proof.
    intros HM D0 Dg. destruct (records_spec m nr nc P f HM) as (es & E & Hin & ND).
    set (es' := map (fun e => (fst e, g (snd e))) es).
    assert (Ep : epos es' = epos es).
    { unfold epos, es'. rewrite map_map. reflexivity. }
    assert (HinP : forall i j, In (i, j) (epos es) <->
      (1 <= i <= nr)%nat /\ (1 <= j <= nc)%nat /\ P i j).
    { intros i j. unfold epos. rewrite in_map_iff. split.
      - intros (((a & b) & x) & E1 & HI). cbn in E1. injection E1 as -> ->.
        apply Hin in HI. tauto.
      - intros (A & B & C). exists (i, j, f i j). split; auto. apply Hin. tauto. }
    destruct (reinit_entries_spec old nr nc es') as (m' & E' & HM').
    { intros e He. assert (HI : In (fst e) (epos es')) by (now apply in_map).
      rewrite Ep in HI. destruct (fst e) as [a b]. apply HinP in HI. split; tauto. }
    exists es, m'. split; [exact E|]. split; [exact E'|].
    destruct (compare_spec differ m m' nr nc P f nr nc _ _ HM HM' D0) as (b & Eb & Hb).
    rewrite Eb. f_equal. apply Hb. split; [auto|]. split; [auto|]. intros i j Hi Hj.
    rewrite Ep, HinP. split; [tauto|].
    destruct (mrep_present K m nr nc P f i j HM Hi Hj) as [HP|HP].
    - rewrite (last_value_in es' i j (g (f i j))).
      + apply Dg.
      + rewrite Ep. exact ND.
      + unfold es'. apply in_map_iff. exists (i, j, f i j). split; auto. apply Hin. tauto.
    - rewrite last_value_out by (rewrite Ep, HinP; tauto).
      rewrite (mrep_absent K m nr nc P f i j HM Hi Hj HP). exact D0.
  Qed.
End More.
