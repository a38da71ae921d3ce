(* Proofs about the block matrix *)
From Verif Require Import Base BaseProofs SparseModel SpecSparse SparseProofs SparseMatProofs
  SparseMoreProofs SparseFinal BlockModel SpecBlock.

(* ------------------------------------------------------------------ *)
(* block numbering *)
Fixpoint rowstart (nb i : nat) : nat :=     (* blocks in rows 1..i *)
  match i with 0 => 0 | S i' => rowstart nb i' + (nb - S i') end.

Lemma rowstart_closed nb i : i <= nb ->
  (2 * Z.of_nat (rowstart nb i) = Z.of_nat i * (2 * Z.of_nat nb - Z.of_nat i - 1))%Z.
Proof. induction i as [|i IH]; cbn [rowstart]; intros H; [lia|]. specialize (IH ltac:(lia)). nia. Qed.

Lemma n_upper_rowstart nb : n_upper nb = rowstart nb nb.
Proof.
  unfold n_upper. pose proof (rowstart_closed nb nb (le_n _)) as H.
  assert (E : nb * (nb + 1) = (rowstart nb nb + nb) * 2) by nia.
  rewrite E, Nat.div_mul by lia. lia.
Qed.

Lemma rowstart_mono nb i j : i <= j -> rowstart nb i <= rowstart nb j.
Proof. induction 1; cbn [rowstart]; lia. Qed.

Lemma blk_index_eq nb i j : (Z.of_nat (n_upper nb) <= 65536)%Z -> 1 <= i -> i < j -> j <= nb ->
  blk_index nb i j = Ok (rowstart nb (i - 1) + (j - i - 1)).
Proof.
  intros Hn Hi Hij Hj. unfold blk_index.
  replace (i =? j) with false by (symmetry; apply Nat.eqb_neq; lia). cbn [negb checking].
  rewrite Nat.min_l, Nat.max_r by lia.
  set (k := rowstart nb (i - 1) + (j - i - 1)).
  assert (Hk : k < n_upper nb).
  { rewrite n_upper_rowstart. unfold k.
    pose proof (rowstart_mono nb i nb ltac:(lia)) as M.
    replace i with (S (i - 1)) in M at 1 by lia. cbn [rowstart] in M. lia. }
  pose proof (rowstart_closed nb (i - 1) ltac:(lia)) as HS.
  assert (HQ : exists q, ((Z.of_nat i - 2) * (Z.of_nat i - 1) = q * 2)%Z).
  { exists (Z.div ((Z.of_nat i - 2) * (Z.of_nat i - 1)) 2).
    assert (E : Z.even ((Z.of_nat i - 2) * (Z.of_nat i - 1)) = true).
    { rewrite Z.even_mul, !Z.even_sub. cbn. destruct (Z.even (Z.of_nat i)); reflexivity. }
    apply Z.even_spec in E as [q E]. rewrite E. rewrite (Z.mul_comm 2 q), Z.div_mul by lia. lia. }
  destruct HQ as [q HQ]. rewrite HQ, Z.quot_mul by lia.
  replace (Z.of_nat nb * (Z.of_nat i - 1) - q + (Z.of_nat j - Z.of_nat i) - Z.of_nat i)%Z
    with (Z.of_nat k) by (unfold k; nia).
  rewrite Z.mod_small by lia. rewrite Nat2Z.id.
  apply Nat.ltb_lt in Hk. rewrite Hk. reflexivity.
Qed.

Lemma blk_index_sym nb i j : blk_index nb i j = blk_index nb j i.
Proof. unfold blk_index. rewrite Nat.min_comm, Nat.max_comm, Nat.eqb_sym. reflexivity. Qed.

Lemma rowstart_inj nb i j i' j' : 1 <= i -> i < j -> j <= nb -> 1 <= i' -> i' < j' -> j' <= nb ->
  rowstart nb (i - 1) + (j - i - 1) = rowstart nb (i' - 1) + (j' - i' - 1) -> i = i' /\ j = j'.
Proof.
  assert (G : forall i j i' j', 1 <= i -> i < j -> j <= nb -> 1 <= i' -> i' < j' -> j' <= nb ->
     i < i' -> rowstart nb (i - 1) + (j - i - 1) < rowstart nb (i' - 1) + (j' - i' - 1)).
  { clear. intros i j i' j' H1 H2 H3 H4 H5 H6 H7.
    pose proof (rowstart_mono nb i (i' - 1) ltac:(lia)) as M.
    replace i with (S (i - 1)) in M at 1 by lia. cbn [rowstart] in M. lia. }
  intros H1 H2 H3 H4 H5 H6 E.
  destruct (Nat.lt_trichotomy i i') as [C|[C|C]].
  - specialize (G i j i' j'). lia.
  - subst i'. lia.
  - specialize (G i' j' i j). lia.
Qed.

Lemma rowstart_surj nb : forall n, n <= nb -> forall k, k < rowstart nb n ->
  exists i j, 1 <= i /\ i < j /\ j <= nb /\ i <= n /\ k = rowstart nb (i - 1) + (j - i - 1).
Proof.
  induction n as [|n IH]; cbn [rowstart]; intros Hn k Hk; [lia|].
  destruct (Nat.lt_ge_cases k (rowstart nb n)) as [C|C].
  - destruct (IH ltac:(lia) k C) as (i & j & H). exists i, j. intuition lia.
  - exists (S n), (S n + 1 + (k - rowstart nb n)). replace (S n - 1) with n by lia. lia.
Qed.

(* ------------------------------------------------------------------ *)
(* lists of outcomes, loops over seq *)
Lemma omap_ok {A C} (f : A -> outcome C) (da : A) (dc : C) l :
  (forall k, k < length l -> exists c, f (nth k l da) = Ok c) ->
  exists l', omap f l = Ok l' /\ length l' = length l /\
    forall k, k < length l -> f (nth k l da) = Ok (nth k l' dc).
Proof.
  induction l as [|a l IH]; intros H.
  - exists []. cbn. repeat split; auto. intros; lia.
  - destruct (H 0 ltac:(cbn; lia)) as [c Ec]. cbn in Ec.
    destruct IH as (l' & E & Hl & Hn).
    { intros k Hk. apply (H (S k)). cbn; lia. }
    exists (c :: l'). cbn. rewrite Ec. cbn. rewrite E. cbn. repeat split; auto.
    intros [|k] Hk; auto. apply Hn. lia.
Qed.

Lemma ofold_seq_inv {S} (f : S -> nat -> outcome S) (I : nat -> S -> Prop) : forall n s0 s,
  I s0 s -> (forall k s, s0 <= k < s0 + n -> I k s -> exists s', f s k = Ok s' /\ I (Datatypes.S k) s') ->
  exists s', ofold f (seq s0 n) s = Ok s' /\ I (s0 + n) s'.
Proof.
  induction n as [|n IH]; intros s0 s HI Hs; cbn [seq ofold].
  - exists s. rewrite Nat.add_0_r. auto.
  - destruct (Hs s0 s ltac:(lia) HI) as (s' & E & HI'). rewrite E. cbn [obind].
    destruct (IH (Datatypes.S s0) s' HI') as (s'' & E' & HI'').
    { intros k s1 Hk. apply Hs. lia. }
    exists s''. split; auto. now replace (s0 + Datatypes.S n) with (Datatypes.S s0 + n) by lia.
Qed.

(* ------------------------------------------------------------------ *)
(* positions *)
Lemma offset_1 rows : offset rows 1 = 0.
Proof. reflexivity. Qed.
Lemma offset_S rows a : 1 <= a -> a <= length rows -> offset rows (S a) = offset rows a + bsize rows a.
Proof.
  unfold offset, bsize. intros H1 H2. replace (S a - 1) with (S (a - 1)) by lia.
  rewrite (firstn_S_nth _ _ 0) by lia. rewrite list_sum_app. cbn. lia.
Qed.
Lemma offset_mono rows a b : 1 <= a -> a <= b -> b <= S (length rows) -> offset rows a <= offset rows b.
Proof.
  intros H1 H2. induction H2 as [|b Hb IH]; intros H3; auto.
  rewrite offset_S by lia. specialize (IH ltac:(lia)). lia.
Qed.
Lemma offset_end rows : offset rows (S (length rows)) = list_sum rows.
Proof. unfold offset. replace (S (length rows) - 1) with (length rows) by lia. now rewrite firstn_all. Qed.
Lemma offset_bound rows a p : 1 <= a <= length rows -> p <= bsize rows a -> offset rows a + p <= list_sum rows.
Proof.
  intros Ha Hp. rewrite <- offset_end. pose proof (offset_mono rows (S a) (S (length rows))) as M.
  rewrite offset_S in M by lia. lia.
Qed.
Lemma offset_lt rows a b p q : 1 <= a -> a < b -> b <= length rows -> p <= bsize rows a ->
  1 <= q -> offset rows a + p < offset rows b + q.
Proof.
  intros. pose proof (offset_mono rows (S a) b) as M. rewrite offset_S in M by lia. lia.
Qed.
Lemma offset_uniq rows a b p q : 1 <= a <= length rows -> 1 <= b <= length rows ->
  1 <= p <= bsize rows a -> 1 <= q <= bsize rows b ->
  offset rows a + p = offset rows b + q -> a = b /\ p = q.
Proof.
  intros Ha Hb Hp Hq E. destruct (Nat.lt_trichotomy a b) as [C|[C|C]].
  - pose proof (offset_lt rows a b p q). lia.
  - subst b. lia.
  - pose proof (offset_lt rows b a q p). lia.
Qed.

Lemma gbp_gen rows : forall blk pos, 1 <= pos -> pos <= list_sum rows ->
  exists a p, gbp rows blk pos = (blk + (a - 1), p) /\ 1 <= a <= length rows /\
    1 <= p <= bsize rows a /\ offset rows a + p = pos.
Proof.
  induction rows as [|r rows IH]; cbn [gbp]; intros blk pos H1 H2; [cbn in H2; lia|].
  change (list_sum (r :: rows)) with (r + list_sum rows) in H2.
  destruct (Nat.leb_spec pos r) as [C|C].
  - exists 1, pos. cbn. split; [f_equal; lia|]. repeat split; lia.
  - destruct (IH (blk + 1) (pos - r)) as (a & p & E & Ha & Hp & Ho); [lia|lia|].
    exists (S a), p. rewrite E. split; [f_equal; lia|].
    unfold bsize, offset in *. replace (S a - 1) with (S (a - 1)) by lia. cbn [nth firstn].
    change (list_sum (r :: firstn (a - 1) rows)) with (r + list_sum (firstn (a - 1) rows)).
    cbn [length]. repeat split; lia.
Qed.
Lemma gbp_spec rows pos : 1 <= pos -> pos <= list_sum rows ->
  exists a p, gbp rows 1 pos = (a, p) /\ 1 <= a <= length rows /\
    1 <= p <= bsize rows a /\ offset rows a + p = pos.
Proof.
  intros H1 H2. destruct (gbp_gen rows 1 pos H1 H2) as (a & p & E & Ha & Hp & Ho).
  exists a, p. split; [rewrite E; f_equal; lia|auto].
Qed.

Lemma in_blk_iff rows a b p : 1 <= a <= length rows -> 1 <= b <= length rows ->
  1 <= p <= bsize rows a -> (in_blk rows b (offset rows a + p) = true <-> a = b).
Proof.
  intros Ha Hb Hp. unfold in_blk. rewrite andb_true_iff, Nat.ltb_lt, Nat.leb_le. split.
  - intros H. apply (offset_uniq rows a b p (offset rows a + p - offset rows b)); lia.
  - intros <-. lia.
Qed.

Lemma up_cases i j : up (i, j) = (Nat.min i j, Nat.max i j).
Proof. unfold up; cbn. destruct (Nat.ltb_spec j i); f_equal; lia. Qed.

Lemma loc_in rows a b es p q : (forall e, In e es -> in_shape (list_sum rows) (list_sum rows) e) ->
  1 <= a <= length rows -> 1 <= b <= length rows -> 
  1 <= p <= bsize rows a -> 1 <= q <= bsize rows b ->
  (In (p, q) (loc rows a b es) <-> In (offset rows a + p, offset rows b + q) (map up es)).
Proof.
  intros Hin Ha Hb Hp Hq. unfold loc. rewrite in_map_iff. split.
  - intros ([i j] & E & HI). cbn in E. apply filter_In in HI as [HI Hf]. cbn in Hf.
    apply andb_prop in Hf as [F1 F2]. unfold in_blk in F1, F2.
    apply andb_prop in F1 as [F1 _]. apply andb_prop in F2 as [F2 _].
    apply Nat.ltb_lt in F1, F2. injection E as E1 E2.
    replace (offset rows a + p) with i by lia. replace (offset rows b + q) with j by lia. auto.
  - intros HI. exists (offset rows a + p, offset rows b + q). cbn. split; [f_equal; lia|].
    apply filter_In. split; auto. cbn. rewrite andb_true_iff. split; apply in_blk_iff; auto.
Qed.

Lemma loc_shape rows a b es e : 1 <= a <= length rows -> 1 <= b <= length rows ->
  In e (loc rows a b es) -> in_shape (bsize rows a) (bsize rows b) e.
Proof.
  intros Ha Hb HI. unfold loc in HI. apply in_map_iff in HI as ([i j] & <- & HI).
  apply filter_In in HI as [_ Hf]. cbn in Hf. apply andb_prop in Hf as [F1 F2].
  unfold in_blk in F1, F2. apply andb_prop in F1 as [F1 F1']. apply andb_prop in F2 as [F2 F2'].
  apply Nat.ltb_lt in F1, F2. apply Nat.leb_le in F1', F2'. split; cbn; lia.
Qed.

Lemma loc_diag_up rows a es : map up (loc rows a a es) = loc rows a a es.
Proof.
  unfold loc. rewrite map_map. apply map_ext_in. intros [i j] HI.
  apply filter_In in HI as [HI _]. apply in_map_iff in HI as ([c d] & E & _).
  rewrite up_cases in E. injection E as <- <-. cbn [fst snd]. rewrite up_cases. f_equal; lia.
Qed.

Lemma loc_cons rows a b e es : loc rows a b (e :: es) =
  (if in_blk rows a (fst (up e)) && in_blk rows b (snd (up e))
   then [(fst (up e) - offset rows a, snd (up e) - offset rows b)] else []) ++ loc rows a b es.
Proof.
  unfold loc. cbn [map filter]. destruct (in_blk rows a (fst (up e)) && in_blk rows b (snd (up e))); reflexivity.
Qed.

(* ------------------------------------------------------------------ *)
Section BlockProofs.
  Variable K : Rng.
  Add Ring Kring : (rth K).
  Implicit Types (B : bmat K) (m : smat K).

  Definition valid (nb a b : nat) : Prop := 1 <= a /\ a <= b /\ b <= nb.

  (* sizes of the arrays *)
  Definition wf B : Prop :=
    length (bm_diag B) = bm_nb B /\ length (bm_upper B) = n_upper (bm_nb B) /\
    (Z.of_nat (n_upper (bm_nb B)) <= 65535)%Z.
  Definition bget B (a b : nat) : smat K :=
    if a =? b then nth (a - 1) (bm_diag B) (blank K)
    else nth (rowstart (bm_nb B) (a - 1) + (b - a - 1)) (bm_upper B) (blank K).

  Lemma slot_lt nb a b : valid nb a b -> a <> b -> rowstart nb (a - 1) + (b - a - 1) < n_upper nb.
  Proof.
    intros (H1 & H2 & H3) H4. rewrite n_upper_rowstart.
    pose proof (rowstart_mono nb a nb ltac:(lia)) as M.
    replace a with (S (a - 1)) in M at 1 by lia. cbn [rowstart] in M. lia.
  Qed.

  Lemma block_get_ok B a b : wf B -> valid (bm_nb B) a b -> block_get B a b = Ok (bget B a b).
  Proof.
    intros (W1 & W2 & W3) V. pose proof V as (H1 & H2 & H3). unfold block_get, bget.
    destruct (Nat.eqb_spec a b) as [->|N].
    - rewrite rangeb by lia. cbn [asserting]. apply aget_nth. lia.
    - rewrite blk_index_eq by lia. cbn [obind]. apply aget_nth. rewrite W2. now apply slot_lt.
  Qed.

  Lemma block_put_ok B a b m : wf B -> valid (bm_nb B) a b ->
    exists B', block_put B a b m = Ok B' /\ wf B' /\ bm_nb B' = bm_nb B /\ bm_rows B' = bm_rows B /\
      bm_total B' = bm_total B /\ bm_compressed B' = bm_compressed B /\ bget B' a b = m /\
      forall c d, valid (bm_nb B) c d -> (c, d) <> (a, b) -> bget B' c d = bget B c d.
  Proof.
    intros (W1 & W2 & W3) V. pose proof V as (H1 & H2 & H3). unfold block_put.
    destruct (Nat.eqb_spec a b) as [->|N].
    - rewrite rangeb by lia. cbn [asserting]. rewrite aset_ok by lia. cbn [obind].
      eexists; split; [reflexivity|]. unfold wf, bget. cbn [bm_nb bm_diag bm_upper bm_rows bm_total bm_compressed].
      rewrite upd_length, Nat.eqb_refl. repeat (split; [solve [auto]|]). split.
      + apply nth_upd_same. lia.
      + intros c d (C1 & C2 & C3) HN. destruct (Nat.eqb_spec c d) as [->|N']; auto.
        apply nth_upd_diff. intros E. apply HN. f_equal; lia.
    - rewrite blk_index_eq by lia. cbn [obind].
      pose proof (slot_lt _ _ _ V N) as L. rewrite aset_ok by lia. cbn [obind].
      eexists; split; [reflexivity|]. unfold wf, bget. cbn [bm_nb bm_diag bm_upper bm_rows bm_total bm_compressed].
      rewrite upd_length. apply Nat.eqb_neq in N. rewrite N. repeat (split; [solve [auto]|]). split.
      + apply nth_upd_same. lia.
      + intros c d (C1 & C2 & C3) HN. destruct (Nat.eqb_spec c d) as [->|N']; auto.
        apply nth_upd_diff. intros E. apply HN. apply Nat.eqb_neq in N.
        destruct (rowstart_inj (bm_nb B) a b c d) as [-> ->]; auto; lia.
  Qed.

  (* filling all blocks *)
  Lemma fill_ok (g : nat -> nat -> outcome (smat K)) (G : nat -> nat -> smat K) rows nb
    (step : bmat K -> nat -> outcome (bmat K)) B0 :
    length rows = nb -> wf B0 -> bm_nb B0 = nb ->
    (forall a b, valid nb a b -> g a b = Ok (G a b)) ->
    (forall B i, i < nb -> step B i =
       (m <- g (i + 1) (i + 1) ;;
        B1 <- block_put B (i + 1) (i + 1) m ;;
        B2 <- ofold (fun B j => m <- g (i + 1) (j + 1) ;; block_put B (i + 1) (j + 1) m)
                    (seq (i + 1) (nb - (i + 1))) B1 ;;
        Ok (add_total B2 (nth i rows 0)))) ->
    exists B, ofold step (seq 0 nb) B0 = Ok B /\ wf B /\ bm_nb B = nb /\ bm_rows B = bm_rows B0 /\
      bm_total B = bm_total B0 + list_sum rows /\ bm_compressed B = bm_compressed B0 /\
      forall a b, valid nb a b -> bget B a b = G a b.
  Proof.
    intros Hl W0 N0 Hg Hs.
    destruct (ofold_seq_inv step (fun i B => wf B /\ bm_nb B = nb /\ bm_rows B = bm_rows B0 /\
      bm_total B = bm_total B0 + list_sum (firstn i rows) /\ bm_compressed B = bm_compressed B0 /\
      forall a b, valid nb a b -> a <= i -> bget B a b = G a b) nb 0 B0) as (B & E & HI).
    - cbn. repeat (split; [solve [auto]|]). intros a b (H & _) H'. lia.
    - intros i B Hi (W & N & R & T & C & HG). rewrite Hs by lia.
      assert (V : valid nb (i + 1) (i + 1)) by (unfold valid; lia).
      rewrite Hg by auto. cbn [obind].
      destruct (block_put_ok B (i + 1) (i + 1) (G (i + 1) (i + 1)) W) as
        (B1 & E1 & W1 & N1 & R1 & T1 & C1 & G1 & D1); [now rewrite N|].
      rewrite E1. cbn [obind].
      destruct (ofold_seq_inv (fun B j => m <- g (i + 1) (j + 1) ;; block_put B (i + 1) (j + 1) m)
        (fun j B => wf B /\ bm_nb B = nb /\ bm_rows B = bm_rows B0 /\
          bm_total B = bm_total B0 + list_sum (firstn i rows) /\ bm_compressed B = bm_compressed B0 /\
          forall a b, valid nb a b -> a < i + 1 \/ (a = i + 1 /\ b <= j) -> bget B a b = G a b)
        (nb - (i + 1)) (i + 1) B1) as (B2 & E2 & W2 & N2 & R2 & T2 & C2 & G2).
      + split; [auto|]. split; [congruence|]. split; [congruence|]. split; [congruence|].
        split; [congruence|]. intros a b Vab Hab.
        destruct (pos_dec (a, b) (i + 1, i + 1)) as [Eq|Ne].
        * injection Eq as -> ->. auto.
        * rewrite D1; [|now rewrite N|auto]. apply HG; auto.
          destruct Vab as (V1 & V2 & V3). assert (a <> i + 1 \/ b <> i + 1).
          { destruct (Nat.eq_dec a (i + 1)), (Nat.eq_dec b (i + 1)); try lia. subst. tauto. }
          lia.
      + intros j B' Hj (W' & N' & R' & T' & C' & HG').
        assert (V' : valid nb (i + 1) (j + 1)) by (unfold valid; lia).
        rewrite Hg by auto. cbn [obind].
        destruct (block_put_ok B' (i + 1) (j + 1) (G (i + 1) (j + 1)) W') as
          (B'' & E'' & W'' & N'' & R'' & T'' & C'' & G'' & D''); [now rewrite N'|].
        exists B''. split; auto. split; [auto|]. split; [congruence|]. split; [congruence|].
        split; [congruence|]. split; [congruence|]. intros a b Vab Hab.
        destruct (pos_dec (a, b) (i + 1, j + 1)) as [Eq|Ne].
        * injection Eq as -> ->. auto.
        * rewrite D''; [|now rewrite N'|auto]. apply HG'; auto.
          destruct (Nat.eq_dec a (i + 1)), (Nat.eq_dec b (j + 1)); try lia. subst. tauto.
      + rewrite E2. cbn [obind]. eexists; split; [reflexivity|].
        unfold wf, bget in *. cbn [add_total bm_nb bm_diag bm_upper bm_rows bm_total bm_compressed].
        split; [auto|]. split; [auto|]. split; [auto|]. split.
        * rewrite T2, (firstn_S_nth _ _ 0) by lia. rewrite list_sum_app. cbn. lia.
        * split; [auto|]. intros a b Vab Ha. apply G2; auto.
          destruct Vab as (V1 & V2 & V3). lia.
    - destruct HI as (W & N & R & T & C & HG). cbn [Nat.add] in T. rewrite <- Hl, firstn_all in T.
      exists B. rewrite <- Hl in *. repeat (split; [solve [auto]|]). intros a b V. apply HG; auto.
      destruct V as (V1 & V2 & V3). cbn. lia.
  Qed.

  Lemma wf0 nb rows t c : (Z.of_nat (n_upper nb) <= 65535)%Z ->
    wf (mkBM nb (repeat (blank K) nb) (repeat (blank K) (n_upper nb)) rows t c).
  Proof. intros H. unfold wf. cbn. rewrite !repeat_length. auto. Qed.

  Lemma b_new_ok nb rows cap : length rows = nb -> (Z.of_nat (n_upper nb) <= 65535)%Z -> 0 < cap ->
    exists B, b_new K nb rows cap = Ok B /\ wf B /\ bm_nb B = nb /\ bm_rows B = rows /\
      bm_total B = list_sum rows /\ bm_compressed B = false /\
      forall a b, valid nb a b -> mat_new K (bsize rows a) (bsize rows b) cap = Ok (bget B a b).
  Proof.
    intros Hl Hn Hc.
    assert (Hex : forall r c, exists m, mat_new K r c cap = Ok m).
    { intros r c. unfold mat_new. destruct (si_reinit_ok r c cap Hc) as (s & E & _). rewrite E. cbn. eauto. }
    assert (HG : exists G, forall r c, mat_new K r c cap = Ok (G r c)).
    { exists (fun r c => match mat_new K r c cap with Ok m => m | _ => blank K end).
      intros r c. destruct (Hex r c) as [m ->]. reflexivity. }
    destruct HG as [G HG]. unfold b_new.
    replace (length rows =? nb) with true by (symmetry; now apply Nat.eqb_eq). cbn [asserting].
    destruct (fill_ok (fun a b => mat_new K (bsize rows a) (bsize rows b) cap)
      (fun a b => G (bsize rows a) (bsize rows b)) rows nb
      (fun B i =>
        ri <- aget rows i ;;
        m <- sym_reinit K ri cap ;;
        B1 <- block_put B (i + 1) (i + 1) m ;;
        B2 <- ofold (fun B j =>
                rj <- aget rows j ;;
                m <- mat_new K ri rj cap ;;
                block_put B (i + 1) (j + 1) m)
              (seq (i + 1) (nb - (i + 1))) B1 ;;
        Ok (add_total B2 ri))
      (mkBM nb (repeat (blank K) nb) (repeat (blank K) (n_upper nb)) rows 0 false))
      as (B & E & W & N & R & T & C & H); auto.
    - now apply wf0.
    - intros B i Hi. rewrite (aget_nth _ _ 0) by lia. cbn [obind]. unfold sym_reinit.
      unfold bsize at 1 2. replace (i + 1 - 1) with i by lia.
      destruct (mat_new K (nth i rows 0) (nth i rows 0) cap); cbn [obind]; auto.
      destruct (block_put B (i + 1) (i + 1) a) as [B1| | |]; cbn [obind]; auto.
      assert (E : forall l B1, (forall j, In j l -> j < nb) ->
        ofold (fun B j => rj <- aget rows j ;; m <- mat_new K (nth i rows 0) rj cap ;;
                block_put B (i + 1) (j + 1) m) l B1 =
        ofold (fun B j => m <- mat_new K (bsize rows (i + 1)) (bsize rows (j + 1)) cap ;;
                block_put B (i + 1) (j + 1) m) l B1).
      { induction l as [|j l IH]; intros B' Hj; cbn [ofold]; auto.
        rewrite (aget_nth _ _ 0) by (rewrite Hl; apply Hj; now left). cbn [obind].
        unfold bsize at 1 2. replace (i + 1 - 1) with i by lia. replace (j + 1 - 1) with j by lia.
        destruct (mat_new K (nth i rows 0) (nth j rows 0) cap); cbn [obind]; auto.
        destruct (block_put B' (i + 1) (j + 1) a0); cbn [obind]; auto.
        apply IH. intros; apply Hj; now right. }
      rewrite E; [reflexivity|]. intros j Hj. apply in_seq in Hj. lia.
    - exists B. cbn in R, T, C. repeat (split; [solve [auto]|]). intros a b V. rewrite H by auto. apply HG.
  Qed.

  (* ---------------------------------------------------------------- *)
  (* registration *)
  Definition fadd (a b : nat) m (e : nat * nat) : outcome (smat K) :=
    if a =? b then sym_addEntry m (fst e) (snd e) else mat_addEntry m (fst e) (snd e).

  Lemma locate_pair rows e : in_shape (list_sum rows) (list_sum rows) e ->
    exists a b p q, gbp rows 1 (Nat.min (fst e) (snd e)) = (a, p) /\
      gbp rows 1 (Nat.max (fst e) (snd e)) = (b, q) /\ valid (length rows) a b /\
      1 <= p <= bsize rows a /\ 1 <= q <= bsize rows b /\ (a = b -> p <= q) /\
      up e = (offset rows a + p, offset rows b + q).
  Proof.
    destruct e as [i j]. intros [Hi Hj]. cbn in Hi, Hj. cbn [fst snd].
    destruct (gbp_spec rows (Nat.min i j)) as (a & p & E1 & Ha & Hp & Ho1); [lia|lia|].
    destruct (gbp_spec rows (Nat.max i j)) as (b & q & E2 & Hb & Hq & Ho2); [lia|lia|].
    exists a, b, p, q. split; auto. split; auto.
    assert (Hab : a <= b).
    { destruct (Nat.le_gt_cases a b); auto. pose proof (offset_lt rows b a q p). lia. }
    split; [unfold valid; lia|]. split; auto. split; auto. split.
    - intros <-. lia.
    - rewrite up_cases. congruence.
  Qed.

  Lemma loc_single rows a b c d p q e : valid (length rows) a b -> valid (length rows) c d ->
    1 <= p <= bsize rows a -> 1 <= q <= bsize rows b ->
    up e = (offset rows a + p, offset rows b + q) ->
    (if in_blk rows c (fst (up e)) && in_blk rows d (snd (up e))
     then [(fst (up e) - offset rows c, snd (up e) - offset rows d)] else []) =
    if pos_dec (a, b) (c, d) then [(p, q)] else [].
  Proof.
    intros (V1 & V2 & V3) (V4 & V5 & V6) Hp Hq ->. cbn [fst snd].
    destruct (pos_dec (a, b) (c, d)) as [E|N].
    - injection E as <- <-. rewrite (proj2 (in_blk_iff rows a a p ltac:(lia) ltac:(lia) Hp) eq_refl).
      rewrite (proj2 (in_blk_iff rows b b q ltac:(lia) ltac:(lia) Hq) eq_refl). cbn.
      do 2 f_equal; lia.
    - destruct (in_blk rows c (offset rows a + p)) eqn:F1; auto.
      destruct (in_blk rows d (offset rows b + q)) eqn:F2; auto.
      apply in_blk_iff in F1; auto; try lia. apply in_blk_iff in F2; auto; try lia. subst. tauto.
  Qed.

  Lemma route_entries rows es : forall B, wf B -> bm_rows B = rows -> bm_nb B = length rows ->
    bm_total B = list_sum rows ->
    (forall e, In e es -> in_shape (list_sum rows) (list_sum rows) e) ->
    (forall a b, valid (length rows) a b ->
       exists m, ofold (fadd a b) (loc rows a b es) (bget B a b) = Ok m) ->
    exists B', ofold (fun B e => b_addEntry B (fst e) (snd e)) es B = Ok B' /\ wf B' /\
      bm_rows B' = rows /\ bm_nb B' = length rows /\ bm_total B' = list_sum rows /\
      forall a b, valid (length rows) a b ->
        ofold (fadd a b) (loc rows a b es) (bget B a b) = Ok (bget B' a b).
  Proof.
    induction es as [|e es IH]; intros B W R N T Hin Hok.
    - exists B. cbn. repeat (split; [solve [auto]|]). auto.
    - destruct (locate_pair rows e (Hin e (or_introl eq_refl))) as
        (a & b & p & q & E1 & E2 & V & Hp & Hq & Hpq & Eu).
      assert (Hl : forall c d, valid (length rows) c d ->
        loc rows c d (e :: es) = (if pos_dec (a, b) (c, d) then [(p, q)] else []) ++ loc rows c d es).
      { intros c d V'. rewrite loc_cons. f_equal. now apply loc_single. }
      assert (Hf : exists m, fadd a b (bget B a b) (p, q) = Ok m).
      { destruct (Hok a b V) as [m Hm]. rewrite Hl in Hm by auto.
        destruct (pos_dec (a, b) (a, b)) as [_|]; [|tauto]. cbn [app ofold] in Hm.
        apply obind_ok in Hm as (m1 & E & _). eauto. }
      destruct Hf as [m Hm].
      destruct (block_put_ok B a b m W) as (B1 & EB & W1 & N1 & R1 & T1 & C1 & G1 & D1);
        [now rewrite N|].
      assert (EE : b_addEntry B (fst e) (snd e) = Ok B1).
      { unfold b_addEntry, b_route, b_locate. destruct (Hin e (or_introl eq_refl)) as [Hi Hj].
        rewrite !rangeb by lia. cbn [asserting obind]. rewrite R, E1, E2. cbn [fst snd].
        rewrite block_get_ok by (auto; now rewrite N). cbn [obind].
        unfold fadd in Hm. cbn [fst snd] in Hm. destruct (a =? b); rewrite Hm; cbn [obind]; auto. }
      cbn [ofold]. rewrite EE. cbn [obind].
      destruct (IH B1) as (B' & E' & W' & R' & N' & T' & HB); try congruence; auto.
      { intros; apply Hin; now right. }
      { intros c d V'. destruct (Hok c d V') as [m' Hm']. rewrite Hl in Hm' by auto.
        destruct (pos_dec (a, b) (c, d)) as [Ec|Nc].
        - injection Ec as <- <-. cbn [app ofold] in Hm'. rewrite Hm in Hm'. cbn [obind] in Hm'.
          rewrite G1. eauto.
        - rewrite D1; [eauto|now rewrite N|congruence]. }
      exists B'. repeat (split; [solve [auto]|]). intros c d V'. rewrite Hl by auto.
      destruct (pos_dec (a, b) (c, d)) as [Ec|Nc].
      + injection Ec as <- <-. cbn [app ofold]. rewrite Hm. cbn [obind]. rewrite <- G1. now apply HB.
      + cbn [app]. rewrite <- (D1 c d); [now apply HB|now rewrite N|congruence].
  Qed.

  (* compressing / zeroing every block *)
  Lemma each_block (f : smat K -> outcome (smat K)) B cpr :
    wf B -> (forall a b, valid (bm_nb B) a b -> exists m, f (bget B a b) = Ok m) ->
    exists B', (d <- omap f (bm_diag B) ;;
                u <- loop16 (n_upper (bm_nb B)) (omap f (bm_upper B)) ;;
                Ok (mkBM (bm_nb B) d u (bm_rows B) (bm_total B) cpr)) = Ok B' /\ wf B' /\
      bm_nb B' = bm_nb B /\ bm_rows B' = bm_rows B /\ bm_total B' = bm_total B /\
      bm_compressed B' = cpr /\
      forall a b, valid (bm_nb B) a b -> f (bget B a b) = Ok (bget B' a b).
  Proof.
    intros (W1 & W2 & W3) Hf.
    destruct (omap_ok f (blank K) (blank K) (bm_diag B)) as (d & Ed & Ld & Hd).
    { intros k Hk. destruct (Hf (S k) (S k)) as [m Hm]; [unfold valid; lia|].
      unfold bget in Hm. rewrite Nat.eqb_refl in Hm. replace (S k - 1) with k in Hm by lia. eauto. }
    destruct (omap_ok f (blank K) (blank K) (bm_upper B)) as (u & Eu & Lu & Hu).
    { intros k Hk. rewrite W2, n_upper_rowstart in Hk.
      destruct (rowstart_surj (bm_nb B) (bm_nb B) (le_n _) k Hk) as (i & j & H1 & H2 & H3 & _ & ->).
      destruct (Hf i j) as [m Hm]; [unfold valid; lia|].
      unfold bget in Hm. replace (i =? j) with false in Hm by (symmetry; apply Nat.eqb_neq; lia). eauto. }
    rewrite Ed, Eu. cbn [obind]. unfold loop16. apply Z.leb_le in W3 as W3'. rewrite W3'. cbn [obind].
    eexists; split; [reflexivity|]. unfold wf, bget. cbn [bm_nb bm_diag bm_upper bm_rows bm_total bm_compressed].
    split; [split; [congruence|split; [congruence|auto]]|]. repeat (split; [solve [auto]|]).
    intros a b V. destruct (Nat.eqb_spec a b) as [->|Nab].
    - apply Hd. destruct V as (? & ? & ?). lia.
    - apply Hu. rewrite W2. now apply slot_lt.
  Qed.

  (* ---------------------------------------------------------------- *)
  Definition brep x rows es B (F : nat -> nat -> K) : Prop :=
    wf B /\ bm_rows B = rows /\ bm_nb B = length rows /\ bm_total B = list_sum rows + x /\
    forall a b, valid (length rows) a b ->
      mrep (bget B a b) (bsize rows a) (bsize rows b) (fun p q => In (p, q) (loc rows a b es))
        (fun p q => if (a =? b) && (q <? p) then r0 else F (offset rows a + p) (offset rows b + q)).

  Lemma new_block_ok rows cap es :
    (Z.of_nat (n_upper (length rows)) <= 65535)%Z -> 0 < cap ->
    (forall e, In e es -> in_shape (list_sum rows) (list_sum rows) e) ->
    fits_blocks rows cap es ->
    exists B, new_block (length rows) rows cap es = Ok B /\ bm_compressed B = true /\
      brep 0 rows es B (fun _ _ => r0).
  Proof.
    intros Hn Hc Hin HF.
    destruct (b_new_ok (length rows) rows cap eq_refl Hn Hc) as (B0 & E0 & W0 & N0 & R0 & T0 & C0 & G0).
    assert (HM : forall a b, valid (length rows) a b ->
      exists m1 m2, ofold (fadd a b) (loc rows a b es) (bget B0 a b) = Ok m1 /\ mat_compress m1 = Ok m2 /\
        mrep m2 (bsize rows a) (bsize rows b) (fun p q => In (p, q) (loc rows a b es)) (fun _ _ => r0)).
    { intros a b V. pose proof V as (V1 & V2 & V3).
      destruct (new_matrix_ok K (bsize rows a) (bsize rows b) cap (loc rows a b es) Hc) as (m2 & E & HM).
      { intros e He. eapply loc_shape; eauto; lia. }
      { apply HF; lia. }
      assert (E' : (if a =? b then new_sym (K := K) (bsize rows a) cap (loc rows a b es)
                   else new_matrix (bsize rows a) (bsize rows b) cap (loc rows a b es)) = Ok m2).
      { destruct (Nat.eqb_spec a b) as [->|]; auto. rewrite new_sym_up, loc_diag_up. auto. }
      unfold fadd. specialize (G0 a b V). destruct (Nat.eqb_spec a b) as [Eab|Nab].
      - subst b. unfold new_sym, sym_reinit in E'. rewrite G0 in E'. cbn [obind] in E'.
        apply obind_ok in E' as (m1 & E1 & E2). exists m1, m2. auto.
      - unfold new_matrix in E'. rewrite G0 in E'. cbn [obind] in E'.
        apply obind_ok in E' as (m1 & E1 & E2). exists m1, m2. auto. }
    destruct (route_entries rows es B0 W0 R0 N0 T0 Hin) as (B1 & E1 & W1 & R1 & N1 & T1 & H1).
    { intros a b V. destruct (HM a b V) as (m1 & _ & E & _). eauto. }
    destruct (each_block mat_compress B1 true W1) as (B2 & E2 & W2 & N2 & R2 & T2 & C2 & H2).
    { rewrite N1. intros a b V. destruct (HM a b V) as (m1 & m2 & E & E' & _).
      rewrite H1 in E by auto. injection E as ->. eauto. }
    exists B2. unfold new_block. rewrite E0. cbn [obind]. rewrite E1. cbn [obind].
    split; [exact E2|]. split; [auto|]. split; [auto|]. split; [congruence|]. split; [congruence|].
    split; [lia|]. intros a b V.
    destruct (HM a b V) as (m1 & m2 & E & E' & HM'). rewrite H1 in E by auto. injection E as <-.
    rewrite H2 in E' by now rewrite N1. injection E' as <-.
    eapply mrep_ext; [exact HM'|]. intros p q Hp Hq. split; [tauto|]. destruct ((a =? b) && _); auto.
  Qed.

  Lemma sym_in_up es e : sym_in es (fst e) (snd e) <-> In (up e) (map up es).
  Proof. destruct e as [i j]. cbn [fst snd]. symmetry. apply up_in. Qed.

  Lemma same_pair_up i j a b : a <= b -> same_pair i j a b = here (fst (up (i, j))) (snd (up (i, j))) a b.
  Proof.
    intros H. rewrite up_cases. cbn [fst snd]. unfold same_pair, here.
    apply Bool.eq_iff_eq_true. rewrite orb_true_iff, !andb_true_iff, !Nat.eqb_eq. lia.
  Qed.

  Lemma brep_add k rows es B F i j x : brep k rows es B F ->
    (forall e, In e es -> in_shape (list_sum rows) (list_sum rows) e) -> sym_in es i j ->
    exists B', b_addValue B i j x = Ok B' /\ brep k rows es B' (spec_sym_vop F (VAdd i j x)).
  Proof.
    intros (W & R & N & T & HB) Hin HS.
    assert (Hsh : in_shape (list_sum rows) (list_sum rows) (i, j)).
    { destruct HS as [HS|HS]; destruct (Hin _ HS) as [A1 A2]; cbn in A1, A2; split; cbn; lia. }
    destruct (locate_pair rows (i, j) Hsh) as (a & b & p & q & E1 & E2 & V & Hp & Hq & Hpq & Eu).
    pose proof V as (V1 & V2 & V3). cbn [fst snd] in E1, E2.
    assert (HP : In (p, q) (loc rows a b es)).
    { apply loc_in; auto; try lia. rewrite <- Eu. now apply (sym_in_up es (i, j)). }
    destruct (mrep_addValue K _ _ _ _ _ p q x (HB a b V) Hp Hq HP) as (m' & Em & _ & HM').
    destruct (block_put_ok B a b m' W) as (B' & EB & W' & N' & R' & T' & C' & G' & D');
      [now rewrite N|].
    exists B'. split.
    - unfold b_addValue, b_route, b_locate. destruct Hsh as [Hi Hj]. cbn in Hi, Hj.
      rewrite !rangeb by lia. cbn [asserting obind]. rewrite R, E1, E2. cbn [fst snd].
      rewrite block_get_ok by (auto; now rewrite N). cbn [obind].
      destruct (Nat.eqb_spec a b) as [Eab|Nab].
      + unfold sym_addValue, upper. specialize (Hpq Eab).
        replace (q <? p) with false by (symmetry; apply Nat.ltb_ge; lia). rewrite Em. cbn [obind]. auto.
      + rewrite Em. cbn [obind]. auto.
    - split; [auto|]. split; [congruence|]. split; [congruence|]. split; [congruence|].
      intros c d V'. pose proof V' as (V4 & V5 & V6).
      assert (Hle : forall p' q', 1 <= p' <= bsize rows c -> 1 <= q' <= bsize rows d ->
        (c =? d) && (q' <? p') = false -> offset rows c + p' <= offset rows d + q').
      { intros p' q' Hp' Hq' Hcd. destruct (Nat.eq_dec c d) as [->|Ncd].
        - rewrite Nat.eqb_refl in Hcd. cbn in Hcd. apply Nat.ltb_ge in Hcd. lia.
        - pose proof (offset_lt rows c d p' q'). lia. }
      destruct (pos_dec (c, d) (a, b)) as [Ec|Nc].
      + injection Ec as -> ->. rewrite G'. eapply mrep_ext; [exact HM'|].
        intros p' q' Hp' Hq'. split; [tauto|]. cbn [spec_vop spec_sym_vop].
        destruct ((a =? b) && (q' <? p')) eqn:Hcd.
        * destruct (here p q p' q') eqn:Hh; auto. apply here_true in Hh as [<- <-].
          apply andb_prop in Hcd as [C1 C2]. apply Nat.eqb_eq in C1. apply Nat.ltb_lt in C2.
          specialize (Hpq C1). lia.
        * rewrite same_pair_up by auto. rewrite Eu. cbn [fst snd].
          replace (here (offset rows a + p) (offset rows b + q) (offset rows a + p') (offset rows b + q'))
            with (here p q p' q'); auto.
          apply Bool.eq_iff_eq_true. rewrite !here_true. lia.
      + rewrite D'; [|now rewrite N|auto]. eapply mrep_ext; [apply HB; auto|].
        intros p' q' Hp' Hq'. split; [tauto|]. cbn [spec_sym_vop].
        destruct ((c =? d) && (q' <? p')) eqn:Hcd; auto.
        rewrite same_pair_up by auto. rewrite Eu. cbn [fst snd].
        destruct (here (offset rows a + p) (offset rows b + q) (offset rows c + p') (offset rows d + q')) eqn:Hh; auto.
        apply here_true in Hh as [H1 H2]. exfalso. apply Nc.
        destruct (offset_uniq rows a c p p'); auto; try lia.
        destruct (offset_uniq rows b d q q'); auto; try lia; subst; auto.
  Qed.

  Lemma brep_unregistered k rows es B F i j x : brep k rows es B F ->
    (forall e, In e es -> in_shape (list_sum rows) (list_sum rows) e) ->
    in_shape (list_sum rows) (list_sum rows) (i, j) -> ~ sym_in es i j ->
    b_addValue B i j x = Fatal.
  Proof.
    intros (W & R & N & T & HB) Hin Hsh HS.
    destruct (locate_pair rows (i, j) Hsh) as (a & b & p & q & E1 & E2 & V & Hp & Hq & Hpq & Eu).
    pose proof V as (V1 & V2 & V3). cbn [fst snd] in E1, E2.
    assert (HP : ~ In (p, q) (loc rows a b es)).
    { intros C. apply HS. apply (sym_in_up es (i, j)). rewrite Eu. apply loc_in in C; auto; lia. }
    pose proof (mrep_add_absent K _ _ _ _ _ p q x (HB a b V) Hp Hq HP) as Em.
    unfold b_addValue, b_route, b_locate. destruct Hsh as [Hi Hj]. cbn in Hi, Hj.
    rewrite !rangeb by lia. cbn [asserting obind]. rewrite R, E1, E2. cbn [fst snd].
    rewrite block_get_ok by (auto; now rewrite N). cbn [obind].
    destruct (Nat.eqb_spec a b) as [Eab|Nab].
    - unfold sym_addValue, upper. specialize (Hpq Eab).
      replace (q <? p) with false by (symmetry; apply Nat.ltb_ge; lia). now rewrite Em.
    - now rewrite Em.
  Qed.

  Lemma brep_zero k rows es B F : brep k rows es B F ->
    exists B', b_zero B = Ok B' /\ brep k rows es B' (fun _ _ => r0).
  Proof.
    intros (W & R & N & T & HB).
    destruct (each_block mat_zero B (bm_compressed B) W) as (B' & E & W' & N' & R' & T' & C' & H').
    { rewrite N. intros a b V. destruct (mrep_zero K _ _ _ _ _ (HB a b V)) as (m' & E & _). eauto. }
    exists B'. split; [exact E|]. split; [auto|]. split; [congruence|]. split; [congruence|].
    split; [congruence|]. intros a b V.
    destruct (mrep_zero K _ _ _ _ _ (HB a b V)) as (m' & Em & _ & HM).
    rewrite H' in Em by now rewrite N. injection Em as <-.
    eapply mrep_ext; [exact HM|]. intros p q Hp Hq. split; [tauto|]. destruct ((a =? b) && _); auto.
  Qed.

  Lemma brep_run k rows es os : (forall e, In e es -> in_shape (list_sum rows) (list_sum rows) e) ->
    forall B F, brep k rows es B F ->
    (forall i j x, In (BAdd i j x) os -> sym_in es i j) ->
    exists B', ofold run_bop os B = Ok B' /\ brep k rows es B' (fold_left spec_sym_vop (map bop_vop os) F).
  Proof.
    intros Hin. induction os as [|o os IH]; intros B F HB Ho; cbn [ofold map fold_left].
    - exists B; auto.
    - assert (Hs : exists B', run_bop B o = Ok B' /\ brep k rows es B' (spec_sym_vop F (bop_vop o))).
      { destruct o as [i j x|]; cbn [run_bop bop_vop].
        - apply brep_add; auto. apply (Ho i j x). now left.
        - now apply brep_zero with (1 := HB). }
      destruct Hs as (B1 & E1 & HB1). rewrite E1. cbn [obind]. apply IH; auto.
      intros i j x HI. apply (Ho i j x). now right.
  Qed.

  Lemma brep_value k rows es B F a b p q : brep k rows es B F -> (forall i j, F i j = F j i) ->
    valid (length rows) a b -> 1 <= p <= bsize rows a -> 1 <= q <= bsize rows b ->
    block_value B a b p q = Ok (F (offset rows a + p) (offset rows b + q)).
  Proof.
    intros (W & R & N & T & HB) HF V Hp Hq. unfold block_value.
    rewrite block_get_ok by (auto; now rewrite N). cbn [obind].
    destruct (Nat.eqb_spec a b) as [Eab|Nab].
    - subst b. rewrite (sym_value_spec K _ _ _ _ p q (HB a a V)) by auto. f_equal.
      unfold symf. rewrite Nat.eqb_refl. cbn [andb].
      destruct (Nat.ltb_spec q p).
      + replace (p <? q) with false by (symmetry; apply Nat.ltb_ge; lia). apply HF.
      + replace (q <? p) with false by (symmetry; apply Nat.ltb_ge; lia). reflexivity.
    - rewrite (mrep_value K _ _ _ _ _ p q (HB a b V)) by auto. f_equal.
      apply Nat.eqb_neq in Nab. rewrite Nab. reflexivity.
  Qed.

  Lemma block_semantics rows cap es (os : list (bop K)) :
    (Z.of_nat (n_upper (length rows)) <= 65535)%Z -> 0 < cap ->
    (forall e, In e es -> in_shape (list_sum rows) (list_sum rows) e) ->
    fits_blocks rows cap es ->
    (forall i j x, In (BAdd i j x) os -> sym_in es i j) ->
    exists B, filled_block (length rows) rows cap es os = Ok B /\
      (forall a b p q, 1 <= a -> a <= b -> b <= length rows ->
         1 <= p <= bsize rows a -> 1 <= q <= bsize rows b ->
         block_value B a b p q =
           Ok (spec_sym_vops (map bop_vop os) (offset rows a + p) (offset rows b + q))) /\
      (forall i j x, in_shape (list_sum rows) (list_sum rows) (i, j) -> ~ sym_in es i j ->
         b_addValue B i j x = Fatal).
  Proof.
    intros Hn Hc Hin HF Ho. destruct (new_block_ok rows cap es Hn Hc Hin HF) as (B0 & E0 & _ & HB0).
    destruct (brep_run 0 rows es os Hin B0 _ HB0 Ho) as (B & E & HB).
    exists B. unfold filled_block. rewrite E0. cbn [obind]. split; [auto|]. split.
    - intros a b p q H1 H2 H3 Hp Hq. eapply brep_value; eauto; [|unfold valid; auto].
      apply spec_sym_symmetric. auto.
    - intros i j x Hsh HS. eapply brep_unregistered; eauto.
  Qed.

  (* ---------------------------------------------------------------- *)
  (* the copying constructor *)
  Lemma b_copy_ok k rows es B F : brep k rows es B F ->
    exists B', b_copy B = Ok B' /\ wf B' /\ bm_nb B' = bm_nb B /\ bm_rows B' = rows /\
      bm_total B' = 2 * list_sum rows + k /\ bm_compressed B' = bm_compressed B /\
      forall a b, valid (length rows) a b ->
        mrep (bget B' a b) (bsize rows a) (bsize rows b) (fun p q => In (p, q) (loc rows a b es))
          (fun _ _ => r0) /\ sm_si (bget B' a b) = sm_si (bget B a b).
  Proof.
    intros (W & R & N & T & HB). unfold b_copy.
    replace (length (bm_rows B) =? bm_nb B) with true by (symmetry; apply Nat.eqb_eq; congruence).
    cbn [asserting].
    assert (HM : forall a b, valid (length rows) a b ->
      mat_setSI (blank K) (sm_si (bget B a b)) =
        Ok (mkSM (sm_si (bget B a b)) (Some (repeat r0 (si_nvals (sm_si (bget B a b))))))).
    { intros a b V. destruct (mrep_dims K _ _ _ _ _ (HB a b V)) as (_ & _ & C).
      unfold mat_setSI, mat_compress. cbn [sm_si sm_vals blank]. now rewrite C. }
    destruct (fill_ok (fun a b => e <- block_get B a b ;; mat_setSI (blank K) (sm_si e))
      (fun a b => mkSM (sm_si (bget B a b)) (Some (repeat r0 (si_nvals (sm_si (bget B a b))))))
      rows (bm_nb B)
      (fun B0 i =>
        ri <- aget (bm_rows B) i ;;
        e <- block_get B (i + 1) (i + 1) ;;
        m <- mat_setSI (blank K) (sm_si e) ;;
        B1 <- block_put B0 (i + 1) (i + 1) m ;;
        B2 <- ofold (fun B0 j =>
                e <- block_get B (i + 1) (j + 1) ;;
                m <- mat_setSI (blank K) (sm_si e) ;;
                block_put B0 (i + 1) (j + 1) m)
              (seq (i + 1) (bm_nb B - (i + 1))) B1 ;;
        Ok (add_total B2 ri))
      (mkBM (bm_nb B) (repeat (blank K) (bm_nb B)) (repeat (blank K) (n_upper (bm_nb B))) (bm_rows B)
         (bm_total B) (bm_compressed B)))
      as (B' & E & W' & N' & R' & T' & C' & H').
    - auto.
    - apply wf0. apply W.
    - reflexivity.
    - intros a b V. rewrite block_get_ok by auto. cbn [obind]. apply HM. now rewrite <- N.
    - intros B0 i Hi. rewrite R, (aget_nth _ _ 0) by lia. cbn [obind].
      destruct (block_get B (i + 1) (i + 1)) as [e| | |]; cbn [obind]; auto.
      destruct (mat_setSI (blank K) (sm_si e)) as [m| | |]; cbn [obind]; auto.
      destruct (block_put B0 (i + 1) (i + 1) m) as [B1| | |]; cbn [obind]; auto.
      assert (E : forall l B1,
        ofold (fun B0 j => e <- block_get B (i + 1) (j + 1) ;; m <- mat_setSI (blank K) (sm_si e) ;;
                block_put B0 (i + 1) (j + 1) m) l B1 =
        ofold (fun B0 j => m <- (e <- block_get B (i + 1) (j + 1) ;; mat_setSI (blank K) (sm_si e)) ;;
                block_put B0 (i + 1) (j + 1) m) l B1).
      { induction l as [|j l IH]; intros B2; cbn [ofold]; auto.
        destruct (block_get B (i + 1) (j + 1)) as [e2| | |]; cbn [obind]; auto.
        destruct (mat_setSI (blank K) (sm_si e2)) as [m2| | |]; cbn [obind]; auto.
        destruct (block_put B2 (i + 1) (j + 1) m2); cbn [obind]; auto. }
      now rewrite E.
    - exists B'. cbn in R', T', C'. split; [exact E|]. split; [auto|]. split; [auto|]. split; [congruence|].
      split; [lia|]. split; [auto|]. intros a b V. rewrite H' by now rewrite N.
      split; [|reflexivity]. destruct (HB a b V) as (rws & v & HR & D1 & D2 & Ev & Lv & Hf).
      exists rws, (repeat r0 (si_nvals (sm_si (bget B a b)))). cbn [sm_si sm_vals].
      repeat (split; [solve [auto]|]). split; [apply repeat_length|].
      intros p q Hp Hq. destruct (Hf p q Hp Hq) as [A _]. split; auto.
      destruct (slot rws p q); auto. now rewrite nth_repeat0.
  Qed.
End BlockProofs.

(* global capacity is enough for every block *)
Lemma fits_blocks_of_fits rows cap es :
  (forall e, In e es -> in_shape (list_sum rows) (list_sum rows) e) ->
  fits (list_sum rows) cap (map up es) -> fits_blocks rows cap es.
Proof.
  intros Hin HF a b Ha Hab Hb p Hp.
  assert (Hp' : 1 <= offset rows a + p <= list_sum rows).
  { pose proof (offset_bound rows a p). lia. }
  transitivity (length (row_cols (map up es) (offset rows a + p))); [|now apply HF].
  rewrite <- (map_length (fun q => offset rows b + q)).
  apply NoDup_incl_length.
  - apply FinFun.Injective_map_NoDup; [|apply NoDup_nodup]. intros x y; lia.
  - intros q Hq. apply in_map_iff in Hq as (q' & <- & Hq). apply row_cols_in in Hq.
    apply row_cols_in. pose proof (loc_shape rows a b es (p, q') ltac:(lia) ltac:(lia) Hq) as [_ S2].
    cbn in S2. apply loc_in in Hq; auto; lia.
Qed.

Lemma n_upper_small nb : nb <= 362 -> (Z.of_nat (n_upper nb) <= 65535)%Z.
Proof.
  intros H. rewrite n_upper_rowstart. pose proof (rowstart_closed nb nb (le_n _)). nia.
Qed.
Lemma n_upper_double nb : 2 * n_upper nb = nb * (nb - 1).
Proof. rewrite n_upper_rowstart. pose proof (rowstart_closed nb nb (le_n _)). nia. Qed.

Lemma blk_bijection nb : nb <= 362 ->
  (forall i j, 1 <= i -> i < j -> j <= nb -> exists k, blk_index nb i j = Ok k /\ k < n_upper nb) /\
  (forall i j i' j' k, 1 <= i -> i < j -> j <= nb -> 1 <= i' -> i' < j' -> j' <= nb ->
     blk_index nb i j = Ok k -> blk_index nb i' j' = Ok k -> (i, j) = (i', j')) /\
  (forall k, k < n_upper nb -> exists i j, 1 <= i /\ i < j /\ j <= nb /\ blk_index nb i j = Ok k).
Proof.
  intros H. pose proof (n_upper_small nb H) as Hn. split; [|split].
  - intros i j H1 H2 H3. rewrite blk_index_eq by lia. eexists; split; [reflexivity|].
    apply slot_lt; [unfold valid; lia|lia].
  - intros i j i' j' k H1 H2 H3 H4 H5 H6. rewrite !blk_index_eq by lia. intros [= <-] [= E].
    destruct (rowstart_inj nb i j i' j') as [-> ->]; auto.
  - intros k Hk. rewrite n_upper_rowstart in Hk.
    destruct (rowstart_surj nb nb (le_n _) k Hk) as (i & j & H1 & H2 & H3 & _ & ->).
    exists i, j. rewrite blk_index_eq by lia. auto.
Qed.

Section BlockMore.
  Variable K : Rng.
  Lemma block_dims rows cap es : length rows <= 362 -> 0 < cap ->
    (forall e, In e es -> in_shape (list_sum rows) (list_sum rows) e) -> fits_blocks rows cap es ->
    exists B : bmat K, new_block (length rows) rows cap es = Ok B /\
      forall i j, 1 <= i -> i < j -> j <= length rows ->
        exists m, block_get B i j = Ok m /\ block_get B j i = Ok m /\
          si_nrows (sm_si m) = bsize rows i /\ si_ncols (sm_si m) = bsize rows j.
  Proof.
    intros Hn Hc Hin HF.
    destruct (new_block_ok K rows cap es (n_upper_small _ Hn) Hc Hin HF) as (B & E & _ & HB).
    exists B. split; auto. intros i j H1 H2 H3. destruct HB as (W & R & N & T & HB).
    assert (V : valid (length rows) i j) by (unfold valid; lia).
    exists (bget K B i j). rewrite block_get_ok by (auto; now rewrite N). split; auto. split.
    - rewrite <- (block_get_ok K B i j W) by now rewrite N. unfold block_get.
      replace (j =? i) with false by (symmetry; apply Nat.eqb_neq; lia).
      replace (i =? j) with false by (symmetry; apply Nat.eqb_neq; lia). now rewrite blk_index_sym.
    - destruct (mrep_dims K _ _ _ _ _ (HB i j V)) as (D1 & D2 & _). auto.
  Qed.

  Lemma block_copy rows cap es (os : list (bop K)) B : length rows <= 362 -> 0 < cap ->
    (forall e, In e es -> in_shape (list_sum rows) (list_sum rows) e) -> fits_blocks rows cap es ->
    (forall i j x, In (BAdd i j x) os -> sym_in es i j) ->
    filled_block (length rows) rows cap es os = Ok B ->
    exists B', b_copy B = Ok B' /\ bm_rows B' = bm_rows B /\ bm_compressed B' = bm_compressed B /\
      bm_total B = list_sum rows /\ bm_total B' = 2 * bm_total B /\
      forall a b, 1 <= a -> a <= b -> b <= length rows ->
        exists m m', block_get B a b = Ok m /\ block_get B' a b = Ok m' /\ sm_si m' = sm_si m /\
          forall p q, 1 <= p <= bsize rows a -> 1 <= q <= bsize rows b ->
            block_value B' a b p q = Ok r0.
  Proof.
    intros Hn Hc Hin HF Ho Hf.
    destruct (new_block_ok K rows cap es (n_upper_small _ Hn) Hc Hin HF) as (B0 & E0 & _ & HB0).
    destruct (brep_run K 0 rows es os Hin B0 _ HB0 Ho) as (B1 & E & HB).
    unfold filled_block in Hf. rewrite E0 in Hf. cbn [obind] in Hf. rewrite E in Hf.
    injection Hf as ->.
    destruct (b_copy_ok K 0 rows es B _ HB) as (B' & E' & W' & N' & R' & T' & C' & HB').
    pose proof HB as (W & R & N & T & _).
    exists B'. split; auto. split; [congruence|]. split; auto. split; [lia|]. split; [lia|].
    intros a b H1 H2 H3. assert (V : valid (length rows) a b) by (unfold valid; lia).
    destruct (HB' a b V) as [HM HS].
    exists (bget K B a b), (bget K B' a b). rewrite !block_get_ok by (auto; congruence).
    split; auto. split; auto. split; auto. intros p q Hp Hq. unfold block_value.
    rewrite block_get_ok by (auto; congruence). cbn [obind]. destruct (Nat.eqb_spec a b) as [<-|].
    - rewrite (sym_value_spec K _ _ _ _ p q HM) by auto. unfold symf. destruct (Nat.ltb q p); auto.
    - rewrite (mrep_value K _ _ _ _ _ p q HM); auto.
  Qed.
End BlockMore.
