(* The transient solution *)
From Coq Require Import Permutation Sorted.
From Verif Require Import Base BaseProofs SparseModel SpecSparse SparseProofs SparseMatProofs SparseFinal BlockModel SpecBlock BlockProofs
  DofModel SpecDof DofProofs NumberingProofs AsmModel SpecAsm AsmLists AsmCalls AsmProofs AsmRun AsmFinal SolveModel SpecSolve
  SolveProofs LinearProofs TransModel SpecTrans.

(* sorted lists with the same elements *)
Lemma strict_unique l : StronglySorted lt l -> forall l', StronglySorted lt l' -> (forall x, In x l <-> In x l') -> l = l'.
Proof.
  induction 1 as [|a l H IH Ha]; intros l' H' E.
  - destruct l' as [|b l']; auto. exfalso. apply (E b). now left.
  - destruct H' as [|b l' H' Hb]; [exfalso; apply (E a); now left|].
    rewrite Forall_forall in Ha, Hb.
    assert (a = b) as ->.
    { assert (A1 : In a (b :: l')) by (apply E; now left). assert (A2 : In b (a :: l)) by (apply E; now left).
      destruct A1 as [A1|A1]; auto. destruct A2 as [A2|A2]; auto. apply Hb in A1. apply Ha in A2. lia. }
    f_equal. apply IH; auto. intros x. specialize (E x). cbn [In] in E. split; intros I.
    + destruct E as [E _]. destruct E as [->|E]; auto. specialize (Ha _ I). lia.
    + destruct E as [_ E]. destruct E as [->|E]; auto. specialize (Hb _ I). lia.
Qed.

Lemma RepC_unique s s' rows rows' nr nc : RepC s rows -> RepC s' rows' ->
  si_nrows s = nr -> si_nrows s' = nr -> si_ncols s = nc -> si_ncols s' = nc ->
  (forall i j, 1 <= i <= nr -> 1 <= j <= nc -> In j (nth (i - 1) rows []) <-> In j (nth (i - 1) rows' [])) -> rows = rows'.
Proof.
  intros R R' N N' C C' E. pose proof (RepC_len _ _ R) as L. pose proof (RepC_len _ _ R') as L'.
  apply (nth_ext _ _ [] []); [congruence|]. intros k Hk.
  destruct R as (_ & _ & K1 & S1 & _). destruct R' as (_ & _ & K2 & S2 & _).
  assert (I1 : In (nth k rows []) rows) by (apply nth_In; auto).
  assert (I2 : In (nth k rows' []) rows') by (apply nth_In; congruence).
  apply strict_unique; auto. intros x. specialize (E (S k) x). replace (S k - 1) with k in E by lia.
  split; intros I.
  - apply E; auto; [lia|]. destruct (K1 _ I1) as [_ B]. apply B in I. lia.
  - apply E; auto; [lia|]. destruct (K2 _ I2) as [_ B]. apply B in I. lia.
Qed.

Section Gen.
  Variable K : Rng.
  Add Ring Kr : (rth K).
  Local Open Scope rng_scope.
  Implicit Types (m : smat K) (v : list K) (f : nat -> nat -> K).

  Lemma kmod_ok (nw : newmark K) k m c n P fk fm fc : mrep k n n P fk -> mrep m n n P fm -> mrep c n n P fc ->
    exists r, kmod nw k m c = Ok r /\ mrep r n n P (fun i j => na0 nw * fm i j + na1 nw * fc i j + fk i j).
  Proof.
    intros (r1 & vk & A1 & A2 & A3 & A4 & A5 & A6) (r2 & vm & B1 & B2 & B3 & B4 & B5 & B6) (r3 & vc & C1 & C2 & C3 & C4 & C5 & C6).
    assert (r2 = r1) as ->.
    { apply (RepC_unique _ _ _ _ n n B1 A1); auto. intros i j Hi Hj. destruct (A6 i j Hi Hj), (B6 i j Hi Hj). tauto. }
    assert (r3 = r1) as ->.
    { apply (RepC_unique _ _ _ _ n n C1 A1); auto. intros i j Hi Hj. destruct (A6 i j Hi Hj), (C6 i j Hi Hj). tauto. }
    pose proof A1 as (Z1 & _ & _ & _ & NA). pose proof B1 as (_ & _ & _ & _ & NB). pose proof C1 as (_ & _ & _ & _ & NC).
    unfold kmod, mat_setSI. rewrite Z1. unfold mat_compress. cbn [sm_si]. rewrite Z1. unfold blank. cbn [obind sm_si sm_vals].
    rewrite B4, C4, A4.
    set (h := fun i => na0 nw * nth i vm 0 + na1 nw * nth i vc 0 + nth i vk 0).
    rewrite (omap_map _ h).
    2:{ intros i Hi. apply in_seq in Hi. rewrite !(aget_nth _ _ 0) by lia. reflexivity. }
    cbn [obind]. eexists; split; [reflexivity|].
    exists r1, (map h (seq 0 (si_nvals (sm_si k)))). cbn [sm_si sm_vals].
    split; [exact A1|]. split; auto. split; auto. split; auto. split; [now rewrite map_length, seq_length|].
    intros i j Hi Hj. destruct (A6 i j Hi Hj) as [Q1 Q2], (B6 i j Hi Hj) as [_ Q3], (C6 i j Hi Hj) as [_ Q4].
    split; auto. rewrite Q2, Q3, Q4. destruct (slot r1 i j) as [p|] eqn:ES; [|ring].
    destruct (Nat.lt_ge_cases p (si_nvals (sm_si k))) as [Lp|Lp].
    - rewrite (nth_indep (map h _) 0 (h 0%nat)) by now rewrite map_length, seq_length.
      rewrite map_nth, seq_nth by auto. reflexivity.
    - rewrite (nth_overflow vm), (nth_overflow vc), (nth_overflow vk), (nth_overflow (map _ _)); [ring| | | |]; rewrite ?map_length, ?seq_length; lia.
  Qed.

  Lemma vzip3_ok (f : K -> K -> K -> K) a b c : length a = length b -> length b = length c ->
    exists d, vzip3 f a b c = Ok d /\ length d = length a /\
      forall i, (i < length a)%nat -> nth i d 0 = f (nth i a 0) (nth i b 0) (nth i c 0).
  Proof.
    intros L1 L2. unfold vzip3. destruct (vzip_ok K (fun x y => x) a b L1) as (? & -> & _).
    destruct (vzip_ok K (fun x y => x) b c L2) as (? & -> & _). cbn [obind].
    eexists; split; [reflexivity|]. rewrite map_length, !combine_length. split; [lia|]. intros i Hi.
    rewrite (nth_indep _ 0 (f 0 0 0)) by (rewrite map_length, !combine_length; lia).
    pose proof (map_nth (fun p => f (fst (fst p)) (snd (fst p)) (snd p)) (combine (combine a b) c) (0, 0, 0) i) as M.
    cbn [fst snd] in M. rewrite M, combine_nth by (rewrite combine_length; lia). rewrite combine_nth by auto. reflexivity.
  Qed.

  Definition headsum f nc (V : list K) a : K := sumof (fun k => f a k * nth (k - 1) V 0) (seq 1 nc).
  Definition tailsum f nc n (V : list K) a : K := sumof (fun j => f a (nc + j)%nat * nth (nc + j - 1) V 0) (seq 1 n).
  Lemma mv_parts f nc n V a : mv f (nc + n) V a = headsum f nc V a + tailsum f nc n V a.
  Proof.
    unfold mv, headsum, tailsum. rewrite seq_app, sumof_app. f_equal.
    replace (seq (1 + nc) n) with (map (fun j => nc + j)%nat (seq 1 n)); [now rewrite sumof_map|].
    assert (G : forall st, map (fun j => nc + j)%nat (seq st n) = seq (st + nc) n).
    { clear. induction n as [|n IH]; intros st; cbn [seq map]; auto. rewrite IH. f_equal. lia. }
    apply G.
  Qed.
  Lemma headsum_zero f nc V a : (forall i, (i < nc)%nat -> nth i V 0 = 0) -> headsum f nc V a = 0.
  Proof. intros H. unfold headsum. apply sumof_zero. intros k Hk. apply in_seq in Hk. rewrite H by lia. ring. Qed.
End Gen.

Section Step.
  Variable K : Rng.
  Add Ring Kr2 : (rth K).
  Local Open Scope rng_scope.
  Variables (nn : nat) (mesh : list (list nat)) (regs : list reg) (fixes : list key) (s : numst) (nm : nat).
  Hypothesis HN : prob_num nn (length mesh) regs fixes nm s.
  Variable es : list (nat * nat).
  Notation total := (ns_ndofs s + nm)%nat.
  Notation nc := (ns_ncon s).
  Notation n := (ns_nunk s + nm)%nat.
  Variable big : K -> bool.
  Hypothesis BIG : forall v, big v = false -> v = 0.
  Variable slv : eqsolver K.
  Hypothesis EX : exact_solver slv.
  Variables (g : gst K) (FK FC FM : nat -> nat -> K) (Fv : nat -> K) (C M : bmat K).
  Hypothesis G : ginv K mesh s nm es g FK (Some (FC, FM)) Fv.
  Hypothesis CM : g_CM g = Some (C, M).
  Hypothesis SK : forall a b, FK a b = FK b a.
  Hypothesis SC : forall a b, FC a b = FC b a.
  Hypothesis SM : forall a b, FM a b = FM b a.
  Variable nw : newmark K.
  Hypothesis N1 : na1 nw = na7 nw * na0 nw.
  Hypothesis N4 : na4 nw = na7 nw * na2 nw - r1.
  Hypothesis N5 : na5 nw = na7 nw * na3 nw - na6 nw.

  Definition up (F : nat -> nat -> K) (p q : nat) : K := if (q <? p)%nat then 0 else F (nc + p)%nat (nc + q)%nat.
  Definition pat (p q : nat) : Prop := In (p, q) (loc [nc; n] 2 2 es).
  Lemma block22 k B F : brep K k [nc; n] es B F -> block_get B 2 2 = Ok (bget K B 2 2) /\ mrep (bget K B 2 2) n n pat (up F).
  Proof.
    intros (W & R1 & N & T & HB). cbn [length] in N. split.
    - apply (block_get_ok K); auto. rewrite N. unfold valid. lia.
    - pose proof (HB 2%nat 2%nat valid22) as B22. unfold bsize, offset in B22.
      cbn [nth Nat.sub Nat.eqb andb firstn list_sum fold_right] in B22. rewrite !Nat.add_0_r in B22. exact B22.
  Qed.
  Lemma symf_up F i j : (forall a b, F a b = F b a) -> symf (up F) i j = F (nc + i)%nat (nc + j)%nat.
  Proof.
    intros HF. unfold symf, up. destruct (Nat.ltb_spec j i).
    - replace (i <? j)%nat with false by (symmetry; apply Nat.ltb_ge; lia). apply HF.
    - replace (j <? i)%nat with false by (symmetry; apply Nat.ltb_ge; lia). reflexivity.
  Qed.
  Lemma chop_id (V : list K) : map (chop big) V = V.
  Proof.
    rewrite <- (map_id V) at 2. apply map_ext. intros v. unfold chop. destruct (big v) eqn:E; auto. symmetry. auto.
  Qed.

  (* everything the loop needs is found *)
  Lemma setup_ok : exists Km, block_get (g_K g) 2 2 = Ok (bget K (g_K g) 2 2) /\ block_get C 2 2 = Ok (bget K C 2 2) /\
    block_get M 2 2 = Ok (bget K M 2 2) /\ kmod nw (bget K (g_K g) 2 2) (bget K M 2 2) (bget K C 2 2) = Ok Km /\
    mrep (bget K C 2 2) n n pat (up FC) /\ mrep (bget K M 2 2) n n pat (up FM) /\
    mrep Km n n pat (up (fun a b => na0 nw * FM a b + na1 nw * FC a b + FK a b)).
  Proof.
    destruct G as [A1 A2 A3 A4 A5 A6 A7]. destruct A5 as (C' & M' & x & y & Q & B1 & B2 & _ & _).
    rewrite CM in Q. injection Q as <- <-. rewrite (n_mpc_nm nn mesh regs fixes s nm HN) in A3, B1, B2.
    destruct (block22 _ _ _ A3) as [E1 R1]. destruct (block22 _ _ _ B1) as [E2 R2]. destruct (block22 _ _ _ B2) as [E3 R3].
    destruct (kmod_ok K nw _ _ _ n pat _ _ _ R1 R3 R2) as (Km & EK & RK).
    exists Km. repeat (split; [assumption|]). eapply mrep_ext; [exact RK|]. intros i j _ _. split; [tauto|].
    unfold up. destruct (j <? i)%nat; [ring|reflexivity].
  Qed.

  Variable Km : smat K.
  Notation C22 := (bget K C 2 2).
  Notation M22 := (bget K M 2 2).
  Hypothesis RC : mrep C22 n n pat (up FC).
  Hypothesis RM : mrep M22 n n pat (up FM).
  Hypothesis RK : mrep Km n n pat (up (fun a b => na0 nw * FM a b + na1 nw * FC a b + FK a b)).
  Variable R : list K.
  Hypothesis LR : length R = total.

  Lemma step_ok st st' : length (mo_U st) = total -> length (mo_V st) = total -> length (mo_A st) = total ->
    (forall i, (i < nc)%nat -> nth i (mo_V st) 0 = 0) -> (forall i, (i < nc)%nat -> nth i (mo_A st) 0 = 0) ->
    trans_step big slv nw g Km M22 C22 R st = Ok st' ->
    length (mo_U st') = total /\ length (mo_V st') = total /\ length (mo_A st') = total /\
    (forall i, (i < nc)%nat -> nth i (mo_V st') 0 = 0) /\ (forall i, (i < nc)%nat -> nth i (mo_A st') 0 = 0) /\
    (forall i, (i < nc)%nat -> nth i (mo_U st') 0 = nth i (mo_U st) 0) /\
    (forall i, (i < total)%nat -> nth i (mo_A st') 0 =
       (nth i (mo_U st') 0 - nth i (mo_U st) 0) * na0 nw - nth i (mo_V st) 0 * na2 nw - nth i (mo_A st) 0 * na3 nw) /\
    (forall i, (i < total)%nat -> nth i (mo_V st') 0 =
       nth i (mo_V st) 0 + nth i (mo_A st') 0 * na6 nw + nth i (mo_A st) 0 * na7 nw) /\
    forall W, (forall i, (i < total)%nat -> nth i W 0 =
       nth i (mo_V st) 0 + nth i (mo_A st') 0 * na7 nw + nth i (mo_A st) 0 * na6 nw) ->
      forall a, (nc < a <= total)%nat ->
        mv FM total (mo_A st') a + mv FC total W a + mv FK total (mo_U st') a =
        nth (a - 1) (g_F g) 0 + nth (a - 1) R 0 + headsum K FK nc (mo_U st') a.
  Proof.
    intros LU LV LA ZV ZA HS. pose proof (pn_sum _ _ _ _ _ _ HN) as SUM. pose proof G as [A1 A2 A3 A4 A5 A6 A7].
    pose proof (n_mpc_nm nn mesh regs fixes s nm HN) as NM.
    assert (TOT : total = (nc + n)%nat) by lia.
    unfold trans_step in HS. rewrite A1, NM in HS.
    destruct (vzip_ok K radd (seg (g_F g) nc n) (seg R nc n)) as (q0 & E0 & L0 & V0).
    { rewrite !seg_length; lia. }
    rewrite seg_length in L0, V0 by lia. rewrite E0 in HS. cbn [obind] in HS.
    destruct (vzip3_ok K (fun u v a => u * na0 nw + v * na2 nw + a * na3 nw) (seg (mo_U st) nc n) (seg (mo_V st) nc n) (seg (mo_A st) nc n))
      as (v1 & E1 & L1 & V1); [rewrite !seg_length; lia|rewrite !seg_length; lia|].
    rewrite seg_length in L1, V1 by lia. rewrite E1 in HS. cbn [obind] in HS.
    destruct (sym_BVprod_spec K big M22 n pat (up FM) v1 r1 q0 RM) as (q1 & E2 & L2 & V2); [auto|lia|].
    rewrite E2 in HS. cbn [obind] in HS.
    destruct (vzip3_ok K (fun u v a => u * na1 nw + v * na4 nw + a * na5 nw) (seg (mo_U st) nc n) (seg (mo_V st) nc n) (seg (mo_A st) nc n))
      as (v2 & E3 & L3 & V3); [rewrite !seg_length; lia|rewrite !seg_length; lia|].
    rewrite seg_length in L3, V3 by lia. rewrite E3 in HS. cbn [obind] in HS.
    destruct (sym_BVprod_spec K big C22 n pat (up FC) v2 r1 q1 RC) as (q2 & E4 & L4 & V4); [auto|lia|].
    rewrite E4 in HS. cbn [obind] in HS.
    apply obind_ok in HS as (x & ES & HS).
    set (A := fun a b => na0 nw * FM a b + na1 nw * FC a b + FK a b) in *.
    destruct (EX Km n (fun i j => A (nc + i)%nat (nc + j)%nat) q2 x) as [Lx HX].
    { destruct (mrep_dims K _ _ _ _ _ RK) as (D1 & _). exact D1. }
    { intros i j [Hi Hj]. cbn [fst snd] in Hi, Hj. rewrite (sym_value_spec K _ _ _ _ i j RK) by auto. f_equal.
      apply symf_up. intros a b. unfold A. now rewrite (SM a b), (SC a b), (SK a b). }
    { lia. } { exact ES. }
    set (U' := seg (mo_U st) 0 nc ++ x) in *.
    assert (LU' : length U' = total) by (unfold U'; rewrite app_length, seg_length; lia).
    destruct (vzip_ok K rsub U' (mo_U st)) as (dU & E5 & L5 & V5); [lia|]. rewrite E5 in HS. cbn [obind] in HS.
    destruct (vzip3_ok K (fun d v a => d * na0 nw - v * na2 nw - a * na3 nw) dU (mo_V st) (mo_A st)) as (A' & E6 & L6 & V6); [lia|lia|].
    rewrite E6 in HS. cbn [obind] in HS.
    destruct (vzip3_ok K (fun v a' a => v + a' * na6 nw + a * na7 nw) (mo_V st) A' (mo_A st)) as (V' & E7 & L7 & V7); [lia|lia|].
    rewrite E7 in HS. cbn [obind] in HS. injection HS as <-. cbn [mo_U mo_V mo_A].
    assert (UH : forall i, (i < nc)%nat -> nth i U' 0 = nth i (mo_U st) 0).
    { intros i Hi. unfold U'. rewrite app_nth1 by (rewrite seg_length; lia). now rewrite nth_seg by auto. }
    assert (UT : forall i, (i < n)%nat -> nth (nc + i) U' 0 = nth i x 0).
    { intros i Hi. unfold U'. rewrite app_nth2 by (rewrite seg_length; lia). rewrite seg_length by lia. f_equal. lia. }
    assert (AA : forall i, (i < total)%nat -> nth i A' 0 =
       (nth i U' 0 - nth i (mo_U st) 0) * na0 nw - nth i (mo_V st) 0 * na2 nw - nth i (mo_A st) 0 * na3 nw).
    { intros i Hi. rewrite V6 by lia. now rewrite V5 by lia. }
    assert (VV : forall i, (i < total)%nat -> nth i V' 0 = nth i (mo_V st) 0 + nth i A' 0 * na6 nw + nth i (mo_A st) 0 * na7 nw).
    { intros i Hi. now rewrite V7 by lia. }
    assert (AZ : forall i, (i < nc)%nat -> nth i A' 0 = 0).
    { intros i Hi. rewrite AA by lia. rewrite UH, ZV, ZA by auto. ring. }
    split; [exact LU'|]. split; [lia|]. split; [lia|].
    split; [intros i Hi; rewrite VV by lia; rewrite AZ, ZV, ZA by auto; ring|].
    split; [exact AZ|]. split; [exact UH|]. split; [exact AA|]. split; [exact VV|].
    intros W HW a Ha. rewrite TOT, !mv_parts.
    rewrite (headsum_zero K FM nc A') by auto.
    rewrite (headsum_zero K FC nc W) by (intros i Hi; rewrite HW by lia; rewrite AZ, ZV, ZA by auto; ring).
    assert (EQ : tailsum K FM nc n A' a + tailsum K FC nc n W a + tailsum K FK nc n U' a = nth (a - 1) (g_F g) 0 + nth (a - 1) R 0).
    2:{ rewrite <- EQ. ring. }
    set (i := (a - nc - 1)%nat). specialize (HX i ltac:(lia)).
    rewrite V4 in HX. replace (i <? n)%nat with true in HX by (symmetry; apply Nat.ltb_lt; lia).
    rewrite V2 in HX. replace (i <? n)%nat with true in HX by (symmetry; apply Nat.ltb_lt; lia).
    rewrite V0 in HX by lia. rewrite !nth_seg in HX by lia. rewrite !chop_id in HX.
    replace (nc + i)%nat with (a - 1)%nat in HX by lia.
    replace (mv (symf (up FM)) n v1 (S i)) with (sumof (fun j => FM a (nc + j)%nat * (nth (nc + j - 1) (mo_U st) 0 * na0 nw +
       nth (nc + j - 1) (mo_V st) 0 * na2 nw + nth (nc + j - 1) (mo_A st) 0 * na3 nw)) (seq 1 n)) in HX.
    2:{ unfold mv. apply sumof_ext. intros j Hj. apply in_seq in Hj. rewrite symf_up by auto. rewrite V1 by lia.
        rewrite !nth_seg by lia. replace (nc + S i)%nat with a by lia. replace (nc + (j - 1))%nat with (nc + j - 1)%nat by lia. reflexivity. }
    replace (mv (symf (up FC)) n v2 (S i)) with (sumof (fun j => FC a (nc + j)%nat * (nth (nc + j - 1) (mo_U st) 0 * na1 nw +
       nth (nc + j - 1) (mo_V st) 0 * na4 nw + nth (nc + j - 1) (mo_A st) 0 * na5 nw)) (seq 1 n)) in HX.
    2:{ unfold mv. apply sumof_ext. intros j Hj. apply in_seq in Hj. rewrite symf_up by auto. rewrite V3 by lia.
        rewrite !nth_seg by lia. replace (nc + S i)%nat with a by lia. replace (nc + (j - 1))%nat with (nc + j - 1)%nat by lia. reflexivity. }
    match type of HX with _ = ?f + ?r + r1 * ?p + r1 * ?q =>
      assert (HX' : f + r = mv (fun i j => A (nc + i)%nat (nc + j)%nat) n x (S i) - p - q) by (rewrite HX; ring) end.
    rewrite HX'. clear HX HX'. unfold tailsum, mv.
    rewrite <- !sumof_add, <- !sumof_sub. apply sumof_ext. intros j Hj. apply in_seq in Hj.
    rewrite HW, AA by lia. unfold A. replace (nc + S i)%nat with a by lia.
    specialize (UT (j - 1)%nat ltac:(lia)). replace (nc + (j - 1))%nat with (nc + j - 1)%nat in UT by lia. rewrite UT.
    rewrite N1, N4, N5. ring.
  Qed.
End Step.
