(* Boundary conditions and the linear solution *)
From Coq Require Import Permutation.
From Verif Require Import Base BaseProofs SparseModel SpecSparse SparseMatProofs SparseFinal BlockModel SpecBlock BlockProofs
  DofModel SpecDof DofProofs NumberingProofs AsmModel SpecAsm AsmLists AsmCalls AsmProofs AsmRun AsmFinal SolveModel SpecSolve.

Section Vec.
  Variable K : Rng.
  Add Ring Kr : (rth K).
  Local Open Scope rng_scope.
  Implicit Types (l a b : list K).
  Lemma nth_firstn_lt l n i : (i < n)%nat -> nth i (firstn n l) 0 = nth i l 0.
  Proof.
    revert n i. induction l as [|a l IH]; intros [|n] i H; try lia.
    - now destruct i.
    - destruct i; cbn [firstn nth]; auto. apply IH. lia.
  Qed.
  Lemma seg_length l off n : (off + n <= length l)%nat -> length (seg l off n) = n.
  Proof. intros H. unfold seg. rewrite firstn_length, skipn_length. lia. Qed.
  Lemma nth_seg l off n i : (i < n)%nat -> nth i (seg l off n) 0 = nth (off + i) l 0.
  Proof.
    intros H. unfold seg. rewrite nth_firstn_lt by auto.
    destruct (Nat.le_gt_cases off (length l)) as [L|L].
    - rewrite <- (firstn_skipn off l) at 2. rewrite app_nth2; rewrite firstn_length; [|lia].
      f_equal. lia.
    - rewrite skipn_all2 by lia. rewrite (nth_overflow l) by lia. destruct i; reflexivity.
  Qed.
  Lemma put_seg_length l off x : (off + length x <= length l)%nat -> length (put_seg l off x) = length l.
  Proof. intros H. unfold put_seg. rewrite !app_length, firstn_length, skipn_length. lia. Qed.
  Lemma nth_put_seg l off x i : (off + length x <= length l)%nat ->
    nth i (put_seg l off x) 0 = if (off <=? i)%nat && (i <? off + length x)%nat then nth (i - off) x 0 else nth i l 0.
  Proof.
    intros H. unfold put_seg.
    destruct (Nat.leb_spec off i); cbn [andb].
    - rewrite app_nth2; rewrite firstn_length; [|lia]. replace (Nat.min off (length l)) with off by lia.
      destruct (Nat.ltb_spec i (off + length x)).
      + rewrite app_nth1 by lia. reflexivity.
      + rewrite app_nth2 by lia.
        rewrite <- (firstn_skipn (off + length x) l) at 2. rewrite app_nth2; rewrite firstn_length; [|lia].
        f_equal. lia.
    - rewrite app_nth1 by (rewrite firstn_length; lia). rewrite nth_firstn_lt by auto. reflexivity.
  Qed.
  Lemma vzip_ok (f : K -> K -> K) a b : length a = length b -> exists c, vzip f a b = Ok c /\ length c = length a /\
    forall i, (i < length a)%nat -> nth i c 0 = f (nth i a 0) (nth i b 0).
  Proof.
    intros L. unfold vzip. rewrite L, Nat.eqb_refl. cbn [asserting]. eexists; split; [reflexivity|].
    rewrite map_length, combine_length. split; [lia|]. intros i Hi.
    rewrite (nth_indep _ 0 (f 0 0)) by (rewrite map_length, combine_length; lia).
    pose proof (map_nth (fun p => f (fst p) (snd p)) (combine a b) (0, 0) i) as M. cbn [fst snd] in M.
    rewrite M, combine_nth by auto. reflexivity.
  Qed.
  Lemma zeros_length n : length (zeros n : list K) = n.
  Proof. apply repeat_length. Qed.
  Lemma nth_zeros n i : nth i (zeros n) 0 = (0 : K).
  Proof. unfold zeros. destruct (Nat.lt_ge_cases i n); [|rewrite nth_overflow; auto; rewrite repeat_length; lia].
    apply nth_repeat. Qed.
End Vec.

Section BC.
  Variable K : Rng.
  Add Ring Kr1 : (rth K).
  Local Open Scope rng_scope.
  Variables (nn : nat) (mesh : list (list nat)) (regs : list reg) (fixes : list key) (s : numst) (nm : nat).
  Hypothesis HN : prob_num nn (length mesh) regs fixes nm s.
  Notation total := (ns_ndofs s + nm)%nat.
  Implicit Types (R U : list K) (loads fs : list (bc K)).

  Definition load_at loads (a : nat) : K :=
    sumof (fun l => if Nat.eqb (eqn s (bc_key l)) a then bc_val l else 0) loads.
  Definition fix_at (t : K) fs (a : nat) (v : K) : K :=
    fold_left (fun v f => if Nat.eqb (eqn s (bc_key f)) a then bc_val f * t else v) fs v.

  Lemma loads_ok t loads : Forall (fun l => In (bc_key l) (reg_keys regs)) loads -> forall R, length R = total ->
    exists R', ofold (add_load s t) loads R = Ok R' /\ length R' = total /\
      forall a, (1 <= a <= total)%nat -> nth (a - 1) R' 0 = nth (a - 1) R 0 + load_at loads a * t.
  Proof.
    induction 1 as [|l loads Hl H IH]; intros R L.
    - exists R. split; [reflexivity|]. split; auto. intros a _. unfold load_at. rewrite sumof_nil. ring.
    - cbn [ofold]. unfold add_load at 1. rewrite (kd_ok nn mesh regs fixes s nm HN) by auto. cbn [obind].
      destruct (pn_eq _ _ _ _ _ _ HN _ Hl) as (_ & Hr & _).
      rewrite (addF_ok K nn mesh regs fixes s nm HN) by (auto; lia). cbn [obind].
      destruct (IH (upd R (eqn s (bc_key l) - 1) (nth (eqn s (bc_key l) - 1) R 0 + bc_val l * t))) as (R' & E & L' & V).
      { now rewrite upd_length. }
      rewrite E. exists R'. split; auto. split; auto. intros a Ha. rewrite V by auto. rewrite nth_upd by lia.
      unfold load_at. rewrite sumof_cons.
      destruct (Nat.eqb_spec (eqn s (bc_key l) - 1) (a - 1)), (Nat.eqb_spec (eqn s (bc_key l)) a); try lia; try ring.
      subst a. ring.
  Qed.
  Lemma fixes_ok t fs : Forall (fun f => In (bc_key f) fixes /\ In (bc_key f) (reg_keys regs)) fs -> forall U, length U = total ->
    exists U', ofold (set_fix s t) fs U = Ok U' /\ length U' = total /\
      forall a, (1 <= a <= total)%nat -> nth (a - 1) U' 0 = fix_at t fs a (nth (a - 1) U 0).
  Proof.
    induction 1 as [|f fs [Hf Hr] H IH]; intros U L.
    - exists U. split; [reflexivity|]. split; auto.
    - cbn [ofold]. unfold set_fix at 1. rewrite (kd_ok nn mesh regs fixes s nm HN) by auto. cbn [obind].
      destruct (pn_eq _ _ _ _ _ _ HN _ Hr) as (_ & Hb & Hc). apply Hc in Hf. pose proof (pn_sum _ _ _ _ _ _ HN).
      replace (0 <? eqn s (bc_key f))%nat with true by (symmetry; apply Nat.ltb_lt; lia).
      replace (eqn s (bc_key f) - 1 <? ns_ncon s)%nat with true by (symmetry; apply Nat.ltb_lt; lia).
      cbn [andb asserting]. rewrite aset_ok by lia. cbn [obind].
      destruct (IH (upd U (eqn s (bc_key f) - 1) (bc_val f * t))) as (U' & E & L' & V).
      { now rewrite upd_length. }
      rewrite E. exists U'. split; auto. split; auto. intros a Ha. rewrite V by auto. rewrite nth_upd by lia.
      unfold fix_at. cbn [fold_left].
      destruct (Nat.eqb_spec (eqn s (bc_key f) - 1) (a - 1)), (Nat.eqb_spec (eqn s (bc_key f)) a); try lia; reflexivity.
  Qed.

  (* in terms of DoFs *)
  Lemma load_at_key loads x : Forall (fun l => In (bc_key l) (reg_keys regs)) loads -> In x (reg_keys regs) ->
    load_at loads (eqn s x) = total_load loads x.
  Proof.
    intros H Hx. unfold load_at, total_load. apply sumof_ext. intros l Hl. rewrite Forall_forall in H.
    destruct (Nat.eqb_spec (eqn s (bc_key l)) (eqn s x)) as [E|N], (key_dec (bc_key l) x) as [E'|N']; auto.
    - exfalso. apply N'. apply (pn_inj _ _ _ _ _ _ HN); auto.
    - congruence.
  Qed.
  Lemma fix_at_key t fs x v : Forall (fun f => In (bc_key f) (reg_keys regs)) fs -> In x (reg_keys regs) ->
    fix_at t fs (eqn s x) v = match last_fix fs x with Some w => w * t | None => v end.
  Proof.
    intros H Hx. unfold fix_at, last_fix.
    assert (G : forall o, fold_left (fun v f => if Nat.eqb (eqn s (bc_key f)) (eqn s x) then bc_val f * t else v) fs
        (match o with Some w => w * t | None => v end) =
      match fold_left (fun o f => if key_dec (bc_key f) x then Some (bc_val f) else o) fs o with Some w => w * t | None => v end).
    { induction H as [|f fs Hf H IH]; intros o; cbn [fold_left]; auto.
      destruct (Nat.eqb_spec (eqn s (bc_key f)) (eqn s x)) as [E|N], (key_dec (bc_key f) x) as [E'|N'].
      - apply (IH (Some (bc_val f))).
      - exfalso. apply N'. apply (pn_inj _ _ _ _ _ _ HN); auto.
      - congruence.
      - apply IH. }
    apply (G None).
  Qed.
  Lemma fix_at_other t fs a v : (forall f, In f fs -> eqn s (bc_key f) <> a) -> fix_at t fs a v = v.
  Proof.
    unfold fix_at. revert v. induction fs as [|f fs IH]; intros v H; cbn [fold_left]; auto.
    destruct (Nat.eqb_spec (eqn s (bc_key f)) a) as [E|_]; [exfalso; apply (H f); [now left|auto]|].
    apply IH. intros g Hg. apply H. now right.
  Qed.

  Lemma applyBC_ok t loads fs U R : Forall (fun l => In (bc_key l) (reg_keys regs)) loads ->
    Forall (fun f => In (bc_key f) fixes /\ In (bc_key f) (reg_keys regs)) fs ->
    length U = total -> length R = total ->
    exists U' R', applyBC s t loads fs U R = Ok (U', R') /\ length U' = total /\ length R' = total /\
      (forall a, (1 <= a <= total)%nat -> nth (a - 1) R' 0 = nth (a - 1) R 0 + load_at loads a * t) /\
      (forall a, (1 <= a <= total)%nat -> nth (a - 1) U' 0 = fix_at t fs a (nth (a - 1) U 0)).
  Proof.
    intros H1 H2 LU LR. destruct (loads_ok t loads H1 R LR) as (R' & E1 & L1 & V1).
    destruct (fixes_ok t fs H2 U LU) as (U' & E2 & L2 & V2).
    exists U', R'. unfold applyBC. rewrite E1. cbn [obind]. rewrite E2. cbn [obind]. auto 6.
  Qed.
End BC.

Section Core.
  Variable K : Rng.
  Add Ring Kr2 : (rth K).
  Local Open Scope rng_scope.
  Variables (nn : nat) (mesh : list (list nat)) (regs : list reg) (fixes : list key) (s : numst) (nm : nat).
  Hypothesis HN : prob_num nn (length mesh) regs fixes nm s.
  Variable es : list (nat * nat).
  Notation rows := [ns_ncon s; (ns_nunk s + n_mpc s)%nat].
  Notation total := (ns_ndofs s + nm)%nat.
  Variable big : K -> bool.
  Variable slv : eqsolver K.

  Lemma valid11 : valid 2 1 1. Proof. unfold valid. lia. Qed.
  Lemma valid12 : valid 2 1 2. Proof. unfold valid. lia. Qed.
  Lemma valid22 : valid 2 2 2. Proof. unfold valid. lia. Qed.

  Lemma mv_ext f f' n (V V' : list K) i : (forall j, (1 <= j <= n)%nat -> f i j = f' i j) ->
    (forall j, (1 <= j <= n)%nat -> nth (j - 1) V 0 = nth (j - 1) V' 0) -> mv f n V i = mv f' n V' i.
  Proof. intros H1 H2. unfold mv. apply sumof_ext. intros j Hj. apply in_seq in Hj. rewrite H1, H2 by lia. reflexivity. Qed.

  (* the product with the whole matrix, split at the constrained DoFs *)
  Lemma mv_split (f : nat -> nat -> K) n1 n2 (V1 V2 : list K) i : length V1 = n1 ->
    mv f (n1 + n2) (V1 ++ V2) i = mv f n1 V1 i + sumof (fun j => f i (n1 + j)%nat * nth (j - 1) V2 0) (seq 1 n2).
  Proof.
    intros L. unfold mv. rewrite seq_app, sumof_app. f_equal.
    - apply sumof_ext. intros j Hj. apply in_seq in Hj. rewrite app_nth1 by lia. reflexivity.
    - replace (seq (1 + n1) n2) with (map (fun j => n1 + j)%nat (seq 1 n2)).
      + rewrite sumof_map. apply sumof_ext. intros j Hj. apply in_seq in Hj. rewrite app_nth2 by lia.
        do 2 f_equal. lia.
      + clear. assert (G : forall st, map (fun j => n1 + j)%nat (seq st n2) = seq (st + n1) n2).
        { induction n2 as [|n2 IH]; intros st; cbn [seq map]; auto. rewrite IH. f_equal. lia. }
        apply G.
  Qed.

  Lemma core_ok g FK cm Fv Uc R : ginv K mesh s nm es g FK cm Fv -> (forall a b, FK a b = FK b a) ->
    length Uc = ns_ncon s -> length R = total ->
    exists K22 rhs, block_get (g_K g) 2 2 = Ok K22 /\ si_nrows (sm_si K22) = (ns_nunk s + nm)%nat /\
      (forall i j, in_shape (ns_nunk s + nm) (ns_nunk s + nm) (i, j) ->
        sym_value K22 i j = Ok (FK (ns_ncon s + i)%nat (ns_ncon s + j)%nat)) /\
      length rhs = (ns_nunk s + nm)%nat /\
      (forall i, (i < ns_nunk s + nm)%nat -> nth i rhs 0 = Fv (ns_ncon s + i + 1)%nat + nth (ns_ncon s + i) R 0
         - sumof (fun k => FK k (ns_ncon s + S i)%nat * nth (k - 1) Uc 0) (seq 1 (ns_ncon s))) /\
      match slv K22 rhs with
      | Ok x => length x = (ns_nunk s + nm)%nat ->
          exists Rc, solve_core big slv g Uc R = Ok (x, Rc) /\ length Rc = ns_ncon s /\
            forall i, (i < ns_ncon s)%nat -> nth i Rc 0 =
              mv FK (ns_ncon s) (map (chop big) Uc) (S i) +
              sumof (fun j => FK (S i) (ns_ncon s + j)%nat * nth (j - 1) x 0) (seq 1 (ns_nunk s + nm)) - Fv (S i)
      | Fatal => solve_core big slv g Uc R = Fatal
      | UB => solve_core big slv g Uc R = UB
      | Loop => solve_core big slv g Uc R = Loop
      end.
  Proof.
    intros [A1 A2 A3 A4 A5 A6 A7] HF LU LR.
    pose proof A3 as (W & R1 & N & T & HB). cbn [length] in N.
    pose proof (n_mpc_nm nn mesh regs fixes s nm HN) as NM.
    pose proof (pn_sum _ _ _ _ _ _ HN) as SUM.
    pose proof (HB 1%nat 1%nat valid11) as B11. pose proof (HB 1%nat 2%nat valid12) as B12. pose proof (HB 2%nat 2%nat valid22) as B22.
    unfold bsize, offset in B11, B12, B22. cbn [nth Nat.sub Nat.eqb andb firstn list_sum fold_right] in B11, B12, B22.
    rewrite ?Nat.add_0_r, ?Nat.add_0_l, NM in B11, B12, B22.
    set (nc := ns_ncon s) in *. set (n := (ns_nunk s + nm)%nat) in *.
    change (fun p q => if (q <? p)%nat then 0 else FK (0 + p)%nat (0 + q)%nat)
      with (fun p q => if (q <? p)%nat then 0 else FK p q) in B11.
    change (fun p q => FK (0 + p)%nat (nc + 0 + q)%nat) with (fun p q => FK p (nc + 0 + q)%nat) in B12.
    replace (nc + 0)%nat with nc in B12 by lia. replace (nc + 0)%nat with nc in B22 by lia.
    assert (GF : forall i, (i < total)%nat -> nth i (g_F g) 0 = Fv (i + 1)%nat).
    { intros i Hi. specialize (A7 (i + 1)%nat). replace (i + 1 - 1)%nat with i in A7 by lia. apply A7. lia. }
    unfold solve_core. rewrite A1, NM. fold nc n.
    rewrite !(block_get_ok K) by (auto; rewrite N; unfold valid; lia). cbn [obind].
    destruct (vzip_ok K radd (zeros n) (seg (g_F g) nc n)) as (r1' & E1 & L1 & V1).
    { rewrite zeros_length, seg_length; auto. rewrite A6. lia. }
    rewrite zeros_length in L1, V1.
    destruct (vzip_ok K radd r1' (seg R nc n)) as (r2' & E2 & L2 & V2).
    { rewrite L1, seg_length; auto. rewrite LR. lia. }
    destruct (mat_BTVprod_spec K _ _ _ _ _ Uc (ropp r1) r2' B12) as (rhs & E3 & L3 & V3); [auto|lia|].
    exists (bget K (g_K g) 2 2), rhs.
    split; [reflexivity|].
    destruct (mrep_dims K _ _ _ _ _ B22) as (D1 & D2 & D3). split; [exact D1|].
    split.
    { intros i j [Hi Hj]. cbn [fst snd] in Hi, Hj. rewrite (sym_value_spec K _ _ _ _ i j B22) by auto. f_equal.
      unfold symf. destruct (Nat.ltb_spec j i).
      - replace (i <? j)%nat with false by (symmetry; apply Nat.ltb_ge; lia). apply HF.
      - replace (j <? i)%nat with false by (symmetry; apply Nat.ltb_ge; lia). reflexivity. }
    split; [lia|]. split.
    { intros i Hi. rewrite V3. replace (i <? n)%nat with true by (symmetry; apply Nat.ltb_lt; lia).
      rewrite V2 by lia. rewrite V1 by lia. rewrite nth_zeros, !nth_seg by lia. rewrite GF by lia.
      unfold mtv. rewrite (Nat.add_1_r (nc + i)), <- (Nat.add_1_r (nc + i)). ring. }
    rewrite E1. cbn [obind]. rewrite E2. cbn [obind]. rewrite E3. cbn [obind].
    destruct (slv (bget K (g_K g) 2 2) rhs) as [x| | |]; cbn [obind]; auto. intros Lx.
    destruct (sym_BVprod_spec K big _ _ _ _ Uc r1 (zeros nc) B11) as (Rc1 & E4 & L4 & V4); [auto|rewrite zeros_length; lia|].
    rewrite E4. cbn [obind]. rewrite zeros_length in L4.
    destruct (mat_BVprod_spec K _ _ _ _ _ x r1 Rc1 B12) as (Rc2 & E5 & L5 & V5); [auto|lia|].
    rewrite E5. cbn [obind].
    destruct (vzip_ok K rsub Rc2 (seg (g_F g) 0 nc)) as (Rc & E6 & L6 & V6).
    { rewrite seg_length; [lia|]. rewrite A6. lia. }
    rewrite E6. cbn [obind]. exists Rc. split; auto. split; [lia|]. intros i Hi. rewrite V6 by lia. rewrite V5, V4.
    replace (i <? nc)%nat with true by (symmetry; apply Nat.ltb_lt; lia). rewrite nth_zeros, nth_seg by auto.
    rewrite GF by lia. cbn [Nat.add]. rewrite Nat.add_1_r. unfold mv at 2.
    assert (EE : mv (symf (fun p q => if (q <? p)%nat then 0 else FK p q)) nc (map (chop big) Uc) (S i) =
      mv FK nc (map (chop big) Uc) (S i)).
    { apply mv_ext; auto. intros j Hj. unfold symf. destruct (Nat.ltb_spec j (S i)).
      - replace (S i <? j)%nat with false by (symmetry; apply Nat.ltb_ge; lia). apply HF.
      - replace (j <? S i)%nat with false by (symmetry; apply Nat.ltb_ge; lia). reflexivity. }
    rewrite EE. ring.
  Qed.

  Hypothesis EX : exact_solver slv.
  (* the solution fulfils the complete system *)
  Lemma core_solves g FK cm Fv Uc R x Rc : ginv K mesh s nm es g FK cm Fv -> (forall a b, FK a b = FK b a) ->
    length Uc = ns_ncon s -> length R = total ->
    (forall v, In v Uc -> big v = false -> v = 0) ->
    solve_core big slv g Uc R = Ok (x, Rc) ->
    length x = (ns_nunk s + nm)%nat /\ length Rc = ns_ncon s /\
    forall a, (1 <= a <= total)%nat -> mv FK total (Uc ++ x) a =
      Fv a + if (a <=? ns_ncon s)%nat then nth (a - 1) Rc 0 else nth (a - 1) R 0.
  Proof.
    intros G HF LU LR HB HC. pose proof (pn_sum _ _ _ _ _ _ HN) as SUM.
    destruct (core_ok g FK cm Fv Uc R G HF LU LR) as (K22 & rhs & E1 & D & V & L & VR & CORE).
    destruct (slv K22 rhs) as [x'| | |] eqn:ES; try congruence.
    destruct (EX _ _ _ _ _ D V L ES) as [Lx HX].
    destruct (CORE Lx) as (Rc' & E2 & LRc & VRc). rewrite E2 in HC. injection HC as -> ->.
    split; auto. split; auto. intros a Ha.
    replace total with (ns_ncon s + (ns_nunk s + nm))%nat in * by lia.
    rewrite mv_split by auto. destruct (Nat.leb_spec a (ns_ncon s)).
    - specialize (VRc (a - 1)%nat). replace (S (a - 1)) with a in VRc by lia. rewrite VRc by lia.
      assert (EC : map (chop big) Uc = Uc).
      { rewrite <- (map_id Uc) at 2. apply map_ext_in. intros v Hv. unfold chop. destruct (big v) eqn:Eb; auto.
        symmetry. auto. }
      rewrite EC. ring.
    - specialize (HX (a - ns_ncon s - 1)%nat). rewrite VR in HX by lia.
      replace (ns_ncon s + (a - ns_ncon s - 1) + 1)%nat with a in HX by lia.
      replace (ns_ncon s + (a - ns_ncon s - 1))%nat with (a - 1)%nat in HX by lia.
      replace (ns_ncon s + S (a - ns_ncon s - 1))%nat with a in HX by lia.
      assert (EM : sumof (fun j => FK a (ns_ncon s + j)%nat * nth (j - 1) x 0) (seq 1 (ns_nunk s + nm)) =
        Fv a + nth (a - 1) R 0 - sumof (fun k => FK k a * nth (k - 1) Uc 0) (seq 1 (ns_ncon s))).
      { rewrite <- HX by lia. unfold mv. apply sumof_ext. intros j _. do 2 f_equal. lia. }
      rewrite EM. unfold mv.
      rewrite (sumof_ext K (fun k => FK k a * nth (k - 1) Uc 0) (fun k => FK a k * nth (k - 1) Uc 0))
        by (intros k _; now rewrite HF). ring.
  Qed.
End Core.
