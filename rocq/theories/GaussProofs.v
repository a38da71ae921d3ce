(* Gaussian elimination: proofs *)
From Coq Require Import QArith Qcanon Qcabs Field_theory.
From Verif Require Import Base BaseProofs SparseModel SpecSparse BlockModel SpecBlock DofModel SpecDof AsmModel SpecAsm
  SolveModel SpecSolve GaussModel SpecGauss LinearProofs.
Local Open Scope nat_scope.

Lemma ofold_seq {S} (f : S -> nat -> outcome S) (P : nat -> S -> Prop) a m s :
  (forall k s, a <= k < a + m -> P k s -> exists s', f s k = Ok s' /\ P (k + 1) s') -> P a s ->
  exists s', ofold f (seq a m) s = Ok s' /\ P (a + m) s'.
Proof.
  revert a s. induction m as [|m IH]; intros a s H H0; cbn [seq ofold].
  - exists s. split; auto. now rewrite Nat.add_0_r.
  - destruct (H a s) as (s1 & E & P1); [lia|auto|]. rewrite E. cbn [obind].
    destruct (IH (Datatypes.S a) s1) as (s2 & E2 & P2).
    + intros k t Hk. apply H. lia.
    + now rewrite Nat.add_1_r in P1.
    + exists s2. split; auto. now rewrite <- plus_n_Sm.
Qed.
Lemma ofold_rev_seq {S} (f : S -> nat -> outcome S) (P : nat -> S -> Prop) a m s :
  (forall k s, a <= k < a + m -> P (k + 1) s -> exists s', f s k = Ok s' /\ P k s') -> P (a + m) s ->
  exists s', ofold f (rev (seq a m)) s = Ok s' /\ P a s'.
Proof.
  revert s. induction m as [|m IH]; intros s H H0.
  - exists s. rewrite Nat.add_0_r in H0. auto.
  - rewrite seq_S, rev_app_distr. cbn [rev app ofold].
    destruct (H (a + m) s) as (s1 & E & P1); [lia| |].
    { now replace (a + m + 1) with (a + Datatypes.S m) by lia. }
    rewrite E. cbn [obind]. apply IH; auto. intros k t Hk. apply H. lia.
Qed.

Lemma flat_lt n i j : i < n -> j < n -> i * n + j < n * n.
Proof. intros. nia. Qed.
Lemma flat_inj n i j i' j' : j < n -> j' < n -> i * n + j = i' * n + j' -> i = i' /\ j = j'.
Proof. intros H H' E. assert (i = i') by nia. subst. split; auto. lia. Qed.

Section G.
  Variable K : GNum.
  Variable L : glaws K.
  Definition GR : Rng := mkRng K (gl_ring K L).
  Add Ring Kg : (gl_ring K L).
  Local Open Scope rng_scope.
  Implicit Types (A B X : list K).

  Lemma gs_ext {T} (f g : T -> K) l : (forall a, In a l -> f a = g a) -> sumof f l = sumof g l.
  Proof. exact (sumof_ext GR f g l). Qed.
  Lemma gs_add {T} (f g : T -> K) l : sumof (fun a => f a + g a) l = sumof f l + sumof g l.
  Proof. exact (sumof_add GR f g l). Qed.
  Lemma gs_sub {T} (f g : T -> K) l : sumof (fun a => f a - g a) l = sumof f l - sumof g l.
  Proof. exact (sumof_sub GR f g l). Qed.
  Lemma gs_scal {T} (c : K) (f : T -> K) l : sumof (fun a => c * f a) l = c * sumof f l.
  Proof. exact (sumof_scal GR c f l). Qed.
  Lemma gs_zero {T} (f : T -> K) l : (forall a, In a l -> f a = 0) -> sumof f l = 0.
  Proof. exact (sumof_zero GR f l). Qed.
  Lemma gs_app {T} (f : T -> K) l1 l2 : sumof f (l1 ++ l2) = sumof f l1 + sumof f l2.
  Proof. exact (sumof_app GR f l1 l2). Qed.
  Lemma gs_cons {T} (f : T -> K) a l : sumof f (a :: l) = f a + sumof f l.
  Proof. exact (sumof_cons GR f a l). Qed.
  Lemma gs_nil {T} (f : T -> K) : sumof f [] = 0.
  Proof. reflexivity. Qed.
  Lemma gs_delta (m : nat) (f : nat -> K) l : NoDup l -> In m l -> sumof (fun x => if Nat.eqb x m then f x else 0) l = f m.
  Proof. exact (sumof_delta_nat GR m f l). Qed.

  Lemma nontiny_pos (d : K) : glt (gabs d) gtiny = false -> glt 0 (gabs d) = true.
  Proof.
    intros H. destruct (glt 0 (gabs d)) eqn:E; auto.
    rewrite (gl_trans K L _ _ _ E (gl_tiny K L)) in H. discriminate.
  Qed.
  Lemma cancel (p x : K) : glt 0 (gabs p) = true -> p * x = 0 -> x = 0.
  Proof.
    intros H E. pose proof (gl_div K L 1 p H) as D.
    transitivity (gdiv 1 p * p * x); [rewrite D; ring|]. transitivity (gdiv 1 p * (p * x)); [ring|]. rewrite E. ring.
  Qed.

  Variable n : nat.

  Lemma find_pivot_ok A i im0 : length A = (n * n)%nat -> (i < n)%nat ->
    exists im mx, find_pivot A n i im0 = Ok (im, mx) /\
      (mx = 0 \/ exists p, im = Some p /\ (i <= p < n)%nat /\ mx = gabs (dense A n p i)) /\
      forall ip, (i <= ip < n)%nat -> glt mx (gabs (dense A n ip i)) = false.
  Proof.
    intros LA Hi. unfold find_pivot.
    destruct (ofold_seq (fun (st : option nat * K) ip => a <- aget A (ip * n + i) ;;
             Ok (if glt (snd st) (gabs a) then (Some ip, gabs a) else st))
      (fun k st => (snd st = 0 \/ exists p, fst st = Some p /\ (i <= p < n)%nat /\ snd st = gabs (dense A n p i)) /\
         forall ip, (i <= ip < k)%nat -> glt (snd st) (gabs (dense A n ip i)) = false) i (n - i)%nat (im0, 0)) as (st & E & P).
    - intros k st Hk (P1 & P2). rewrite (aget_nth _ _ 0) by (rewrite LA; apply flat_lt; lia). cbn [obind].
      eexists. split; [reflexivity|]. fold (dense A n k i).
      destruct (glt (snd st) (gabs (dense A n k i))) eqn:G.
      + cbn [fst snd]. split.
        * right. exists k. split; auto. split; auto. lia.
        * intros ip Hip. destruct (Nat.eq_dec ip k) as [->|].
          -- destruct (glt (gabs (dense A n k i)) (gabs (dense A n k i))) eqn:X; auto. pose proof (gl_asym K L _ _ X). congruence.
          -- apply (gl_asym K L). apply (gl_trans K L _ (snd st)); auto. apply P2. lia.
      + split; auto. intros ip Hip. destruct (Nat.eq_dec ip k) as [->|]; auto. apply P2. lia.
    - cbn [fst snd]. split; auto. intros; lia.
    - destruct st as [im mx]. exists im, mx. cbn [fst snd] in P. destruct P as (P1 & P2).
      split; auto. split; auto. intros ip Hip. apply P2. lia.
  Qed.

  Lemma aswap_ok (l : list K) p q : (p < length l)%nat -> (q < length l)%nat ->
    exists l', aswap l p q = Ok l' /\ length l' = length l /\
      forall k, nth k l' 0 = if k =? p then nth q l 0 else if k =? q then nth p l 0 else nth k l 0.
  Proof.
    intros Hp Hq. unfold aswap. rewrite (aget_nth _ p 0), (aget_nth _ q 0) by auto. cbn [obind].
    rewrite aset_ok by auto. cbn [obind]. rewrite aset_ok by (now rewrite upd_length).
    eexists. split; [reflexivity|]. split; [now rewrite !upd_length|].
    intros k. rewrite nth_upd by (now rewrite upd_length). rewrite nth_upd by auto.
    rewrite (Nat.eqb_sym k p), (Nat.eqb_sym k q).
    destruct (Nat.eqb_spec p k), (Nat.eqb_spec q k); subst; auto.
  Qed.

  Ltac flat := match goal with |- context[(?a * n + ?b =? ?c * n + ?d)%nat] =>
    let E := fresh "E" in destruct (Nat.eqb_spec (a * n + b) (c * n + d)) as [E|E];
      [apply (flat_inj n) in E as [? ?]; [|lia|lia]|] end.

  Lemma swap_rows_ok A i im : length A = (n * n)%nat -> (i < n)%nat -> (im < n)%nat ->
    exists A', swap_rows A n i im = Ok A' /\ length A' = (n * n)%nat /\
      forall k j, (k < n)%nat -> (j < n)%nat ->
        dense A' n k j = if k =? i then dense A n im j else if k =? im then dense A n i j else dense A n k j.
  Proof.
    intros LA Hi Him. unfold swap_rows.
    destruct (ofold_seq (fun A jp => aswap A (i * n + jp) (im * n + jp))
      (fun q (A' : list K) => length A' = (n * n)%nat /\ forall k j, (k < n)%nat -> (j < n)%nat ->
        dense A' n k j = if (j <? q)%nat then if k =? i then dense A n im j else if k =? im then dense A n i j else dense A n k j
          else dense A n k j) 0 n A) as (A' & E & L1 & V).
    - intros q A1 Hq (L1 & V1).
      destruct (aswap_ok A1 (i * n + q) (im * n + q)) as (A2 & E2 & L2 & V2); [rewrite L1; apply flat_lt; lia..|].
      exists A2. split; auto. split; [lia|]. intros k j Hk Hj. unfold dense at 1. rewrite V2.
      fold (dense A1 n im q). fold (dense A1 n i q). fold (dense A1 n k j). rewrite !V1 by lia.
      replace (q <? q)%nat with false by (symmetry; apply Nat.ltb_ge; lia).
      destruct (Nat.eq_dec j q) as [->|Nj].
      + replace (q <? q + 1)%nat with true by (symmetry; apply Nat.ltb_lt; lia).
        replace (q <? q)%nat with false by (symmetry; apply Nat.ltb_ge; lia).
        flat; [subst; now rewrite Nat.eqb_refl|]. destruct (Nat.eqb_spec k i); [subst; contradiction|].
        flat; [subst; now rewrite Nat.eqb_refl|]. destruct (Nat.eqb_spec k im); [subst; contradiction|]. reflexivity.
      + flat; [subst; contradiction|]. flat; [subst; contradiction|].
        destruct (Nat.ltb_spec j q), (Nat.ltb_spec j (q + 1)); auto; lia.
    - split; auto.
    - exists A'. split; auto. split; auto. intros k j Hk Hj. rewrite V by auto.
      replace (j <? 0 + n)%nat with true by (symmetry; apply Nat.ltb_lt; lia). reflexivity.
  Qed.

  Lemma asubm_ok (l : list K) p (t y : K) : (p < length l)%nat ->
    asubm l p t y = Ok (upd l p (nth p l 0 - t * y)).
  Proof. intros H. unfold asubm. rewrite (aget_nth _ _ 0) by auto. cbn [obind]. now apply aset_ok. Qed.

  Lemma elim_row_ok A B i ip : length A = (n * n)%nat -> length B = n -> (i < ip)%nat -> (ip < n)%nat ->
    glt 0 (gabs (dense A n i i)) = true ->
    exists A' B', elim_row n i (A, B) ip = Ok (A', B') /\ length A' = (n * n)%nat /\ length B' = n /\
      let t := gdiv (dense A n ip i) (dense A n i i) in
      (forall k j, (k < n)%nat -> (j < n)%nat ->
        dense A' n k j = if (k =? ip) && (i <=? j)%nat then dense A n k j - t * dense A n i j else dense A n k j) /\
      (forall k, (k < n)%nat -> nth k B' 0 = if k =? ip then nth k B 0 - t * nth i B 0 else nth k B 0).
  Proof.
    intros LA LB Hi Hip HP. unfold elim_row.
    rewrite (aget_nth A (ip * n + i) 0), (aget_nth A (i * n + i) 0) by (rewrite LA; apply flat_lt; lia).
    cbn [obind]. fold (dense A n ip i) (dense A n i i). unfold gquot. rewrite HP. cbn [obind].
    set (t := gdiv _ _).
    destruct (ofold_seq (fun (A : list K) jp => y <- aget A (i * n + jp) ;; asubm A (ip * n + jp) t y)
      (fun q (A' : list K) => length A' = (n * n)%nat /\ forall k j, (k < n)%nat -> (j < n)%nat ->
        dense A' n k j = if (k =? ip) && (i <=? j)%nat && (j <? q)%nat then dense A n k j - t * dense A n i j else dense A n k j)
      i (n - i)%nat A) as (A' & E & L1 & V).
    - intros q A1 Hq (L1 & V1). rewrite (aget_nth A1 _ 0) by (rewrite L1; apply flat_lt; lia). cbn [obind].
      rewrite asubm_ok by (rewrite L1; apply flat_lt; lia). eexists. split; [reflexivity|].
      split; [now rewrite upd_length|]. intros k j Hk Hj. unfold dense at 1.
      rewrite nth_upd by (rewrite L1; apply flat_lt; lia).
      fold (dense A1 n ip q) (dense A1 n i q) (dense A1 n k j). rewrite !V1 by lia.
      replace (i =? ip)%nat with false by (symmetry; apply Nat.eqb_neq; lia). cbn [andb].
      replace (q <? q)%nat with false by (symmetry; apply Nat.ltb_ge; lia). rewrite !andb_false_r.
      flat.
      + subst k j. rewrite Nat.eqb_refl. replace (i <=? q)%nat with true by (symmetry; apply Nat.leb_le; lia).
        replace (q <? q + 1)%nat with true by (symmetry; apply Nat.ltb_lt; lia). reflexivity.
      + destruct (Nat.eqb_spec k ip); cbn [andb]; auto. destruct (i <=? j)%nat; cbn [andb]; auto.
        destruct (Nat.ltb_spec j q), (Nat.ltb_spec j (q + 1)); auto; lia.
    - split; auto. intros k j Hk Hj. destruct (Nat.eqb_spec k ip); cbn [andb]; auto.
      destruct (Nat.leb_spec i j), (Nat.ltb_spec j i); auto; lia.
    - rewrite E. cbn [obind]. rewrite (aget_nth B i 0) by lia. cbn [obind]. rewrite asubm_ok by lia. cbn [obind].
      eexists _, _. split; [reflexivity|]. split; auto. split; [now rewrite upd_length|]. cbv zeta. split.
      + intros k j Hk Hj. rewrite V by auto. replace (j <? i + (n - i))%nat with true by (symmetry; apply Nat.ltb_lt; lia).
        now rewrite andb_true_r.
      + intros k Hk. rewrite nth_upd by lia. rewrite (Nat.eqb_sym k ip). destruct (Nat.eqb_spec ip k); subst; auto.
  Qed.

  (* factor used for row k in column i *)
  Definition tfac A (i k : nat) : K := gdiv (dense A n k i) (dense A n i i).
  Lemma elim_rows_ok A B i : length A = (n * n)%nat -> length B = n -> (i < n)%nat ->
    glt 0 (gabs (dense A n i i)) = true ->
    exists A' B', ofold (elim_row n i) (seq (i + 1) (n - (i + 1))) (A, B) = Ok (A', B') /\
      length A' = (n * n)%nat /\ length B' = n /\
      (forall k j, (k < n)%nat -> (j < n)%nat ->
        dense A' n k j = if (i <? k)%nat && (i <=? j)%nat then dense A n k j - tfac A i k * dense A n i j else dense A n k j) /\
      (forall k, (k < n)%nat -> nth k B' 0 = if (i <? k)%nat then nth k B 0 - tfac A i k * nth i B 0 else nth k B 0).
  Proof.
    intros LA LB Hi HP.
    destruct (ofold_seq (elim_row n i)
      (fun q (AB : list K * list K) => length (fst AB) = (n * n)%nat /\ length (snd AB) = n /\
        (forall k j, (k < n)%nat -> (j < n)%nat ->
          dense (fst AB) n k j = if (i <? k)%nat && (k <? q)%nat && (i <=? j)%nat then dense A n k j - tfac A i k * dense A n i j else dense A n k j) /\
        (forall k, (k < n)%nat -> nth k (snd AB) 0 = if (i <? k)%nat && (k <? q)%nat then nth k B 0 - tfac A i k * nth i B 0 else nth k B 0))
      (i + 1)%nat (n - (i + 1))%nat (A, B)) as ([A' B'] & E & L1 & L2 & VA & VB).
    - intros q [A1 B1] Hq (L1 & L2 & VA & VB). cbn [fst snd] in *.
      assert (Rii : forall j, (j < n)%nat -> dense A1 n i j = dense A n i j).
      { intros j Hj. rewrite VA by lia. replace (i <? i)%nat with false by (symmetry; apply Nat.ltb_ge; lia). reflexivity. }
      assert (Rq : forall j, (j < n)%nat -> dense A1 n q j = dense A n q j).
      { intros j Hj. rewrite VA by lia. replace (q <? q)%nat with false by (symmetry; apply Nat.ltb_ge; lia).
        now rewrite andb_false_r. }
      destruct (elim_row_ok A1 B1 i q L1 L2) as (A2 & B2 & E2 & L3 & L4 & W); [lia|lia|now rewrite Rii|].
      cbv zeta in W. rewrite Rq, !Rii in W by lia. fold (tfac A i q) in W. destruct W as [WA WB].
      exists (A2, B2). split; auto. cbn [fst snd]. split; auto. split; auto. split.
      + intros k j Hk Hj. rewrite WA by auto. rewrite (Rii j) by auto. rewrite VA by auto.
        destruct (Nat.eqb_spec k q) as [->|Nk].
        * replace (i <? q)%nat with true by (symmetry; apply Nat.ltb_lt; lia).
          replace (q <? q)%nat with false by (symmetry; apply Nat.ltb_ge; lia).
          replace (q <? q + 1)%nat with true by (symmetry; apply Nat.ltb_lt; lia). cbn [andb]. reflexivity.
        * cbn [andb]. replace (k <? q + 1)%nat with (k <? q)%nat; auto.
          destruct (Nat.ltb_spec k q), (Nat.ltb_spec k (q + 1)); auto; lia.
      + intros k Hk. rewrite WB by auto. rewrite (VB i) by lia.
        replace (i <? i)%nat with false by (symmetry; apply Nat.ltb_ge; lia). cbn [andb].
        rewrite VB by auto. destruct (Nat.eqb_spec k q) as [->|Nk].
        * replace (i <? q)%nat with true by (symmetry; apply Nat.ltb_lt; lia).
          replace (q <? q)%nat with false by (symmetry; apply Nat.ltb_ge; lia).
          replace (q <? q + 1)%nat with true by (symmetry; apply Nat.ltb_lt; lia). cbn [andb]. reflexivity.
        * replace (k <? q + 1)%nat with (k <? q)%nat; auto.
          destruct (Nat.ltb_spec k q), (Nat.ltb_spec k (q + 1)); auto; lia.
    - cbn [fst snd]. split; auto. split; auto. split; intros k; [intros j|]; intros.
      + destruct (Nat.ltb_spec i k), (Nat.ltb_spec k (i + 1)); cbn [andb]; auto; lia.
      + destruct (Nat.ltb_spec i k), (Nat.ltb_spec k (i + 1)); cbn [andb]; auto; lia.
    - exists A', B'. cbn [fst snd] in *. split; auto. split; auto. split; auto. split.
      + intros k j Hk Hj. rewrite VA by auto.
        replace (k <? i + 1 + (n - (i + 1)))%nat with true by (symmetry; apply Nat.ltb_lt; lia). now rewrite andb_true_r.
      + intros k Hk. rewrite VB by auto.
        replace (k <? i + 1 + (n - (i + 1)))%nat with true by (symmetry; apply Nat.ltb_lt; lia). now rewrite andb_true_r.
  Qed.

  (* residual of row k for the right-hand side c*B *)
  Definition resid A B (x : nat -> K) (c : K) (k : nat) : K := drow A n x k - c * nth k B 0.

  (* state after i columns; A0, B0: the original system *)
  Record einv A0 B0 (i : nat) A B : Prop := {
    ev_LA : length A = (n * n)%nat;
    ev_LB : length B = n;
    ev_diag : forall k, (k < i)%nat -> glt (gabs (dense A n k k)) gtiny = false;
    ev_low : forall k j, (j < i)%nat -> (j < k < n)%nat -> dense A n k j = 0;
    ev_back : forall x c (P : K -> Prop), P 0 -> (forall k, (k < i)%nat -> resid A B x c k = 0) ->
      (forall k, (i <= k < n)%nat -> P (resid A B x c k)) -> forall k, (k < n)%nat -> P (resid A0 B0 x c k);
    ev_fwd : forall x c, (forall k, (k < n)%nat -> resid A0 B0 x c k = 0) ->
      forall k, (k < n)%nat -> resid A B x c k = 0 }.

  Lemma drow_ext A A' x k : (forall j, (j < n)%nat -> dense A n k j = dense A' n k j) -> drow A n x k = drow A' n x k.
  Proof. intros H. unfold drow. apply gs_ext. intros j Hj. apply in_seq in Hj. rewrite H by lia. reflexivity. Qed.
  Lemma drow_comb A x k k2 (t : K) A' : (forall j, (j < n)%nat -> dense A' n k j = dense A n k j - t * dense A n k2 j) ->
    drow A' n x k = drow A n x k - t * drow A n x k2.
  Proof.
    intros H. unfold drow. rewrite <- gs_scal, <- gs_sub.
    apply gs_ext. intros j Hj. apply in_seq in Hj. rewrite H by lia. ring.
  Qed.

  Lemma elim_step_ok A0 B0 i A B im0 : (i < n)%nat -> einv A0 B0 i A B ->
    (exists A' B' im, elim_step n (Some (A, B, im0)) i = Ok (Some (A', B', im)) /\ einv A0 B0 (i + 1) A' B') \/
    (elim_step n (Some (A, B, im0)) i = Ok None /\ forall ip, (i <= ip < n)%nat -> glt (gabs (dense A n ip i)) gtiny = true).
  Proof.
    intros Hi [LA LB DG LOW BK FW]. unfold elim_step.
    destruct (find_pivot_ok A i im0 LA Hi) as (im & mx & E & PV & MX). rewrite E. cbn [obind fst snd].
    destruct (glt (gabs mx) gtiny) eqn:T.
    { right. split; auto. intros ip Hip. specialize (MX ip Hip).
      assert (AM : gabs mx = mx).
      { destruct PV as [->|(p & _ & _ & ->)]; [apply (gl_abs0 K L)|apply (gl_absabs K L)]. }
      rewrite AM in T. apply (gl_trans K L _ mx); auto. }
    destruct PV as [->|(p & -> & Hp & ->)]; [exfalso; rewrite (gl_abs0 K L), (gl_tiny K L) in T; discriminate|].
    rewrite (gl_absabs K L) in T. left.
    destruct (swap_rows_ok A i p LA Hi) as (A1 & E1 & LA1 & V1); [lia|]. rewrite E1. cbn [obind].
    destruct (aswap_ok B i p) as (B1 & EB1 & LB1 & W1); [lia..|]. rewrite EB1. cbn [obind].
    rewrite LB in LB1.
    assert (P1 : dense A1 n i i = dense A n p i) by (rewrite V1 by auto; now rewrite Nat.eqb_refl).
    destruct (elim_rows_ok A1 B1 i LA1 LB1 Hi) as (A2 & B2 & E2 & LA2 & LB2 & V2 & W2).
    { rewrite P1. now apply nontiny_pos. }
    rewrite E2. cbn [obind fst snd]. exists A2, B2, (Some p). split; auto.
    (* residuals after the swap *)
    assert (RS : forall x c k, (k < n)%nat -> resid A1 B1 x c k =
      if k =? i then resid A B x c p else if k =? p then resid A B x c i else resid A B x c k).
    { intros x c k Hk. unfold resid. rewrite W1. destruct (Nat.eqb_spec k i) as [->|N1].
      - f_equal. unfold drow. apply gs_ext. intros j Hj. apply in_seq in Hj. rewrite V1 by lia. now rewrite Nat.eqb_refl.
      - destruct (Nat.eqb_spec k p) as [->|N2].
        + f_equal. unfold drow. apply gs_ext. intros j Hj. apply in_seq in Hj. rewrite V1 by lia.
          destruct (Nat.eqb_spec p i); [lia|]. now rewrite Nat.eqb_refl.
        + f_equal. apply drow_ext. intros j Hj. rewrite V1 by lia.
          destruct (Nat.eqb_spec k i); [lia|]. destruct (Nat.eqb_spec k p); [lia|]. reflexivity. }
    assert (LOW1 : forall k j, (j < i)%nat -> (i <= k < n)%nat -> dense A1 n k j = 0).
    { intros k j Hj Hk. rewrite V1 by lia. destruct (Nat.eqb_spec k i); [apply LOW; lia|].
      destruct (Nat.eqb_spec k p); apply LOW; lia. }
    (* residuals after the elimination *)
    assert (RE : forall x c k, (k < n)%nat -> resid A2 B2 x c k =
      if (i <? k)%nat then resid A1 B1 x c k - tfac A1 i k * resid A1 B1 x c i else resid A1 B1 x c k).
    { intros x c k Hk. unfold resid. rewrite W2 by auto. destruct (Nat.ltb_spec i k) as [Hik|Hik].
      - rewrite (drow_comb A1 x k i (tfac A1 i k) A2); [ring|]. intros j Hj. rewrite V2 by auto.
        destruct (Nat.ltb_spec i k); [|lia]. cbn [andb]. destruct (Nat.leb_spec i j); auto.
        rewrite !(LOW1 _ j) by lia. ring.
      - f_equal. apply drow_ext. intros j Hj. rewrite V2 by auto. destruct (Nat.ltb_spec i k); [lia|]. reflexivity. }
    split; auto.
    - intros k Hk. rewrite V2 by lia. destruct (Nat.ltb_spec i k); [lia|]. cbn [andb].
      destruct (Nat.eq_dec k i) as [->|Nk]; [now rewrite P1|]. rewrite V1 by lia.
      destruct (Nat.eqb_spec k i); [lia|]. destruct (Nat.eqb_spec k p); [lia|]. apply DG. lia.
    - intros k j Hj Hk. destruct (Nat.eq_dec j i) as [->|Nj].
      + rewrite V2 by lia. destruct (Nat.ltb_spec i k); [|lia]. destruct (Nat.leb_spec i i); [|lia]. cbn [andb].
        unfold tfac. rewrite (gl_div K L); [ring|]. rewrite P1. now apply nontiny_pos.
      + rewrite V2 by lia. destruct (Nat.leb_spec i j); [lia|]. rewrite andb_false_r.
        destruct (Nat.le_gt_cases i k) as [Hik|Hik]; [apply LOW1; lia|]. rewrite V1 by lia.
        destruct (Nat.eqb_spec k i); [lia|]. destruct (Nat.eqb_spec k p); [lia|]. apply LOW; lia.
    - intros x c P H0 HZ HP.
      assert (R1i : resid A1 B1 x c i = 0).
      { rewrite <- (HZ i) by lia. rewrite RE by lia. destruct (Nat.ltb_spec i i); [lia|]. reflexivity. }
      assert (R1 : forall k, (k < n)%nat -> resid A2 B2 x c k = resid A1 B1 x c k).
      { intros k Hk. rewrite RE by auto. rewrite R1i. destruct (i <? k)%nat; ring. }
      apply BK; auto.
      + intros k Hk. rewrite <- (HZ k) by lia. rewrite R1, RS by lia.
        destruct (Nat.eqb_spec k i); [lia|]. destruct (Nat.eqb_spec k p); [lia|]. reflexivity.
      + intros k Hk.
        assert (HP' : forall q, (i <= q < n)%nat -> P (resid A1 B1 x c q)).
        { intros q Hq. rewrite <- R1 by lia. destruct (Nat.eq_dec q i) as [->|]; [rewrite HZ by lia; auto|apply HP; lia]. }
        destruct (Nat.eq_dec k p) as [->|Nk].
        * specialize (HP' i). rewrite RS, Nat.eqb_refl in HP' by lia. apply HP'. lia.
        * destruct (Nat.eq_dec k i) as [->|Nk2].
          -- specialize (HP' p). rewrite RS in HP' by lia. destruct (Nat.eqb_spec p i); [lia|].
             rewrite Nat.eqb_refl in HP'. apply HP'. lia.
          -- specialize (HP' k). rewrite RS in HP' by lia. destruct (Nat.eqb_spec k i); [lia|].
             destruct (Nat.eqb_spec k p); [lia|]. apply HP'. lia.
    - intros x c HZ k Hk. specialize (FW x c HZ).
      assert (Z1 : forall q, (q < n)%nat -> resid A1 B1 x c q = 0).
      { intros q Hq. rewrite RS by auto. destruct (q =? i); [apply FW; lia|]. destruct (q =? p); apply FW; lia. }
      rewrite RE by auto. rewrite !Z1 by lia. destruct (i <? k)%nat; ring.
  Qed.

  (* an upper triangle with non-zero diagonal can be solved for any values behind it *)
  Lemma tri_solve A i (y : nat -> K) : (i <= n)%nat ->
    (forall k, (k < i)%nat -> glt (gabs (dense A n k k)) gtiny = false) ->
    (forall k j, (j < i)%nat -> (j < k < n)%nat -> dense A n k j = 0) ->
    exists x, (forall j, (i <= j)%nat -> x j = y j) /\ forall k, (k < i)%nat -> drow A n x k = 0.
  Proof.
    intros Hi DG LOW.
    assert (H : forall d, (d <= i)%nat -> exists x, (forall j, (i <= j)%nat -> x j = y j) /\
      forall k, (i - d <= k < i)%nat -> drow A n x k = 0).
    { induction d as [|d IH]; intros Hd.
      - exists y. split; auto. intros; lia.
      - destruct IH as (x & X1 & X2); [lia|]. set (r := (i - S d)%nat).
        pose proof (nontiny_pos _ (DG r ltac:(lia))) as HP.
        set (z := x r - gdiv (drow A n x r) (dense A n r r)).
        exists (fun j => if j =? r then z else x j). split.
        + intros j Hj. destruct (Nat.eqb_spec j r); [lia|]. auto.
        + intros k Hk.
          assert (EQ : drow A n (fun j => if j =? r then z else x j) k = drow A n x k + dense A n k r * (z - x r)).
          { unfold drow.
            transitivity (sumof (fun j => (dense A n k j * x j) + (if j =? r then dense A n k j * (z - x r) else 0)) (seq 0 n)).
            - apply gs_ext. intros j _. destruct (Nat.eqb_spec j r) as [->|]; ring.
            - rewrite gs_add. f_equal.
              rewrite (gs_delta r (fun j => dense A n k j * (z - x r))); auto.
              + apply seq_NoDup.
              + apply in_seq. lia. }
          rewrite EQ. destruct (Nat.eq_dec k r) as [->|Nk].
          * unfold z. transitivity (drow A n x r - gdiv (drow A n x r) (dense A n r r) * dense A n r r); [ring|].
            rewrite (gl_div K L) by auto. ring.
          * rewrite X2 by lia. rewrite LOW by lia. ring. }
    destruct (H i) as (x & X1 & X2); [lia|]. exists x. split; auto. intros k Hk. apply X2. lia.
  Qed.

  (* the result of the elimination loop *)
  Lemma elim_loop A0 B0 : length A0 = (n * n)%nat -> length B0 = n ->
    (exists A B im, ofold (elim_step n) (seq 0 n) (Some (A0, B0, None)) = Ok (Some (A, B, im)) /\ einv A0 B0 n A B) \/
    (ofold (elim_step n) (seq 0 n) (Some (A0, B0, None)) = Ok None /\
     exists i A B, (i < n)%nat /\ einv A0 B0 i A B /\ forall ip, (i <= ip < n)%nat -> glt (gabs (dense A n ip i)) gtiny = true).
  Proof.
    intros LA LB.
    destruct (ofold_seq (elim_step n) (fun i st => match st with
      | Some (A, B, _) => einv A0 B0 i A B
      | None => exists i A B, (i < n)%nat /\ einv A0 B0 i A B /\ forall ip, (i <= ip < n)%nat -> glt (gabs (dense A n ip i)) gtiny = true
      end) 0 n (Some (A0, B0, None))) as (st & E & P).
    - intros i [[[A B] im]|] Hi H.
      + destruct (elim_step_ok A0 B0 i A B im) as [(A' & B' & im' & E & I)|(E & T)]; [lia|auto| |].
        * exists (Some (A', B', im')). auto.
        * exists None. split; auto. exists i, A, B. split; [lia|]. auto.
      + exists None. auto.
    - split; auto; try (intros; lia).
      + intros x c P H0 _ H k Hk. apply H. lia.
    - destruct st as [[[A B] im]|].
      + left. exists A, B, im. auto.
      + right. auto.
  Qed.

  Lemma back_ok A B X : length A = (n * n)%nat -> length B = n -> length X = n ->
    (forall k, (k < n)%nat -> glt (gabs (dense A n k k)) gtiny = false) ->
    (forall k j, (j < n)%nat -> (j < k < n)%nat -> dense A n k j = 0) ->
    exists X', ofold (back_step n A B) (rev (seq 0 n)) (Some X) = Ok (Some X') /\ length X' = n /\
      forall k, (k < n)%nat -> drow A n (fun j => nth j X' 0) k = nth k B 0.
  Proof.
    intros LA LB LX DG LOW.
    destruct (ofold_rev_seq (back_step n A B) (fun i (st : option (list K)) => exists X', st = Some X' /\ length X' = n /\
      forall k, (i <= k < n)%nat -> sumof (fun j => dense A n k j * nth j X' 0) (seq k (n - k)) = nth k B 0) 0 n (Some X))
      as (st & E & X' & -> & LX' & V).
    - intros i st Hi (X1 & -> & L1 & V1). cbn [back_step].
      rewrite (aget_nth A _ 0) by (rewrite LA; apply flat_lt; lia). cbn [obind]. fold (dense A n i i).
      rewrite DG by lia. rewrite (aget_nth B _ 0) by lia. cbn [obind].
      destruct (ofold_rev_seq (fun t j => x <- aget X1 j ;; a <- aget A (i * n + j) ;; Ok (t - x * a))
        (fun q t => t = nth i B 0 - sumof (fun j => dense A n i j * nth j X1 0) (seq q (n - q)))
        (i + 1) (n - (i + 1)) (nth i B 0)) as (t & ET & HT).
      + intros q t Hq ->. rewrite (aget_nth X1 _ 0) by lia. rewrite (aget_nth A _ 0) by (rewrite LA; apply flat_lt; lia).
        cbn [obind]. eexists. split; [reflexivity|]. fold (dense A n i q).
        replace (n - q)%nat with (S (n - (q + 1))) by lia. cbn [seq]. rewrite gs_cons. rewrite Nat.add_1_r.
        ring.
      + replace (n - (i + 1 + (n - (i + 1))))%nat with 0%nat by lia. cbn [seq]. rewrite gs_nil.
        ring.
      + rewrite ET. cbn [obind]. pose proof (nontiny_pos _ (DG i ltac:(lia))) as HP. unfold gquot. rewrite HP. cbn [obind].
        rewrite aset_ok by lia. cbn [obind]. eexists. split; [reflexivity|]. eexists. split; [reflexivity|].
        split; [now rewrite upd_length|]. intros k Hk.
        assert (UP : forall k, (i < k)%nat -> sumof (fun j => dense A n i j * nth j (upd X1 i (gdiv t (dense A n i i))) 0) (seq k (n - k)) =
           sumof (fun j => dense A n i j * nth j X1 0) (seq k (n - k))).
        { intros k' Hk'. apply gs_ext. intros j Hj. apply in_seq in Hj. rewrite nth_upd_diff by lia. reflexivity. }
        destruct (Nat.eq_dec k i) as [->|Nk].
        * replace (n - i)%nat with (S (n - (i + 1))) by lia. cbn [seq]. rewrite gs_cons.
          rewrite nth_upd_same by lia. rewrite <- Nat.add_1_r. rewrite UP by lia.
          transitivity (gdiv t (dense A n i i) * dense A n i i + sumof (fun j => dense A n i j * nth j X1 0) (seq (i + 1) (n - (i + 1)))).
          { ring. }
          rewrite (gl_div K L) by auto. rewrite HT. ring.
        * rewrite <- V1 by lia. apply gs_ext. intros j Hj. apply in_seq in Hj. rewrite nth_upd_diff by lia. reflexivity.
    - exists X. split; auto. split; auto. intros; lia.
    - exists X'. split; auto. split; auto. intros k Hk. unfold drow.
      replace (seq 0 n) with (seq 0 k ++ seq k (n - k)) by (rewrite <- (seq_app k _ 0); f_equal; lia). rewrite gs_app.
      rewrite (gs_zero _ (seq 0 k)).
      + rewrite V by lia. ring.
      + intros j Hj. apply in_seq in Hj. rewrite LOW by lia. ring.
  Qed.

  (* success: a solution, and the only one; failure: a direction which the matrix nearly annihilates *)
  Lemma gauss_solve_ok X A B : length A = (n * n)%nat -> length B = n -> length X = n ->
    (exists X', gauss_solve X A B n = Ok (Some X') /\ length X' = n /\
       (forall k, (k < n)%nat -> drow A n (fun j => nth j X' 0) k = nth k B 0) /\
       (forall x, (forall k, (k < n)%nat -> drow A n x k = 0) -> forall j, (j < n)%nat -> x j = 0)) \/
    (gauss_solve X A B n = Ok None /\ exists x i, (i < n)%nat /\ x i = 1 /\
       forall k, (k < n)%nat -> glt (gabs (drow A n x k)) gtiny = true).
  Proof.
    intros LA LB LX. unfold gauss_solve.
    destruct (elim_loop A B LA LB) as [(A1 & B1 & im & E & I)|(E & i & A1 & B1 & Hi & I & T)]; rewrite E; cbn [obind].
    - left. destruct I as [LA1 LB1 DG LOW BK FW].
      destruct (back_ok A1 B1 X LA1 LB1 LX DG LOW) as (X' & EB & LX' & V). exists X'. split; auto. split; auto. split.
      + intros k Hk.
        assert (H : resid A B (fun j => nth j X' 0) 1 k = 0).
        { apply (BK _ _ (fun v => v = 0)); auto; [|intros; lia]. intros q Hq. unfold resid. rewrite V by auto. ring. }
        unfold resid in H. transitivity (drow A n (fun j => nth j X' 0) k - 1 * nth k B 0 + nth k B 0); [ring|]. rewrite H. ring.
      + intros x HZ.
        assert (Z1 : forall k, (k < n)%nat -> drow A1 n x k = 0).
        { intros k Hk. pose proof (FW x 0) as F. unfold resid in F.
          assert (F' : drow A1 n x k - 0 * nth k B1 0 = 0).
          { apply F; auto. intros q Hq. rewrite HZ by auto. ring. }
          rewrite <- F'. ring. }
        assert (H : forall d j, (n - d <= j < n)%nat -> x j = 0).
        { induction d as [|d IH]; intros j Hj; [lia|].
          destruct (Nat.le_gt_cases (n - d) j) as [Hd|Hd]; [apply IH; lia|].
          specialize (Z1 j ltac:(lia)). apply (cancel (dense A1 n j j)); [apply nontiny_pos, DG; lia|].
          rewrite <- Z1. unfold drow.
          replace (seq 0 n) with (seq 0 j ++ j :: seq (S j) (n - S j))
            by (change (j :: seq (S j) (n - S j)) with (seq j (S (n - S j))); rewrite <- (seq_app j _ 0); f_equal; lia).
          rewrite gs_app, gs_cons.
          rewrite (gs_zero _ (seq 0 j)), (gs_zero _ (seq (S j) _)).
          - ring.
          - intros q Hq. apply in_seq in Hq. rewrite (IH q) by lia. ring.
          - intros q Hq. apply in_seq in Hq. rewrite LOW by lia. ring. }
        intros j Hj. apply (H n). lia.
    - right. split; auto. destruct I as [LA1 LB1 DG LOW BK FW].
      destruct (tri_solve A1 i (fun j => if j =? i then 1 else 0)) as (x & X1 & X2); [lia|auto|auto|].
      exists x, i. split; auto. split; [rewrite X1 by auto; now rewrite Nat.eqb_refl|].
      intros k Hk.
      assert (H : glt (gabs (resid A B x 0 k)) gtiny = true).
      { apply (BK x 0 (fun v => glt (gabs v) gtiny = true)); auto.
        - rewrite (gl_abs0 K L). apply (gl_tiny K L).
        - intros q Hq. unfold resid. rewrite X2 by auto. ring.
        - intros q Hq. replace (resid A1 B1 x 0 q) with (dense A1 n q i); [apply T; lia|].
          unfold resid, drow. transitivity (sumof (fun j => if Nat.eqb j i then dense A1 n q j else 0) (seq 0 n)).
          + rewrite (gs_delta i (fun j => dense A1 n q j)); auto. * apply seq_NoDup. * apply in_seq. lia.
          + transitivity (sumof (fun j => dense A1 n q j * x j) (seq 0 n)); [|ring].
            apply gs_ext. intros j Hj. apply in_seq in Hj. destruct (Nat.lt_ge_cases j i) as [Hji|Hji].
            * rewrite LOW by lia. destruct (j =? i); ring.
            * rewrite X1 by auto. destruct (j =? i); ring. }
      unfold resid in H. replace (drow A n x k) with (drow A n x k - 0 * nth k B 0) by ring. auto.
  Qed.
End G.

Lemma nth_pairs n m s i j d : i < m -> j < n ->
  nth (i * n + j) (flat_map (fun i => map (fun j => (i, j)) (seq 0 n)) (seq s m)) d = (s + i, j).
Proof.
  revert s i. induction m as [|m IH]; intros s i Hi Hj; [lia|]. cbn [seq flat_map].
  destruct i as [|i].
  - cbn [Nat.mul Nat.add]. rewrite app_nth1 by (now rewrite map_length, seq_length).
    rewrite (nth_map_lt (fun j : nat => (s, j)) _ j d 0) by (now rewrite seq_length).
    rewrite seq_nth by auto. f_equal. lia.
  - rewrite app_nth2 by (rewrite map_length, seq_length; lia). rewrite map_length, seq_length.
    replace (S i * n + j - n) with (i * n + j) by lia. rewrite IH by lia. f_equal. lia.
Qed.
Lemma pairs_length n m s : length (flat_map (fun i => map (fun j => (i, j)) (seq 0 n)) (seq s m)) = m * n.
Proof. revert s. induction m as [|m IH]; intros s; cbn [seq flat_map Nat.mul]; auto. now rewrite app_length, map_length, seq_length, IH. Qed.
Lemma in_pairs n m s p : In p (flat_map (fun i => map (fun j => (i, j)) (seq 0 n)) (seq s m)) -> s <= fst p < s + m /\ snd p < n.
Proof.
  intros H. apply in_flat_map in H as (i & Hi & H). apply in_map_iff in H as (j & <- & Hj).
  apply in_seq in Hi, Hj. cbn [fst snd]. lia.
Qed.
Lemma ofold_snoc {A B} (f : A -> outcome B) (g : A -> B) l acc : (forall x, In x l -> f x = Ok (g x)) ->
  ofold (fun l x => v <- f x ;; Ok (l ++ [v])) l acc = Ok (acc ++ map g l).
Proof.
  revert acc. induction l as [|x l IH]; intros acc H; cbn [ofold map]; [now rewrite app_nil_r|].
  rewrite H by (now left). cbn [obind]. rewrite IH by (intros; apply H; now right). now rewrite <- app_assoc.
Qed.

Section Solver.
  Variable K : GNum.
  Variable L : glaws K.
  Add Ring Kg2 : (gl_ring K L).
  Local Open Scope rng_scope.

  Lemma fill_ok (m : smat K) n A : (forall i j, in_shape n n (i, j) -> sym_value m i j = Ok (A i j)) ->
    exists D, fill_dense m n = Ok D /\ length D = (n * n)%nat /\
      forall i j, (i < n)%nat -> (j < n)%nat -> dense D n i j = A (i + 1)%nat (j + 1)%nat.
  Proof.
    intros H. unfold fill_dense.
    rewrite (ofold_snoc (fun ij => sym_value m (fst ij + 1) (snd ij + 1)) (fun ij => A (fst ij + 1)%nat (snd ij + 1)%nat)).
    - eexists. split; [reflexivity|]. cbn [app]. split; [now rewrite map_length, pairs_length|].
      intros i j Hi Hj. unfold dense. rewrite (nth_map_lt _ _ _ _ (0%nat, 0%nat)) by (rewrite pairs_length; now apply flat_lt).
      rewrite nth_pairs by auto. reflexivity.
    - intros p Hp. apply in_pairs in Hp. apply H. unfold in_shape. cbn [fst snd]. lia.
  Qed.

  Lemma drow_mv n (D : list K) A x i : (forall i j, (i < n)%nat -> (j < n)%nat -> dense D n i j = A (i + 1)%nat (j + 1)%nat) ->
    (i < n)%nat -> drow D n (fun j => nth j x 0) i = mv A n x (S i).
  Proof.
    intros H Hi. unfold drow, mv. rewrite <- seq_shift, (sumof_map (GR K L)). apply (gs_ext K L).
    intros j Hj. apply in_seq in Hj. rewrite H by lia. rewrite !Nat.add_1_r. cbn [Nat.sub]. now rewrite Nat.sub_0_r.
  Qed.

  Lemma gauss_dense_ok (m : smat K) n A b X : si_nrows (sm_si m) = n -> (n < 1000)%nat ->
    (forall i j, in_shape n n (i, j) -> sym_value m i j = Ok (A i j)) -> length b = n -> length X = n ->
    (exists x, gauss_dense X m b = Ok x /\ length x = n /\ (forall i, (i < n)%nat -> mv A n x (S i) = nth i b 0) /\
       forall y, length y = n -> (forall i, (i < n)%nat -> mv A n y (S i) = nth i b 0) -> y = x) \/
    (gauss_dense X m b = Fatal /\ exists x i, length x = n /\ (i < n)%nat /\ nth i x 0 = 1 /\
       forall k, (k < n)%nat -> glt (gabs (mv A n x (S k))) gtiny = true).
  Proof.
    intros HN HL HV Lb LX. unfold gauss_dense. rewrite HN.
    replace (n <? 1000)%nat with true by (symmetry; now apply Nat.ltb_lt). cbn [checking].
    destruct (fill_ok m n A HV) as (D & ED & LD & VD). rewrite ED. cbn [obind].
    destruct (gauss_solve_ok K L n X D b LD Lb LX) as [(x & E & Lx & SD & U)|(E & x & i & Hi & X1 & T)]; rewrite E; cbn [obind].
    - left. exists x. split; auto. split; auto.
      assert (SX : forall i, (i < n)%nat -> mv A n x (S i) = nth i b 0).
      { intros i Hi. rewrite <- (drow_mv n D A x i VD Hi). auto. }
      split; auto. intros y Ly Sy. apply (list_ext_nth 0); [congruence|]. intros j Hj.
      assert (Z : nth j y 0 - nth j x 0 = 0).
      { apply (U (fun j => nth j y 0 - nth j x 0)); [|lia]. intros k Hk.
        transitivity (drow D n (fun j => nth j y 0) k - drow D n (fun j => nth j x 0) k).
        - unfold drow. rewrite <- (gs_sub K L). apply (gs_ext K L). intros; ring.
        - rewrite !(drow_mv n D A _ k VD Hk), SX, Sy by auto. ring. }
      transitivity (nth j y 0 - nth j x 0 + nth j x 0); [ring|]. rewrite Z. ring.
    - right. split; auto. exists (map x (seq 0 n)), i. split; [now rewrite map_length, seq_length|].
      split; auto. split; [rewrite nth_map_seq by auto; auto|].
      intros k Hk. rewrite <- (drow_mv n D A _ k VD Hk).
      replace (drow D n (fun j => nth j (map x (seq 0 n)) 0) k) with (drow D n x k); auto.
      unfold drow. apply (gs_ext K L). intros j Hj. apply in_seq in Hj. rewrite nth_map_seq by lia. reflexivity.
  Qed.

  Lemma gauss_exact (u : nat -> list K) : (forall n, length (u n) = n) -> exact_solver (gauss_slv u).
  Proof.
    intros HU m n A b x HN HV Lb E. unfold gauss_slv in E.
    destruct (Nat.lt_ge_cases n 1000) as [Hn|Hn].
    - destruct (gauss_dense_ok m n A b (u (si_nrows (sm_si m))) HN Hn HV Lb) as [(x' & E' & L1 & S & _)|(E' & _)];
        [rewrite HN; auto| |congruence]. rewrite E' in E. injection E as <-. auto.
    - unfold gauss_dense in E. rewrite HN in E. replace (n <? 1000)%nat with false in E by (symmetry; now apply Nat.ltb_ge).
      discriminate.
  Qed.
End Solver.

Local Open Scope Qc_scope.
Lemma Qc_ltb_lt a b : Qc_ltb a b = true <-> (a < b)%Qc.
Proof. unfold Qc_ltb. rewrite Qclt_alt. destruct (a ?= b)%Qc; split; congruence. Qed.
Lemma Qc_ltb_ge a b : Qc_ltb a b = false <-> (b <= a)%Qc.
Proof.
  rewrite <- not_true_iff_false, Qc_ltb_lt. split; [apply Qcnot_lt_le|apply Qcle_not_lt].
Qed.
Lemma QcG_laws : glaws QcG.
Proof.
  split; cbn [QcG gn gdiv gabs glt gtiny].
  - exact (F_R Qcft).
  - intros a b H. apply Qc_ltb_lt in H. change (Qcmult (Qcdiv a b) b = a).
    change (Q2Qc 0 < Qcabs b) in H. rewrite Qcmult_comm. apply Qcmult_div_r. intros ->. now vm_compute in H.
  - vm_compute. apply Qc_is_canon. reflexivity.
  - intros a. apply Qcabs_pos, Qcabs_nonneg.
  - intros a b H. apply Qc_ltb_ge. apply Qc_ltb_lt in H. now apply Qclt_le_weak.
  - reflexivity.
  - intros a b c H1 H2. apply Qc_ltb_ge in H1. apply Qc_ltb_lt in H2. apply Qc_ltb_lt. eapply Qcle_lt_trans; eauto.
Qed.

Local Close Scope Qc_scope.
Section Final.
  Variable K : GNum.
  Variable L : glaws K.
  Add Ring Kg3 : (gl_ring K L).
  Local Open Scope rng_scope.

  Lemma gauss_dense_sol (m : smat K) n A b u : si_nrows (sm_si m) = n -> (n < 1000)%nat ->
    (forall i j, in_shape n n (i, j) -> sym_value m i j = Ok (A i j)) -> length b = n -> length u = n ->
    (exists x, gauss_dense u m b = Ok x /\ length x = n /\ (forall i, (i < n)%nat -> mv A n x (S i) = nth i b 0) /\
       forall y, length y = n -> (forall i, (i < n)%nat -> mv A n y (S i) = nth i b 0) -> y = x) \/
    gauss_dense u m b = Fatal.
  Proof. intros H1 H2 H3 H4 H5. destruct (gauss_dense_ok K L m n A b u H1 H2 H3 H4 H5) as [H|[H _]]; auto. Qed.
  Lemma gauss_dense_limit (m : smat K) b u : (1000 <= si_nrows (sm_si m))%nat -> gauss_dense u m b = Fatal.
  Proof. intros H. unfold gauss_dense. replace (_ <? 1000)%nat with false by (symmetry; now apply Nat.ltb_ge). reflexivity. Qed.
  Lemma gauss_dense_fail (m : smat K) n A b u : si_nrows (sm_si m) = n -> (n < 1000)%nat ->
    (forall i j, in_shape n n (i, j) -> sym_value m i j = Ok (A i j)) -> length b = n -> length u = n ->
    gauss_dense u m b = Fatal ->
    exists x i, length x = n /\ (i < n)%nat /\ nth i x 0 = 1 /\ forall k, (k < n)%nat -> glt (gabs (mv A n x (S k))) gtiny = true.
  Proof. intros H1 H2 H3 H4 H5 E. destruct (gauss_dense_ok K L m n A b u H1 H2 H3 H4 H5) as [(x & H & _)|[_ H]]; auto. congruence. Qed.
  Lemma gauss_dense_singular (m : smat K) n A b u z : si_nrows (sm_si m) = n -> (n < 1000)%nat ->
    (forall i j, in_shape n n (i, j) -> sym_value m i j = Ok (A i j)) -> length b = n -> length u = n ->
    length z = n -> (exists i, (i < n)%nat /\ nth i z 0 <> 0) -> (forall i, (i < n)%nat -> mv A n z (S i) = 0) ->
    gauss_dense u m b = Fatal.
  Proof.
    intros H1 H2 H3 H4 H5 Lz (i & Hi & Ni) HZ.
    destruct (gauss_dense_ok K L m n A b u H1 H2 H3 H4 H5) as [(x & H & Lx & S1 & U)|[H _]]; auto. exfalso.
    set (y := map (fun j => nth j x 0 + nth j z 0) (seq 0 n)).
    assert (Ey : y = x).
    { apply U; [unfold y; now rewrite map_length, seq_length|]. intros k Hk.
      transitivity (mv A n x (S k) + mv A n z (S k)); [|rewrite S1, HZ by auto; ring].
      unfold mv. rewrite <- (gs_add K L). apply (gs_ext K L). intros j Hj. apply in_seq in Hj. unfold y.
      rewrite nth_map_seq by lia. cbn [Nat.add]. ring. }
    apply Ni. assert (E : nth i y 0 = nth i x 0) by congruence. unfold y in E. rewrite nth_map_seq in E by auto. cbn [Nat.add] in E.
    transitivity (nth i x 0 + nth i z 0 - nth i x 0); [ring|]. rewrite E. ring.
  Qed.

  Lemma linear_gauss (big : K -> bool) (u : nat -> list K) : (forall n, length (u n) = n) ->
    forall nn mesh regs ks mpcs loads fixes, good_linear nn mesh regs ks mpcs loads fixes ->
    (exists st, linear_solve big (gauss_slv u) nn mesh regs ks mpcs loads fixes = Ok st) \/
    linear_solve big (gauss_slv u) nn mesh regs ks mpcs loads fixes = Fatal.
  Proof.
    intros HU nn mesh regs ks mpcs loads fixes GL.
    destruct (linear_total (GR K L) big (gauss_slv u) (gauss_exact K L u HU) nn mesh regs ks mpcs loads fixes GL)
      as (m & b & n & A & D & V & Lb & H).
    assert (HG : (exists x, gauss_slv u m b = Ok x) \/ gauss_slv u m b = Fatal).
    { unfold gauss_slv. destruct (Nat.lt_ge_cases n 1000) as [Hn|Hn].
      - destruct (gauss_dense_sol m n A b (u (si_nrows (sm_si m))) D Hn V Lb) as [(x & E & _)|E]; [rewrite D; auto| |]; eauto.
      - right. apply gauss_dense_limit. exact (eq_ind_r (fun k => (1000 <= k)%nat) Hn D). }
    destruct HG as [[x E]|E]; rewrite E in H; auto.
  Qed.
End Final.

Lemma tiny_regular :
  exists (A B X : list QcG), length A = 1%nat /\ length B = 1%nat /\ length X = 1%nat /\ gauss_solve X A B 1 = Ok None /\
    (forall x : nat -> QcG, (forall k, (k < 1)%nat -> drow A 1 x k = r0) -> forall j, (j < 1)%nat -> x j = r0).
Proof.
  exists [Q2Qc (1 # (10 ^ 21))], [Q2Qc (1 # (10 ^ 21))], [Q2Qc 0].
  split; [reflexivity|]. split; [reflexivity|]. split; [reflexivity|]. split; [vm_compute; reflexivity|].
  intros x H j Hj. assert (j = 0%nat) by lia. subst j. specialize (H 0%nat Hj). unfold drow in H. cbn [seq] in H.
  rewrite (gs_cons QcG QcG_laws), gs_nil in H.
  change (Q2Qc (1 # (10 ^ 21)) * x 0%nat + Q2Qc 0 = Q2Qc 0)%Qc in H. rewrite Qcplus_0_r in H.
  apply Qcmult_integral in H as [H|H]; auto. discriminate.
Qed.
