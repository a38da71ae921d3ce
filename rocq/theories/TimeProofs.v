(* Time stepping: proofs *)
From Coq Require Import NArith QArith Qcanon Lqa Sorted.
From Verif Require Import Base BaseProofs GaussModel SpecGauss GaussProofs TimeModel SpecTime QcTac.
Local Open Scope nat_scope.

(* ---------------- bookkeeping (any numbers) ---------------- *)
Section Book.
  Variable K : GNum.
  Implicit Types (t : tcs K) (ops : list (tcop K)).

  Lemma tc_run_app ops1 ops2 t : tc_run (ops1 ++ ops2) t =
    let '(t1, r1) := tc_run ops1 t in let '(t2, r2) := tc_run ops2 t1 in (t2, r1 ++ r2).
  Proof.
    revert t. induction ops1 as [|[d|] ops1 IH]; intros t; cbn [app tc_run].
    - now destruct (tc_run ops2 t).
    - destruct (next_step d t) as [b t1]. rewrite IH. destruct (tc_run ops1 t1) as [t2 r2'].
      destruct (tc_run ops2 t2) as [t3 r3']. reflexivity.
    - apply IH.
  Qed.
  Definition bump (c : nat) (l : list nat) : list nat := match l with [] => [] | x :: t => c + x :: t end.
  Lemma eq_counts_cons ops : exists c cs, eq_counts ops = c :: cs.
  Proof. induction ops as [|[d|] ops (c & cs & E)]; cbn [eq_counts]; [eauto|eauto|rewrite E; eauto]. Qed.
  Definition nz (c : nat) : bool := negb (c =? 0).

  Lemma u16_small n : (n < 65536)%N -> u16 n = n.
  Proof. apply N.mod_small. Qed.

  Lemma book_run ops : forall t c0, tc_cur t = N.of_nat c0 ->
    (N.of_nat (c0 + list_sum (eq_counts ops)) < 65536)%N -> (N.of_nat (list_sum (eq_counts ops)) + tc_tot t < 65536)%N ->
    Forall (fun r => fst r = true) (snd (tc_run ops t)) ->
    let t' := fst (tc_run ops t) in
    tc_eqs t' = tc_eqs t ++ map N.of_nat (filter nz (removelast (bump c0 (eq_counts ops)))) /\
    (length (tc_conv t') = length (tc_conv t) + length (filter nz (removelast (bump c0 (eq_counts ops)))))%nat /\
    tc_cur t' = N.of_nat (last (bump c0 (eq_counts ops)) 0) /\
    tc_tot t' = (tc_tot t + N.of_nat (list_sum (eq_counts ops)))%N.
  Proof.
    induction ops as [|[d|] ops IH]; intros t c0 HC HB HT HF; cbn [tc_run eq_counts] in *.
    - cbn [bump removelast filter map fst snd list_sum fold_right last]. rewrite app_nil_r, HC. cbn [length].
      repeat split; auto; lia.
    - destruct (next_step d t) as [b t1] eqn:E. destruct (tc_run ops t1) as [t2 rs] eqn:ER. cbn [fst snd] in *.
      inversion HF as [|? ? Hb HF']; subst. cbn [fst] in Hb. subst b.
      assert (F : tc_cur t1 = 0%N /\ tc_tot t1 = tc_tot t /\
        tc_eqs t1 = tc_eqs t ++ map N.of_nat (filter nz [c0]) /\ length (tc_conv t1) = (length (tc_conv t) + length (filter nz [c0]))%nat).
      { unfold next_step in E. rewrite HC in E. cbn [filter nz].
        destruct (N.ltb_spec 0 (N.of_nat c0)) as [H|H]; destruct (gge (tc_time t) (tc_end t)); try discriminate;
          injection E as <-; cbn [tc_cur tc_tot tc_eqs tc_conv];
          (destruct c0 as [|c0]; [try lia|try lia]); cbn [nz Nat.eqb negb filter map length];
          rewrite ?app_length, ?app_nil_r; cbn [length]; repeat split; auto; lia. }
      destruct F as (F1 & F2 & F3 & F4).
      specialize (IH t1 0 F1). rewrite ER in IH. cbn [fst snd] in IH. rewrite F2 in IH.
      assert (BB : forall l, bump 0 l = l) by (intros [|? ?]; reflexivity). rewrite BB in IH.
      change (list_sum (0 :: eq_counts ops)) with (list_sum (eq_counts ops)) in HB, HT.
      destruct IH as (I1 & I2 & I3 & I4); [lia|lia|auto|].
      destruct (eq_counts_cons ops) as (c & cs & EC).
      assert (EB : removelast (bump c0 (0 :: eq_counts ops)) = c0 :: removelast (eq_counts ops)).
      { rewrite EC. cbn [bump]. rewrite Nat.add_0_r. reflexivity. }
      rewrite EB. change (filter nz (c0 :: removelast (eq_counts ops))) with (filter nz ([c0] ++ removelast (eq_counts ops))).
      rewrite filter_app, map_app, app_length. split; [rewrite I1, F3; now rewrite app_assoc|]. split; [lia|]. split.
      + rewrite I3. f_equal. cbn [bump]. rewrite EC. reflexivity.
      + rewrite I4. cbn [list_sum fold_right]. reflexivity.
    - destruct (eq_counts_cons ops) as (c & cs & EC). rewrite EC in *.
      change (list_sum (S c :: cs)) with (S c + list_sum cs)%nat in *. change (list_sum (c :: cs)) with (c + list_sum cs)%nat in *.
      specialize (IH (next_eq t) (S c0)). cbn [next_eq tc_cur tc_tot tc_eqs tc_conv] in IH.
      assert (E1 : u16 (tc_cur t + 1) = N.of_nat (S c0)) by (rewrite HC, u16_small by lia; lia).
      assert (E2 : u16 (tc_tot t + 1) = (tc_tot t + 1)%N) by (rewrite u16_small by lia; lia).
      rewrite E2 in IH. cbn [bump] in IH |- *.
      replace (c0 + S c)%nat with (S c0 + c)%nat by lia.
      destruct IH as (I1 & I2 & I3 & I4); [exact E1|lia|lia|exact HF|].
      split; [exact I1|]. split; [exact I2|]. split; [exact I3|]. rewrite I4. lia.
  Qed.

  (* all steps successful *)
  Lemma bookkeeping (start end_ : K) ops t rs : tc_run ops (tc_init start end_) = (t, rs) ->
    (N.of_nat (total_eq ops) < 65535)%N -> Forall (fun r => fst r = true) rs ->
    tc_eqs t = map N.of_nat (finished ops) /\
    converged_steps t = N.of_nat (length (finished ops)) /\ current_step t = N.of_nat (length (finished ops) + 1) /\
    tc_cur t = N.of_nat (last (eq_counts ops) 0) /\ tc_tot t = N.of_nat (total_eq ops).
  Proof.
    intros E HB HF. pose proof (book_run ops (tc_init start end_) 0 eq_refl) as H. rewrite E in H. cbn [fst snd tc_init tc_tot tc_eqs tc_conv length] in H.
    assert (BB : forall l, bump 0 l = l) by (intros [|? ?]; reflexivity). rewrite BB in H. cbn [app] in H.
    unfold total_eq in *. destruct H as (H1 & H2 & H3 & H4); [lia|lia|auto|].
    change (filter nz (removelast (eq_counts ops))) with (finished ops) in *.
    assert (LF : (length (finished ops) <= list_sum (eq_counts ops))%nat).
    { unfold finished. clear. destruct (eq_counts_cons ops) as (c & cs & ->). revert c.
      induction cs as [|c' cs IH]; intros c; [cbn; lia|].
      change (removelast (c :: c' :: cs)) with (c :: removelast (c' :: cs)). cbn [filter].
      specialize (IH c'). change (list_sum (c :: c' :: cs)) with (c + list_sum (c' :: cs))%nat.
      destruct (Nat.eqb_spec c 0); cbn [negb length]; lia. }
    split; auto. unfold converged_steps, current_step. rewrite H2. rewrite !u16_small by lia.
    split; [lia|]. split; [lia|]. split; [auto|]. lia.
  Qed.
  Lemma finished_snoc ops d : exists c, last (eq_counts ops) 0 = c /\
    finished (ops ++ [TStep d]) = finished ops ++ filter nz [c] /\ total_eq (ops ++ [TStep d]) = total_eq ops.
  Proof.
    exists (last (eq_counts ops) 0). split; auto.
    assert (E : eq_counts (ops ++ [TStep d]) = eq_counts ops ++ [0]).
    { induction ops as [|[d'|] ops IH]; cbn [app eq_counts]; auto.
      - now rewrite IH.
      - rewrite IH. destruct (eq_counts_cons ops) as (c & cs & ->). reflexivity. }
    unfold finished, total_eq. rewrite E. rewrite removelast_last. split.
    - destruct (eq_counts_cons ops) as (c & cs & EC).
      pose proof (app_removelast_last 0 (l := eq_counts ops)) as H. rewrite H at 1; [|rewrite EC; discriminate].
      now rewrite filter_app.
    - rewrite list_sum_app. cbn. lia.
  Qed.
  (* the step that reports the end *)
  Lemma bookkeeping_end (start end_ : K) ops d t rs : tc_run (ops ++ [TStep d]) (tc_init start end_) = (t, rs) ->
    (N.of_nat (total_eq ops) < 65535)%N -> Forall (fun r => fst r = true) (removelast rs) ->
    tc_eqs t = map N.of_nat (finished (ops ++ [TStep d])) /\
    converged_steps t = N.of_nat (length (finished (ops ++ [TStep d]))) /\
    tc_tot t = N.of_nat (total_eq (ops ++ [TStep d])).
  Proof.
    rewrite tc_run_app. destruct (tc_run ops (tc_init start end_)) as [t1 rs1] eqn:E1. cbn [tc_run].
    destruct (next_step d t1) as [b t2] eqn:E2. intros E HB HF. injection E as <- <-.
    rewrite removelast_last in HF.
    destruct (bookkeeping start end_ ops t1 rs1 E1 HB HF) as (H1 & H2 & H3 & H4 & H5).
    pose proof (book_run ops (tc_init start end_) 0 eq_refl) as H. rewrite E1 in H. cbn [fst snd tc_init tc_tot tc_eqs tc_conv length] in H.
    assert (BB : forall l, bump 0 l = l) by (intros [|? ?]; reflexivity). rewrite BB in H. cbn [app] in H.
    unfold total_eq in HB. destruct H as (_ & L1 & _ & _); [lia|lia|auto|]. change (filter nz (removelast (eq_counts ops))) with (finished ops) in L1.
    destruct (finished_snoc ops d) as (c & EC & EF & ET). rewrite EC in H4. rewrite EF, ET.
    assert (F : tc_tot t2 = tc_tot t1 /\
        tc_eqs t2 = tc_eqs t1 ++ map N.of_nat (filter nz [c]) /\ length (tc_conv t2) = (length (tc_conv t1) + length (filter nz [c]))%nat).
    { unfold next_step in E2. rewrite H4 in E2. cbn [filter nz].
      destruct (N.ltb_spec 0 (N.of_nat c)) as [H|H]; destruct (gge (tc_time t1) (tc_end t1));
          injection E2 as <- <-; cbn [tc_cur tc_tot tc_eqs tc_conv];
          (destruct c as [|c]; [try lia|try lia]); cbn [nz Nat.eqb negb filter map length];
          rewrite ?app_length, ?app_nil_r; cbn [length]; repeat split; auto; lia. }
    destruct F as (F1 & F2 & F3). rewrite F2, H1, map_app. split; auto. rewrite F1. split; auto.
    unfold converged_steps. rewrite F3, app_length, L1. apply u16_small.
    assert (LF : (length (finished ops) + length (filter nz [c]) <= S (list_sum (eq_counts ops)))%nat).
    { assert (LF : (length (finished ops) <= list_sum (eq_counts ops))%nat).
      { unfold finished. clear. destruct (eq_counts_cons ops) as (c & cs & ->). revert c.
        induction cs as [|c' cs IH]; intros c; [cbn; lia|].
        change (removelast (c :: c' :: cs)) with (c :: removelast (c' :: cs)). cbn [filter].
        specialize (IH c'). change (list_sum (c :: c' :: cs)) with (c + list_sum (c' :: cs))%nat.
        destruct (Nat.eqb_spec c 0); cbn [negb length]; lia. }
      cbn [filter]. destruct (nz c); cbn [length]; lia. }
    lia.
  Qed.
End Book.

(* ---------------- exact arithmetic ---------------- *)
Lemma step_times (d : QcG) (t : tcs QcG) : (Q2Qc 0 < d)%Qc -> (tc_time t <= tc_end t)%Qc ->
  let t' := snd (next_step d t) in
  tc_end t' = tc_end t /\ tc_start t' = tc_start t /\
  ((tc_time t = tc_end t :> Qc /\ fst (next_step d t) = false /\ tc_time t' = tc_time t) \/
   ((tc_time t < tc_end t)%Qc /\ fst (next_step d t) = true /\
    ((tc_end t <= tc_time t + d /\ tc_time t' = tc_end t) \/
     ((tc_time t + d < tc_end t /\ tc_end t <= tc_time t + Q2Qc 2 * d) /\ Q2Qc 2 * tc_time t' = tc_time t + tc_end t) \/
     (tc_time t + Q2Qc 2 * d < tc_end t /\ tc_time t' = tc_time t + d))%Qc)).
Proof.
  intros Hd Ht. unfold next_step, gge.
  assert (E2 : @r2 QcG = Q2Qc 2) by (unfold r2; vm_compute; reflexivity). rewrite E2.
  destruct (if (0 <? tc_cur t)%N then _ else _) as [conv eqs]. cbn [QcG glt gdiv gn rmul radd rsub QcNum].
  destruct (Qc_ltb (tc_time t) (tc_end t)) eqn:E; cbn [negb].
  - apply Qc_ltb_lt in E. cbn [fst snd tc_end tc_start tc_time]. split; auto. split; auto. right. split; auto. split; auto.
    destruct (Qc_ltb (tc_time t + d)%Qc (tc_end t)) eqn:F; cbn [negb].
    + apply Qc_ltb_lt in F. destruct (Qc_ltb (tc_time t + Q2Qc 2 * d)%Qc (tc_end t)) eqn:G; cbn [negb].
      * apply Qc_ltb_lt in G. right. right. auto.
      * apply Qc_ltb_ge in G. right. left. split; auto.
        assert (H : (Q2Qc 2 * ((tc_end t - tc_time t) / Q2Qc 2) = tc_end t - tc_time t)%Qc) by (apply Qcmult_div_r; discriminate).
        rewrite Qcmult_plus_distr_r, H. qclra.
    + apply Qc_ltb_ge in F. left. split; auto. qclra.
  - apply Qc_ltb_ge in E. cbn [fst snd tc_end tc_start tc_time]. split; auto. split; auto. left.
    split; auto. apply Qcle_antisym; auto.
Qed.

Lemma next_eq_time {K : GNum} (t : tcs K) : tc_time (next_eq t) = tc_time t /\ tc_end (next_eq t) = tc_end t /\ tc_start (next_eq t) = tc_start t.
Proof. repeat split. Qed.

Lemma run_shape ops : Forall good_op ops -> forall (t t' : tcs QcG) rs, (tc_time t <= tc_end t)%Qc -> tc_run ops t = (t', rs) ->
  exists ts k, rs = map (pair true) ts ++ repeat (false, tc_end t) k /\
    Sorted Qclt (tc_time t :: ts) /\ Forall (fun x => x <= tc_end t)%Qc ts /\
    (0 < k -> last ts (tc_time t) = tc_end t) /\ tc_time t' = last ts (tc_time t) /\
    tc_end t' = tc_end t /\ tc_start t' = tc_start t.
Proof.
  induction 1 as [|o ops Ho Hops IH]; intros t t' rs Ht E; cbn [tc_run] in E.
  - injection E as <- <-. exists [], 0. cbn [map repeat app last]. repeat split; auto. lia.
  - destruct o as [d|]; [|apply (IH (next_eq t)); auto].
    cbn [good_op] in Ho. pose proof (step_times d t Ho Ht) as ST.
    destruct (next_step d t) as [b t1] eqn:ES. destruct (tc_run ops t1) as [t2 rs'] eqn:ER. injection E as <- <-.
    cbn [fst snd] in ST. destruct ST as (E1 & E2 & C).
    destruct (IH t1 t2 rs') as (ts & k & R1 & R2 & R3 & R4 & R5 & R6 & R7); auto.
    { rewrite E1. destruct C as [(A & B & D)|(A & B & [(D1 & D2)|[(D1 & D2)|(D1 & D2)]])].
      - rewrite D. auto. - rewrite D2. apply Qcle_refl. - destruct D1. qclra. - rewrite D2. qclra. }
    rewrite E1, E2 in *. destruct C as [(A & B & D)|(A & B & C)].
    + subst b. rewrite D in *. assert (ts = []).
      { destruct ts as [|x ts]; auto. exfalso. inversion R2 as [|? ? _ HD]; subst. inversion HD; subst.
        inversion R3; subst. rewrite A in *. qclra. }
      subst ts. exists [], (S k). cbn [map app repeat last] in *. rewrite R1. cbn [map app]. rewrite A.
      repeat split; auto. congruence.
    + subst b. exists (tc_time t1 :: ts), k. rewrite R1. split; auto.
      assert (LT : (tc_time t < tc_time t1)%Qc).
      { destruct C as [(D1 & D2)|[([D1 D1'] & D2)|(D1 & D2)]].
        - rewrite D2; auto. - qclra. - rewrite D2. qclra. }
      assert (LE : (tc_time t1 <= tc_end t)%Qc).
      { destruct C as [(D1 & D2)|[([D1 D1'] & D2)|(D1 & D2)]].
        - rewrite D2. apply Qcle_refl. - qclra. - rewrite D2. qclra. }
      split; [constructor; auto|]. split; [constructor; auto|].
      assert (LA : last (tc_time t1 :: ts) (tc_time t) = last ts (tc_time t1)).
      { clear. revert t t1. destruct ts as [|x ts]; intros; auto. cbn [last]. revert x. induction ts as [|y ts IH]; intros x; auto. apply IH. }
      rewrite LA. auto.
Qed.

(* equal steps: exactly m of them, if (m-1) d < end - time <= m d *)
Definition qn (m : nat) : Qc := Q2Qc (inject_Z (Z.of_nat m)).
Lemma qn_S m : qn (S m) = (qn m + Q2Qc 1)%Qc.
Proof. unfold qn. rewrite Nat2Z.inj_succ. unfold Z.succ. apply Qc_is_canon. rewrite this_plus, !this_Q2Qc, inject_Z_plus. reflexivity. Qed.
Definition n_steps (ops : list (tcop QcG)) : nat := length (filter is_step ops).
Definition equal_op (d : Qc) (o : tcop QcG) : Prop := match o with TStep x => x = d | TEq => True end.

Lemma equal_steps d ops : (Q2Qc 0 < d)%Qc -> Forall (equal_op d) ops -> forall m (t t' : tcs QcG) rs,
  ((qn m - Q2Qc 1) * d < tc_end t - tc_time t)%Qc -> (tc_end t - tc_time t <= qn m * d)%Qc -> (tc_time t <= tc_end t)%Qc ->
  tc_run ops t = (t', rs) -> map fst rs = repeat true (Nat.min m (n_steps ops)) ++ repeat false (n_steps ops - m).
Proof.
  intros Hd. induction 1 as [|o ops Ho Hops IH]; intros m t t' rs L1 L2 Ht E; cbn [tc_run] in E.
  - injection E as <- <-. cbn [n_steps filter length map]. now rewrite Nat.min_0_r.
  - destruct o as [x|]; [|apply (IH m (next_eq t) t' rs); auto].
    cbn [equal_op] in Ho. subst x. pose proof (step_times d t Hd Ht) as ST.
    destruct (next_step (d : QcG) t) as [b t1] eqn:ES. destruct (tc_run ops t1) as [t2 rs'] eqn:ER. injection E as <- <-.
    cbn [fst snd] in ST. destruct ST as (E1 & E2 & C). unfold n_steps in *. cbn [filter is_step length map fst].
    set (n := length (filter is_step ops)) in *.
    destruct C as [(A & B & D)|(A & B & C)]; subst b.
    + assert (m = 0).
      { destruct m as [|m]; auto. exfalso. rewrite qn_S in L1. 
        assert (0 <= this (qn m))%Q by (unfold qn; rewrite this_Q2Qc; change 0%Q with (inject_Z 0); rewrite <- Zle_Qle; lia).
        assert (0 <= this (qn m) * this d)%Q by (apply Qmult_le_0_compat; [auto|apply Qclt_this in Hd; rewrite this_Q2Qc in Hd; lra]).
        qclra. }
      subst m. rewrite (IH 0 t1 t2 rs'); auto; try (rewrite E1, D; auto).
      cbn [Nat.min repeat app]. rewrite Nat.sub_0_r. reflexivity.
    + destruct m as [|m].
      { exfalso. change (qn 0) with (Q2Qc 0) in L2. qclra. }
      rewrite qn_S in L1, L2.
      assert (HM : m = 0 \/ m = 1 \/ exists m', m = S (S m')) by (destruct m as [|[|m']]; eauto).
      assert (NN : (0 <= this (qn m))%Q) by (unfold qn; rewrite this_Q2Qc; change 0%Q with (inject_Z 0); rewrite <- Zle_Qle; lia).
      rewrite (IH m t1 t2 rs'); auto; rewrite ?E1.
      * destruct C as [(D1 & D2)|[([D1 D1'] & D2)|(D1 & D2)]].
        -- rewrite D2. destruct HM as [->|[->|(m' & ->)]].
           ++ change (qn 0) with (Q2Qc 0). qclra.
           ++ exfalso. change (qn 1) with (Q2Qc 1) in L1. qclra.
           ++ exfalso. rewrite !qn_S in L1.
              assert (0 <= this (qn m'))%Q by (unfold qn; rewrite this_Q2Qc; change 0%Q with (inject_Z 0); rewrite <- Zle_Qle; lia).
              assert (0 <= this (qn m') * this d)%Q by (apply Qmult_le_0_compat; [auto|apply Qclt_this in Hd; rewrite this_Q2Qc in Hd; lra]).
              qclra.
        -- destruct HM as [->|[->|(m' & ->)]].
           ++ exfalso. change (qn 0) with (Q2Qc 0) in L2. qclra.
           ++ change (qn 1) with (Q2Qc 1). qclra.
           ++ exfalso. rewrite !qn_S in L1.
              assert (0 <= this (qn m'))%Q by (unfold qn; rewrite this_Q2Qc; change 0%Q with (inject_Z 0); rewrite <- Zle_Qle; lia).
              assert (0 <= this (qn m') * this d)%Q by (apply Qmult_le_0_compat; [auto|apply Qclt_this in Hd; rewrite this_Q2Qc in Hd; lra]).
              qclra.
        -- rewrite D2. qclra.
      * destruct C as [(D1 & D2)|[([D1 D1'] & D2)|(D1 & D2)]].
        -- rewrite D2.
           assert (0 <= this (qn m) * this d)%Q by (apply Qmult_le_0_compat; [auto|apply Qclt_this in Hd; rewrite this_Q2Qc in Hd; lra]).
           qclra.
        -- destruct HM as [->|[->|(m' & ->)]].
           ++ exfalso. change (qn 0) with (Q2Qc 0) in L2. qclra.
           ++ change (qn 1) with (Q2Qc 1) in *. qclra.
           ++ exfalso. rewrite !qn_S in L1.
              assert (0 <= this (qn m'))%Q by (unfold qn; rewrite this_Q2Qc; change 0%Q with (inject_Z 0); rewrite <- Zle_Qle; lia).
              assert (0 <= this (qn m') * this d)%Q by (apply Qmult_le_0_compat; [auto|apply Qclt_this in Hd; rewrite this_Q2Qc in Hd; lra]).
              qclra.
        -- rewrite D2. qclra.
      * destruct C as [(D1 & D2)|[([D1 D1'] & D2)|(D1 & D2)]].
        -- rewrite D2. apply Qcle_refl. -- qclra. -- rewrite D2. qclra.
Qed.

Lemma start_ok (start end_ : QcG) ops : Forall good_op ops -> (Q2Qc 0 < end_)%Qc -> forall t rs, tc_run ops (tc_init start end_) = (t, rs) ->
  exists ts k, rs = map (pair true) ts ++ repeat (false, end_) k /\
    Sorted Qclt (Q2Qc 0 :: ts) /\ Forall (fun x => x <= end_)%Qc ts /\
    (0 < k -> last ts (Q2Qc 0) = end_) /\ tc_time t = last ts (Q2Qc 0).
Proof.
  intros Ho He t rs E. destruct (run_shape ops Ho (tc_init start end_) t rs) as (ts & k & R1 & R2 & R3 & R4 & R5 & R6 & R7); auto.
  { cbn [tc_init tc_time tc_end]. apply Qclt_le_weak; auto. }
  exists ts, k. cbn [tc_init tc_time tc_end] in *. auto 6.
Qed.

Lemma steps_exact n (start end_ : QcG) ops t rs : 0 < n -> start = Q2Qc 0 -> (Q2Qc 0 < end_)%Qc ->
  Forall (equal_op ((end_ - start) / qn n)%Qc) ops -> tc_run ops (tc_init start end_) = (t, rs) ->
  map fst rs = repeat true (Nat.min n (n_steps ops)) ++ repeat false (n_steps ops - n).
Proof.
  intros Hn -> He Ho E.
  assert (QP : (Q2Qc 0 < qn n)%Qc).
  { unfold qn. apply this_Qclt. rewrite !this_Q2Qc. change 0%Q with (inject_Z 0). rewrite <- Zlt_Qlt. lia. }
  set (d := ((end_ - Q2Qc 0) / qn n)%Qc) in *.
  assert (ED : (qn n * d = end_)%Qc).
  { unfold d. rewrite Qcmult_div_r; [qclra|]. intros H. rewrite H in QP. now apply Qclt_not_eq in QP. }
  assert (HD : (Q2Qc 0 < d)%Qc).
  { apply Qcnot_le_lt. intros H. assert ((qn n * d <= Q2Qc 0)%Qc).
    { apply this_Qcle. rewrite this_mult, this_Q2Qc. apply Qclt_this in QP. apply Qcle_this in H. rewrite this_Q2Qc in *.
      setoid_replace 0%Q with (this (qn n) * 0)%Q by ring. apply Qmult_le_l; auto. }
    rewrite ED in *. qclra. }
  apply (equal_steps d ops HD Ho n (tc_init (K := QcG) (Q2Qc 0) end_) t rs); auto; cbn [tc_init tc_time tc_end]; change (@r0 QcG) with (Q2Qc 0).
  - replace ((qn n - Q2Qc 1) * d)%Qc with (end_ - d)%Qc; [qclra|]. rewrite <- ED. ring.
  - rewrite ED. qclra.
  - qclra.
Qed.

Lemma Qcdiv_range a b : (Q2Qc 0 < a)%Qc -> (a <= b)%Qc -> (Q2Qc 0 < a / b)%Qc /\ (a / b <= Q2Qc 1)%Qc.
Proof.
  intros Ha Hab. assert (Hb : (Q2Qc 0 < b)%Qc) by (eapply Qclt_le_trans; eauto).
  assert (E : (b * (a / b) = a)%Qc) by (apply Qcmult_div_r; intros H; rewrite H in Hb; now apply Qclt_not_eq in Hb).
  split.
  - apply Qcnot_le_lt. intros H. assert ((b * (a / b) <= Q2Qc 0)%Qc).
    { apply this_Qcle. rewrite this_mult, this_Q2Qc. apply Qclt_this in Hb. apply Qcle_this in H. rewrite this_Q2Qc in *.
      setoid_replace 0%Q with (this b * 0)%Q by ring. apply Qmult_le_l; auto. }
    rewrite E in *. qclra.
  - apply Qcnot_lt_le. intros H. assert ((b * Q2Qc 1 < b * (a / b))%Qc).
    { apply this_Qclt. rewrite !this_mult, this_Q2Qc. apply Qclt_this in H, Hb. rewrite this_Q2Qc in *. apply Qmult_lt_l; auto. }
    rewrite E in *. qclra.
Qed.

Lemma normalised (start end_ : QcG) ops d t rs : (start <= Q2Qc 0)%Qc -> (Q2Qc 0 < end_)%Qc ->
  Forall good_op (ops ++ [TStep d]) -> tc_run (ops ++ [TStep d]) (tc_init start end_) = (t, rs) ->
  fst (last rs (true, end_)) = true ->
  (Q2Qc 0 < norm_time t)%Qc /\ (norm_time t <= Q2Qc 1)%Qc /\
  forall d', (Q2Qc 0 < d')%Qc -> (fst (next_step (d' : QcG) t) = false <-> norm_time t = Q2Qc 1).
Proof.
  intros Hs He Ho E HL.
  destruct (run_shape (ops ++ [TStep d]) Ho (tc_init start end_) t rs) as (ts & k & R1 & R2 & R3 & R4 & R5 & R6 & R7); auto.
  { cbn [tc_init tc_time tc_end]. apply Qclt_le_weak; auto. }
  cbn [tc_init tc_time tc_end tc_start] in *. change (@r0 QcG) with (Q2Qc 0) in *.
  assert (k = 0).
  { destruct k as [|k]; auto. exfalso. rewrite R1 in HL. cbn [repeat] in HL.
    replace ((false, end_) :: repeat (false, end_) k) with (repeat (false, end_) k ++ [(false, end_)]) in HL
      by (clear; induction k as [|k IH]; cbn [repeat app]; congruence).
    rewrite app_assoc, last_last in HL. discriminate. }
  subst k. cbn [repeat] in R1. rewrite app_nil_r in R1.
  assert (NE : ts <> []).
  { intros ->. cbn in R1. subst rs. rewrite tc_run_app in E. destruct (tc_run ops _) as [t1 r1]. cbn [tc_run] in E.
    destruct (next_step d t1) as [b t2]. destruct r1; discriminate. }
  assert (TP : (Q2Qc 0 < tc_time t)%Qc /\ (tc_time t <= end_)%Qc).
  { rewrite R5. destruct (exists_last NE) as (l & x & ->). rewrite last_last. split.
    - apply Sorted_StronglySorted in R2; [|intros ? ? ?; apply Qclt_trans]. inversion R2 as [|? ? _ F]; subst.
      rewrite Forall_forall in F. apply F. apply in_or_app. right. now left.
    - rewrite Forall_forall in R3. apply R3. apply in_or_app. right. now left. }
  destruct TP as [T1 T2]. unfold norm_time. rewrite R6, R7. cbn [QcG gdiv gn rsub QcNum].
  destruct (Qcdiv_range (tc_time t - start)%Qc (end_ - start)%Qc) as [N1 N2]; [qclra|qclra|].
  split; auto. split; auto. intros d' Hd'.
  destruct (step_times d' t Hd') as (S1 & S2 & C); [rewrite R6; auto|]. rewrite R6 in C.
  assert (HP : (Q2Qc 0 < end_ - start)%Qc) by qclra.
  destruct C as [(A & B & _)|(A & B & _)]; split; intros H; auto; try congruence.
  - rewrite A. unfold Qcdiv. apply Qcmult_inv_r. intros H0. rewrite H0 in HP. now apply Qclt_not_eq in HP.
  - exfalso. assert (EQ : ((end_ - start) * ((tc_time t - start) / (end_ - start)) = tc_time t - start)%Qc).
    { apply Qcmult_div_r. intros H0. rewrite H0 in HP. now apply Qclt_not_eq in HP. }
    rewrite H in EQ. qclra.
Qed.
