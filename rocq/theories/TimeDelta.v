From Coq Require Import NArith QArith Qcanon Lqa.
From Verif Require Import Base GaussModel SpecGauss TimeModel SpecTime TimeProofs QcTac SpecDelta.
Local Open Scope nat_scope.

Lemma cur_delta_eq (t : tcs QcG) : (tc_cur t <> 1%N -> cur_delta t = Q2Qc 0) /\ (tc_cur t = 1%N -> cur_delta t = tc_delta t).
Proof.
  unfold cur_delta. split; intros H.
  - apply N.eqb_neq in H. rewrite H. reflexivity.
  - rewrite H. reflexivity.
Qed.
Lemma cur_norm_delta_eq (t : tcs QcG) : cur_norm_delta t = (cur_delta t / (tc_end t - tc_start t))%Qc.
Proof.
  unfold cur_norm_delta, cur_delta. destruct (tc_cur t =? 1)%N; [reflexivity|].
  change (Q2Qc 0 = Q2Qc 0 / (tc_end t - tc_start t))%Qc. unfold Qcdiv. ring.
Qed.

(* further iterations of a step report nothing *)
Lemma later_iterations : forall k (t : tcs QcG), (0 < tc_cur t)%N -> (tc_cur t + N.of_nat k < 65536)%N ->
  qsum (reported cur_delta (repeat TEq k) t) = Q2Qc 0 /\
  let t' := fst (tc_run (repeat TEq k) t) in
  tc_cur t' = (tc_cur t + N.of_nat k)%N /\ tc_time t' = tc_time t /\ tc_end t' = tc_end t /\ tc_start t' = tc_start t /\ tc_delta t' = tc_delta t.
Proof.
  induction k as [|k IH]; intros t Hc Hb.
  - split; [reflexivity|]. cbn. rewrite N.add_0_r. auto 8.
  - cbn [repeat reported tc_run].
    assert (tc_cur (next_eq t) = (tc_cur t + 1)%N) as E by (cbn; apply u16_small; lia).
    destruct (IH (next_eq t)) as (I1 & I2 & I3 & I4 & I5 & I6); [rewrite E; lia|rewrite E; lia|].
    split.
    + cbn [qsum fold_right]. fold (qsum (reported cur_delta (repeat TEq k) (next_eq t))). rewrite I1.
      rewrite (proj1 (cur_delta_eq (next_eq t))) by (rewrite E; lia). ring.
    + cbn zeta. rewrite I2, I3, I4, I5, I6, E. repeat split; try reflexivity. lia.
Qed.

Lemma tc_run_step d ops (t : tcs QcG) : fst (tc_run (TStep d :: ops) t) = fst (tc_run ops (snd (next_step d t))).
Proof. cbn [tc_run]. destruct (next_step d t) as [b t1]. cbn [snd]. destruct (tc_run ops t1). reflexivity. Qed.
Lemma reported_app f ops1 : forall ops2 t, reported f (ops1 ++ ops2) t = reported f ops1 t ++ reported f ops2 (fst (tc_run ops1 t)).
Proof.
  induction ops1 as [|[d|] ops1 IH]; intros ops2 t; [reflexivity| |].
  - rewrite tc_run_step. cbn [app reported]. apply IH.
  - cbn [app reported tc_run]. rewrite IH. reflexivity.
Qed.
Lemma qsum_app l1 l2 : qsum (l1 ++ l2) = (qsum l1 + qsum l2)%Qc.
Proof.
  induction l1 as [|x l1 IH].
  - change (qsum l2 = Q2Qc 0 + qsum l2)%Qc. ring.
  - change (x + qsum (l1 ++ l2) = x + qsum l1 + qsum l2)%Qc. rewrite IH. ring.
Qed.

Lemma qc_diff0 : forall a b : Qc, (a - b)%Qc = Q2Qc 0 -> a = b.
Proof. intros a b H. transitivity ((a - b) + b)%Qc; [ring|]. rewrite H. ring. Qed.

Definition iters (l : list (Qc * nat)) : nat := list_sum (map (fun s => S (snd s)) l).

Lemma deltas_sum : forall l (t : tcs QcG), (tc_cur t + N.of_nat (iters l) < 65536)%N ->
  (tc_cur t = 0%N -> tc_delta t = Q2Qc 0) ->
  let t' := fst (tc_run (iterated l) t) in
  qsum (reported cur_delta (iterated l) t) = (tc_time t' - tc_time t)%Qc /\ tc_end t' = tc_end t /\ tc_start t' = tc_start t.
Proof.
  induction l as [|(d, k) l IH]; intros t Hb Hd.
  - cbn. split; [ring|auto].
  - cbn [iterated flat_map]. fold (iterated l). cbn [fst snd].
    change ((TStep (K := QcG) d :: repeat TEq (S k)) ++ iterated l)
      with (TStep (K := QcG) d :: (repeat TEq (S k) ++ iterated l)).
    rewrite tc_run_step. cbn [reported]. cbn zeta.
    set (t1 := snd (next_step (d : QcG) t)).
    assert ((tc_cur t1 = 0%N \/ tc_cur t1 = tc_cur t) /\ tc_end t1 = tc_end t /\ tc_start t1 = tc_start t /\
            (tc_time t1 - tc_time t = if (tc_cur t1 =? 0)%N then tc_delta t1 else Q2Qc 0)%Qc /\
            (tc_cur t1 = 0%N -> tc_cur t <> 0%N \/ (tc_delta t1 + tc_time t = tc_time t1)%Qc)) as (H1 & H2 & H3 & H4 & H5).
    { unfold t1, next_step. destruct (0 <? tc_cur t)%N eqn:Ec; destruct (gge (tc_time t) (tc_end t)); cbn [fst snd tc_cur tc_end tc_start tc_time tc_delta].
      - split; [right; reflexivity|]. split; [reflexivity|]. split; [reflexivity|].
        split. { apply N.ltb_lt in Ec. replace (tc_cur t =? 0)%N with false by (symmetry; apply N.eqb_neq; lia). ring. }
        intros E. apply N.ltb_lt in Ec. lia.
      - split; [left; reflexivity|]. split; [reflexivity|]. split; [reflexivity|].
        split. { change (0 =? 0)%N with true. cbv iota. match goal with |- (radd ?a ?x - _)%Qc = _ => change (radd a x) with (a + x)%Qc end. ring. }
        intros _. right. apply Qcplus_comm.
      - assert (tc_cur t = 0%N) as Z by (apply N.ltb_ge in Ec; lia).
        split; [right; reflexivity|]. split; [reflexivity|]. split; [reflexivity|].
        split. { rewrite Z, (Hd Z). change (0 =? 0)%N with true. cbv iota. ring. }
        intros _. right. rewrite (Hd Z). ring.
      - split; [left; reflexivity|]. split; [reflexivity|]. split; [reflexivity|].
        split. { change (0 =? 0)%N with true. cbv iota. match goal with |- (radd ?a ?x - _)%Qc = _ => change (radd a x) with (a + x)%Qc end. ring. }
        intros _. right. apply Qcplus_comm. }
    assert (iters ((d, k) :: l) = S k + iters l) as EI by reflexivity.
    assert (tc_cur (next_eq t1) = (tc_cur t1 + 1)%N) as E1 by (cbn; apply u16_small; lia).
    destruct (later_iterations k (next_eq t1)) as (L1 & L2 & L3 & L4 & L5 & L6); [rewrite E1; lia|rewrite E1; lia|].
    set (t2 := fst (tc_run (repeat TEq k) (next_eq t1))) in *.
    assert (fst (tc_run (repeat TEq (S k) ++ iterated l) t1) = fst (tc_run (iterated l) t2)) as ET.
    { rewrite tc_run_app. cbn [repeat tc_run]. unfold t2. destruct (tc_run (repeat TEq k) (next_eq t1)) as [u r]. cbn [fst].
      destruct (tc_run (iterated l) u) as [u' r']. reflexivity. }
    rewrite ET, reported_app, qsum_app. cbn [repeat tc_run reported]. fold t2.
    destruct (IH t2) as (K1 & K2 & K3).
    { rewrite L2, E1. destruct H1; lia. }
    { rewrite L2, E1. lia. }
    rewrite K1, K2, K3, L4, L5. cbn [tc_end tc_start next_eq]. split; [|split; assumption].
    cbn [qsum fold_right]. fold (qsum (reported cur_delta (repeat TEq k) (next_eq t1))). rewrite L1, L3.
    change (tc_time (next_eq t1)) with (tc_time t1).
    destruct (N.eq_dec (tc_cur t1) 0) as [E0 | E0].
    + rewrite (proj2 (cur_delta_eq (next_eq t1))) by (rewrite E1, E0; reflexivity).
      change (tc_delta (next_eq t1)) with (tc_delta t1).
      rewrite E0 in H4. change (0 =? 0)%N with true in H4. cbv iota in H4. rewrite <- H4. ring.
    + rewrite (proj1 (cur_delta_eq (next_eq t1))) by (rewrite E1; lia).
      replace (tc_cur t1 =? 0)%N with false in H4 by (symmetry; apply N.eqb_neq; exact E0).
      assert (tc_time t1 = tc_time t) as ->; [|ring].
      exact (qc_diff0 _ _ H4).
Qed.

Lemma norm_reported : forall ops (t : tcs QcG),
  reported cur_norm_delta ops t = map (fun d => d / (tc_end t - tc_start t))%Qc (reported cur_delta ops t).
Proof.
  induction ops as [|[d|] ops IH]; intros t; [reflexivity| |].
  - cbn [reported]. rewrite IH.
    assert (tc_end (snd (next_step d t)) = tc_end t /\ tc_start (snd (next_step d t)) = tc_start t) as (-> & ->).
    { unfold next_step. destruct (0 <? tc_cur t)%N; destruct (gge (tc_time t) (tc_end t)); split; reflexivity. }
    reflexivity.
  - cbn [reported map]. rewrite IH, cur_norm_delta_eq. reflexivity.
Qed.
Lemma qsum_div l c : qsum (map (fun d => d / c)%Qc l) = (qsum l / c)%Qc.
Proof.
  unfold Qcdiv. induction l as [|x l IH].
  - change (Q2Qc 0 = Q2Qc 0 * / c)%Qc. ring.
  - change (x * / c + qsum (map (fun d => d * / c) l) = (x + qsum l) * / c)%Qc. rewrite IH. ring.
Qed.

Lemma deltas_total : forall (start end_ : QcG) l, (N.of_nat (iters l) < 65536)%N ->
  let t := fst (tc_run (iterated l) (tc_init start end_)) in
  qsum (reported cur_delta (iterated l) (tc_init start end_)) = tc_time t /\
  qsum (reported cur_norm_delta (iterated l) (tc_init start end_)) = (tc_time t / (end_ - start))%Qc.
Proof.
  intros start end_ l H t.
  destruct (deltas_sum l (tc_init start end_)) as (D & _ & _); [cbn; lia|reflexivity|].
  assert (qsum (reported cur_delta (iterated l) (tc_init start end_)) = tc_time t) as E.
  { rewrite D. fold t. change (tc_time (tc_init start end_)) with (Q2Qc 0). ring. }
  split; [exact E|]. rewrite norm_reported, qsum_div, E. reflexivity.
Qed.
