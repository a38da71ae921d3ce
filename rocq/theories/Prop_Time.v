(* C28-C31, C70: TimeControl (src/lib/FESolver.cpp:14-116) *)
From Coq Require Import NArith QArith Qcanon Sorted PrimFloat.
From Verif Require Import Base GaussModel SpecGauss TimeModel SpecTime TimeProofs SpecDelta TimeDelta.
Local Open Scope nat_scope.

(* ---------------- C28 (exact arithmetic) ---------------- *)
(* ops: nextStep calls with positive deltas, nextEquilibriumStep calls in between; rs: results of
   nextStep with the time afterwards *)
Theorem C28_time_moves_to_the_end :
  forall (start end_ : QcG) ops, Forall good_op ops -> (Q2Qc 0 < end_)%Qc ->
  forall t rs, tc_run ops (tc_init start end_) = (t, rs) ->
  exists ts k, rs = map (pair true) ts ++ repeat (false, end_) k /\
    Sorted Qclt (Q2Qc 0 :: ts) /\ Forall (fun x => x <= end_)%Qc ts /\
    (0 < k -> last ts (Q2Qc 0) = end_) /\ tc_time t = last ts (Q2Qc 0).
Proof. exact start_ok. Qed.
Print Assumptions C28_time_moves_to_the_end.
(* with equal steps d the end is reached after the smallest m with end <= m d *)
Theorem C28_number_of_equal_steps :
  forall d ops, (Q2Qc 0 < d)%Qc -> Forall (equal_op d) ops -> forall m (t t' : tcs QcG) rs,
  ((qn m - Q2Qc 1) * d < tc_end t - tc_time t)%Qc -> (tc_end t - tc_time t <= qn m * d)%Qc ->
  (tc_time t <= tc_end t)%Qc -> tc_run ops t = (t', rs) ->
  map fst rs = repeat true (Nat.min m (n_steps ops)) ++ repeat false (n_steps ops - m).
Proof. exact equal_steps. Qed.
Print Assumptions C28_number_of_equal_steps.
Definition q (z : Z) : QcG := Q2Qc (inject_Z z).
(* the sequence of the test program: end 100, delta 15 *)
Definition test_ops : list (tcop QcG) := flat_map (fun _ => [TStep (q 15); TEq]) (seq 0 8).
Example C28_example : Forall good_op test_ops /\
  map (fun r => (fst r, this (snd r))) (snd (tc_run test_ops (tc_init (q 0) (q 100)))) =
  [(true, 15); (true, 30); (true, 45); (true, 60); (true, 75); (true, 175 # 2); (true, 100); (false, 100)]%Q.
Proof. split; [repeat constructor|vm_compute; reflexivity]. Qed.

(* ---------------- C70 (double arithmetic) ---------------- *)
(* end 0.9: the step from 0.3 requested to go beyond the end stops after it, the one from 0.2
   before it; a small step from 1 does not move at all *)
Definition fs (x : float) : tcop FG := TStep (x : FG).
Theorem C70_doubles_miss_the_end_refuted :
  (exists t, tc_run [fs 0.3%float; fs 1%float] (tc_init (K := FG) 0%float 0.9%float) = t /\
     map fst (snd t) = [true; true] /\ PrimFloat.ltb (tc_end (fst t)) (tc_time (fst t)) = true) /\
  (exists t, tc_run [fs 0.2%float; fs 1%float] (tc_init (K := FG) 0%float 0.9%float) = t /\
     map fst (snd t) = [true; true] /\ PrimFloat.ltb (tc_time (fst t)) (tc_end (fst t)) = true) /\
  (exists t, tc_run [fs 1%float; fs 0x1p-60%float] (tc_init (K := FG) 0%float 2%float) = t /\
     map fst (snd t) = [true; true] /\ map snd (snd t) = [1; 1]%float).
Proof. repeat split; eexists; (split; [reflexivity|]); vm_compute; auto. Qed.
Print Assumptions C70_doubles_miss_the_end_refuted.

(* ---------------- C29 ---------------- *)
Theorem C29_exact_number_of_steps_partial :
  forall n (start end_ : QcG) ops t rs, 0 < n -> start = Q2Qc 0 -> (Q2Qc 0 < end_)%Qc ->
  Forall (equal_op ((end_ - start) / qn n)%Qc) ops -> tc_run ops (tc_init start end_) = (t, rs) ->
  map fst rs = repeat true (Nat.min n (n_steps ops)) ++ repeat false (n_steps ops - n).
Proof. exact steps_exact. Qed.
Print Assumptions C29_exact_number_of_steps_partial.
Example C29_example : map fst (snd (tc_run (repeat (TStep (K := QcG) ((q 1 - q 0) / qn 10)%Qc) 12) (tc_init (K := QcG) (q 0) (q 1)))) =
  repeat true 10 ++ repeat false 2.
Proof. vm_compute. reflexivity. Qed.
(* doubles, the default settings end = 1, 10 load steps: 11 are performed *)
Theorem C29_ten_become_eleven_refuted :
  map fst (snd (tc_run (repeat (fs (1 / 10)%float) 12) (tc_init (K := FG) 0%float 1%float))) =
  repeat true 11 ++ repeat false 1.
Proof. vm_compute. reflexivity. Qed.
Print Assumptions C29_ten_become_eleven_refuted.
(* start time 1, end time 2, 4 steps requested: 8 are performed, in exact arithmetic *)
Theorem C29_start_time_ignored_refuted :
  map fst (snd (tc_run (repeat (TStep (K := QcG) ((q 2 - q 1) / qn 4)%Qc) 10) (tc_init (K := QcG) (q 1) (q 2)))) =
  repeat true 8 ++ repeat false 2.
Proof. vm_compute. reflexivity. Qed.
Print Assumptions C29_start_time_ignored_refuted.

(* ---------------- C30 ---------------- *)
Theorem C30_normalised_time_partial :
  forall (start end_ : QcG) ops d t rs, (start <= Q2Qc 0)%Qc -> (Q2Qc 0 < end_)%Qc ->
  Forall good_op (ops ++ [TStep d]) -> tc_run (ops ++ [TStep d]) (tc_init start end_) = (t, rs) ->
  fst (last rs (true, end_)) = true ->
  (Q2Qc 0 < norm_time t)%Qc /\ (norm_time t <= Q2Qc 1)%Qc /\
  forall d', (Q2Qc 0 < d')%Qc -> (fst (next_step (d' : QcG) t) = false <-> norm_time t = Q2Qc 1).
Proof. exact normalised. Qed.
Print Assumptions C30_normalised_time_partial.
Example C30_example : let '(t, rs) := tc_run (repeat (TStep (q 3)) 2) (tc_init (K := QcG) (q (-2)) (q 10)) in
  fst (last rs (true, q 10)) = true /\ this (norm_time t) = (2 # 3)%Q.
Proof. vm_compute. auto. Qed.
(* start time 1, end time 2: the first load step has normalised time -3/4 *)
Theorem C30_negative_time_refuted :
  let r := next_step (Q2Qc (1 # 4) : QcG) (tc_init (q 1) (q 2)) in
  fst r = true /\ this (norm_time (snd r)) = (-3 # 4)%Q.
Proof. vm_compute. auto. Qed.
Print Assumptions C30_negative_time_refuted.
(* start time -1, end time 0: no load step at all *)
Theorem C30_no_step_refuted :
  fst (next_step (Q2Qc (1 # 4) : QcG) (tc_init (q (-1)) (q 0))) = false.
Proof. vm_compute. reflexivity. Qed.
Print Assumptions C30_no_step_refuted.

(* ---------------- C31 ---------------- *)
Theorem C31_bookkeeping_partial :
  forall (K : GNum) (start end_ : K) ops t rs, tc_run ops (tc_init start end_) = (t, rs) ->
  (N.of_nat (total_eq ops) < 65535)%N -> Forall (fun r => fst r = true) rs ->
  tc_eqs t = map N.of_nat (finished ops) /\
  converged_steps t = N.of_nat (length (finished ops)) /\ current_step t = N.of_nat (length (finished ops) + 1) /\
  tc_cur t = N.of_nat (last (eq_counts ops) 0) /\ tc_tot t = N.of_nat (total_eq ops).
Proof. exact bookkeeping. Qed.
Print Assumptions C31_bookkeeping_partial.
(* the call that reports the end for the first time *)
Theorem C31_bookkeeping_at_the_end_partial :
  forall (K : GNum) (start end_ : K) ops d t rs, tc_run (ops ++ [TStep d]) (tc_init start end_) = (t, rs) ->
  (N.of_nat (total_eq ops) < 65535)%N -> Forall (fun r => fst r = true) (removelast rs) ->
  tc_eqs t = map N.of_nat (finished (ops ++ [TStep d])) /\
  converged_steps t = N.of_nat (length (finished (ops ++ [TStep d]))) /\
  tc_tot t = N.of_nat (total_eq (ops ++ [TStep d])).
Proof. exact bookkeeping_end. Qed.
Print Assumptions C31_bookkeeping_at_the_end_partial.
Example C31_example : let ops := [TStep (q 40); TEq; TEq; TStep (q 40); TStep (q 40); TEq; TStep (q 1)] in
  finished ops = [2; 1] /\ map fst (snd (tc_run ops (tc_init (K := QcG) (q 0) (q 100)))) = [true; true; true; false] /\
  tc_eqs (fst (tc_run ops (tc_init (K := QcG) (q 0) (q 100)))) = [2; 1]%N.
Proof. vm_compute. auto. Qed.
(* nextStep called once more after the end: the finished step is counted twice *)
Theorem C31_counted_twice_refuted :
  let ops := [TStep (q 1); TEq; TStep (q 1); TStep (q 1)] in
  map fst (snd (tc_run ops (tc_init (K := QcG) (q 0) (q 1)))) = [true; false; false] /\
  converged_steps (fst (tc_run ops (tc_init (K := QcG) (q 0) (q 1)))) = 2%N /\ length (finished ops) = 1.
Proof. vm_compute. auto. Qed.
Print Assumptions C31_counted_twice_refuted.

(* ---------------- C75 ---------------- *)
(* the increments reported in the iterations add up to the time reached *)
Theorem C75_reported_increments_add_up :
  forall (start end_ : QcG) l, (N.of_nat (iters l) < 65536)%N ->
  let t := fst (tc_run (iterated l) (tc_init start end_)) in
  qsum (reported cur_delta (iterated l) (tc_init start end_)) = tc_time t /\
  qsum (reported cur_norm_delta (iterated l) (tc_init start end_)) = (tc_time t / (end_ - start))%Qc.
Proof. exact deltas_total. Qed.
Print Assumptions C75_reported_increments_add_up.
(* and nothing is reported after the first iteration of a step *)
Theorem C75_later_iterations_report_nothing :
  forall (t : tcs QcG), tc_cur t <> 1%N -> cur_delta t = Q2Qc 0.
Proof. intros t. exact (proj1 (cur_delta_eq t)). Qed.
Print Assumptions C75_later_iterations_report_nothing.
Example C75_example : let l := [(q 40, 1); (q 40, 0); (q 40, 2); (q 40, 0)] in
  map this (reported cur_delta (iterated l) (tc_init (K := QcG) (q 0) (q 100))) = [40; 0; 30; 30; 0; 0; 0]%Q.
Proof. vm_compute. reflexivity. Qed.
