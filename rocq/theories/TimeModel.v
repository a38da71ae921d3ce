(* TimeControl: src/lib/FESolver.h:27-56, src/lib/FESolver.cpp:14-116 *)
From Coq Require Import NArith.
From Verif Require Import Base SparseModel SolveModel GaussModel.

(* uint16 *)
Definition u16 (n : N) : N := (n mod 65536)%N.

Section Time.
  Variable K : GNum.
  Local Open Scope rng_scope.
  Definition r2 : K := r1 + r1.

  (* the two std::list members are kept in order of push_back *)
  Record tcs := mkTc {
    tc_conv : list K; tc_eqs : list N; tc_cur : N; tc_tot : N;
    tc_delta : K; tc_end : K; tc_start : K; tc_time : K }.

  (* the object with setStartTime, setEndTime called before the solution *)
  Definition tc_init (start end_ : K) : tcs := mkTc [] [] 0%N 0%N 0 end_ start 0.

  (* a >= b *)
  Definition gge (a b : K) : bool := negb (glt a b).

  (* FESolver.cpp:34-55 *)
  Definition next_step (delta : K) (t : tcs) : bool * tcs :=
    let '(conv, eqs) :=
      if (0 <? tc_cur t)%N then (tc_conv t ++ [tc_time t], tc_eqs t ++ [tc_cur t])
      else (tc_conv t, tc_eqs t) in
    if gge (tc_time t) (tc_end t) then
      (false, mkTc conv eqs (tc_cur t) (tc_tot t) (tc_delta t) (tc_end t) (tc_start t) (tc_time t))
    else
      let d := if gge (tc_time t + delta) (tc_end t) then tc_end t - tc_time t
               else if gge (tc_time t + r2 * delta) (tc_end t) then gdiv (tc_end t - tc_time t) r2
               else delta in
      (true, mkTc conv eqs 0%N (tc_tot t) d (tc_end t) (tc_start t) (tc_time t + d)).

  (* :58-63 *)
  Definition next_eq (t : tcs) : tcs :=
    mkTc (tc_conv t) (tc_eqs t) (u16 (tc_cur t + 1)) (u16 (tc_tot t + 1))
      (tc_delta t) (tc_end t) (tc_start t) (tc_time t).

  (* :14-31, :66-103 *)
  Definition current_step (t : tcs) : N := u16 (N.of_nat (length (tc_conv t)) + 1).
  Definition converged_steps (t : tcs) : N := u16 (N.of_nat (length (tc_conv t))).
  Definition norm_time (t : tcs) : K := gdiv (tc_time t - tc_start t) (tc_end t - tc_start t).
  Definition cur_delta (t : tcs) : K := if (tc_cur t =? 1)%N then tc_delta t else 0.
  Definition cur_norm_delta (t : tcs) : K :=
    if (tc_cur t =? 1)%N then gdiv (tc_delta t) (tc_end t - tc_start t) else 0.

  (* call sequences; the results of the nextStep calls with the time after each *)
  Inductive tcop := TStep (delta : K) | TEq.
  Fixpoint tc_run (ops : list tcop) (t : tcs) : tcs * list (bool * K) :=
    match ops with
    | [] => (t, [])
    | TEq :: ops => tc_run ops (next_eq t)
    | TStep d :: ops =>
        let '(b, t1) := next_step d t in
        let '(t2, rs) := tc_run ops t1 in
        (t2, (b, tc_time t1) :: rs)
    end.
End Time.
Arguments tc_conv {K} _.
Arguments tc_eqs {K} _.
Arguments tc_cur {K} _.
Arguments tc_tot {K} _.
Arguments tc_delta {K} _.
Arguments tc_end {K} _.
Arguments tc_start {K} _.
Arguments tc_time {K} _.
Arguments mkTc {K} _ _ _ _ _ _ _ _.
Arguments tc_init {K} _ _.
Arguments gge {K} _ _.
Arguments next_step {K} _ _.
Arguments next_eq {K} _.
Arguments current_step {K} _.
Arguments converged_steps {K} _.
Arguments norm_time {K} _.
Arguments cur_delta {K} _.
Arguments cur_norm_delta {K} _.
Arguments TStep {K} _.
Arguments TEq {K}.
Arguments tc_run {K} _ _.
