(* NonlinearFESolver::solve: src/lib/FESolver.cpp:403-521 *)
From Coq Require Import NArith.
From Verif Require Import Base SparseModel BlockModel DofModel AsmModel SolveModel GaussModel TimeModel.

(* The elements, seen from the solver. E: their internal state (stresses and so on).
   ph_asm: buildK() of all elements, then update() of the MPC collections, with the current DoF
   values (result: matrices and vectors handed over, MPC equations); ph_upd: update() of all elements *)
Record physics (K : GNum) (E : Type) := mkPhys {
  ph_asm : E -> list K -> outcome (E * (list (list (contrib K)) * list (mpc K)));
  ph_upd : E -> list K -> outcome E }.
Arguments mkPhys {K E} _ _.
Arguments ph_asm {K E} _ _ _.
Arguments ph_upd {K E} _ _ _.

(* numberOfLoadsteps, numberOfIterations, convergenceCriteria and the constant 1.0e6 *)
Record nlset (K : GNum) := mkSet { nl_steps : nat; nl_iters : nat; nl_crit : K; nl_far : K }.
Arguments mkSet {K} _ _ _ _.
Arguments nl_steps {K} _.
Arguments nl_iters {K} _.
Arguments nl_crit {K} _.
Arguments nl_far {K} _.

(* record of one equilibrium iteration; the log is not part of the program *)
Record iter (K : GNum) := mkIter {
  it_time : K;            (* normalised time *)
  it_before : list K;     (* vecU before *)
  it_g : gst K;           (* assembled equations *)
  it_d : list K;          (* deltaU *)
  it_after : list K;      (* vecU after *)
  it_R : list K }.        (* vecR after *)
Arguments mkIter {K} _ _ _ _ _ _.
Arguments it_time {K} _.
Arguments it_before {K} _.
Arguments it_g {K} _.
Arguments it_d {K} _.
Arguments it_after {K} _.
Arguments it_R {K} _.

Record nlst (K : GNum) (E : Type) := mkNl {
  nl_g : gst K; nl_U : list K; nl_R : list K; nl_Uc : list K (* Ucprev *);
  nl_E : E; nl_tc : tcs K; nl_log : list (iter K) }.
Arguments mkNl {K E} _ _ _ _ _ _ _.
Arguments nl_g {K E} _.
Arguments nl_U {K E} _.
Arguments nl_R {K E} _.
Arguments nl_Uc {K E} _.
Arguments nl_E {K E} _.
Arguments nl_tc {K E} _.
Arguments nl_log {K E} _.

(* assembly, boundary conditions for time t, solution of the linearised system, update of the
   DoF values, :445-469.  Ucp: Ucprev.  Result: equations, deltaU, vecU, vecR, vecUc *)
Definition increment {K : Num} (big : K -> bool) (slv : eqsolver K) (g0 : gst K) (ks : list (list (contrib K)))
  (mpcs : list (mpc K)) (t : K) (loads fixes : list (bc K)) (U Ucp : list K)
  : outcome (gst K * list K * list K * list K * list K) :=
  let N := ns_ndofs (g_num g0) + n_mpc (g_num g0) in
  g <- assembleGlobal g0 ks [] mpcs ;;
  ur <- applyBC (g_num g) t loads fixes U (zeros N) ;;
  let nc := ns_ncon (g_num g) in
  let nu := ns_nunk (g_num g) in
  let Uc := seg (fst ur) 0 nc in
  dUc <- vzip rsub Uc Ucp ;;
  xr <- solve_core big slv g dUc (snd ur) ;;
  let x := fst xr in
  Us <- vzip radd (seg (fst ur) nc nu) (seg x 0 nu) ;;
  let U' := put_seg (put_seg (fst ur) nc Us) (nc + nu) (seg x nu (n_mpc (g_num g))) in
  Ok (g, dUc ++ x, U', put_seg (snd ur) 0 (snd xr), Uc).

Section Nonlin.
  Variable K : GNum.
  Variable E : Type.
  Variable ph : physics K E.
  Variable cfg : nlset K.
  Variable big : K -> bool.
  Variable slv : eqsolver K.
  Local Open Scope rng_scope.

  (* the number n *)
  Fixpoint gnat (n : nat) : K := match n with O => 0 | S n => gnat n + 1 end.

  (* calculateCriteria, :511-521; None: division by zero, the result is infinite or NaN *)
  Definition abs_sum (d : list K) : K := fold_left (fun c x => c + gabs x) d 0.
  Definition criteria (d : list K) : option K :=
    if (length d =? 0)%nat then None
    else if glt 0 (gabs (nl_crit cfg)) then Some (gdiv (gdiv (abs_sum d) (gnat (length d))) (nl_crit cfg))
    else None.

  (* :444-474 *)
  Definition iteration (loads fixes : list (bc K)) (st : nlst K E) : outcome (nlst K E * option K) :=
    let tc := next_eq (nl_tc st) in
    a <- ph_asm ph (nl_E st) (nl_U st) ;;
    let '(e1, (ks, mpcs)) := a in
    r <- increment big slv (nl_g st) ks mpcs (norm_time tc) loads fixes (nl_U st) (nl_Uc st) ;;
    let '(g, d, U, R, Uc) := r in
    e2 <- ph_upd ph e1 U ;;
    Ok (mkNl g U R Uc e2 tc (nl_log st ++ [mkIter (norm_time tc) (nl_U st) g d U R]),
        criteria (seg d (ns_ncon (g_num g)) (ns_nunk (g_num g)))).

  (* :443-491; the number of iterations bounds the loop *)
  Fixpoint iterate (fuel : nat) (loads fixes : list (bc K)) (st : nlst K E) : outcome (nlst K E) :=
    match fuel with
    | O => Loop
    | S fuel =>
        r <- iteration loads fixes st ;;
        match snd r with
        | None => Fatal
        | Some c =>
            if glt c (nl_crit cfg) then Ok (fst r)
            else if glt (nl_far cfg) c then Fatal
            else if (N.of_nat (nl_iters cfg) <=? tc_cur (nl_tc (fst r)))%N then Fatal
            else iterate fuel loads fixes (fst r)
        end
    end.

  (* :441-500; at most fuel load steps *)
  Fixpoint load_loop (fuel : nat) (delta : K) (loads fixes : list (bc K)) (st : nlst K E) : outcome (nlst K E) :=
    let '(b, tc) := next_step delta (nl_tc st) in
    let st' := mkNl (nl_g st) (nl_U st) (nl_R st) (nl_Uc st) (nl_E st) tc (nl_log st) in
    if b then
      match fuel with
      | O => Loop
      | S fuel => st1 <- iterate (S (nl_iters cfg)) loads fixes st' ;; load_loop fuel delta loads fixes st1
      end
    else Ok st'.

  Definition nonlin_run (fuel : nat) (g0 : gst K) (e : E) (start end_ : K) (loads fixes : list (bc K))
    : outcome (nlst K E) :=
    let N := (ns_ndofs (g_num g0) + n_mpc (g_num g0))%nat in
    load_loop fuel (gdiv (end_ - start) (gnat (nl_steps cfg))) loads fixes
      (mkNl g0 (zeros N) (zeros N) (zeros (ns_ncon (g_num g0))) e (tc_init start end_) []).

  (* :417-441; mpcs: the MPC equations before the solution *)
  Definition nonlin_solve (fuel : nat) (nn : nat) (mesh : list (list nat)) (regs : list reg)
    (mpcs : list (mpc K)) (e : E) (start end_ : K) (loads fixes : list (bc K)) : outcome (nlst K E) :=
    s <- init_sequence (fresh_storage nn (length mesh) (map (fun m => length (mp_terms m)) mpcs))
           regs [] (map bc_key fixes) ;;
    g0 <- initSolutionData false s mesh mpcs ;;
    nonlin_run fuel g0 e start end_ loads fixes.
End Nonlin.
Arguments gnat {K} _.
Arguments abs_sum {K} _.
Arguments criteria {K} _ _.
Arguments iteration {K E} _ _ _ _ _ _ _.
Arguments iterate {K E} _ _ _ _ _ _ _ _.
Arguments load_loop {K E} _ _ _ _ _ _ _ _ _.
Arguments nonlin_run {K E} _ _ _ _ _ _ _ _ _ _ _.
Arguments nonlin_solve {K E} _ _ _ _ _ _ _ _ _ _ _ _ _ _.
