(* LinearTransientFESolver::solve: src/lib/FESolver.cpp:532-642 *)
From Verif Require Import Base SparseModel BlockModel DofModel AsmModel SolveModel GaussModel TimeModel NonlinModel.

(* the coefficients a0 ... a7 *)
Record newmark (K : Num) := mkNm { na0 : K; na1 : K; na2 : K; na3 : K; na4 : K; na5 : K; na6 : K; na7 : K }.
Arguments mkNm {K} _ _ _ _ _ _ _ _.
Arguments na0 {K} _.
Arguments na1 {K} _.
Arguments na2 {K} _.
Arguments na3 {K} _.
Arguments na4 {K} _.
Arguments na5 {K} _.
Arguments na6 {K} _.
Arguments na7 {K} _.

(* :549-556 *)
Definition coefs {K : GNum} (alpha delta dt : K) : newmark K :=
  (mkNm (gdiv 1 (alpha * dt * dt)) (gdiv delta (alpha * dt)) (gdiv 1 (alpha * dt)) (gdiv 1 (r2 K * alpha) - 1)
     (gdiv delta alpha - 1) (gdiv dt (r2 K) * (gdiv delta alpha - r2 K)) (dt * (1 - delta)) (delta * dt))%rng.

Section Trans.
  Variable K : Num.
  Variable big : K -> bool.
  Variable slv : eqsolver K.
  Local Open Scope rng_scope.

  (* U, DU, DDU *)
  Record motion := mkMo { mo_U : list K; mo_V : list K; mo_A : list K }.

  (* matKmod, :577, 594-599; all three matrices share the SparsityInfo *)
  Definition kmod (nw : newmark K) (K22 M22 C22 : smat K) : outcome (smat K) :=
    m <- mat_setSI (blank K) (sm_si K22) ;;
    match sm_vals M22, sm_vals C22, sm_vals K22 with
    | Some vm, Some vc, Some vk =>
        vs <- omap (fun i => a <- aget vm i ;; b <- aget vc i ;; c <- aget vk i ;;
                     Ok (na0 nw * a + na1 nw * b + c)) (seq 0 (si_nvals (sm_si m))) ;;
        Ok (mkSM (sm_si m) (Some vs))
    | _, _, _ => UB
    end.

  (* f applied to the components of three vectors of the same length *)
  Definition vzip3 (f : K -> K -> K -> K) (a b c : list K) : outcome (list K) :=
    ab <- vzip (fun x y => x) a b ;; bc <- vzip (fun x y => x) b c ;;
    Ok (map (fun p => f (fst (fst p)) (snd (fst p)) (snd p)) (combine (combine a b) c)).

  (* one time step, :605-628 *)
  Definition trans_step (nw : newmark K) (g : gst K) (Km M22 C22 : smat K) (R : list K) (s : motion) : outcome motion :=
    let nc := ns_ncon (g_num g) in
    let n := (ns_nunk (g_num g) + n_mpc (g_num g))%nat in
    let tail v := seg v nc n in
    rhs0 <- vzip radd (tail (g_F g)) (tail R) ;;
    v1 <- vzip3 (fun u v a => u * na0 nw + v * na2 nw + a * na3 nw) (tail (mo_U s)) (tail (mo_V s)) (tail (mo_A s)) ;;
    rhs1 <- sym_BVprod big M22 v1 r1 rhs0 ;;
    v2 <- vzip3 (fun u v a => u * na1 nw + v * na4 nw + a * na5 nw) (tail (mo_U s)) (tail (mo_V s)) (tail (mo_A s)) ;;
    rhs2 <- sym_BVprod big C22 v2 r1 rhs1 ;;
    x <- slv Km rhs2 ;;
    let U' := seg (mo_U s) 0 nc ++ x in
    dU <- vzip rsub U' (mo_U s) ;;
    A' <- vzip3 (fun d v a => d * na0 nw - v * na2 nw - a * na3 nw) dU (mo_V s) (mo_A s) ;;
    V' <- vzip3 (fun v a' a => v + a' * na6 nw + a * na7 nw) (mo_V s) A' (mo_A s) ;;
    Ok (mkMo U' V' A').

  (* :559-591: equations, loads and the state at time0 *)
  Definition trans_start (g0 : gst K) (ks cs : list (list (contrib K))) (mpcs : list (mpc K)) (init : K)
    (loads fixes : list (bc K)) : outcome (gst K * list K * motion) :=
    let N := (ns_ndofs (g_num g0) + n_mpc (g_num g0))%nat in
    g <- assembleGlobal g0 ks cs mpcs ;;
    ur <- applyBC (g_num g) r1 loads fixes (repeat init N) (zeros N) ;;
    Ok (g, snd ur, mkMo (fst ur) (zeros N) (zeros N)).
End Trans.
Arguments mkMo {K} _ _ _.
Arguments mo_U {K} _.
Arguments mo_V {K} _.
Arguments mo_A {K} _.
Arguments kmod {K} _ _ _ _.
Arguments vzip3 {K} _ _ _ _.
Arguments trans_step {K} _ _ _ _ _ _ _ _ _.
Arguments trans_start {K} _ _ _ _ _ _ _.

Section Steps.
  Variable K : GNum.
  Local Open Scope rng_scope.

  (* while (curTime <= time1), :602-635; the states after each step *)
  Fixpoint time_loop (fuel : nat) (step : motion K -> outcome (motion K)) (cur dt time1 : K) (s : motion K)
    (log : list (motion K)) : outcome (list (motion K)) :=
    if glt time1 cur then Ok log
    else match fuel with
         | O => Loop
         | S fuel => s' <- step s ;; time_loop fuel step (cur + dt) dt time1 s' (log ++ [s'])
         end.

  (* the instants of time at which steps are made *)
  Fixpoint instants (fuel : nat) (cur dt time1 : K) : outcome (list K) :=
    if glt time1 cur then Ok []
    else match fuel with O => Loop | S fuel => r <- instants fuel (cur + dt) dt time1 ;; Ok (cur :: r) end.

  Record trset := mkTr { tr_steps : nat; tr_alpha : K; tr_delta : K; tr_time0 : K; tr_time1 : K; tr_init : K }.
  Definition tr_dt (c : trset) : K := gdiv (tr_time1 c - tr_time0 c) (gnat (tr_steps c)).

  Definition trans_solve (fuel : nat) (cfg : trset) (big : K -> bool) (slv : eqsolver K) (nn : nat)
    (mesh : list (list nat)) (regs : list reg) (ks cs : list (list (contrib K))) (mpcs : list (mpc K))
    (loads fixes : list (bc K)) : outcome (gst K * list K * motion K * list (motion K)) :=
    let dt := tr_dt cfg in
    let nw := coefs (tr_alpha cfg) (tr_delta cfg) dt in
    s <- init_sequence (fresh_storage nn (length mesh) (map (fun m => length (mp_terms m)) mpcs))
           regs [] (map bc_key fixes) ;;
    g0 <- initSolutionData true s mesh mpcs ;;
    r <- trans_start g0 ks cs mpcs (tr_init cfg) loads fixes ;;
    let '(g, R, s0) := r in
    match g_CM g with
    | None => UB
    | Some (C, M) =>
        K22 <- block_get (g_K g) 2 2 ;; C22 <- block_get C 2 2 ;; M22 <- block_get M 2 2 ;;
        Km <- kmod nw K22 M22 C22 ;;
        log <- time_loop fuel (trans_step big slv nw g Km M22 C22 R) (tr_time0 cfg + dt) dt (tr_time1 cfg) s0 [] ;;
        Ok (g, R, s0, log)
    end.
End Steps.
Arguments time_loop {K} _ _ _ _ _ _ _.
Arguments instants {K} _ _ _ _.
Arguments mkTr {K} _ _ _ _ _ _.
Arguments tr_steps {K} _.
Arguments tr_alpha {K} _.
Arguments tr_delta {K} _.
Arguments tr_time0 {K} _.
Arguments tr_time1 {K} _.
Arguments tr_init {K} _.
Arguments tr_dt {K} _.
Arguments trans_solve {K} _ _ _ _ _ _ _ _ _ _ _ _.
