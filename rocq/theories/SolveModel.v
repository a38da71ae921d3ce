(* Boundary conditions and the linear static solution: src/lib/FESolver.cpp *)
From Verif Require Import Base SparseModel BlockModel DofModel AsmModel.

Section Solve.
  Variable K : Num.
  Local Open Scope rng_scope.

  (* loadBC, fixBC: src/lib/FESolver.h *)
  Record bc := mkBC { bc_node : nat; bc_dof : nat; bc_val : K }.
  Definition bc_key (b : bc) : kind * nat * nat := (KNode, bc_node b, bc_dof b).

  (* addValueR(node, dof, load.value * time): FEStorage.h:450-461 (same body as addValueF) *)
  Definition add_load (s : numst) (time : K) (R : list K) (l : bc) : outcome (list K) :=
    e <- kd_eq s (bc_key l) ;; addF s R e (bc_val l * time).
  (* vecUc is the part of vecU with the constrained DoFs: FESolver.cpp:240-246 *)
  Definition set_fix (s : numst) (time : K) (U : list K) (f : bc) : outcome (list K) :=
    e <- kd_eq s (bc_key f) ;;
    asserting ((0 <? e)%nat && (e - 1 <? ns_ncon s)%nat) (aset U (e - 1) (bc_val f * time)).
  (* FESolver.cpp:229-247: result (vecU, vecR) *)
  Definition applyBC (s : numst) (time : K) (loads fixes : list bc) (U R : list K)
    : outcome (list K * list K) :=
    R' <- ofold (add_load s time) loads R ;;
    U' <- ofold (set_fix s time) fixes U ;;
    Ok (U', R').

  (* views on parts of a vector (dVec::reinit(dVec&, start, size)) *)
  Definition seg (l : list K) (off n : nat) : list K := firstn n (skipn off l).
  Definition put_seg (l : list K) (off : nat) (x : list K) : list K :=
    firstn off l ++ x ++ skipn (off + length x) l.
  (* dVec operators += -= and so on: Vec.cpp:123-219 assert equal sizes *)
  Definition vzip (f : K -> K -> K) (a b : list K) : outcome (list K) :=
    asserting (length a =? length b)%nat (Ok (map (fun p => f (fst p) (snd p)) (combine a b))).
  Definition zeros (n : nat) : list K := repeat 0 n.

  (* an equation solver: matrix, right-hand side -> unknowns *)
  Definition eqsolver : Type := smat K -> list K -> outcome (list K).
  (* big x: fabs(x) > 1e-20, in matBVprod for symmetric matrices *)
  Variable big : K -> bool.

  (* The common part of LinearFESolver::solve (FESolver.cpp:363-382) and of one iteration of
     NonlinearFESolver::solve (:449-470): right-hand side, solution, reactions.
     Uc: (increments of) constrained DoFs, R: external loads. Result: unknowns, reactions. *)
  Definition solve_core (slv : eqsolver) (g : gst K) (Uc R : list K) : outcome (list K * list K) :=
    let s := g_num g in
    let nc := ns_ncon s in
    let n := (ns_nunk s + n_mpc s)%nat in
    K11 <- block_get (g_K g) 1 1 ;;
    K12 <- block_get (g_K g) 1 2 ;;
    K22 <- block_get (g_K g) 2 2 ;;
    rhs1 <- vzip radd (zeros n) (seg (g_F g) nc n) ;;
    rhs2 <- vzip radd rhs1 (seg R nc n) ;;
    rhs <- mat_BTVprod K12 Uc (ropp r1) rhs2 ;;
    x <- slv K22 rhs ;;
    Rc1 <- sym_BVprod big K11 Uc r1 (zeros nc) ;;
    Rc2 <- mat_BVprod K12 x r1 Rc1 ;;
    Rc <- vzip rsub Rc2 (seg (g_F g) 0 nc) ;;
    Ok (x, Rc).

  (* the vectors of FEStorage *)
  Record sol := mkSol { so_g : gst K; so_U : list K; so_R : list K }.

  (* LinearFESolver::solve, FESolver.cpp:337-397, from initialised storage g0 on *)
  Definition linear_run (slv : eqsolver) (g0 : gst K) (ks : list (list (contrib K)))
    (mpcs : list (mpc K)) (loads fixes : list bc) : outcome sol :=
    let N := (ns_ndofs (g_num g0) + n_mpc (g_num g0))%nat in
    g <- assembleGlobal g0 ks [] mpcs ;;
    ur <- applyBC (g_num g) r1 loads fixes (zeros N) (zeros N) ;;
    let nc := ns_ncon (g_num g) in
    xr <- solve_core slv g (seg (fst ur) 0 nc) (snd ur) ;;
    Ok (mkSol g (put_seg (fst ur) nc (fst xr)) (put_seg (snd ur) 0 (snd xr))).

  (* the whole procedure: FESolver.cpp:347-357; the elements register regs *)
  Definition linear_solve (slv : eqsolver) (nn : nat) (mesh : list (list nat)) (regs : list reg)
    (ks : list (list (contrib K))) (mpcs : list (mpc K)) (loads fixes : list bc) : outcome sol :=
    s <- init_sequence (fresh_storage nn (length mesh) (map (fun m => length (mp_terms m)) mpcs))
           regs [] (map bc_key fixes) ;;
    g0 <- initSolutionData false s mesh mpcs ;;
    linear_run slv g0 ks mpcs loads fixes.
End Solve.
Arguments mkBC {K} _ _ _.
Arguments bc_node {K} _.
Arguments bc_dof {K} _.
Arguments bc_val {K} _.
Arguments bc_key {K} _.
Arguments add_load {K} _ _ _ _.
Arguments set_fix {K} _ _ _ _.
Arguments applyBC {K} _ _ _ _ _ _.
Arguments seg {K} _ _ _.
Arguments put_seg {K} _ _ _.
Arguments vzip {K} _ _ _.
Arguments zeros {K} _.
Arguments solve_core {K} _ _ _ _ _.
Arguments mkSol {K} _ _ _.
Arguments so_g {K} _.
Arguments so_U {K} _.
Arguments so_R {K} _.
Arguments linear_run {K} _ _ _ _ _ _ _.
Arguments linear_solve {K} _ _ _ _ _ _ _ _ _.
