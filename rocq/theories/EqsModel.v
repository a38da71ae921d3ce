(* Objects of the equation solver classes and their memory: src/lib/math/EquationSolver.{h,cpp} *)
From Verif Require Import Base SparseModel SolveModel GaussModel.

Section Calls.
  Variable K : Num.
  (* calls of one object. A matrix is given with the numbers it has at the time of the call; rhs, x: the vectors the
     pointers point to before the call *)
  Inductive qcall :=
  | QSym (b : bool)                               (* setSymmetric *)
  | QPos (b : bool)                               (* setPositive *)
  | QFact (m : smat K)                            (* factorizeEquations *)
  | QSubst (m : smat K) (rhs x : list K)          (* substituteEquations *)
  | QSolve (m : smat K) (rhs x : list K).         (* solveEquations *)
  (* the vectors after a call *)
  Definition answer : Type := list K * list K.
  (* all calls of a program, with the answers *)
  Fixpoint q_run {O : Type} (step : O -> qcall -> outcome (O * list answer)) (o : O) (l : list qcall) : outcome (O * list answer) :=
    match l with
    | [] => Ok (o, [])
    | c :: l => r <- step o c ;; r' <- q_run step (fst r) l ;; Ok (fst r', snd r ++ snd r')
    end.
End Calls.
Arguments QSym {K} _.
Arguments QPos {K} _.
Arguments QFact {K} _.
Arguments QSubst {K} _ _ _.
Arguments QSolve {K} _ _ _.
Arguments answer K : clear implicits.
Arguments q_run {K O} _ _ _.

(* ---- GaussDenseEquationSolver *)
Section Gauss.
  Variable K : GNum.
  Local Open Scope rng_scope.
  (* dMat: Mat.h:438-513 *)
  Definition dmat : Type := nat * nat * list K.
  (* mat[i][j] = v: Mat.h:423-429,462-466 *)
  Definition d_set (A : dmat) (i j : nat) (v : K) : outcome dmat :=
    let '(M, N, d) := A in
    asserting ((i <? M)%nat && (j <? N)%nat) (d' <- aset d (i * N + j) v ;; Ok (M, N, d')).
  (* zero() and resize(): Mat.h:467-477,493-496 *)
  Definition d_zero (A : dmat) : dmat := let '(M, N, _) := A in (M, N, repeat 0 (M * N)).
  Definition d_resize (m n : nat) : dmat := (m, n, repeat 0 (m * n)).

  (* nEq and matA; EquationSolver.h:29,49 *)
  Record gobj := mkG { g_neq : nat; g_A : dmat }.
  Definition g_new : gobj := mkG 0 (d_resize 1 1).
  (* EquationSolver.cpp:33-37 *)
  Definition g_fact (o : gobj) (m : smat K) : outcome gobj :=
    let n := si_nrows (sm_si m) in checking (n <? 1000)%nat (Ok (mkG n (g_A o))).
  (* EquationSolver.cpp:48-60; dMat has 16-bit sizes, nEq < 1000 *)
  Definition g_fill (o : gobj) (m : smat K) : outcome dmat :=
    let n := g_neq o in
    let A0 := if (fst (fst (g_A o)) =? n)%nat && (snd (fst (g_A o)) =? n)%nat then d_zero (g_A o) else d_resize n n in
    ofold (fun A ij => v <- sym_value m (fst ij + 1) (snd ij + 1) ;; d_set A (fst ij) (snd ij) v)
      (flat_map (fun i => map (fun j => (i, j)) (seq 0 n)) (seq 0 n)) A0.
  (* EquationSolver.cpp:40-62: _solve works in place on matA, the right-hand side and the unknowns *)
  Definition g_subst (o : gobj) (m : smat K) (rhs x : list K) : outcome (gobj * answer K) :=
    let n := g_neq o in
    A <- g_fill o m ;;
    st <- ofold (elim_step n) (seq 0 n) (Some (snd A, rhs, None)) ;;
    match st with
    | None => Fatal
    | Some (d, B, _) =>
        r <- ofold (back_step n d B) (rev (seq 0 n)) (Some x) ;;
        match r with
        | None => Fatal
        | Some x' => Ok (mkG n (fst A, d), (B, x'))
        end
    end.
  Definition g_step (o : gobj) (c : qcall K) : outcome (gobj * list (answer K)) :=
    match c with
    | QSym _ | QPos _ => Ok (o, [])
    | QFact m => o' <- g_fact o m ;; Ok (o', [])
    | QSubst m rhs x => r <- g_subst o m rhs x ;; Ok (fst r, [snd r])
    | QSolve m rhs x => o' <- g_fact o m ;; r <- g_subst o' m rhs x ;; Ok (fst r, [snd r])
    end.
End Gauss.
Arguments mkG {K} _ _.
Arguments g_neq {K} _.
Arguments g_A {K} _.
Arguments g_new {K}.
Arguments g_fact {K} _ _.
Arguments g_fill {K} _ _.
Arguments g_subst {K} _ _ _ _.
Arguments g_step {K} _ _.

(* ---- PARDISO_equationSolver, EquationSolver.h:52-76, EquationSolver.cpp:135-250. The library follows the manual of MKL:
   what the manual does not allow is UB, error codes other than zero are an oracle *)
(* storage of a symmetric matrix for the library: rows of the upper triangle, numbers from 1 on, the columns of a row
   increase, the diagonal is stored *)
Definition row_slots (s : spinfo) (i : nat) : list (option nat) :=
  firstn (nth i (si_iofeir s) 0 - nth (i - 1) (si_iofeir s) 0) (skipn (nth (i - 1) (si_iofeir s) 0 - 1) (si_columns s)).
Fixpoint increasing (a : nat) (l : list (option nat)) (top : nat) : bool :=
  match l with
  | [] => true
  | Some b :: l => (a <? b) && (b <=? top) && increasing b l top
  | None :: _ => false
  end.
Definition row_fit (s : spinfo) (i : nat) : bool :=
  match row_slots s i with Some c :: l => (c =? i) && increasing c l (si_nrows s) | _ => false end.
Definition storage_fit (s : spinfo) : bool :=
  si_compressed s && (nth 0 (si_iofeir s) 0 =? 1) && forallb (row_fit s) (seq 1 (si_nrows s)).
Definition slots_eqb (a b : list (option nat)) : bool :=
  (length a =? length b) && forallb (fun p => match fst p, snd p with Some x, Some y => x =? y | None, None => true | _, _ => false end) (combine a b).
Definition same_pattern (a b : spinfo) : bool :=
  (si_nrows a =? si_nrows b) && (length (si_iofeir a) =? length (si_iofeir b)) &&
  forallb (fun p => fst p =? snd p) (combine (si_iofeir a) (si_iofeir b)) && slots_eqb (si_columns a) (si_columns b).

Section Pardiso.
  Variable K : Num.
  (* what pt[64] holds: whatever was in the memory, null pointers, or the memory of the library: pattern and type of the
     matrix that was analysed, the matrix that was factorised *)
  Inductive memory := Junk | Null | Mem (s : spinfo) (mt : Z) (f : option (smat K)).
  (* error code other than zero: phase, type and matrix; solution for the factorised matrix, the matrix given and b *)
  Record library := mkLib { lib_err : Z -> Z -> smat K -> bool; lib_x : smat K -> smat K -> list K -> list K }.
  Variable L : library.
  Definition lib_analyse (mt : Z) (pt : memory) (m : smat K) : outcome memory :=
    match pt, sm_vals m with
    | Junk, _ | _, None => UB
    | _, Some _ => asserting (storage_fit (sm_si m)) (checking (negb (lib_err L 11 mt m)) (Ok (Mem (sm_si m) mt None)))
    end.
  Definition lib_factor (mt : Z) (pt : memory) (m : smat K) : outcome memory :=
    match pt, sm_vals m with
    | Mem s t _, Some _ => asserting (same_pattern s (sm_si m) && (mt =? t)%Z) (checking (negb (lib_err L 22 mt m)) (Ok (Mem s t (Some m))))
    | _, _ => UB
    end.
  Definition lib_subst (mt : Z) (pt : memory) (m : smat K) (b : list K) : outcome (list K) :=
    match pt, sm_vals m with
    | Mem s t (Some f), Some _ => asserting (same_pattern s (sm_si m) && (mt =? t)%Z) (checking (negb (lib_err L 33 mt m)) (Ok (lib_x L f m b)))
    | _, _ => UB
    end.
  Definition lib_release (pt : memory) : outcome memory := match pt with Junk => UB | _ => Ok Null end.

  (* p_log: phase and matrix type of the calls of the library *)
  Record pobj := mkP { p_neq : nat; p_sym : bool; p_pos : bool; p_first : bool; p_mtype : Z; p_pt : memory; p_log : list (Z * Z) }.
  (* PARDISO_equationSolver(): the object is zeroed before its members get their defaults *)
  Definition p_value_init : pobj := mkP 0 true true true (-2) Null [].
  (* PARDISO_equationSolver s; or new PARDISO_equationSolver: pt and iparm have no defaults *)
  Definition p_default_init : pobj := mkP 0 true true true (-2) Junk [].
  (* initializePARDISO, :191-238 *)
  Definition p_init (o : pobj) (m : smat K) : outcome pobj :=
    checking (p_sym o)
    (let mt := (if p_pos o then 2 else -2)%Z in
     pt <- lib_analyse mt Null m ;;
     Ok (mkP (si_nrows (sm_si m)) (p_sym o) (p_pos o) (p_first o) mt pt (p_log o ++ [(11, mt)%Z]))).
  (* factorizeEquations, :164-188 *)
  Definition p_fact (o : pobj) (m : smat K) : outcome pobj :=
    o1 <- (if p_first o then p_init o m else Ok o) ;;
    checking (p_neq o1 =? si_nrows (sm_si m))
    (pt <- lib_factor (p_mtype o1) (p_pt o1) m ;;
     Ok (mkP (p_neq o1) (p_sym o1) (p_pos o1) false (p_mtype o1) pt (p_log o1 ++ [(22, p_mtype o1)%Z]))).
  (* substituteEquations, :145-161; iparm[5] = 0: the solution is written into the unknowns *)
  Definition p_subst (o : pobj) (m : smat K) (rhs x : list K) : outcome (pobj * answer K) :=
    y <- lib_subst (p_mtype o) (p_pt o) m rhs ;;
    Ok (mkP (p_neq o) (p_sym o) (p_pos o) (p_first o) (p_mtype o) (p_pt o) (p_log o ++ [(33, p_mtype o)%Z]), (rhs, y)).
  Definition p_step (o : pobj) (c : qcall K) : outcome (pobj * list (answer K)) :=
    match c with
    | QSym b => Ok (mkP (p_neq o) b (p_pos o) (p_first o) (p_mtype o) (p_pt o) (p_log o), [])
    | QPos b => Ok (mkP (p_neq o) (p_sym o) b (p_first o) (p_mtype o) (p_pt o) (p_log o), [])
    | QFact m => o' <- p_fact o m ;; Ok (o', [])
    | QSubst m rhs x => r <- p_subst o m rhs x ;; Ok (fst r, [snd r])
    | QSolve m rhs x => o' <- p_fact o m ;; r <- p_subst o' m rhs x ;; Ok (fst r, [snd r])
    end.
  (* ~PARDISO_equationSolver, releasePARDISO: :137-139,240-250; the calls of the library *)
  Definition p_end (o : pobj) : outcome (list (Z * Z)) :=
    pt <- lib_release (p_pt o) ;; Ok (p_log o ++ [(-1, p_mtype o)%Z]).
  (* the life of an object: answers and calls of the library *)
  Definition p_life (o : pobj) (l : list (qcall K)) : outcome (list (answer K) * list (Z * Z)) :=
    r <- q_run p_step o l ;; lg <- p_end (fst r) ;; Ok (snd r, lg).
  (* as used by LinearFESolver::solve (FESolver.cpp:341-377): one problem, one solution *)
  Definition pardiso_slv : eqsolver K := fun m b =>
    r <- p_life p_value_init [QSym true; QPos false; QSolve m b []] ;;
    match fst r with [a] => Ok (snd a) | _ => UB end.
End Pardiso.
Arguments Junk {K}.
Arguments Null {K}.
Arguments Mem {K} _ _ _.
Arguments mkLib {K} _ _.
Arguments lib_err {K} _ _ _ _.
Arguments lib_x {K} _ _ _ _.
Arguments mkP {K} _ _ _ _ _ _ _.
Arguments p_neq {K} _.
Arguments p_sym {K} _.
Arguments p_pos {K} _.
Arguments p_first {K} _.
Arguments p_mtype {K} _.
Arguments p_pt {K} _.
Arguments p_log {K} _.
Arguments p_value_init {K}.
Arguments p_default_init {K}.
Arguments p_init {K} _ _ _.
Arguments p_fact {K} _ _ _.
Arguments p_subst {K} _ _ _ _ _.
Arguments p_step {K} _ _ _.
Arguments p_end {K} _.
Arguments p_life {K} _ _ _.
Arguments pardiso_slv {K} _ _ _.
Arguments lib_analyse {K} _ _ _ _.
Arguments lib_factor {K} _ _ _ _.
Arguments lib_subst {K} _ _ _ _ _.
Arguments lib_release {K} _.
