(* Equation solver objects: C128-C133 *)
From Coq Require Import QArith Qcanon Qcabs.
From Verif Require Import Base SparseModel SpecSparse DofModel SpecDof AsmModel SpecAsm AsmFinal SolveModel SpecSolve GaussModel SpecGauss GaussProofs EqsModel SpecEqs EqsProofs EqsFinal EqsCases Prop_Asm.
Local Open Scope nat_scope.

(* ---------------- C128 ---------------- *)
(* any object, any list of systems: each is solved as by a new object *)
Theorem C128_no_memory :
  forall (K : GNum) (l : list (smat K * list K * list K)) (o : gobj K),
  (r <- q_run g_step o (map (fun c => QSolve (fst (fst c)) (snd (fst c)) (snd c)) l) ;; Ok (map snd (snd r))) = each_fresh K l.
Proof. exact g_history. Qed.
Print Assumptions C128_no_memory.
(* factorisation only keeps the size: the numbers are those of the matrix given to the substitution *)
Theorem C128_factorised :
  forall (K : GNum) (o : gobj K) (m m0 : smat K) rhs x, si_nrows (sm_si m0) = si_nrows (sm_si m) ->
  (r <- q_run g_step o [QFact m0; QSubst m rhs x] ;; Ok (map snd (snd r))) = y <- gauss_dense x m rhs ;; Ok [y].
Proof. exact g_factorised. Qed.
Print Assumptions C128_factorised.
Example C128_example : texts (q_run g_step g_new [QSolve full2 (map qc [3; 3]%Z) (map qc [0; 0]%Z); QSolve one1 (map qc [2]%Z) (map qc [9]%Z); QFact diag2; QSubst full2 (map qc [3; 0]%Z) (map qc [0; 0]%Z)]) =
  Ok [([3; 3 # 2]%Q, [1; 1]%Q); ([2]%Q, [1 # 2]%Q); ([3; -3 # 2]%Q, [2; -1]%Q)].
Proof. vm_compute. reflexivity. Qed.

(* ---------------- C129 ---------------- *)
Theorem C129_same_vectors_refuted : exists (b y z : list QcG),
  (a <- q_run g_step g_new [QSolve full2 (map qc [1; 1]%Z) (map qc [0; 0]%Z)] ;; Ok (snd a)) = Ok [(b, y)] /\
  (a <- q_run g_step g_new [QSolve full2 (map qc [1; 1]%Z) (map qc [0; 0]%Z); QSolve full2 b y] ;; Ok (map snd (snd a))) = Ok [y; z] /\
  solves full2 (map qc [1; 1]%Z) y /\ ~ solves full2 (map qc [1; 1]%Z) z.
Proof. exact g_twice. Qed.
Print Assumptions C129_same_vectors_refuted.
Theorem C129_other_size_refuted : exists (b y : list QcG),
  (a <- q_run g_step g_new [QFact one1; QSubst full2 (map qc [3; 3]%Z) (map qc [7; 7]%Z)] ;; Ok (snd a)) = Ok [(b, y)] /\
  nth 1 y r0 = qc 7 /\ ~ solves full2 (map qc [3; 3]%Z) y /\ solves full2 (map qc [3; 3]%Z) (map qc [1; 1]%Z).
Proof. exact g_other_size. Qed.
Print Assumptions C129_other_size_refuted.
Theorem C129_smaller_matrix_refuted : forall (o : gobj QcG) rhs x, q_run g_step o [QFact full2; QSubst one1 rhs x] = UB.
Proof. exact g_smaller_matrix. Qed.
Print Assumptions C129_smaller_matrix_refuted.
(* without a factorisation: no error, the unknowns stay as they were *)
Theorem C129_not_factorised_refuted :
  forall (K : GNum) (m : smat K) rhs x, q_run g_step g_new [QSubst m rhs x] = Ok (mkG 0 (0, 0, []), [(rhs, x)]).
Proof. exact g_not_factorised. Qed.
Print Assumptions C129_not_factorised_refuted.

(* ---------------- C130 ---------------- *)
Theorem C130_protocol :
  forall (K : Num) (L : library K), exact_library L -> forall s, storage_fit s = true ->
  forall (o : pobj K) l, o = p_value_init \/ o = p_default_init /\ factorises l = true -> orderly s None l ->
  p_life L o l = Fatal \/
  exists answers lg, p_life L o l = Ok (answers, lg) /\
    Forall2 (fun q a => fst a = snd q /\ solves (fst q) (snd q) (snd a)) (systems l) answers /\
    (if factorises l then well_ordered (if positive true l then 2 else -2)%Z lg else lg = [(-1, -2)%Z]).
Proof. exact pardiso_life. Qed.
Print Assumptions C130_protocol.
Example C130_library : exact_library lib2.
Proof. exact lib2_exact. Qed.
Definition ptexts (r : outcome (list (answer QcG) * list (Z * Z))) : outcome (list (list Q * list Q) * list (Z * Z)) :=
  a <- r ;; Ok (map (fun b => (map this (fst b), map this (snd b))) (fst a), snd a).
Definition calls2 : list (qcall QcG) :=
  [QSym true; QPos false; QSolve full2 (map qc [3; 3]%Z) []; QSubst full2 (map qc [3; 0]%Z) []; QFact full2; QPos true; QSubst full2 (map qc [0; 3]%Z) []].
Example C130_orderly : storage_fit (sm_si full2) = true /\ orderly (sm_si full2) None calls2 /\ factorises calls2 = true /\ positive true calls2 = false.
Proof. repeat split; try reflexivity; discriminate. Qed.
Example C130_example : ptexts (p_life lib2 p_value_init calls2) =
  Ok ([([3; 3]%Q, [1; 1]%Q); ([3; 0]%Q, [2; -1]%Q); ([0; 3]%Q, [-1; 2]%Q)], [(11, -2); (22, -2); (33, -2); (33, -2); (22, -2); (33, -2); (-1, -2)]%Z).
Proof. vm_compute. reflexivity. Qed.

(* ---------------- C131 ---------------- *)
Theorem C131_unused_object_refuted :
  forall (K : Num) (L : library K) l, Forall (setting K) l -> p_life L p_default_init l = UB /\ p_life L p_value_init l = Ok ([], [(-1, -2)%Z]).
Proof. exact p_unused. Qed.
Print Assumptions C131_unused_object_refuted.
Theorem C131_other_size :
  forall (K : Num) (L : library K), (forall ph mt m, lib_err L ph mt m = false) ->
  forall m m', sm_vals m <> None -> storage_fit (sm_si m) = true -> si_nrows (sm_si m) <> si_nrows (sm_si m') ->
  q_run (p_step L) p_value_init [QFact m; QFact m'] = Fatal.
Proof. exact p_other_size. Qed.
Print Assumptions C131_other_size.
Theorem C131_other_pattern_refuted :
  forall (K : Num) (L : library K), (forall ph mt m, lib_err L ph mt m = false) ->
  forall m m', sm_vals m <> None -> storage_fit (sm_si m) = true -> si_nrows (sm_si m) = si_nrows (sm_si m') -> same_pattern (sm_si m) (sm_si m') = false ->
  q_run (p_step L) p_value_init [QFact m; QFact m'] = UB.
Proof. exact p_other_pattern. Qed.
Print Assumptions C131_other_pattern_refuted.
Example C131_patterns : storage_fit (sm_si diag2) = true /\ si_nrows (sm_si diag2) = si_nrows (sm_si full2) /\ same_pattern (sm_si diag2) (sm_si full2) = false.
Proof. repeat split. Qed.
Theorem C131_late_settings_refuted :
  forall (K : Num) (L : library K), (forall ph mt m, lib_err L ph mt m = false) ->
  forall m b, sm_vals m <> None -> storage_fit (sm_si m) = true ->
  p_life L p_value_init [QFact m; QPos false; QSym b; QFact m] = Ok ([], [(11, 2); (22, 2); (22, 2); (-1, 2)]%Z).
Proof. exact p_late_setting. Qed.
Print Assumptions C131_late_settings_refuted.
(* unsymmetric systems are refused *)
Theorem C131_not_symmetric : forall (K : Num) (L : library K) m, q_run (p_step L) p_value_init [QSym false; QFact m] = Fatal.
Proof. exact p_not_symmetric. Qed.
Print Assumptions C131_not_symmetric.
Theorem C131_not_factorised_refuted :
  forall (K : Num) (L : library K) m b x, q_run (p_step L) p_value_init [QSubst m b x] = UB.
Proof. exact p_not_factorised. Qed.
Print Assumptions C131_not_factorised_refuted.

(* ---------------- C132 ---------------- *)
Theorem C132_calls :
  forall (K : GNum), glaws K -> forall (L : library K), exact_library L ->
  forall s (l : list (qcall K)) (o o' : gobj K) ga po pa lg, storage_fit s = true -> orderly s None l -> Forall (fitting (si_nrows s)) l ->
  (po = p_value_init \/ po = p_default_init /\ factorises l = true) ->
  q_run g_step o l = Ok (o', ga) -> p_life L po l = Ok (pa, lg) -> map snd ga = map snd pa.
Proof. exact calls_agree. Qed.
Print Assumptions C132_calls.
Theorem C132_linear :
  forall (K : GNum), glaws K -> forall (L : library K), exact_library L ->
  forall (big : K -> bool) (u : nat -> list K) nn mesh regs ks mpcs loads fixes st st', (forall n, length (u n) = n) ->
  good_linear nn mesh regs ks mpcs loads fixes -> linear_solve big (gauss_slv u) nn mesh regs ks mpcs loads fixes = Ok st ->
  linear_solve big (pardiso_slv L) nn mesh regs ks mpcs loads fixes = Ok st' -> st = st'.
Proof. exact linear_agree. Qed.
Print Assumptions C132_linear.
(* all that is shown for exact equation solvers holds for PARDISO *)
Theorem C132_exact : forall (K : Num) (L : library K), exact_library L -> exact_solver (pardiso_slv L).
Proof. exact pardiso_exact. Qed.
Print Assumptions C132_exact.

(* ---------------- C133 ---------------- *)
Theorem C133_accepted :
  forall (K : Rng) (big : K -> bool) (L : library K), exact_library L ->
  forall nn mesh regs ks loads fixes, good_linear nn mesh regs ks [] loads fixes ->
  (forall x, In x (reg_keys regs) -> ~ In x (map bc_key fixes) -> in_element mesh x) ->
  linear_solve big (pardiso_slv L) nn mesh regs ks [] loads fixes = Fatal \/
  exists st, linear_solve big (pardiso_slv L) nn mesh regs ks [] loads fixes = Ok st.
Proof. exact linear_pardiso. Qed.
Print Assumptions C133_accepted.
Theorem C133_solved :
  forall (K : Rng) (big : K -> bool) (L : library K), exact_library L ->
  forall nn mesh regs ks loads fixes, good_linear nn mesh regs ks [] loads fixes -> (forall ph m, lib_err L ph (-2) m = false) ->
  (forall x, In x (reg_keys regs) -> ~ In x (map bc_key fixes) -> in_element mesh x) ->
  exists st, linear_solve big (pardiso_slv L) nn mesh regs ks [] loads fixes = Ok st.
Proof. exact linear_pardiso_total. Qed.
Print Assumptions C133_solved.
(* an MPC, or a free DoF in no element: a diagonal element is not stored *)
Theorem C133_diagonal_refuted :
  forall (K : Rng) (big : K -> bool) (L : library K) nn mesh regs ks mpcs loads fixes, good_linear nn mesh regs ks mpcs loads fixes ->
  (mpcs <> [] \/ exists x, In x (reg_keys regs) /\ ~ In x (map bc_key fixes) /\ ~ in_element mesh x) ->
  linear_solve big (pardiso_slv L) nn mesh regs ks mpcs loads fixes = UB.
Proof. exact linear_pardiso_ub. Qed.
Print Assumptions C133_diagonal_refuted.
(* two bars, one end fixed *)
Definition rods_mesh := [[1; 2]; [2; 3]].
Definition rods_regs : list reg := map (fun n => (KNode, n, [UX])) [1; 2; 3].
Definition rods_ks : list (list (contrib QcG)) :=
  [[CK (K := QcG) [UX] (map qc [10; -10; 10]%Z)]; [CK (K := QcG) [UX] (map qc [20; -20; 20]%Z)]].
Definition rods_fixes : list (bc QcG) := [mkBC (K := QcG) 1 UX (qc 0)].
Definition rods_mpcs : list (mpc QcG) := [mkMpc (K := QcG) (qc 1) [((2, UX), qc 1); ((3, UX), qc (-2))]].
Example rods_good mpcs : mpcs = [] \/ mpcs = rods_mpcs -> good_linear 3 rods_mesh rods_regs rods_ks mpcs [mkBC (K := QcG) 3 UX (qc 4)] rods_fixes.
Proof.
  intros HM. assert (P : good_problem 3 rods_mesh rods_regs (map bc_key rods_fixes) mpcs) by (destruct HM as [->| ->]; apply problem_check_ok; vm_compute; reflexivity).
  split; auto.
  - apply (small_capacity QcRng); auto. destruct HM as [->| ->]; vm_compute; lia.
  - apply contribs_check; [reflexivity|]. repeat constructor.
  - repeat constructor.
  - repeat constructor; apply key_in_ok; vm_compute; reflexivity.
Qed.
Example rods_free : forall x, In x (reg_keys rods_regs) -> ~ In x (map bc_key rods_fixes) -> in_element rods_mesh x.
Proof.
  intros x Hx _. vm_compute in Hx. destruct Hx as [<-|[<-|[<-|[]]]].
  - exists 1. split; [cbn; lia|]. cbn. auto.
  - exists 1. split; [cbn; lia|]. cbn. auto.
  - exists 2. split; [cbn; lia|]. cbn. auto.
Qed.
Definition bigq (x : Qc) : bool := Qc_ltb q1e20 (Qcabs x).
Example rods_solved : (st <- linear_solve (K := QcG) bigq (pardiso_slv lib2) 3 rods_mesh rods_regs rods_ks [] [mkBC (K := QcG) 3 UX (qc 4)] rods_fixes ;; Ok (map this (so_U st))) =
  Ok [0; 2 # 5; 3 # 5]%Q.
Proof. vm_compute. reflexivity. Qed.
Example rods_tied : linear_solve (K := QcG) bigq (pardiso_slv lib2) 3 rods_mesh rods_regs rods_ks rods_mpcs [mkBC (K := QcG) 3 UX (qc 4)] rods_fixes = UB.
Proof. vm_compute. reflexivity. Qed.
