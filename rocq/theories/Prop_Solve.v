(* C24, C27: boundary conditions and linear static solution (src/lib/FESolver.cpp)
   C25, C26: the Gauss solver (src/lib/math/EquationSolver.cpp) *)
From Coq Require Import QArith Qcanon Qcabs.
From Verif Require Import Base BaseProofs SparseModel SpecSparse BlockModel SpecBlock DofModel SpecDof AsmModel SpecAsm
  AsmProofs AsmFinal SolveModel SpecSolve LinearProofs GaussModel SpecGauss GaussProofs Prop_Asm.
Local Open Scope nat_scope.

(* ---------------- C24 ---------------- *)
(* big: fabs(x) > 1e-20 in matBVprod; a prescribed value is zero or big (see C06) *)
Theorem C24_linear_solution :
  forall (K : Rng) (big : K -> bool) (slv : eqsolver K), exact_solver slv ->
  forall nn mesh regs ks mpcs loads fixes st, good_linear nn mesh regs ks mpcs loads fixes ->
  (forall x v, last_fix fixes x = Some v -> big v = false -> v = r0) ->
  linear_solve big slv nn mesh regs ks mpcs loads fixes = Ok st ->
  exists Kf, let s := g_num (so_g st) in let N := g_size (so_g st) in
    N = length (reg_keys regs) + length mpcs /\
    length (so_U st) = N /\ length (so_R st) = N /\ length (g_F (so_g st)) = N /\
    (forall a b, 1 <= a <= N -> 1 <= b <= N -> gvalue (g_K (so_g st)) a b = Ok (Kf a b)) /\
    (forall a, 1 <= a <= N ->
       mv Kf N (so_U st) a = radd (nth (a - 1) (g_F (so_g st)) r0) (nth (a - 1) (so_R st) r0)) /\
    (forall x v, last_fix fixes x = Some v -> vget s (so_U st) x = v) /\
    (forall x, In x (reg_keys regs) -> last_fix fixes x = None -> vget s (so_R st) x = total_load loads x) /\
    (forall e m, In (e, m) (mpc_list s mpcs) ->
       nth (e - 1) (so_R st) r0 = r0 /\
       sumof (fun t => rmul (snd t) (vget s (so_U st) (term_key t))) (mp_terms m) = mp_b m).
Proof. exact linear_solution. Qed.
Print Assumptions C24_linear_solution.
(* with the Gauss solver the procedure ends with a solution or a reported error *)
Theorem C24_never_undefined :
  forall (K : GNum) (L : glaws K) (big : K -> bool) (u : nat -> list K), (forall n, length (u n) = n) ->
  forall nn mesh regs ks mpcs loads fixes, good_linear nn mesh regs ks mpcs loads fixes ->
  (exists st, linear_solve big (gauss_slv u) nn mesh regs ks mpcs loads fixes = Ok st) \/
  linear_solve big (gauss_slv u) nn mesh regs ks mpcs loads fixes = Fatal.
Proof. exact linear_gauss. Qed.
Print Assumptions C24_never_undefined.

(* bar of two elements with stiffness 10 and 20, node 1 displaced by 1/2, force 3 on node 3,
   node 4 tied to node 3: u4 - 2 u3 = 1; node 4 is supported by a spring of stiffness 1 *)
Definition qz (z : Z) : Qc := Q2Qc (inject_Z z).
Definition bar_mesh := [[1; 2]; [2; 3]; [4]].
Definition bar_regs : list reg := map (fun n => (KNode, n, [UX])) [1; 2; 3; 4].
Definition bar_mpcs : list (mpc QcRng) := [mkMpc (qz 1) [((4, UX), qz 1); ((3, UX), qz (-2))]].
Definition bar_ks : list (list (contrib QcRng)) :=
  [[CK [UX] [qz 10; qz (-10); qz 10]]; [CK [UX] [qz 20; qz (-20); qz 20]]; [CK [UX] [qz 1]]].
Definition bar_loads : list (bc QcRng) := [mkBC 3 UX (qz 1); mkBC 3 UX (qz 2)].
Definition bar_fixes : list (bc QcRng) := [mkBC 1 UX (Q2Qc (1 # 2))].
Example bar_good : good_linear 4 bar_mesh bar_regs bar_ks bar_mpcs bar_loads bar_fixes.
Proof.
  assert (P : good_problem 4 bar_mesh bar_regs (map bc_key bar_fixes) bar_mpcs)
    by (apply problem_check_ok; vm_compute; reflexivity).
  split; auto.
  - apply small_capacity; auto. vm_compute. lia.
  - apply contribs_check; [reflexivity|]. repeat constructor.
  - repeat constructor.
  - repeat constructor; apply key_in_ok; vm_compute; reflexivity.
Qed.
Definition bigq (x : Qc) : bool := Qc_ltb q1e20 (Qcabs x).
Example bar_tiny : forall x v, last_fix bar_fixes x = Some v -> bigq v = false -> v = r0.
Proof.
  intros x v. unfold last_fix. cbn [fold_left bar_fixes]. destruct (key_dec _ _); [|discriminate].
  intros E. injection E as <-. intros H. vm_compute in H. discriminate.
Qed.
Definition gz (n : nat) : list QcG := repeat r0 n.
Example bar_solution : exists st, linear_solve (K := QcRng) bigq (gauss_slv gz) 4 bar_mesh bar_regs bar_ks bar_mpcs bar_loads bar_fixes = Ok st /\
  map this (so_U st) = [1 # 2; 7 # 16; 13 # 32; 29 # 16; -29 # 16]%Q.
Proof. eexists; split; vm_compute; reflexivity. Qed.

(* ---------------- C25 ---------------- *)
(* u: contents of the vector of unknowns before the call; the solver accepts up to 999 equations *)
Theorem C25_gauss_solution :
  forall (K : GNum) (L : glaws K) (m : smat K) n A b u, si_nrows (sm_si m) = n -> n < 1000 ->
  (forall i j, in_shape n n (i, j) -> sym_value m i j = Ok (A i j)) -> length b = n -> length u = n ->
  (exists x, gauss_dense u m b = Ok x /\ length x = n /\ (forall i, i < n -> mv A n x (S i) = nth i b r0) /\
     forall y, length y = n -> (forall i, i < n -> mv A n y (S i) = nth i b r0) -> y = x) \/
  gauss_dense u m b = Fatal.
Proof. exact gauss_dense_sol. Qed.
Print Assumptions C25_gauss_solution.
Theorem C25_too_many_equations :
  forall (K : GNum) (m : smat K) b u, 1000 <= si_nrows (sm_si m) -> gauss_dense u m b = Fatal.
Proof. exact gauss_dense_limit. Qed.
Print Assumptions C25_too_many_equations.
(* the dense routine itself *)
Theorem C25_dense_routine :
  forall (K : GNum) (L : glaws K) n (X A B : list K), length A = n * n -> length B = n -> length X = n ->
  (exists X', gauss_solve X A B n = Ok (Some X') /\ length X' = n /\
     (forall k, k < n -> drow A n (fun j => nth j X' r0) k = nth k B r0) /\
     (forall x, (forall k, k < n -> drow A n x k = r0) -> forall j, j < n -> x j = r0)) \/
  (gauss_solve X A B n = Ok None /\ exists x i, i < n /\ x i = r1 /\
     forall k, k < n -> glt (gabs (drow A n x k)) gtiny = true).
Proof. exact gauss_solve_ok. Qed.
Print Assumptions C25_dense_routine.
Theorem C25_rationals : glaws QcG.
Proof. exact QcG_laws. Qed.
Print Assumptions C25_rationals.
(* rows have to be exchanged here *)
Example C25_pivoting : option_map (map this)
  (match gauss_solve (K := QcG) (gz 3) (map qz [0; 2; 1; 4; 1; 0; 2; 0; 1]%Z) (map qz [7; 6; 5]%Z) 3 with Ok r => r | _ => None end) =
  Some [1; 2; 3]%Q.
Proof. vm_compute. reflexivity. Qed.

(* ---------------- C26 ---------------- *)
(* the system 1e-21 * x = 1e-21 is regular, but the solver reports an error *)
Definition tiny1 : Qc := Q2Qc (1 # (10 ^ 21)).
Theorem C26_regular_rejected_refuted :
  exists (A B X : list QcG), length A = 1 /\ length B = 1 /\ length X = 1 /\ gauss_solve X A B 1 = Ok None /\
    (forall x : nat -> QcG, (forall k, k < 1 -> drow A 1 x k = r0) -> forall j, j < 1 -> x j = r0).
Proof. exact tiny_regular. Qed.
Print Assumptions C26_regular_rejected_refuted.
(* failure: there is a vector with a component 1 and |A x| < 1e-20 in every row *)
Theorem C26_nearly_singular_partial :
  forall (K : GNum) (L : glaws K) (m : smat K) n A b u, si_nrows (sm_si m) = n -> n < 1000 ->
  (forall i j, in_shape n n (i, j) -> sym_value m i j = Ok (A i j)) -> length b = n -> length u = n ->
  gauss_dense u m b = Fatal ->
  exists x i, length x = n /\ i < n /\ nth i x r0 = r1 /\ forall k, k < n -> glt (gabs (mv A n x (S k))) gtiny = true.
Proof. exact gauss_dense_fail. Qed.
Print Assumptions C26_nearly_singular_partial.
(* a singular system is never accepted *)
Theorem C26_singular_rejected :
  forall (K : GNum) (L : glaws K) (m : smat K) n A b u z, si_nrows (sm_si m) = n -> n < 1000 ->
  (forall i j, in_shape n n (i, j) -> sym_value m i j = Ok (A i j)) -> length b = n -> length u = n ->
  length z = n -> (exists i, i < n /\ nth i z r0 <> r0) -> (forall i, i < n -> mv A n z (S i) = r0) ->
  gauss_dense u m b = Fatal.
Proof. exact gauss_dense_singular. Qed.
Print Assumptions C26_singular_rejected.
Example C26_singular_example : gauss_solve (K := QcG) (gz 2) (map qz [1; 2; 2; 4]%Z) (map qz [1; 2]%Z) 2 = Ok None.
Proof. vm_compute. reflexivity. Qed.

(* ---------------- C27 ---------------- *)
Theorem C27_boundary_conditions :
  forall (K : Rng) transient nn mesh regs (mpcs : list (mpc K)) (loads fixes : list (bc K)) (g : gst K) (t : K) (U R : list K),
  good_problem nn mesh regs (map bc_key fixes) mpcs -> capacity_ok nn mesh regs (map bc_key fixes) mpcs ->
  Forall (fun l => In (bc_key l) (reg_keys regs)) loads ->
  prepare transient nn mesh regs (map bc_key fixes) mpcs = Ok g -> length U = g_size g -> length R = g_size g ->
  exists U' R', applyBC (g_num g) t loads fixes U R = Ok (U', R') /\ length U' = g_size g /\ length R' = g_size g /\
    (forall x, In x (reg_keys regs) ->
       vget (g_num g) R' x = radd (vget (g_num g) R x) (rmul (total_load loads x) t) /\
       vget (g_num g) U' x = match last_fix fixes x with Some v => rmul v t | None => vget (g_num g) U x end) /\
    (forall a, length (reg_keys regs) < a <= g_size g ->
       nth (a - 1) R' r0 = nth (a - 1) R r0 /\ nth (a - 1) U' r0 = nth (a - 1) U r0).
Proof. exact bc_effect. Qed.
Print Assumptions C27_boundary_conditions.
Example C27_example : exists g U R, prepare false 4 bar_mesh bar_regs (map bc_key bar_fixes) bar_mpcs = Ok g /\
  applyBC (K := QcRng) (g_num g) (qz 3) (bar_loads ++ [mkBC 2 UX (qz 5)]) (bar_fixes ++ [mkBC 1 UX (qz 7)])
    (map qz [1; 1; 1; 1; 1]%Z) (map qz [1; 1; 1; 1; 1]%Z) = Ok (U, R) /\
  map this U = [21; 1; 1; 1; 1]%Q /\ map this R = [1; 16; 10; 1; 1]%Q.
Proof. do 3 eexists; split; [vm_compute; reflexivity|]. split; [vm_compute; reflexivity|]. split; vm_compute; reflexivity. Qed.
