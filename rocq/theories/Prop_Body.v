(* C145-C148: hyperelastic bodies of SOLID81 and PLANE41 elements in NonlinearFESolver *)
From Coq Require Import Reals Lra Lia NArith.
Set Warnings "-ambiguous-paths".
From Coquelicot Require Import Coquelicot.
From Verif Require Import Base BaseProofs RealBase SparseModel SpecSparse BlockModel SpecBlock DofModel SpecDof AsmModel SpecAsm AsmFinal SolveModel SpecSolve
  GaussModel SpecGauss GaussProofs TimeModel NonlinModel SpecNonlin NonlinFinal IsoModel SpecIso ElemModel HyperModel SpecHyper StructModel SpecStruct StructProofs SpecLaws SpecNewton
  BodyModel SpecBody BodyMore BodyFinal BodyExample NewtonEnds.
Local Open Scope R_scope.

(* ---------------- C145 ---------------- *)
(* every iteration is one step of Newton's method for the equations of equilibrium; each starts where the one before stopped, the first
   at zero; the stresses and strains that are stored belong to the displacements found *)
Theorem C145_newton : forall (cfg : nlset RG) (big : R -> bool) (slv : eqsolver RNum), exact_solver slv ->
  forall (m : hyper) (pos : nat -> nat -> R) nn els mpcs mpf loads fixes, body_ok nn els mpcs mpf loads fixes -> known m -> hK m <> 0 ->
  forall fuel start end_ st, body_solve cfg big slv fuel nn m pos els mpcs mpf start end_ loads fixes = Ok st ->
  Forall (newton_step big m pos els mpf loads fixes) (nl_log st) /\
  body_update m pos (vget (K := RNum) (g_num (nl_g st)) (nl_U st)) 1 els = Ok (nl_E st) /\
  chain (K := RG) (zeros (K := RNum) (length (nl_U st))) (nl_log st) (nl_U st).
Proof. exact body_newton. Qed.
Print Assumptions C145_newton.
(* a unit square of neo-Hookean material, stretched to 1.5 by prescribed displacements *)
Example C145_example big : exact_solver slv1 /\ body_ok 4 [sq_el] [] (fun _ => []) [] sq_fixes /\ known sq_mat /\ hK sq_mat <> 0 /\
  exists st, body_solve sq_cfg big slv1 1 4 sq_mat sq_pos [sq_el] [] (fun _ => []) 0 1 [] sq_fixes = Ok st /\
  length (nl_log st) = 2%nat /\ vget (K := RNum) (g_num (nl_g st)) (nl_U st) (KEl, 1%nat, HYDRO_PRESSURE) = 1 / 2.
Proof.
  split; [exact slv1_exact|]. split; [exact sq_ok|]. split; [apply known_nh|]. split; [cbn; lra|].
  destruct (sq_solved big) as (st & E & P & it & L & _). exists st. split; [exact E|]. split; [now rewrite L|exact P].
Qed.

(* ---------------- C146 ---------------- *)
(* an iteration that changes nothing has found a state of equilibrium: internal forces, computed from the displacements through the
   energy of the material, are in balance with loads and MPC equations *)
Theorem C146_stationary : forall (cfg : nlset RG) (big : R -> bool) (slv : eqsolver RNum), exact_solver slv ->
  forall (m : hyper) (pos : nat -> nat -> R) nn els mpcs mpf loads fixes, body_ok nn els mpcs mpf loads fixes -> known m -> hK m <> 0 ->
  forall fuel start end_ st, body_solve cfg big slv fuel nn m pos els mpcs mpf start end_ loads fixes = Ok st ->
  forall it, In it (nl_log st) -> let s := g_num (it_g it) in let v := vget (K := RNum) s (it_before it) in unflat pos els v ->
  (forall k, In k (reg_keys (body_regs 1 els)) -> vget (K := RNum) s (it_d it) k = 0) ->
  equilibrium m pos els (mpf v) loads fixes (it_time it) (vget (K := RNum) s (it_after it)) (mults (K := RNum) s (it_after it)).
Proof.
  intros cfg big slv EX m pos nn els mpcs mpf loads fixes OK KN HK fuel start end_ st E it Hit s v UF Z.
  destruct (body_newton cfg big slv EX m pos nn els mpcs mpf loads fixes OK KN HK fuel start end_ st E) as (F & _).
  rewrite Forall_forall in F. exact (stationary _ _ _ _ _ _ _ _ (F it Hit) UF Z).
Qed.
Print Assumptions C146_stationary.
(* the second iteration of the square *)
Example C146_example big : exists st it, body_solve sq_cfg big slv1 1 4 sq_mat sq_pos [sq_el] [] (fun _ => []) 0 1 [] sq_fixes = Ok st /\ In it (nl_log st) /\
  unflat sq_pos [sq_el] (vget (K := RNum) (g_num (it_g it)) (it_before it)) /\
  (forall k, In k (reg_keys (body_regs 1 [sq_el])) -> vget (K := RNum) (g_num (it_g it)) (it_d it) k = 0).
Proof.
  destruct (sq_solved big) as (st & E & _ & it & L & _ & U & Z). exists st, (snd it). split; [exact E|]. split; [rewrite L; right; now left|]. split; [exact U|exact Z].
Qed.

(* ---------------- C147 ---------------- *)
(* after every iteration loads and reactions have no resultant; their moment about the nodes before the iteration is the moment
   of the internal forces over the increments, zero if nothing moves *)
Theorem C147_resultants : forall (cfg : nlset RG) (big : R -> bool) (slv : eqsolver RNum), exact_solver slv ->
  forall (m : hyper) (pos : nat -> nat -> R) nn els loads fixes, body_ok nn els [] (fun _ => []) loads fixes -> known m -> hK m <> 0 ->
  Forall (regular_geo pos) els ->
  forall fuel start end_ st, body_solve cfg big slv fuel nn m pos els [] (fun _ => []) start end_ loads fixes = Ok st ->
  forall it, In it (nl_log st) ->
  let s := g_num (it_g it) in let v := vget (K := RNum) s (it_before it) in let d := vget (K := RNum) s (it_d it) in let Rf := vget (K := RNum) s (it_R it) in
  unflat pos els v -> (forall k, In k (map bc_key fixes) -> big (d k) = false -> d k = 0) ->
  let keys := reg_keys (body_regs 1 els) in
  (forall i, rsuml keys (fun k => Rf k * shift i k) = 0) /\
  (forall i j, Forall (fun e => (i < be_dim e)%nat /\ (j < be_dim e)%nat) els -> i <> j ->
    rsuml keys (fun k => Rf k * spin (moved pos v) i j k) = - rsuml keys (fun k => body_force m pos 1 els v k * spin (disp_of d) i j k)).
Proof.
  intros cfg big slv EX m pos nn els loads fixes OK KN HK RGe fuel start end_ st E it Hit s v d Rf UF HB.
  destruct (body_newton cfg big slv EX m pos nn els [] (fun _ => []) loads fixes OK KN HK fuel start end_ st E) as (F & _).
  rewrite Forall_forall in F. apply (resultants big m pos els loads fixes it (F it Hit)); [|exact RGe|exact UF|exact HB].
  eapply Forall_impl; [|exact (bk_els _ _ _ _ _ _ OK)]. intros e He. apply He.
Qed.
Print Assumptions C147_resultants.
(* the first iteration of the square; a threshold of zero (every number that is not zero is "big") *)
Example C147_example : let big x := if Req_EM_T x 0 then false else true in
  exists st it, body_solve sq_cfg big slv1 1 4 sq_mat sq_pos [sq_el] [] (fun _ => []) 0 1 [] sq_fixes = Ok st /\ In it (nl_log st) /\ Forall (regular_geo sq_pos) [sq_el] /\
  let s := g_num (it_g it) in unflat sq_pos [sq_el] (vget (K := RNum) s (it_before it)) /\
  (forall k, In k (map bc_key sq_fixes) -> big (vget (K := RNum) s (it_d it) k) = false -> vget (K := RNum) s (it_d it) k = 0) /\
  vget (K := RNum) s (it_d it) (KNode, 2%nat, UX) = 1 / 2.
Proof.
  intros big. destruct (sq_solved big) as (st & E & _ & it & L & (U & D) & _). exists st, (fst it). split; [exact E|]. split; [rewrite L; now left|].
  split; [constructor; [exact sq_regular|constructor]|]. split; [exact U|]. split; [|exact D].
  intros k _ H. unfold big in H. destruct (Req_EM_T _ 0); [assumption|discriminate].
Qed.

(* ---------------- C148 ---------------- *)
(* whatever the body does, the solver comes to an end and accesses nothing outside its arrays: it either reports an error or returns *)
Theorem C148_ends : forall (cfg : nlset RG) (big : R -> bool) (u : nat -> list R), (forall n, length (u n) = n) ->
  forall (m : hyper) (pos : nat -> nat -> R) nn els mpcs mpf loads fixes, body_ok nn els mpcs mpf loads fixes -> known m -> hK m <> 0 ->
  (N.of_nat (nl_iters cfg) < 65536)%N ->
  forall start end_, start < end_ -> (nl_steps cfg <> 0)%nat -> exists N, forall fuel, (N <= fuel)%nat ->
  body_solve cfg big (gauss_slv (K := RG) u) fuel nn m pos els mpcs mpf start end_ loads fixes = Fatal \/
  exists st, body_solve cfg big (gauss_slv (K := RG) u) fuel nn m pos els mpcs mpf start end_ loads fixes = Ok st.
Proof.
  intros cfg big u HU m pos nn els mpcs mpf loads fixes OK KN HK HI start end_ HT HS.
  exact (body_ends cfg big (gauss_slv (K := RG) u) (gauss_exact RG RG_laws u HU) (gauss_safe u HU) m pos nn els mpcs mpf loads fixes OK KN HK HI start end_ HT HS).
Qed.
Print Assumptions C148_ends.
Example C148_example : body_ok 4 [sq_el] [] (fun _ => []) [] sq_fixes /\ known sq_mat /\ hK sq_mat <> 0 /\ (N.of_nat (nl_iters sq_cfg) < 65536)%N /\ (nl_steps sq_cfg <> 0)%nat /\
  forall n, length (zeros (K := RNum) n) = n.
Proof.
  split; [exact sq_ok|]. split; [apply known_nh|]. split; [cbn; lra|]. split; [reflexivity|]. split; [discriminate|]. intros n. apply repeat_length.
Qed.
