(* What the nonlinear solution is expected to do *)
From Coq Require Import NArith QArith Qcanon.
From Verif Require Import Base SparseModel SpecSparse BlockModel SpecBlock DofModel SpecDof AsmModel SpecAsm SolveModel SpecSolve
  GaussModel SpecGauss TimeModel NonlinModel.
Local Open Scope nat_scope.

(* elements hand over consistent matrices; MPC collections do not change the DoFs of their equations *)
Definition good_physics {K : GNum} {E} (ph : physics K E) (mesh : list (list nat)) (regs : list reg)
  (mpcs : list (mpc K)) : Prop :=
  forall e U e' ks mpcs', ph_asm ph e U = Ok (e', (ks, mpcs')) ->
    good_contribs mesh regs ks /\ only_K ks /\ Forall2 same_terms mpcs mpcs'.

(* a complete problem *)
Record good_nonlin {K : GNum} {E} (ph : physics K E) (nn : nat) (mesh : list (list nat)) (regs : list reg)
  (mpcs : list (mpc K)) (loads fixes : list (bc K)) : Prop := {
  gn_problem : good_problem nn mesh regs (map bc_key fixes) mpcs;
  gn_capacity : capacity_ok nn mesh regs (map bc_key fixes) mpcs;
  gn_physics : good_physics ph mesh regs mpcs;
  gn_loads : Forall (fun l => In (bc_key l) (reg_keys regs)) loads }.

(* A correct equilibrium iteration: the equations are those the elements give for the DoF values
   before it; the increments solve them; DoF values are incremented (multipliers replaced);
   boundary conditions are those for the current time; MPC equations hold for the increments.
   Rows of constrained DoFs define the reactions; matBVprod drops factors <= 1e-20 there (C06). *)
Record good_iter {K : GNum} {E} (ph : physics K E) (big : K -> bool) (regs : list reg)
  (loads fixes : list (bc K)) (it : iter K) : Prop := {
  gt_assembled : exists e e' ks mpcs g0, ph_asm ph e (it_before it) = Ok (e', (ks, mpcs)) /\
    assembleGlobal g0 ks [] mpcs = Ok (it_g it) /\
    forall en m, In (en, m) (mpc_list (g_num (it_g it)) mpcs) ->
      sumof (fun t => rmul (snd t) (vget (g_num (it_g it)) (it_d it) (term_key t))) (mp_terms m) = mp_b m;
  gt_size : g_size (it_g it) = length (it_before it) /\ length (it_d it) = g_size (it_g it) /\
    length (it_after it) = g_size (it_g it) /\ length (it_R it) = g_size (it_g it);
  gt_system : exists Kf, let N := g_size (it_g it) in
    (forall a b, 1 <= a <= N -> 1 <= b <= N -> gvalue (g_K (it_g it)) a b = Ok (Kf a b)) /\
    (forall a, ns_ncon (g_num (it_g it)) < a <= N ->
       mv Kf N (it_d it) a = radd (nth (a - 1) (g_F (it_g it)) r0) (nth (a - 1) (it_R it) r0)) /\
    ((forall v, In v (firstn (ns_ncon (g_num (it_g it))) (it_d it)) -> big v = false -> v = r0) ->
     forall a, 1 <= a <= N ->
       mv Kf N (it_d it) a = radd (nth (a - 1) (g_F (it_g it)) r0) (nth (a - 1) (it_R it) r0));
  gt_update : (forall i, i < ns_ndofs (g_num (it_g it)) ->
      nth i (it_after it) r0 = radd (nth i (it_before it) r0) (nth i (it_d it) r0)) /\
    (forall i, ns_ndofs (g_num (it_g it)) <= i < g_size (it_g it) -> nth i (it_after it) r0 = nth i (it_d it) r0);
  gt_bc : forall x, In x (reg_keys regs) ->
    match last_fix fixes x with
    | Some v => vget (g_num (it_g it)) (it_after it) x = rmul v (it_time it)
    | None => vget (g_num (it_g it)) (it_R it) x = rmul (total_load loads x) (it_time it)
    end }.

(* mean absolute increment of the unknown DoFs *)
Definition mean_increment {K : GNum} (it : iter K) : K :=
  let s := g_num (it_g it) in
  gdiv (abs_sum (seg (it_d it) (ns_ncon s) (ns_nunk s))) (gnat (ns_nunk s)).

(* every iteration continues where the one before stopped *)
Fixpoint chain {K : GNum} (U0 : list K) (log : list (iter K)) (U : list K) : Prop :=
  match log with
  | [] => U = U0
  | it :: log => it_before it = U0 /\ chain (it_after it) log U
  end.
