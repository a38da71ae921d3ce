(* What boundary conditions and the solution are expected to do *)
From Verif Require Import Base SparseModel SpecSparse BlockModel SpecBlock DofModel SpecDof AsmModel SpecAsm SolveModel.

Section Spec.
  Variable K : Num.
  Local Open Scope rng_scope.
  (* value of DoF x (equation number from 1) in a vector *)
  Definition vget (s : numst) (V : list K) (x : key) : K := nth (eqn s x - 1) V 0.
  (* all loads given for x *)
  Definition total_load (loads : list (bc K)) (x : key) : K :=
    sumof (fun l => if key_dec (bc_key l) x then bc_val l else 0) loads.
  (* the last prescribed value of x *)
  Definition last_fix (fixes : list (bc K)) (x : key) : option K :=
    fold_left (fun o f => if key_dec (bc_key f) x then Some (bc_val f) else o) fixes None.

  (* the solver returns only exact solutions *)
  Definition exact_solver (slv : eqsolver K) : Prop :=
    forall m n A b x, si_nrows (sm_si m) = n ->
      (forall i j, in_shape n n (i, j) -> sym_value m i j = Ok (A i j)) -> length b = n ->
      slv m b = Ok x -> length x = n /\ forall i, (i < n)%nat -> mv A n x (S i) = nth i b 0.
End Spec.
Arguments vget {K} _ _ _.
Arguments total_load {K} _ _.
Arguments last_fix {K} _ _.
Arguments exact_solver {K} _.

(* a complete linear static problem *)
Record good_linear {K : Num} (nn : nat) (mesh : list (list nat)) (regs : list reg)
  (ks : list (list (contrib K))) (mpcs : list (mpc K)) (loads fixes : list (bc K)) : Prop := {
  gl_problem : good_problem nn mesh regs (map bc_key fixes) mpcs;
  gl_capacity : capacity_ok nn mesh regs (map bc_key fixes) mpcs;
  gl_contribs : good_contribs mesh regs ks;
  gl_only : only_K ks;
  gl_loads : Forall (fun l => In (bc_key l) (reg_keys regs)) loads }.
