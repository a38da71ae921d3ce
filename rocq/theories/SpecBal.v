(* Balance of forces: what the solution of an assembled problem means for the nodes and for the whole structure *)
From Verif Require Import Base SparseModel SpecSparse BlockModel SpecBlock DofModel SpecDof AsmModel SpecAsm SolveModel SpecSolve.

Section Spec.
  Variable K : Num.
  Local Open Scope rng_scope.
  (* row p of the element matrix times the values v of the DoFs *)
  Definition elem_stiff (v : key -> K) (x : nat * list nat * contrib K) (p : nat) : K :=
    match x with (en, nodes, c) =>
      sumof (fun q => cmat (cdim nodes c) c p q * v (nth q (ckeys en nodes c) dkey)) (seq 0 (length (ckeys en nodes c))) end.
  (* the force needed to hold DoF p of the element at the values v: row p of Ke * v - Fe *)
  Definition elem_force (v : key -> K) (x : nat * list nat * contrib K) (p : nat) : K :=
    match x with (en, nodes, c) => elem_stiff v x p - cvec (cdim nodes c) c p end.
  Definition x_keys (x : nat * list nat * contrib K) : list key := match x with (en, nodes, c) => ckeys en nodes c end.
  (* all rows of the element that belong to DoF k *)
  Definition force_on (v : key -> K) (k : key) (x : nat * list nat * contrib K) : K :=
    sumof (fun p => if key_dec (nth p (x_keys x) dkey) k then elem_force v x p else 0) (seq 0 (length (x_keys x))).
  Definition stiff_on (v : key -> K) (k : key) (x : nat * list nat * contrib K) : K :=
    sumof (fun p => if key_dec (nth p (x_keys x) dkey) k then elem_stiff v x p else 0) (seq 0 (length (x_keys x))).
  (* forces of the MPC equations: Lagrange multiplier times coefficient *)
  Definition mpc_on (s : numst) (U : list K) (mpcs : list (mpc K)) (k : key) : K :=
    sumof (fun x => sumof (fun t => if key_dec (term_key t) k then snd t * nth (fst x - 1) U 0 else 0) (mp_terms (snd x)))
      (mpc_list s mpcs).
  (* work of the element's stiffness forces at v on the displacement w, and of its load vector *)
  Definition stiff_work (v w : key -> K) (x : nat * list nat * contrib K) : K :=
    sumof (fun p => elem_stiff v x p * w (nth p (x_keys x) dkey)) (seq 0 (length (x_keys x))).
  Definition load_work (w : key -> K) (x : nat * list nat * contrib K) : K :=
    match x with (en, nodes, c) => sumof (fun p => cvec (cdim nodes c) c p * w (nth p (ckeys en nodes c) dkey)) (seq 0 (length (ckeys en nodes c))) end.
  (* work of everything that acts on a solved problem on the displacement w: loads and reactions, element loads,
     less the part of the multipliers of the MPC equations *)
  Definition outer_work (mesh : list (list nat)) (regs : list reg) (ks : list (list (contrib K))) (mpcs : list (mpc K)) (st : sol K) (w : key -> K) : K :=
    sumof (fun k => vget (g_num (so_g st)) (so_R st) k * w k) (reg_keys regs) + sumof (load_work w) (contribs mesh ks) -
    sumof (fun x => nth (fst x - 1) (so_U st) 0 * mp_b (snd x)) (mpc_list (g_num (so_g st)) mpcs).
End Spec.
Arguments elem_stiff {K} _ _ _.
Arguments elem_force {K} _ _ _.
Arguments x_keys {K} _.
Arguments force_on {K} _ _ _.
Arguments stiff_on {K} _ _ _.
Arguments mpc_on {K} _ _ _ _.
Arguments stiff_work {K} _ _ _.
Arguments load_work {K} _ _.
Arguments outer_work {K} _ _ _ _ _ _.
