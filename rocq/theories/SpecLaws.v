(* Laws of linear structures: the state of balance, combinations of load cases, other numberings, potential energy *)
From Coq Require Import Permutation.
From Verif Require Import Base SparseModel SpecSparse BlockModel SpecBlock DofModel SpecDof AsmModel SpecAsm SolveModel SpecSolve SpecBal.

Section Spec.
  Variable K : Num.
  Local Open Scope rng_scope.
  (* force of MPC equations with multipliers l on DoF k *)
  Definition mpc_pull (l : list K) (mpcs : list (mpc K)) (k : key) : K :=
    sumof (fun x => sumof (fun t => if key_dec (term_key t) k then snd t * fst x else 0) (mp_terms (snd x))) (combine l mpcs).
  Definition mpc_value (v : key -> K) (m : mpc K) : K := sumof (fun t => snd t * v (term_key t)) (mp_terms m).

  (* values v of the DoFs, multipliers l of the MPC equations, external forces r *)
  Record balanced (mesh : list (list nat)) (regs : list reg) (ks : list (list (contrib K))) (mpcs : list (mpc K)) (loads fixes : list (bc K))
    (v : key -> K) (l : list K) (r : key -> K) : Prop := {
    ba_mult : length l = length mpcs;
    ba_force : forall k, In k (reg_keys regs) -> sumof (force_on v k) (contribs mesh ks) + mpc_pull l mpcs k = r k;
    ba_load : forall k, In k (reg_keys regs) -> last_fix fixes k = None -> r k = total_load loads k;
    ba_fix : forall k y, last_fix fixes k = Some y -> v k = y;
    ba_mpc : forall m, In m mpcs -> mpc_value v m = mp_b m }.

  (* the result of the solver *)
  Definition sol_U (st : sol K) (k : key) : K := vget (g_num (so_g st)) (so_U st) k.
  Definition sol_R (st : sol K) (k : key) : K := vget (g_num (so_g st)) (so_R st) k.
  Definition sol_mult (st : sol K) : list K := map (fun e => nth (e - 1) (so_U st) 0) (map snd (ns_mpc (g_num (so_g st)))).

  Inductive Forall3 {A B C} (P : A -> B -> C -> Prop) : list A -> list B -> list C -> Prop :=
  | F3_nil : Forall3 P [] [] []
  | F3_cons a b c la lb lc : P a b c -> Forall3 P la lb lc -> Forall3 P (a :: la) (b :: lb) (c :: lc).
  (* the same element matrix (of an element with n nodal DoFs), load vector a times the first plus b times the second *)
  Definition comb_contrib (a b : K) (c1 c2 c3 : contrib K) : Prop :=
    match c1, c2, c3 with
    | CK t1 K1, CK t2 K2, CK t3 K3 => t1 = t3 /\ t2 = t3 /\ K1 = K3 /\ K2 = K3
    | CKF t1 K1 F1, CKF t2 K2 F2, CKF t3 K3 F3 =>
        t1 = t3 /\ t2 = t3 /\ K1 = K3 /\ K2 = K3 /\ forall p, nth p F3 0 = a * nth p F1 0 + b * nth p F2 0
    | CKEigen t1 K1, CKEigen t2 K2, CKEigen t3 K3 => t1 = t3 /\ t2 = t3 /\ K1 = K3 /\ K2 = K3
    | CMixed U1 P1 p1 F1 f1, CMixed U2 P2 p2 F2 f2, CMixed U3 P3 p3 F3 f3 =>
        U1 = U3 /\ U2 = U3 /\ P1 = P3 /\ P2 = P3 /\ p1 = p3 /\ p2 = p3 /\
        (forall p, nth p F3 0 = a * nth p F1 0 + b * nth p F2 0) /\ f3 = a * f1 + b * f2
    | CPlane41 K1 F1, CPlane41 K2 F2, CPlane41 K3 F3 =>
        K1 = K3 /\ K2 = K3 /\ forall p, nth p F3 0 = a * nth p F1 0 + b * nth p F2 0
    | _, _, _ => False
    end.
  (* the same element matrix *)
  Definition same_stiff (c1 c2 : contrib K) : Prop :=
    match c1, c2 with
    | CK t1 K1, CK t2 K2 | CKF t1 K1 _, CKF t2 K2 _ => t1 = t2 /\ K1 = K2
    | CKEigen t1 K1, CKEigen t2 K2 => t1 = t2 /\ K1 = K2
    | CMixed U1 P1 p1 _ _, CMixed U2 P2 p2 _ _ => U1 = U2 /\ P1 = P2 /\ p1 = p2
    | CPlane41 K1 _, CPlane41 K2 _ => K1 = K2
    | _, _ => False
    end.
  Definition comb_mpc (a b : K) (m1 m2 m3 : mpc K) : Prop :=
    mp_terms m1 = mp_terms m3 /\ mp_terms m2 = mp_terms m3 /\ mp_b m3 = a * mp_b m1 + b * mp_b m2.
  Definition comb_fix (a b : K) (o1 o2 o3 : option K) : Prop :=
    match o1, o2, o3 with
    | Some y1, Some y2, Some y3 => y3 = a * y1 + b * y2
    | None, None, None => True
    | _, _, _ => False
    end.

  (* nodes renumbered by p *)
  Definition ren_key (p : nat -> nat) (k : key) : key := match k with (KNode, n, t) => (KNode, p n, t) | (KEl, e, t) => (KEl, e, t) end.
  (* contributions for DoFs of nodes only *)
  Definition nodal (c : contrib K) : Prop := match c with CMixed _ _ _ _ _ | CPlane41 _ _ => False | _ => True end.
  Definition ren_mpc (p : nat -> nat) (m1 m2 : mpc K) : Prop :=
    mp_b m1 = mp_b m2 /\ Permutation (map (fun t => (ren_key p (term_key t), snd t)) (mp_terms m1)) (map (fun t => (term_key t, snd t)) (mp_terms m2)).
End Spec.
Arguments mpc_pull {K} _ _ _.
Arguments mpc_value {K} _ _.
Arguments balanced {K} _ _ _ _ _ _ _ _ _.
Arguments sol_U {K} _ _.
Arguments sol_R {K} _ _.
Arguments sol_mult {K} _.
Arguments comb_contrib {K} _ _ _ _ _.
Arguments same_stiff {K} _ _.
Arguments comb_mpc {K} _ _ _ _ _.
Arguments comb_fix {K} _ _ _ _ _.
Arguments nodal {K} _.
Arguments ren_mpc {K} _ _ _.
