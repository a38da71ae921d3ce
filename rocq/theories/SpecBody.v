(* Hyperelastic bodies: internal forces, equilibrium, Newton's method *)
From Coq Require Import Reals.
Set Warnings "-ambiguous-paths".
From Coquelicot Require Import Coquelicot.
From Verif Require Import Base RealBase MatModel SparseModel BlockModel DofModel SpecDof AsmModel SpecAsm SolveModel SpecSolve GaussModel TimeModel
  NonlinModel IsoModel SpecIso ElemModel HyperModel SpecHyper StructModel SpecStruct SpecLaws SpecNewton BodyModel.
Local Open Scope R_scope.

Definition be_nn (e : body_el) : nat := match be_kind e with S81 => 8 | P41 => 4 end.
Definition be_dim (e : body_el) : nat := match be_kind e with S81 => 3 | P41 => 2 end.

Section Forces.
  Variables (m : hyper) (pos : nat -> nat -> R).
  (* deformation gradient where the shape functions have the gradients nx, for the DoF values v *)
  Definition be_F (v : key -> R) (e : body_el) (nx : nat -> nat -> R) : mat3 :=
    defgrad (match be_kind e with S81 => grad3 nx (arr (be_U v e)) | P41 => grad2 nx (arr (be_U v e)) end).
  (* internal force of element en at its node a in direction i: integral of P . grad N_a *)
  Definition node_row (v : key -> R) (en : nat) (e : body_el) (a i : nat) : R :=
    rsuml (be_geo pos e) (fun g => fst g * rsumn (be_dim e) (fun j => pk1 m (be_F v e (snd g)) (be_p v en) i j * snd g a j)).
  (* equation of the pressure: integral of J - 1 - p / k *)
  Definition vol_row (v : key -> R) (en : nat) (e : body_el) : R :=
    rsuml (be_geo pos e) (fun g => fst g * (Rabs (det3 (be_F v e (snd g))) - 1 - be_p v en / hK m)).
  (* everything element en does to DoF k *)
  Definition el_force (v : key -> R) (en : nat) (e : body_el) (k : key) : R :=
    rsumn (be_nn e) (fun a => rsumn (be_dim e) (fun i => if key_dec (KNode, nth a (be_nodes e) 0%nat, i) k then node_row v en e a i else 0))
    + (if key_dec (KEl, en, HYDRO_PRESSURE) k then vol_row v en e else 0).
  (* ... all elements, numbered from en *)
  Fixpoint body_force (en : nat) (els : list body_el) (v : key -> R) (k : key) : R :=
    match els with [] => 0 | e :: els => el_force v en e k + body_force (S en) els v k end.
  (* no integration point is flattened *)
  Definition unflat (els : list body_el) (v : key -> R) : Prop :=
    forall e g, In e els -> In g (be_geo pos e) -> det3 (be_F v e (snd g)) <> 0.
End Forces.

(* on the line through v along d *)
Definition along (v d : key -> R) (t : R) (k : key) : R := v k + t * d k.

(* One step of Newton's method for the equations
   internal force + force of the MPC equations = load at DoFs without prescribed value: the linear part of the internal forces
   at the state v before, taken at v + d, is in balance with the loads at the current time *)
Record newton_step (big : R -> bool) (m : hyper) (pos : nat -> nat -> R) (els : list body_el) (mpf : (key -> R) -> list (mpc RNum))
  (loads fixes : list (bc RNum)) (it : iter RG) : Prop := {
  nw_linear : let s := g_num (it_g it) in let v := vget (K := RNum) s (it_before it) in let d := vget (K := RNum) s (it_d it) in
    unflat pos els v ->
    exists D : key -> R,
      (forall k, is_derive (fun t => body_force m pos 1 els (along v d t) k) 0 (D k)) /\
      (forall k, In k (reg_keys (body_regs 1 els)) -> last_fix fixes k = None ->
        body_force m pos 1 els v k + D k + mpc_pull (K := RNum) (mults (K := RNum) s (it_d it)) (mpf v) k = total_load (K := RNum) loads k * it_time it) /\
      ((forall k, In k (map bc_key fixes) -> big (d k) = false -> d k = 0) -> forall k, In k (reg_keys (body_regs 1 els)) ->
        body_force m pos 1 els v k + D k + mpc_pull (K := RNum) (mults (K := RNum) s (it_d it)) (mpf v) k = vget (K := RNum) s (it_R it) k);
  nw_load : let s := g_num (it_g it) in forall k, In k (reg_keys (body_regs 1 els)) -> last_fix fixes k = None ->
    vget (K := RNum) s (it_R it) k = total_load (K := RNum) loads k * it_time it;
  nw_fix : let s := g_num (it_g it) in forall k y, last_fix fixes k = Some y -> vget (K := RNum) s (it_after it) k = y * it_time it;
  nw_upd : let s := g_num (it_g it) in forall k, In k (reg_keys (body_regs 1 els)) ->
    vget (K := RNum) s (it_after it) k = vget (K := RNum) s (it_before it) k + vget (K := RNum) s (it_d it) k;
  nw_mult : let s := g_num (it_g it) in mults (K := RNum) s (it_after it) = mults (K := RNum) s (it_d it);
  nw_mpc : let s := g_num (it_g it) in forall c, In c (mpf (vget (K := RNum) s (it_before it))) -> mpc_value (K := RNum) (vget (K := RNum) s (it_d it)) c = mp_b c }.

(* a well-posed problem: complete elements of nodes of the mesh; loads, prescribed values and MPC terms at DoFs of the body;
   the collections keep the DoFs of their equations *)
Definition be_ok (nn : nat) (e : body_el) : Prop :=
  length (be_nodes e) = be_nn e /\ NoDup (be_nodes e) /\ Forall (fun n => (1 <= n <= nn)%nat) (be_nodes e).
Record body_ok (nn : nat) (els : list body_el) (mpcs : list (mpc RNum)) (mpf : (key -> R) -> list (mpc RNum)) (loads fixes : list (bc RNum)) : Prop := {
  bk_els : Forall (be_ok nn) els;
  bk_loads : Forall (fun l => In (bc_key l) (reg_keys (body_regs 1 els))) loads;
  bk_fixes : Forall (fun f => In (bc_key f) (reg_keys (body_regs 1 els))) fixes;
  bk_free : exists k, In k (reg_keys (body_regs 1 els)) /\ ~ In k (map bc_key fixes);
  bk_terms : Forall (fun c => mp_terms c <> []) mpcs;
  bk_keys : forall c t, In c mpcs -> In t (mp_terms c) -> In (term_key t) (reg_keys (body_regs 1 els));
  bk_mpf : forall v, Forall2 same_terms mpcs (mpf v);
  bk_capacity : capacity_ok (K := RNum) nn (map be_nodes els) (body_regs 1 els) (map bc_key fixes) mpcs }.

(* exact equilibrium of the body with the loads at time t; l: multipliers of the MPC equations mps *)
Definition equilibrium (m : hyper) (pos : nat -> nat -> R) (els : list body_el) (mps : list (mpc RNum)) (loads fixes : list (bc RNum)) (t : R)
  (v : key -> R) (l : list R) : Prop :=
  forall k, In k (reg_keys (body_regs 1 els)) -> last_fix fixes k = None ->
    body_force m pos 1 els v k + mpc_pull (K := RNum) l mps k = total_load (K := RNum) loads k * t.

(* the Jacobian is regular at all integration points *)
Definition regular_geo (pos : nat -> nat -> R) (e : body_el) : Prop :=
  let p := at_nodes pos (be_nodes e) in
  match be_kind e with
  | S81 => forall r s t w, In (r, s, t, w) (quad_hex (i_int (be_ord e))) -> hex_det p (dec r) (dec s) (dec t) <> 0
  | P41 => forall r s w, In (r, s, w) (quad_quad (i_int (be_ord e))) -> quad_det p (dec r) (dec s) <> 0
  end.
(* displacement by 1 in direction i; rotation in the plane i, j of the nodes at x *)
Definition shift (i : nat) (k : key) : R := match k with (KNode, _, t) => if (t =? i)%nat then 1 else 0 | _ => 0 end.
Definition spin (x : nat -> nat -> R) (i j : nat) (k : key) : R :=
  match k with (KNode, n, t) => if (t =? j)%nat then x n i else if (t =? i)%nat then - x n j else 0 | _ => 0 end.
(* node positions after the displacement v *)
Definition moved (pos : nat -> nat -> R) (v : key -> R) (n i : nat) : R := pos n i + v (KNode, n, i).
Definition disp_of (v : key -> R) (n i : nat) : R := v (KNode, n, i).
