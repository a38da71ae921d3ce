(* Heat conduction: balance of heat, linear temperature fields *)
From Coq Require Import Reals Permutation.
From Verif Require Import Base RealBase MatModel SparseModel BlockModel DofModel SpecDof AsmModel SpecAsm SolveModel SpecSolve GaussModel IsoModel SpecIso
  ElemModel SpecElem ThermModel SpecTherm StructModel SpecStruct HeatModel.
Local Open Scope R_scope.

(* tetrahedra of nonzero volume, quadrangles with positive determinants, edges of positive length *)
Definition h_ok (nn : nat) (pos : nat -> nat -> R) (m : hmember) : Prop :=
  NoDup (h_nodes m) /\ Forall (fun n => (1 <= n <= nn)%nat) (h_nodes m) /\
  let p := at_nodes pos (h_nodes m) in
  match m with
  | HTet _ _ _ _ _ => tetra_volume p <> 0
  | HQuad ord _ _ _ _ _ _ => good_quad ord p
  | HLine _ _ _ _ _ _ => exists i, (i < 3)%nat /\ p 1%nat i <> p 0%nat i
  end.
Definition h_node (ms : list hmember) (n : nat) : Prop := exists m, In m ms /\ In n (h_nodes m).
Definition h_key (ms : list hmember) (k : key) : Prop := match k with (KNode, n, t) => h_node ms n /\ t = TEMP | _ => False end.
Record heat_ok (nn : nat) (pos : nat -> nat -> R) (ms : list hmember) (loads fixes : list (bc RNum)) : Prop := {
  hk_members : Forall (h_ok nn pos) ms;
  hk_loads : Forall (fun l => h_key ms (bc_key l)) loads;
  hk_fixes : Forall (fun f => h_key ms (bc_key f)) fixes;
  hk_free : exists k, h_key ms k /\ ~ In k (map bc_key fixes);
  hk_capacity : capacity_ok (K := RNum) nn (map h_nodes ms) (flat_map h_regs ms) (map bc_key fixes) [] }.
(* temperature of node n, heat supplied at node n from outside (prescribed or needed to keep its temperature) *)
Definition temp (st : sol RNum) (n : nat) : R := disp st (KNode, n, TEMP).
Definition supply (st : sol RNum) (n : nat) : R := ext st (KNode, n, TEMP).
Definition temp_nodes (ms : list hmember) : list nat := nodup Nat.eq_dec (flat_map h_nodes ms).

(* heat produced in the element and entering through its edge *)
Definition source (pos : nat -> nat -> R) (st : sol RNum) (m : hmember) : R :=
  match m with
  | HTet _ _ _ _ _ => 0
  | HQuad ord _ vf _ _ _ _ => vf * (quad_unit ord * shoelace (at_nodes pos (h_nodes m)))
  | HLine ord flux htc e a b =>
      dist3 (pos a) (pos b) * (flux + htc * ((fst (line_pre e) + snd (line_pre e)) / 2 - (temp st a + temp st b) / 2))
  end.

(* the face opposite to corner l of a tetrahedron and its directed edges *)
Definition opposite (nodes : list nat) (l : nat) : list nat :=
  let n i := nth i nodes 0%nat in
  match l with 0%nat => [n 1%nat; n 2%nat; n 3%nat] | 1%nat => [n 0%nat; n 3%nat; n 2%nat] | 2%nat => [n 0%nat; n 1%nat; n 3%nat] | _ => [n 0%nat; n 2%nat; n 1%nat] end.
Definition edges (f : list nat) : list (nat * nat) := match f with [a; b; c] => [(a, b); (b, c); (c, a)] | _ => [] end.
Definition link (tets : list (list nat)) (n : nat) : list (nat * nat) :=
  flat_map (fun nodes => flat_map (fun l => if (nth l nodes 0 =? n)%nat then edges (opposite nodes l) else []) (seq 0 4)) tets.
Definition swap (e : nat * nat) : nat * nat := (snd e, fst e).
(* node n is inside of a mesh of tetrahedra: every face at n belongs to two of them, lying on its two sides *)
Definition inner3 (tets : list (list nat)) (n : nat) : Prop := Permutation (link tets n) (map swap (link tets n)).
(* the same for quadrangles: neighbours of n in front of it and behind it *)
Definition around (quads : list (list nat)) (n : nat) : list (nat * nat) :=
  flat_map (fun nodes => flat_map (fun l => if (nth l nodes 0 =? n)%nat then [(nth (next l) nodes 0%nat, nth (prev l) nodes 0%nat)] else []) (seq 0 4)) quads.
Definition inner2 (quads : list (list nat)) (n : nat) : Prop := Permutation (map fst (around quads n)) (map snd (around quads n)).

(* bodies of one material *)
Definition tet_of (k : R) (m : hmember) : Prop := match m with HTet k' _ _ _ _ => k' = k | _ => False end.
Definition quad_of (ord : nat) (k : R) (m : hmember) : Prop := match m with HQuad o k' vf _ _ _ _ => o = ord /\ k' = k /\ vf = 0 | _ => False end.
Definition lin2 (c : R) (g : nat -> R) (x : nat -> R) : R := c + rsumn 2 (fun i => g i * x i).
Definition solid_of (E my a : R) (m : member) : Prop :=
  match m with Tet e _ _ _ _ => t0_E e = E /\ t0_my e = my /\ fresh e /\ t0_alpha e * t0_T e = a | _ => False end.

(* nothing but conduction, surroundings of temperature e *)
Definition settled (e : R) (m : hmember) : Prop :=
  match m with HTet _ _ _ _ _ => True | HQuad _ _ vf _ _ _ _ => vf = 0 | HLine _ flux htc et _ _ => flux = 0 /\ (htc = 0 \/ fst et = e /\ snd et = e) end.
(* no exchange with the surroundings that depends on the temperature *)
Definition isolated (m : hmember) : Prop := match m with HLine _ _ htc _ _ _ => htc = 0 | _ => True end.
(* conducting bodies in surroundings of temperature zero *)
Definition cools (m : hmember) : Prop :=
  match m with HTet _ _ _ _ _ => False | HQuad _ k vf _ _ _ _ => 0 < k /\ vf = 0 | HLine _ flux htc e _ _ => flux = 0 /\ 0 <= htc /\ fst e = 0 /\ snd e = 0 end.
Definition right_tet (pos : nat -> nat -> R) (m : hmember) : Prop :=
  match m with HTet k _ _ _ _ => 0 < k /\ 0 < tetra_volume (at_nodes pos (h_nodes m)) | _ => False end.
