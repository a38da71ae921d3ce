(* Structures of bars and tetrahedra *)
From Coq Require Import Reals.
From Verif Require Import Base RealBase MatModel SparseModel BlockModel DofModel SpecDof AsmModel SpecAsm SolveModel SpecSolve GaussModel IsoModel SpecIso
  ElemModel SpecElem StructModel.
Local Open Scope R_scope.

(* bars of positive length, tetrahedra of nonzero volume, nodes of the mesh *)
Definition m_ok (nn : nat) (pos : nat -> nat -> R) (m : member) : Prop :=
  NoDup (m_nodes m) /\ Forall (fun n => (1 <= n <= nn)%nat) (m_nodes m) /\
  let p := at_nodes pos (m_nodes m) in
  match m with
  | Bar _ _ _ _ => exists i, (i < 3)%nat /\ p 1%nat i <> p 0%nat i
  | Tet e _ _ _ _ => tetra0_ok e /\ tetra_volume p <> 0
  end.
(* node n belongs to the structure *)
Definition s_node (ms : list member) (n : nat) : Prop := exists m, In m ms /\ In n (m_nodes m).
Definition s_key (ms : list member) (k : key) : Prop := match k with (KNode, n, t) => s_node ms n /\ (t < 3)%nat | _ => False end.
Record struct_ok (nn : nat) (pos : nat -> nat -> R) (ms : list member) (loads fixes : list (bc RNum)) : Prop := {
  sk_members : Forall (m_ok nn pos) ms;
  sk_loads : Forall (fun l => s_key ms (bc_key l)) loads;
  sk_fixes : Forall (fun f => s_key ms (bc_key f)) fixes;
  sk_free : exists k, s_key ms k /\ ~ In k (map bc_key fixes);
  sk_capacity : capacity_ok (K := RNum) nn (map m_nodes ms) (flat_map m_regs ms) (map bc_key fixes) [] }.
(* prescribed displacements are zero or not below the threshold of sym_BVprod *)
Definition plain_fixes (big : R -> bool) (fixes : list (bc RNum)) : Prop :=
  forall k v, last_fix fixes k = Some v -> big v = false -> v = 0.

(* rigid motions, as displacement of the DoFs *)
Definition motion (pos : nat -> nat -> R) (c : nat -> R) (W : nat -> nat -> R) (k : key) : R :=
  match k with (_, n, t) => lin 3 c W (pos n) t end.
(* displacement of DoF k, external force (load or reaction) at DoF k after the solution *)
Definition disp (st : sol RNum) (k : key) : R := vget (g_num (so_g st)) (so_U st) k.
Definition ext (st : sol RNum) (k : key) : R := vget (g_num (so_g st)) (so_R st) k.

(* pull of a bar with stress S on node n in direction i, along its axis *)
Definition pull (pos : nat -> nat -> R) (m : member) (S : R) (n i : nat) : R :=
  match m with
  | Bar A _ a b => S * A * axis (at_nodes pos [a; b]) i * ((if (b =? n)%nat then 1 else 0) - (if (a =? n)%nat then 1 else 0))
  | _ => 0
  end.
Definition is_bar (m : member) : Prop := match m with Bar _ _ _ _ => True | _ => False end.
(* the numbers of the default equation solver *)
Definition Rltb (a b : R) : bool := if Rlt_dec a b then true else false.
Definition RG : GNum := mkGNum RNum Rdiv Rabs Rltb (/ 10 ^ 20).
(* members that are free of forces when everything expands by a: tetrahedra heated to that expansion; bars only for a = 0 *)
Definition expands (a : R) (m : member) : Prop :=
  match m with Bar _ _ _ _ => a = 0 | Tet e _ _ _ _ => fresh e /\ t0_alpha e * t0_T e = a end.
(* what the members report then *)
Definition reports (G : nat -> nat -> R) (m : member) (r : result) : Prop :=
  match m, r with
  | Bar _ _ _ _, RBar s => s = 0
  | Tet e _ _ _ _, RTet e2 => 1 + t0_my e <> 0 -> 1 - 2 * t0_my e <> 0 -> t0_strains e2 = strain6 G /\ t0_stress e2 = stress6 (t0_E e) (t0_my e) G
  | _, _ => False
  end.

(* change of the distance of the two nodes of a bar, to first order *)
Definition stretch (pos : nat -> nat -> R) (v : key -> R) (m : member) : R :=
  match m with
  | Bar _ _ a b => rsumn 3 (fun i => (v (KNode, b, i) - v (KNode, a, i)) * ((pos b i - pos a i) / dist3 (pos a) (pos b)))
  | _ => 0
  end.
(* stress of the bar from it *)
Definition bar_stress (pos : nat -> nat -> R) (v : key -> R) (m : member) : R :=
  match m with Bar _ E a b => E * (stretch pos v m / dist3 (pos a) (pos b)) | _ => 0 end.
(* work done on a bar by moving its ends by v with the forces of the displacement u *)
Definition bar_work (pos : nat -> nat -> R) (u v : key -> R) (m : member) : R :=
  match m with Bar A E a b => A * E / dist3 (pos a) (pos b) * stretch pos u m * stretch pos v m | _ => 0 end.
