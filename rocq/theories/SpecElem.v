(* Specification side of the linear elements: linear fields, strain, Hooke's law, virtual work. *)
From Coq Require Import Reals.
From Verif Require Import Base RealBase SpecAsm ElemModel SpecIso.
Local Open Scope R_scope.

(* the field c + G x in three (dim) coordinates, and its nodal values in the order of the equations *)
Definition lin (dim : nat) (c : nat -> R) (G : nat -> nat -> R) (x : nat -> R) (i : nat) : R :=
  c i + rsumn dim (fun j => G i j * x j).
Definition nodal (nn dim : nat) (u : (nat -> R) -> nat -> R) (pos : nat -> nat -> R) : list R :=
  flat_map (fun n => map (u (pos n)) (seq 0 dim)) (seq 0 nn).
(* a scalar field *)
Definition lin1 (c : R) (g : nat -> R) (x : nat -> R) : R := c + rsumn 3 (fun j => g j * x j).
Definition nodal1 (nn : nat) (T : (nat -> R) -> R) (pos : nat -> nat -> R) : list R := map (fun n => T (pos n)) (seq 0 nn).

(* volume of the tetrahedron and area of the triangle *)
Definition tetra_volume (pos : nat -> nat -> R) : R :=
  let d k i := pos k i - pos 0%nat i in triple (d 1%nat) (d 2%nat) (d 3%nat) / 6.
Definition triangle_area (pos : nat -> nat -> R) : R :=
  ((pos 1%nat 0%nat - pos 0%nat 0%nat) * (pos 2%nat 1%nat - pos 0%nat 1%nat) - (pos 2%nat 0%nat - pos 0%nat 0%nat) * (pos 1%nat 1%nat - pos 0%nat 1%nat)) / 2.

(* strain of a displacement gradient *)
Definition eps (G : nat -> nat -> R) (i j : nat) : R := (G i j + G j i) / 2.
(* component lists xx, yy, zz, xy, yz, xz; strains with the engineering shear 2 eps_ij *)
Definition strain6 (G : nat -> nat -> R) : list R :=
  [eps G 0 0; eps G 1 1; eps G 2 2; 2 * eps G 0 1; 2 * eps G 1 2; 2 * eps G 0 2].
Definition lame_l (E my : R) : R := E * my / ((1 + my) * (1 - 2 * my)).
Definition lame_m (E my : R) : R := E / (2 * (1 + my)).
(* Hooke's law: lambda tr(e) delta_ij + 2 mu e_ij *)
Definition hooke (E my : R) (e : nat -> nat -> R) (i j : nat) : R :=
  lame_l E my * (e 0%nat 0%nat + e 1%nat 1%nat + e 2%nat 2%nat) * dlt i j + 2 * lame_m E my * e i j.
Definition stress6 (E my : R) (G : nat -> nat -> R) : list R :=
  let s := hooke E my (eps G) in [s 0%nat 0%nat; s 1%nat 1%nat; s 2%nat 2%nat; s 0%nat 1%nat; s 1%nat 2%nat; s 0%nat 2%nat].
(* plane strain: the third row and column of the gradient are zero *)
Definition plane (G : nat -> nat -> R) (i j : nat) : R := if (i <? 2)%nat && (j <? 2)%nat then G i j else 0.
Definition strain3 (G : nat -> nat -> R) : list R := [eps G 0 0; eps G 1 1; 2 * eps G 0 1].
Definition stress3 (E my : R) (G : nat -> nat -> R) : list R :=
  let s := hooke E my (eps (plane G)) in [s 0%nat 0%nat; s 1%nat 1%nat; s 0%nat 1%nat].
(* plane stress: e33 such that s33 = 0 *)
Definition plane_stress_33 (my : R) (G : nat -> nat -> R) : R := - my / (1 - my) * (eps G 0 0 + eps G 1 1).
Definition stress3' (E my : R) (G : nat -> nat -> R) : list R :=
  let e i j := if (i =? 2)%nat && (j =? 2)%nat then plane_stress_33 my G else eps (plane G) i j in
  let s := hooke E my e in [s 0%nat 0%nat; s 1%nat 1%nat; s 0%nat 1%nat].
(* sum of s_ij e_ij over all nine components *)
Definition work (s e : nat -> nat -> R) : R := rsumn 3 (fun i => rsumn 3 (fun j => s i j * e i j)).

(* product of a packed symmetric matrix with nodal values; virtual work of the nodal forces *)
Definition kmul (n : nat) (Ke U : list R) (i : nat) : R := rsumn n (fun j => nth (sym_comp n i j) Ke 0 * nth j U 0).
Definition dot (n : nat) (f : nat -> R) (V : list R) : R := rsumn n (fun i => f i * nth i V 0).

(* rigid motion: G antisymmetric *)
Definition antisym (G : nat -> nat -> R) : Prop := forall i j, G i j = - G j i.

(* an element of TETRA0: its vectors have six components; one without initial strains and stresses *)
Definition tetra0_ok (e : tetra0) : Prop := length (t0_strains e) = 6%nat /\ length (t0_stress e) = 6%nat.
Definition fresh (e : tetra0) : Prop := t0_strains e = repeat 0 6 /\ t0_stress e = repeat 0 6.
(* load vector as a function, zero when there is none *)
Definition load (F : option (list R)) (i : nat) : R := match F with Some F => nth i F 0 | None => 0 end.
(* linear displacement field of free expansion by a in all directions, about any point, with any rigid motion added *)
Definition expansion (a : R) (W : nat -> nat -> R) (i j : nat) : R := a * dlt i j + W i j.

(* a bar: its unit axis and its elongation *)
Definition axis (pos : nat -> nat -> R) (i : nat) : R := (pos 1%nat i - pos 0%nat i) / dist3 (pos 0%nat) (pos 1%nat).
Definition elongation (pos : nat -> nat -> R) (U : nat -> R) : R :=
  rsumn 3 (fun i => (U (3 + i)%nat - U i) * axis pos i).

(* interface: ks along the surface, kn along the unit normal *)
Definition norm3 (n : nat -> R) : R := sqrt (n 0%nat ^ 2 + n 1%nat ^ 2 + n 2%nat ^ 2).
Definition unit3 (n : nat -> R) (i : nat) : R := n i / norm3 n.
Definition interface (ks kn : R) (n : nat -> R) (i j : nat) : R :=
  ks * (dlt i j - unit3 n i * unit3 n j) + kn * (unit3 n i * unit3 n j).
