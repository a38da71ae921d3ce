(* Potential energy of a linear structure *)
From Coq Require Import Reals.
From Verif Require Import Base RealBase SparseModel BlockModel DofModel SpecDof AsmModel SpecAsm SolveModel SpecSolve SpecBal SpecLaws IsoModel ElemModel StructModel SpecStruct.
Local Open Scope R_scope.

(* work of the loads, if they act on the displacement w in full *)
Definition work_of (loads : list (bc RNum)) (w : key -> R) : R := @sumof RNum _ (fun l : bc RNum => bc_val l * w (bc_key l)) loads.
(* strain energy less the work of element loads and loads *)
Definition energy (mesh : list (list nat)) (ks : list (list (contrib RNum))) (loads : list (bc RNum)) (w : key -> R) : R :=
  @sumof RNum _ (fun x => stiff_work (K := RNum) w w x / 2 - load_work (K := RNum) w x) (contribs (K := RNum) mesh ks) - work_of loads w.
(* displacements that respect supports and MPC equations *)
Definition admissible (mpcs : list (mpc RNum)) (fixes : list (bc RNum)) (w : key -> R) : Prop :=
  (forall k y, last_fix (K := RNum) fixes k = Some y -> w k = y) /\ (forall m, In m mpcs -> mpc_value (K := RNum) w m = mp_b m).
(* no element gives energy back *)
Definition no_gain (mesh : list (list nat)) (ks : list (list (contrib RNum))) : Prop :=
  forall x, In x (contribs (K := RNum) mesh ks) -> forall w, 0 <= stiff_work (K := RNum) w w x.
(* nothing but the loads acts: supports hold at zero, MPC equations have right hand side zero, elements have no load vector *)
Definition only_loads (mesh : list (list nat)) (ks : list (list (contrib RNum))) (mpcs : list (mpc RNum)) (fixes : list (bc RNum)) : Prop :=
  (forall k y, last_fix (K := RNum) fixes k = Some y -> y = 0) /\ (forall m, In m mpcs -> mp_b m = 0) /\
  (forall x, In x (contribs (K := RNum) mesh ks) -> forall w, load_work (K := RNum) w x = 0).

(* bars: axial stiffness not negative; the second bar at least as stiff *)
Definition bar_EA (m : member) : R := match m with Bar A E _ _ => A * E | _ => 0 end.
Definition stiffer (m1 m2 : member) : Prop := m_nodes m1 = m_nodes m2 /\ bar_EA m1 <= bar_EA m2.
