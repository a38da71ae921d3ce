(* Structures of TRUSS3 bars and TETRA0 tetrahedra solved by LinearFESolver: the elements (elements/TRUSS3.cpp,
   elements/TETRA0.cpp) put together with FESolver.cpp:337-397 and FEStorage::updateResults (FEStorage.cpp:571-577) *)
From Coq Require Import Reals.
From Verif Require Import Base RealBase MatModel SparseModel BlockModel DofModel SpecDof AsmModel SpecAsm SolveModel IsoModel ElemModel.
Local Open Scope R_scope.

Inductive member :=
| Bar (A E : R) (n1 n2 : nat)
| Tet (e : tetra0) (n1 n2 n3 n4 : nat).
Definition m_nodes (m : member) : list nat := match m with Bar _ _ a b => [a; b] | Tet _ a b c d => [a; b; c; d] end.
Definition uxyz : list nat := [UX; UY; UZ].
(* pre(): TRUSS3.cpp:9-13, TETRA0.cpp:11-15 *)
Definition m_regs (m : member) : list reg := map (fun n => (KNode, n, uxyz)) (m_nodes m).
(* pos n: coordinates of the node number n of the storage *)
Definition at_nodes (pos : nat -> nat -> R) (nodes : list nat) (i : nat) : nat -> R := pos (nth i nodes 0%nat).

(* buildK(): TRUSS3.cpp:16-60 (the matrix given to assembleK), TETRA0.cpp:18-78 *)
Definition build_member (pos : nat -> nat -> R) (m : member) : outcome (member * list (contrib RNum)) :=
  let p := at_nodes pos (m_nodes m) in
  match m with
  | Bar A E _ _ => Ok (m, [CKEigen (K := RNum) uxyz (map (fun i => map (truss_Ke A E p i) (seq 0 6)) (seq 0 6))])
  | Tet e a b c d =>
      r <- tet0_buildK p e ;;
      match r with (e', Ke, Fe) =>
        Ok (Tet e' a b c d, [match Fe with Some Fe => CKF (K := RNum) uxyz Ke Fe | None => CK (K := RNum) uxyz Ke end])
      end
  end.
(* update(): S of the bar (TRUSS3.cpp:64-97), strains and stresses of the tetrahedron (TETRA0.cpp:81-108);
   v k: solution of the DoF k *)
Inductive result := RBar (S : R) | RTet (e : tetra0).
Definition m_values (v : key -> R) (m : member) : list R := flat_map (fun n => map (fun t => v (KNode, n, t)) uxyz) (m_nodes m).
Definition update_member (pos : nat -> nat -> R) (v : key -> R) (m : member) : outcome result :=
  let p := at_nodes pos (m_nodes m) in
  match m with
  | Bar A E _ _ => Ok (RBar (truss_stress E p (fun i => nth i (m_values v m) 0)))
  | Tet e _ _ _ _ => e' <- tet0_update p e (m_values v m) ;; Ok (RTet e')
  end.

Fixpoint each {A B} (f : A -> outcome B) (l : list A) : outcome (list B) :=
  match l with [] => Ok [] | x :: l => y <- f x ;; r <- each f l ;; Ok (y :: r) end.

Section Run.
  Variable big : R -> bool.
  Variable slv : eqsolver RNum.
  (* the result: the solver's vectors and what the elements report *)
  Definition struct_solve (nn : nat) (pos : nat -> nat -> R) (ms : list member) (loads fixes : list (bc RNum)) : outcome (sol RNum * list result) :=
    b <- each (build_member pos) ms ;;
    st <- linear_solve (K := RNum) big slv nn (map m_nodes ms) (flat_map m_regs ms) (map snd b) [] loads fixes ;;
    rs <- each (fun m => update_member pos (fun k => nth (eqn (g_num (so_g st)) k - 1) (so_U st) 0) m) (map fst b) ;;
    Ok (st, rs).
End Run.
