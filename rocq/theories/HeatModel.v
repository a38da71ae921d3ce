(* Heat conduction solved by LinearFESolver: TETRA1 (elements/TETRA1.cpp), QUADTH and SurfaceLINETH (elements/QUADTH.cpp)
   put together with FESolver.cpp:337-397 and FEStorage::updateResults (FEStorage.cpp:571-577) *)
From Coq Require Import Reals.
From Verif Require Import Base RealBase MatModel SparseModel BlockModel DofModel SpecDof AsmModel SpecAsm SolveModel IsoModel ElemModel ThermModel StructModel.
Local Open Scope R_scope.

(* Dof.h: the temperature is type number 7 *)
Definition TEMP : nat := 7.
Inductive hmember :=
| HTet (k : R) (n1 n2 n3 n4 : nat)
| HQuad (ord : nat) (k volFlux : R) (n1 n2 n3 n4 : nat)
| HLine (ord : nat) (flux htc : R) (etemp : R * R) (n1 n2 : nat).
Definition h_nodes (m : hmember) : list nat :=
  match m with HTet _ a b c d => [a; b; c; d] | HQuad _ _ _ a b c d => [a; b; c; d] | HLine _ _ _ _ a b => [a; b] end.
Definition temps : list nat := [TEMP].
(* pre(): TETRA1.cpp:11-15, QUADTH.cpp:11-19, QUADTH.cpp:78-94 *)
Definition h_regs (m : hmember) : list reg := map (fun n => (KNode, n, temps)) (h_nodes m).
(* buildK(): TETRA1.cpp:18-57, QUADTH.cpp:22-47, QUADTH.cpp:97-131; etemp as pre() leaves it *)
Definition h_build (pos : nat -> nat -> R) (m : hmember) : outcome (contrib RNum) :=
  let p := at_nodes pos (h_nodes m) in
  match m with
  | HTet k _ _ _ _ => Ke <- tet1_buildK p k ;; Ok (CK (K := RNum) temps Ke)
  | HQuad ord k vf _ _ _ _ => r <- quadth_K ord k vf p ;; Ok (CKF (K := RNum) temps (fst r) (snd r))
  | HLine ord flux htc e _ _ => r <- lineth_K ord flux htc (line_pre e) p ;; Ok (CKF (K := RNum) temps (fst r) (snd r))
  end.
Definition h_values (v : key -> R) (m : hmember) : list R := map (fun n => v (KNode, n, TEMP)) (h_nodes m).
(* update(): flux of the tetrahedron (TETRA1.cpp:60-78), nothing for the others (QUADTH.h) *)
Definition h_update (pos : nat -> nat -> R) (v : key -> R) (m : hmember) : outcome (list R) :=
  match m with HTet k _ _ _ _ => tet1_update (at_nodes pos (h_nodes m)) k (h_values v m) | _ => Ok [] end.

Section Run.
  Variable big : R -> bool.
  Variable slv : eqsolver RNum.
  (* the solver's vectors and the fluxes of the elements *)
  Definition heat_solve (nn : nat) (pos : nat -> nat -> R) (ms : list hmember) (loads fixes : list (bc RNum)) : outcome (sol RNum * list (list R)) :=
    cs <- each (h_build pos) ms ;;
    st <- linear_solve (K := RNum) big slv nn (map h_nodes ms) (flat_map h_regs ms) (map (fun c => [c]) cs) [] loads fixes ;;
    rs <- each (h_update pos (fun k => nth (eqn (g_num (so_g st)) k - 1) (so_U st) 0)) ms ;;
    Ok (st, rs).
End Run.
