(* Heat conduction in time: QUADTH and SurfaceLINETH (elements/QUADTH.cpp) solved by LinearTransientFESolver (FESolver.cpp:532-642);
   FEStorage.cpp:66-78 calls buildK, buildC and buildM of every element *)
From Coq Require Import Reals.
From Verif Require Import Base RealBase MatModel SparseModel BlockModel DofModel SpecDof AsmModel SpecAsm SolveModel GaussModel TransModel IsoModel ElemModel ThermModel
  StructModel SpecStruct HeatModel.
Local Open Scope R_scope.

(* an element with rho and c (QUADTH.h:30-33), meaningless for the others *)
Definition thermal : Type := (hmember * R * R)%type.
Definition th_m (x : thermal) : hmember := fst (fst x).
Definition th_rho (x : thermal) : R := snd (fst x).
Definition th_c (x : thermal) : R := snd x.
(* buildC() and buildM(): QUADTH.cpp:50-66, QUADTH.h:25,48,49; TETRA1 has none: element.cpp:63-70 *)
Definition h_damp (pos : nat -> nat -> R) (x : thermal) : outcome (list (contrib RNum)) :=
  match th_m x with
  | HTet _ _ _ _ _ => Fatal
  | HQuad ord _ _ _ _ _ _ => Ok [CC (K := RNum) temps (quadth_C ord (th_rho x) (th_c x) (at_nodes pos (h_nodes (th_m x))))]
  | HLine _ _ _ _ _ _ => Ok []
  end.

Section Run.
  Variable big : R -> bool.
  Variable slv : eqsolver RNum.
  (* update() of these elements does nothing *)
  Definition heat_trans (fuel : nat) (cfg : trset RG) (nn : nat) (pos : nat -> nat -> R) (xs : list thermal) (loads fixes : list (bc RNum)) :
    outcome (gst RNum * list R * TransModel.motion RNum * list (TransModel.motion RNum)) :=
    let ms := map th_m xs in
    ks <- each (h_build pos) ms ;;
    cs <- each (h_damp pos) xs ;;
    trans_solve (K := RG) fuel cfg big slv nn (map h_nodes ms) (flat_map h_regs ms) (map (fun c => [c]) ks) cs [] loads fixes.
End Run.
