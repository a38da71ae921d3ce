(* The program nla3d_truss: src/main_truss.cpp, over the reals *)
From Coq Require Import Reals.
From Verif Require Import Base RealBase SparseModel DofModel AsmModel SolveModel SpecDof SpecAsm IsoModel ElemModel StructModel.
Local Open Scope R_scope.

(* main_truss.cpp:24-41 *)
Definition tr_table : list (R * R) := [(0, 0); (16, 0); (16, 12); (32, 0); (32, 12)].
Definition tr_elements : list (nat * nat) := [(1, 3); (1, 2); (2, 3); (3, 5); (3, 4); (2, 5); (2, 4); (4, 5)]%nat.
(* 50-57: coordinates of node n times 12 *)
Definition tr_pos (n i : nat) : R :=
  let p := nth (n - 1) tr_table (0, 0) in
  match i with 0%nat => fst p * 12 | 1%nat => snd p * 12 | _ => 0 * 12 end.
(* 60-68 *)
Definition tr_members : list member := map (fun p => Bar 10 30000 (fst p) (snd p)) tr_elements.
(* 70-85 *)
Definition tr_fixes : list (bc RNum) :=
  map (fun n => mkBC (K := RNum) n UZ 0) (seq 1 5) ++
  [mkBC (K := RNum) 1 UX 0; mkBC (K := RNum) 1 UY 0; mkBC (K := RNum) 4 UX 0; mkBC (K := RNum) 4 UY 0].
Definition tr_loads : list (bc RNum) := [mkBC (K := RNum) 2 UY (-100); mkBC (K := RNum) 5 UX 50].
(* 121-128: the references *)
Definition tr_refs : list (nat * nat * R) :=
  [(2%nat, UX, 146067 / 10 ^ 7); (2%nat, UY, -1046405 / 10 ^ 7); (3%nat, UX, 27214 / 10 ^ 7); (3%nat, UY, -730729 / 10 ^ 7);
   (5%nat, UX, 55080 / 10 ^ 7); (5%nat, UY, -164325 / 10 ^ 7)].
(* CHECK(getNodeDofSolution(n, dof) - ref < 1.0e-7); v: the solution of the DoFs *)
Fixpoint tr_checks (v : key -> R) (refs : list (nat * nat * R)) : outcome unit :=
  match refs with
  | [] => Ok tt
  | (n, t, ref) :: refs => if Rlt_dec (v (KNode, n, t) - ref) (/ 10 ^ 7) then tr_checks v refs else Fatal
  end.
Definition main_truss (big : R -> bool) (slv : eqsolver RNum) : outcome (sol RNum * list result) :=
  r <- struct_solve big slv 5 tr_pos tr_members tr_loads tr_fixes ;;
  _ <- tr_checks (fun k => nth (eqn (g_num (so_g (fst r))) k - 1) (so_U (fst r)) 0) tr_refs ;;
  Ok r.
