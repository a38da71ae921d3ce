(* Heat conduction in time *)
From Coq Require Import Reals.
From Verif Require Import Base RealBase MatModel SparseModel BlockModel DofModel SpecDof AsmModel SpecAsm SolveModel SpecSolve GaussModel TransModel SpecTrans SpecTransKeys
  IsoModel SpecIso ElemModel SpecElem ThermModel SpecTherm StructModel SpecStruct HeatModel SpecHeat HeatTransModel.
Local Open Scope R_scope.

(* heat stored in an element at the temperatures v, and the square of the temperature in the same measure *)
Definition content (pos : nat -> nat -> R) (v : key -> R) (x : thermal) : R :=
  match th_m x with
  | HQuad ord _ _ _ _ _ _ => th_rho x * th_c x * quad_sum (i_int ord) (fun r s => quad_det (at_nodes pos (h_nodes (th_m x))) r s * field (h_values v (th_m x)) r s)
  | _ => 0
  end.
Definition squares (pos : nat -> nat -> R) (v : key -> R) (x : thermal) : R :=
  match th_m x with
  | HQuad ord _ _ _ _ _ _ => th_rho x * th_c x * quad_sum (i_int ord) (fun r s => quad_det (at_nodes pos (h_nodes (th_m x))) r s * (field (h_values v (th_m x)) r s * field (h_values v (th_m x)) r s))
  | _ => 0
  end.
Definition stored (pos : nat -> nat -> R) (xs : list thermal) (v : key -> R) : R := @sumof RNum _ (content pos v) xs.
Definition warmth (pos : nat -> nat -> R) (xs : list thermal) (v : key -> R) : R := @sumof RNum _ (squares pos v) xs.
(* heat produced in the element and entering through its edge at the temperatures v *)
Definition source_at (pos : nat -> nat -> R) (v : key -> R) (m : hmember) : R :=
  match m with
  | HTet _ _ _ _ _ => 0
  | HQuad ord _ vf _ _ _ _ => vf * (quad_unit ord * shoelace (at_nodes pos (h_nodes m)))
  | HLine ord flux htc e a b =>
      dist3 (pos a) (pos b) * (flux + htc * ((fst (line_pre e) + snd (line_pre e)) / 2 - (v (KNode, a, TEMP) + v (KNode, b, TEMP)) / 2))
  end.
Definition input (pos : nat -> nat -> R) (xs : list thermal) (loads : list (bc RNum)) (v : key -> R) : R :=
  @sumof RNum _ (fun x => source_at pos v (th_m x)) xs + @sumof RNum _ (fun l => bc_val (K := RNum) l) loads.
(* the rate of v that a step from st to st' works with *)
Definition rate (cfg : trset RG) (g : gst RNum) (st st' : TransModel.motion RNum) (k : key) : R :=
  mV g st k + tr_dt cfg * ((1 - tr_delta cfg) * mA g st k + tr_delta cfg * mA g st' k).
(* edges and quadrangles only *)
Definition plane (m : hmember) : Prop := match m with HTet _ _ _ _ _ => False | _ => True end.
(* heat capacity that is not negative *)
Definition capacious (x : thermal) : Prop := 0 <= th_rho x * th_c x.
(* quadrangles that produce no heat, integrated with two or three points a side *)
Definition conducting (m : hmember) : Prop := match m with HQuad ord k vf _ _ _ _ => 0 < k /\ vf = 0 /\ (2 <= ord)%nat | _ => False end.
