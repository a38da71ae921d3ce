(* Structures of bars and tetrahedra turned in space *)
From Coq Require Import Reals.
From Verif Require Import Base RealBase ElemModel SpecElem StructModel SpecTurned.
Local Open Scope R_scope.

(* tetrahedra without initial strains and stresses (as created; thermal strains are allowed) *)
Definition new (m : member) : Prop := match m with Bar _ _ _ _ => True | Tet e _ _ _ _ => fresh e end.
(* the symmetric tensor of a component list xx, yy, zz, xy, yz, xz; h: 1/2 for engineering strains, 1 for stresses *)
Definition tensor6 (h : R) (l : list R) (i j : nat) : R :=
  if (i =? j)%nat then nth i l 0 else h * nth (match (i + j)%nat with 1%nat => 3 | 3%nat => 4 | _ => 5 end)%nat l 0.
Definition turned_tensor (Q : nat -> nat -> R) (T T' : nat -> nat -> R) : Prop :=
  forall i j, (i < 3)%nat -> (j < 3)%nat -> T' i j = rsumn 3 (fun p => rsumn 3 (fun q => Q i p * Q j q * T p q)).
(* what the members report *)
Definition turned_result (Q : nat -> nat -> R) (r r' : result) : Prop :=
  match r, r' with
  | RBar s, RBar s' => s' = s
  | RTet e, RTet e' => t0_vol e' = t0_vol e /\ length (t0_strains e') = 6%nat /\ length (t0_stress e') = 6%nat /\
      turned_tensor Q (tensor6 (1 / 2) (t0_strains e)) (tensor6 (1 / 2) (t0_strains e')) /\ turned_tensor Q (tensor6 1 (t0_stress e)) (tensor6 1 (t0_stress e'))
  | _, _ => False
  end.
