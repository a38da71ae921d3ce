(* What the creation and deletion functions of the storage are expected to do: a machine that only counts. *)
From Verif Require Import Base HeapModel.

(* numbers of nodes, elements, MPC equations, components; material set; matrices (none, K, K C M);
   objects nobody refers to any more *)
Record counts := mkCounts { c_nodes : nat; c_els : nat; c_mpcs : nat; c_comps : nat; c_mat : bool; c_K : bool; c_CM : bool; c_lost : nat }.
Definition no_objects : counts := mkCounts 0 0 0 0 false false false 0.
Definition b2n (b : bool) : nat := if b then 1 else 0.

(* None: a call outside the contract.  Not allowed here: materials of derived classes, MPC collections, deletion of
   the MPC equations, access to objects that do not exist. *)
Definition cstep (c : counts) (o : op) : option counts :=
  match c with mkCounts n e m p mt k cm lost =>
  match o with
  | CreateNodes i => Some (mkCounts (n + i) e m p mt k cm lost)
  | AddNode => Some (mkCounts (n + 1) e m p mt k cm lost)
  | CreateElements known i => Some (mkCounts n (if known then e + i else e) m p mt k cm lost)
  | AddElement => Some (mkCounts n (e + 1) m p mt k cm lost)
  | AddMpc => Some (mkCounts n e (m + 1) p mt k cm lost)
  | AddCollection _ => None
  | AddComponent => Some (mkCounts n e m (p + 1) mt k cm lost)
  | SetMaterial d => if d then None else Some (mkCounts n e m p true k cm (lost + b2n mt))
  | InitDofs => if (0 <? n) || (0 <? e) then Some c else None
  | AssignNumbers => Some c
  | InitSolutionData tr => Some (mkCounts n e m p mt true (tr || cm) (lost + b2n k + if tr && cm then 2 else 0))
  | Assemble tr => if k && (negb tr || cm) then Some c else None
  | GetNode i => if (1 <=? i) && (i <=? n) then Some c else None
  | GetElement i => if (1 <=? i) && (i <=? e) then Some c else None
  | DeleteSolutionData => Some (mkCounts n e m p mt false false lost)
  | DeleteNodes => Some (mkCounts 0 e m p mt k cm lost)
  | DeleteElements => Some (mkCounts n 0 m p mt k cm lost)
  | DeleteMpcs => if m =? 0 then Some c else None
  | DeleteCollections => Some c
  | DeleteComponents => Some (mkCounts n e m 0 mt k cm lost)
  | DeleteMesh => if m =? 0 then Some (mkCounts 0 0 m 0 mt k cm lost) else None
  end end.
Fixpoint crun (c : counts) (ops : list op) : option counts :=
  match ops with [] => Some c | o :: r => match cstep c o with Some c' => crun c' r | None => None end end.

(* the tables agree with the counts *)
Definition sizes_ok (c : counts) (s : hst) : Prop :=
  length (hs_nodes s) = c_nodes c /\ length (hs_els s) = c_els c /\ length (hs_mpcs s) = c_mpcs c /\
  length (hs_comps s) = c_comps c /\ hs_colls s = [] /\ length (hs_mat s) = b2n (c_mat c) /\
  length (hs_K s) = b2n (c_K c) /\ length (hs_C s) = b2n (c_CM c) /\ length (hs_M s) = b2n (c_CM c).
(* entry i of a table points to a living object of the right kind *)
Definition tables_ok (s : hst) : Prop :=
  (forall i a, nth_error (hs_nodes s) i = Some a -> hget (hs_live s) a = Some ONode) /\
  (forall i a, nth_error (hs_els s) i = Some a -> hget (hs_live s) a = Some (OElem (i + 1))) /\
  (forall i a, nth_error (hs_mpcs s) i = Some a -> hget (hs_live s) a = Some OMpc) /\
  (forall i a, nth_error (hs_comps s) i = Some a -> hget (hs_live s) a = Some OComp) /\
  NoDup (hs_nodes s ++ hs_els s ++ hs_mpcs s ++ hs_comps s).
(* all living objects *)
Definition living (c : counts) : nat :=
  c_nodes c + c_els c + c_mpcs c + c_comps c + b2n (c_mat c) + b2n (c_K c) + 2 * b2n (c_CM c) + c_lost c.
