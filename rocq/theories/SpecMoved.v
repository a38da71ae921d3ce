(* Bodies at another place *)
From Coq Require Import Reals.
From Verif Require Import Base RealBase BodyModel ReaderModel.
Local Open Scope R_scope.

Definition be_dim (k : solid) : nat := match k with S81 => 3 | P41 => 2 end.
(* all nodes are moved by the vector c, as far as the elements have such coordinates (PLANE41: x and y) *)
Definition moved_nodes (k : solid) (c : nat -> R) (nodes : list nat) (pos pos' : nat -> nat -> R) : Prop :=
  forall n i, In n nodes -> (i < be_dim k)%nat -> pos' n i = pos n i + c i.
Definition moved_body (c : nat -> R) (els : list body_el) (pos pos' : nat -> nat -> R) : Prop :=
  Forall (fun e => moved_nodes (be_kind e) c (be_nodes e) pos pos') els.
(* the table of nodes of a mesh *)
Definition moved_place (k : solid) (c : R * R * R) (p p' : R * R * R) : Prop :=
  let '(cx, cy, cz) := c in let '(x, y, z) := p in let '(x', y', z') := p' in
  x' = x + cx /\ y' = y + cy /\ match k with S81 => z' = z + cz | P41 => True end.
Definition moved_mesh (k : solid) (c : R * R * R) (m m' : mesh R) : Prop :=
  Forall2 (moved_place k c) (md_pos R m) (md_pos R m') /\
  m' = mkMesh R (md_nodes R m) (md_pos R m') (md_cells R m) (md_fix R m) (md_load R m) (md_mpcs R m) (md_comps R m).

(* structures and heat conduction: all three coordinates *)
Definition moved_all (c : nat -> R) (nodes : list nat) (pos pos' : nat -> nat -> R) : Prop :=
  forall n i, In n nodes -> (i < 3)%nat -> pos' n i = pos n i + c i.
