(* Renumbering of the nodes in a mesh file *)
From Verif Require Import Base ReaderModel.

Section R.
  Variable D : Type.
  (* node n gets the number f n; components of elements stay *)
  Definition rn_bc (f : Z -> Z) (b : bc D) : bc D := mkBC D (f (bc_node D b)) (bc_dof D b) (bc_value D b).
  Definition rn_mpc (f : Z -> Z) (p : mpc D) : mpc D :=
    mkMPC D (mp_b D p) (map (fun t => mkTerm D (f (tm_node D t)) (tm_dof D t) (tm_coef D t)) (mp_eq D p)).
  Definition rn_cell (f : Z -> Z) (c : cell) : cell :=
    mkCell (ce_num c) (map f (ce_nodes c)) (ce_type c) (ce_mat c) (ce_real c) (ce_sect c) (ce_cs c) (ce_shape c).
  Definition rn_comp (f : Z -> Z) (c : comp) : comp := if (cp_type c =? comp_NODES)%nat then mkComp (cp_type c) (map f (cp_list c)) else c.
  Definition rn_mesh (f : Z -> Z) (m : mesh D) : mesh D :=
    mkMesh D (map f (md_nodes D m)) (md_pos D m) (map (rn_cell f) (md_cells D m)) (map (rn_bc f) (md_fix D m)) (map (rn_bc f) (md_load D m))
      (map (rn_mpc f) (md_mpcs D m)) (map (fun p => (fst p, rn_comp f (snd p))) (md_comps D m)).
  (* all nodes that are mentioned *)
  Definition mentioned (m : mesh D) : list Z :=
    flat_map ce_nodes (md_cells D m) ++ map (bc_node D) (md_fix D m) ++ map (bc_node D) (md_load D m) ++
    flat_map (fun p => map (tm_node D) (mp_eq D p)) (md_mpcs D m) ++
    flat_map (fun p => if (cp_type (snd p) =? comp_NODES)%nat then cp_list (snd p) else []) (md_comps D m).
  (* different numbers; 1, ..., n only in this order; every node that is mentioned has a line in the table of nodes *)
  Definition well_numbered (m : mesh D) : Prop :=
    NoDup (md_nodes D m) /\ md_nodes D m <> [] /\
    (md_nodes D m = map Z.of_nat (seq 1 (length (md_nodes D m))) \/ ~ (forall n, In n (md_nodes D m) -> (n <= Z.of_nat (length (md_nodes D m)))%Z)) /\
    incl (mentioned m) (md_nodes D m).
End R.
