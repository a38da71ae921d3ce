(* What the recorder of reaction curves is expected to do. *)
From Verif Require Import Base DofModel SpecDof AsmModel SpecAsm SolveModel SpecSolve ReactModel.

(* a storage on which a solution procedure has numbered the equations (see C16) *)
Record ready (nn ne : nat) (m : list nat) (regs : list reg) (newm : list nat) (fixes : list key) (s : numst) : Prop := {
  rd_regs : Forall (good_reg nn ne) regs;
  rd_fixes : Forall (fun x => In x (reg_keys regs)) fixes;
  rd_free : exists x, In x (reg_keys regs) /\ ~ In x fixes;
  rd_mpc : Forall (fun k => 0 < k) (m ++ newm);
  rd_run : init_sequence (fresh_storage nn ne m) regs newm fixes = Ok s }.

Definition nodes_ok (nn : nat) (nodes : list nat) : Prop := Forall (fun n => 1 <= n <= nn) nodes.

(* the DoFs recorded: those given by the user, otherwise the fixed ones of the first node *)
Definition chosen (fixes : list key) (nodes dofs : list nat) : list nat :=
  match dofs with
  | [] => filter (fun t => if in_dec key_dec (KNode, nth 0 nodes 0, t) fixes then true else false) (seq 0 n_dof_types)
  | _ => dofs
  end.
(* node n of the set has every DoF of the list *)
Definition has_dofs (regs : list reg) (nodes dofs : list nat) : Prop :=
  forall n t, In n nodes -> In t dofs -> In (KNode, n, t) (reg_keys regs).
(* all nodes of the set have the same fixed DoFs *)
Definition same_fixed (fixes : list key) (nodes : list nat) : Prop :=
  forall n n' t, In n nodes -> In n' nodes -> (In (KNode, n, t) fixes <-> In (KNode, n', t) fixes).

Section Spec.
  Variable K : Num.
  (* entry of the vector of reactions and external loads for DoF t of node n; zero without that DoF *)
  Definition node_reaction (regs : list reg) (s : numst) (R : list K) (t n : nat) : K :=
    if in_dec key_dec (KNode, n, t) (reg_keys regs) then vget s R (KNode, n, t) else r0.
  (* sum over the node set *)
  Definition set_reaction (regs : list reg) (s : numst) (nodes : list nat) (t : nat) (R : list K) : K :=
    sumof (node_reaction regs s R t) nodes.
  (* the steps whose results could be written *)
  Definition recorded (named : bool) (steps : list (step K)) : list (step K) :=
    filter (fun x => negb named || st_can x) steps.
End Spec.
Arguments node_reaction {K} _ _ _ _ _.
Arguments set_reaction {K} _ _ _ _ _.
Arguments recorded {K} _ _.
