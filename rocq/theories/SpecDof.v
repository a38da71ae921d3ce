(* What the DoF table and the numbering are expected to do. *)
From Verif Require Import Base DofModel.

(* t was registered for entity n *)
Definition registered (calls : list (nat * list nat)) (n t : nat) : Prop :=
  exists ts, In (n, ts) calls /\ In t ts.

Definition fill_table (N : nat) (calls : list (nat * list nat)) : outcome dofc :=
  ofold (fun c x => addDof c (fst x) (snd x)) calls (initDofTable N).

Definition pair_dec (x y : nat * nat) : {x = y} + {x <> y}.
Proof. decide equality; apply Nat.eq_dec. Defined.

(* all registered (entity, type) pairs, each once *)
Definition reg_pairs (calls : list (nat * list nat)) : list (nat * nat) :=
  nodup pair_dec (flat_map (fun c => map (pair (fst c)) (snd c)) calls).

(* DoFs of the storage: kind, entity number, type *)
Definition key : Type := kind * nat * nat.
Definition kind_dec (x y : kind) : {x = y} + {x <> y}.
Proof. decide equality. Defined.
Definition key_dec (x y : key) : {x = y} + {x <> y}.
Proof. decide equality; [apply Nat.eq_dec|]. decide equality; [apply Nat.eq_dec|apply kind_dec]. Defined.

Definition entities (nn ne : nat) (k : kind) : nat := match k with KEl => ne | KNode => nn end.

(* registrations with entity numbers and DoF types that exist *)
Definition good_reg (nn ne : nat) (r : reg) : Prop :=
  match r with (k, n, ts) =>
    1 <= n <= entities nn ne k /\ Forall (fun t => t < n_dof_types) ts end.

Definition reg_keys (regs : list reg) : list key :=
  nodup key_dec (flat_map (fun r => match r with (k, n, ts) => map (pair (k, n)) ts end) regs).

Definition fix_keys (fixes : list key) : list key := nodup key_dec fixes.

Definition run_fixes (s : numst) (fixes : list key) : outcome numst :=
  ofold (fun s f => match f with (k, n, t) => setConstrained s k n t end) fixes s.

Definition key_eq (s : numst) (x : key) : outcome nat :=
  match x with (k, n, t) => dof_eq s k n t end.
