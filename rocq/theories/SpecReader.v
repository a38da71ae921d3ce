(* What the readers have to do, independent of how they do it *)
From Coq Require Import Ascii String.
From Verif Require Import Base ReaderModel.
Local Open Scope nat_scope.

(* ---- lines *)
Inductive eol := E_LF | E_CRLF | E_CR.
Definition eol_str (e : eol) : str := match e with E_LF => [LF] | E_CRLF => [CR; LF] | E_CR => [CR] end.
Definition plain (l : str) : Prop := ~ In LF l /\ ~ In CR l.
(* a file: terminated lines and a last line without terminator (empty: there is none) *)
Fixpoint file_of (ls : list (str * eol)) (last : str) : str :=
  match ls with
  | [] => last
  | (l, e) :: t => l ++ eol_str e ++ file_of t last
  end.
(* a CR followed by an empty line that ends with LF would be CR LF *)
Fixpoint unambiguous (ls : list (str * eol)) : Prop :=
  match ls with
  | [] => True
  | (_, e) :: t =>
      match t with
      | [] => True
      | (l', e') :: _ => e = E_CR -> l' = [] -> e' <> E_LF
      end /\ unambiguous t
  end.
Definition last_line (l : str) : list str := match l with [] => [] | _ => [l] end.

(* ---- tokens *)
Fixpoint join (rs : list str) (ds : list ascii) : str :=
  match rs, ds with
  | [], _ => []
  | [r], _ => r
  | r :: rs, d :: ds => r ++ d :: join rs ds
  | r :: rs, [] => r ++ join rs []
  end.
Definition blanks (l : str) : Prop := Forall (fun c => is_blank c = true) l.
Definition trimmed (l : str) : Prop :=
  (forall c t, l = c :: t -> is_blank c = false) /\ (forall c t, l = t ++ [c] -> is_blank c = false).

(* ---- fixed width fields *)
Fixpoint fields (line : str) (ws : list nat) : list str :=
  match ws with [] => [] | w :: ws => firstn w line :: fields (skipn w line) ws end.
Fixpoint total (ws : list nat) : nat := match ws with [] => 0 | w :: t => w + total t end.

(* ---- decimal numbers *)
Definition digit (d : Z) : ascii := ascii_of_nat (48 + Z.to_nat d).
Fixpoint dec (fuel : nat) (n : Z) : str :=
  match fuel with
  | 0 => []
  | S f => (if (n <? 10)%Z then [] else dec f (n / 10)%Z) ++ [digit (n mod 10)%Z]
  end.
Definition show (z : Z) : str := if (z <? 0)%Z then "-"%char :: dec 10 (- z)%Z else dec 10 z.
Definition pad (w : nat) (l : str) : str := repeat " "%char (w - length l) ++ l.

(* ---- component lists: a positive number, or the end of a range that began with the number
   before *)
Inductive item := One (a : Z) | Range (a b : Z).
Definition item_ok (x : item) : Prop :=
  match x with One a => (0 < a < 2147483648)%Z | Range a b => (0 < a <= b /\ b < 2147483648)%Z end.
Definition encode (xs : list item) : list Z :=
  flat_map (fun x => match x with One a => [a] | Range a b => [a; - b]%Z end) xs.
Definition item_list (x : item) : list Z :=
  match x with One a => [a] | Range a b => map (fun k => a + Z.of_nat k)%Z (seq 0 (Z.to_nat (b - a + 1))) end.
Definition expand (xs : list item) : list Z := flat_map item_list xs.
(* rows of k numbers, each in w columns *)
Fixpoint rows (fuel : nat) (k : nat) (l : list str) : list str :=
  match fuel with
  | 0 => []
  | S f => if length l <=? k then [concat l] else concat (firstn k l) :: rows f k (skipn k l)
  end.
Definition number_rows (k w : nat) (zs : list Z) : list str :=
  rows (S (length zs)) k (map (fun z => pad w (show z)) zs).

(* ---- renumbering.  The position of the node with number n *)
Section Phys.
  Variable D : Type.
  Fixpoint pos_of (nodes : list Z) (pos : list (D * D * D)) (n : Z) : option (D * D * D) :=
    match nodes, pos with
    | k :: ks, p :: ps => if Z.eqb k n then Some p else pos_of ks ps n
    | _, _ => None
    end.
  (* main.cpp:189-193: node number i of the storage gets the i-th position *)
  Definition stored_pos (pos : list (D * D * D)) (n : Z) : option (D * D * D) :=
    if (n <=? 0)%Z then None else nth_error pos (Z.to_nat n - 1).
  (* all node numbers used in the mesh, in order *)
  Definition cell_refs (m : mesh D) : list (list Z) := map ce_nodes (md_cells D m).
  Definition bc_refs (l : list (bc D)) : list Z := map (bc_node D) l.
  Definition mpc_refs (m : mesh D) : list (list Z) := map (fun p => map (tm_node D) (mp_eq D p)) (md_mpcs D m).
  Definition comp_refs (m : mesh D) : list (list Z) :=
    map (fun p => cp_list (snd p)) (filter (fun p => cp_type (snd p) =? comp_NODES) (md_comps D m)).
  Definition all_refs (m : mesh D) : list Z :=
    concat (cell_refs m) ++ bc_refs (md_fix D m) ++ bc_refs (md_load D m) ++ concat (mpc_refs m) ++ concat (comp_refs m).
  (* everything but the node numbers *)
  Definition mesh_rest (m : mesh D) :=
    (md_pos D m, map (fun c => (ce_num c, length (ce_nodes c), ce_type c, ce_mat c, ce_real c, ce_sect c, ce_cs c, ce_shape c)) (md_cells D m),
     map (fun b => (bc_dof D b, bc_value D b)) (md_fix D m), map (fun b => (bc_dof D b, bc_value D b)) (md_load D m),
     map (fun p => (mp_b D p, map (fun t => (tm_dof D t, tm_coef D t)) (mp_eq D p))) (md_mpcs D m),
     map (fun p => (fst p, cp_type (snd p), length (cp_list (snd p)),
                    if cp_type (snd p) =? comp_NODES then [] else cp_list (snd p))) (md_comps D m)).
End Phys.
