(* The order of the commands in the mesh file: C153 *)
From Coq Require Import Ascii String.
From Verif Require Import Base ReaderModel SpecReader ReaderProofs ReaderNum SpecCdb ReaderFile SpecPieces PiecesProofs Prop_Reader.
Local Open Scope nat_scope.
Local Open Scope list_scope.

(* any sequence of commands, ignored lines between them *)
Theorem C153_any_commands : forall D d0 stod fmt, fmt_ok D fmt stod -> forall ps ends last,
  Forall (piece_ok D) ps -> map fst ends ++ last_line last = flat_map (w_piece D fmt) ps -> unambiguous ends ->
  readCdbFile D d0 stod (file_of ends last) = Ok (mesh_of_pieces D d0 ps).
Proof. exact pieces_read. Qed.
Print Assumptions C153_any_commands.
(* two files whose commands of each kind come in the same order *)
Theorem C153_order : forall D d0 stod fmt, fmt_ok D fmt stod -> forall ps qs ends last ends' last',
  Forall (piece_ok D) ps -> Forall (piece_ok D) qs -> same_by_kind D ps qs ->
  map fst ends ++ last_line last = flat_map (w_piece D fmt) ps -> unambiguous ends ->
  map fst ends' ++ last_line last' = flat_map (w_piece D fmt) qs -> unambiguous ends' ->
  readCdbFile D d0 stod (file_of ends last) = readCdbFile D d0 stod (file_of ends' last').
Proof.
  intros D d0 stod fmt FM ps qs ends last ends' last' P Q S E U E' U'.
  rewrite (pieces_read D d0 stod fmt FM ps ends last P E U), (pieces_read D d0 stod fmt FM qs ends' last' Q E' U'), (same_mesh D d0 ps qs S). reflexivity.
Qed.
Print Assumptions C153_order.

(* loads before the nodes, two tables of nodes, comments, an unknown command *)
Definition ex_a : list (piece bool) :=
  [PNote bool (s_ "/COM") [s_ " test"]; PType bool 1 [s_ "185"]; PLoad bool (mkBC bool 5 1 true); PNodes bool [(1, [true]); (2, [false; true; true])]%Z;
   PNote bool [] []; PCells bool [mkCell 3 [1; 2; 5] 1 2 3 4 5 6]%Z; PSet bool (s_ "K") true; PNodes bool [(5, [])]%Z; PFix bool (mkBC bool 1 7 true);
   PNote bool (s_ "MPTEMP") [s_ "R5.0"; s_ " 1"; s_ " 1"]; PLoad bool (mkBC bool 2 7 false)].
Definition ex_b : list (piece bool) :=
  [PNodes bool [(1, [true]); (2, [false; true; true])]%Z; PNodes bool [(5, [])]%Z; PCells bool [mkCell 3 [1; 2; 5] 1 2 3 4 5 6]%Z;
   PFix bool (mkBC bool 1 7 true); PLoad bool (mkBC bool 5 1 true); PLoad bool (mkBC bool 2 7 false)].
Definition ends_of (ps : list (piece bool)) : list (str * eol) := map (fun l => (l, E_CRLF)) (flat_map (w_piece bool fmt2) ps).
Lemma crlf_unambiguous l : unambiguous (map (fun s : str => (s, E_CRLF)) l).
Proof. induction l as [|a [|b l] IH]; cbn; auto. split; [discriminate|exact IH]. Qed.
Lemma ends_lines ps : map fst (ends_of ps) ++ last_line [] = flat_map (w_piece bool fmt2) ps.
Proof. unfold ends_of. rewrite map_map, map_id. apply app_nil_r. Qed.
Ltac texts := first [apply commafree_ok; reflexivity | apply plainb_ok; reflexivity].
Ltac small := let L := fresh in assert (L : forall a b, (a <=? b) = true -> a <= b) by (intros a b H; apply Nat.leb_le; exact H); nines; apply L; reflexivity.
Lemma ex_a_ok : Forall (piece_ok bool) ex_a.
Proof.
  unfold ex_a. repeat apply Forall_cons; try apply Forall_nil; cbn [piece_ok]; try solve [small].
  - split; [apply trimmed_nonblank; cbn; repeat constructor|]. split; [right; left; eexists; reflexivity|]. repeat apply Forall_cons; try apply Forall_nil; split; texts.
  - split; [split; [discriminate|reflexivity]|]. repeat apply Forall_cons; try apply Forall_nil; split; texts.
  - split; [apply trimmed_nonblank; constructor|]. split; [left; reflexivity|]. repeat apply Forall_cons; try apply Forall_nil; split; texts.
  - split; texts.
  - split; [apply trimmed_nonblank; cbn; repeat constructor|]. split; [|repeat apply Forall_cons; try apply Forall_nil; split; texts].
    right; right; right. unfold known_words. cbn [map]. repeat apply Forall_cons; try apply Forall_nil; discriminate.
Qed.
Lemma ex_b_ok : Forall (piece_ok bool) ex_b.
Proof. unfold ex_b. repeat apply Forall_cons; try apply Forall_nil; cbn [piece_ok]; small. Qed.
Example C153_ex : readCdbFile bool false stod2 (file_of (ends_of ex_a) []) = readCdbFile bool false stod2 (file_of (ends_of ex_b) []) /\
  readCdbFile bool false stod2 (file_of (ends_of ex_a) []) = Ok (mesh_of_pieces bool false ex_b) /\ flat_map (w_piece bool fmt2) ex_a <> flat_map (w_piece bool fmt2) ex_b.
Proof.
  assert (A : readCdbFile bool false stod2 (file_of (ends_of ex_a) []) = readCdbFile bool false stod2 (file_of (ends_of ex_b) [])).
  { apply (C153_order bool false stod2 fmt2 fmt2_ok ex_a ex_b); [apply ex_a_ok|apply ex_b_ok|intros []; reflexivity|apply ends_lines|apply crlf_unambiguous|apply ends_lines|apply crlf_unambiguous]. }
  split; [exact A|]. split; [|intros E; apply (f_equal (@length _)) in E; vm_compute in E; discriminate E].
  rewrite A. apply (C153_any_commands bool false stod2 fmt2 fmt2_ok); [apply ex_b_ok|apply ends_lines|apply crlf_unambiguous].
Qed.
