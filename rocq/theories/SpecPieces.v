(* Mesh files with their commands in any order *)
From Coq Require Import Ascii String.
From Verif Require Import Base ReaderModel SpecReader ReaderProofs SpecCdb.
Local Open Scope nat_scope.
Local Open Scope list_scope.

(* the commands that are read, see the comments of readCdbFile *)
Definition known_words : list str := map s_ ["NBLOCK"; "EBLOCK"; "D"; "CE"; "CMBLOCK"; "ET"; "ETYPE"; "TYPE"; "F"; "*set"]%string.
(* another word, in small and capital letters *)
Definition ignored_word (w : str) : Prop :=
  w = [] \/ (exists t, w = "/"%char :: t) \/ (exists t, w = "!"%char :: t) \/ Forall (fun k => map lower w <> map lower k) known_words.

Section P.
  Variable D : Type.
  Variable d0 : D.
  Variable fmt : D -> str.
  Inductive piece :=
  | PNodes (ns : list (Z * list D))                (* NBLOCK with its rows *)
  | PCells (cs : list cell)                        (* EBLOCK, long rows *)
  | PShort (cs : list cell)                        (* EBLOCK, short rows *)
  | PFix (b : bc D) | PLoad (b : bc D) | PCe (m : mpc D) | PComp (c : wcomp)
  | PType (z : Z) (ts : list str)                  (* ET,z,... *)
  | PSet (name : str) (x : D)                      (* *SET,name,x *)
  | PNote (w : str) (ts : list str).               (* any other line *)
  Definition w_piece (p : piece) : list str :=
    match p with
    | PNodes ns => [s_ "NBLOCK,6,SOLID"; s_ "(3i9,6e20.13)"] ++ map (w_node D fmt) ns ++ [s_ "N,R5.3,LOC,       -1,"]
    | PCells cs => [s_ "EBLOCK,19,SOLID"; s_ "(19i9)"] ++ map w_cell cs ++ [s_ "       -1"]
    | PShort cs => [s_ "EBLOCK,10,,"; s_ "(15i9)"] ++ map w_short cs ++ [s_ "       -1"]
    | PFix b => [w_fix D fmt b]
    | PLoad b => [w_load D fmt b]
    | PCe m => w_ce D fmt m
    | PComp c => w_comp c
    | PType z ts => [tok_line (s_ "ET" :: p9 z :: ts)]
    | PSet name x => [tok_line [s_ "*SET"; name; fmt x]]
    | PNote w ts => [tok_line (w :: ts)]
    end.
  Definition text_ok (t : str) : Prop := no_delim comma t /\ plain t.
  Definition piece_ok (p : piece) : Prop :=
    match p with
    | PNodes ns => Forall (fun p => n9 (fst p) /\ length (snd p) <= 3) ns
    | PCells cs => Forall cell_ok cs
    | PShort cs => Forall short_ok cs
    | PFix b => bc_ok D b
    | PLoad b => bc_ok D b
    | PCe m => Forall (term_ok D) (mp_eq D m) /\ ce_terms_ok D m
    | PComp c => wcomp_ok c
    | PType z ts => n9 z /\ Forall text_ok ts
    | PSet name _ => text_ok name
    | PNote w ts => trimmed w /\ ignored_word w /\ Forall text_ok (w :: ts)
    end.
  (* what the file says *)
  Definition p_nodes (p : piece) : list (Z * list D) := match p with PNodes ns => ns | _ => [] end.
  Definition p_cells (p : piece) : list cell := match p with PCells cs => cs | PShort cs => cs | _ => [] end.
  Definition p_fix (p : piece) : list (bc D) := match p with PFix b => [b] | _ => [] end.
  Definition p_load (p : piece) : list (bc D) := match p with PLoad b => [b] | _ => [] end.
  Definition p_mpcs (p : piece) : list (mpc D) := match p with PCe m => [m] | _ => [] end.
  Definition p_comps (p : piece) : list wcomp := match p with PComp c => [c] | _ => [] end.
  Definition mesh_of_pieces (ps : list piece) : mesh D :=
    let ns := flat_map p_nodes ps in
    mkMesh D (map fst ns) (map (fun p => node_pos D d0 (snd p)) ns) (flat_map p_cells ps) (flat_map p_fix ps) (flat_map p_load ps)
      (flat_map p_mpcs ps) (firsts (map comp_of (flat_map p_comps ps))).
  (* kinds of commands; the order within a kind matters *)
  Inductive kind := KNodes | KCells | KFix | KLoad | KCe | KComp | KNone.
  Definition kind_of (p : piece) : kind :=
    match p with PNodes _ => KNodes | PCells _ => KCells | PShort _ => KCells | PFix _ => KFix | PLoad _ => KLoad | PCe _ => KCe | PComp _ => KComp
            | PType _ _ | PSet _ _ | PNote _ _ => KNone end.
  Definition of_kind (k : kind) (p : piece) : bool :=
    match k, kind_of p with
    | KNodes, KNodes | KCells, KCells | KFix, KFix | KLoad, KLoad | KCe, KCe | KComp, KComp => true
    | _, _ => false
    end.
  Definition same_by_kind (ps qs : list piece) : Prop := forall k, filter (of_kind k) ps = filter (of_kind k) qs.
End P.
