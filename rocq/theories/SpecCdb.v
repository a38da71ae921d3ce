(* writing a mesh in the *.cdb format (the format described in the comments of readCdbFile) *)
From Coq Require Import Ascii String.
From Verif Require Import Base ReaderModel SpecReader ReaderProofs.
Local Open Scope nat_scope.
Local Open Scope list_scope.

Definition tok_line (ts : list str) : str := join ts (repeat ","%char (length ts - 1)).
Definition p9 (z : Z) : str := pad 9 (show z).
Definition dof_label (d : nat) : str := nth d dofLabels [].
Definition force_label (d : nat) : str :=
  match d with 0 => s_ "FX" | 1 => s_ "FY" | 2 => s_ "FZ" | 7 => s_ "HEAT" | _ => dof_label d end.

Section Write.
  Variable D : Type.
  Variable d0 : D.
  Variable fmt : D -> str.

  (* the coordinates of a node; the last ones are left out if they are zero *)
  Definition node_pos (cs : list D) : D * D * D := (nth 0 cs d0, nth 1 cs d0, nth 2 cs d0).
  Definition w_node (p : Z * list D) : str := concat (map p9 [fst p; 0; 0]%Z ++ map fmt (snd p)).
  Definition cell_fields (c : cell) : list Z :=
    [ce_mat c; ce_type c; ce_real c; ce_sect c; ce_cs c; 0; 0; ce_shape c; Z.of_nat (length (ce_nodes c)); 0; ce_num c]%Z
    ++ ce_nodes c.
  Definition w_cell (c : cell) : str := concat (map p9 (cell_fields c)).
  (* the short format: no section, no shape *)
  Definition short_fields (c : cell) : list Z := [ce_num c; ce_type c; ce_real c; ce_mat c; ce_cs c] ++ ce_nodes c.
  Definition w_short (c : cell) : str := concat (map p9 (short_fields c)).
  Definition w_fix (b : bc D) : str := tok_line [s_ "D"; p9 (bc_node D b); dof_label (bc_dof D b); fmt (bc_value D b)].
  Definition w_load (b : bc D) : str := tok_line [s_ "F"; p9 (bc_node D b); force_label (bc_dof D b); fmt (bc_value D b)].
  Definition term_toks (t : term D) : list str := [p9 (tm_node D t); dof_label (tm_dof D t); fmt (tm_coef D t)].
  Definition term_line (ts : list (term D)) : str :=
    tok_line ([s_ "CE"; s_ "R5.0"; s_ "NODE"] ++ flat_map term_toks ts).
  (* two terms in a line *)
  Fixpoint term_lines (ts : list (term D)) : list str :=
    match ts with
    | a :: b :: t => term_line [a; b] :: term_lines t
    | [a] => [term_line [a]]
    | [] => []
    end.
  Definition ce_head (m : mpc D) : str :=
    tok_line [s_ "CE"; s_ "R5.0"; s_ "DEFI"; p9 (Z.of_nat (length (mp_eq D m))); p9 1; fmt (mp_b D m)].
  Definition w_ce (m : mpc D) : list str := ce_head m :: term_lines (mp_eq D m).
  Record wcomp := mkWC { wc_name : str; wc_nodes : bool; wc_items : list item }.
  Definition cm_head (c : wcomp) : str :=
    tok_line [s_ "CMBLOCK"; wc_name c; if wc_nodes c then s_ "NODE" else s_ "ELEM";
              p9 (Z.of_nat (length (encode (wc_items c))))].
  Definition w_comp (c : wcomp) : list str := cm_head c :: s_ "(8i10)" :: number_rows 8 10 (encode (wc_items c)).
  Record wmesh := mkWM { wm_nodes : list (Z * list D); wm_cells : list cell; wm_short : list cell; wm_fix : list (bc D);
                         wm_load : list (bc D); wm_mpcs : list (mpc D); wm_comps : list wcomp }.
  Definition w_lines (m : wmesh) : list str :=
    ([s_ "/COM,ANSYS MESH"; s_ "NBLOCK,6,SOLID"; s_ "(3i9,6e20.13)"] ++ map w_node (wm_nodes m) ++ [s_ "N,R5.3,LOC,       -1,"]) ++
    ([s_ "EBLOCK,19,SOLID"; s_ "(19i9)"] ++ map w_cell (wm_cells m) ++ [s_ "       -1"]) ++
    ([s_ "EBLOCK,10,,"; s_ "(15i9)"] ++ map w_short (wm_short m) ++ [s_ "       -1"]) ++
    flat_map w_ce (wm_mpcs m) ++ map w_fix (wm_fix m) ++ map w_load (wm_load m) ++ flat_map w_comp (wm_comps m).
  (* what the file describes *)
  Definition comp_of (c : wcomp) : str * comp :=
    (wc_name c, mkComp (if wc_nodes c then comp_NODES else comp_ELEMENTS) (expand (wc_items c))).
  (* of several components with the same name the first one counts *)
  Fixpoint firsts (l : list (str * comp)) : list (str * comp) :=
    match l with
    | [] => []
    | p :: l => p :: filter (fun q => negb (str_eqb (fst q) (fst p))) (firsts l)
    end.
  Definition mesh_of (m : wmesh) : mesh D :=
    mkMesh D (map fst (wm_nodes m)) (map (fun p => node_pos (snd p)) (wm_nodes m)) (wm_cells m ++ wm_short m)
           (wm_fix m) (wm_load m) (wm_mpcs m) (firsts (map comp_of (wm_comps m))).

  (* ---- conditions *)
  Definition n9 (z : Z) : Prop := (0 <= z < 1000000000)%Z.
  Definition bc_ok (b : bc D) : Prop := n9 (bc_node D b) /\ bc_dof D b < 8.
  Definition term_ok (t : term D) : Prop := n9 (tm_node D t) /\ tm_dof D t < 8.
  Definition cell_ok (c : cell) : Prop := length (ce_nodes c) <= 8 /\ Forall n9 (cell_fields c).
  Definition short_ok (c : cell) : Prop :=
    length (ce_nodes c) <= 10 /\ Forall n9 (short_fields c) /\ ce_sect c = 0%Z /\ ce_shape c = 0%Z.
  Definition item9 (x : item) : Prop :=
    match x with One a => (0 < a < 1000000000)%Z | Range a b => (0 < a <= b /\ b < 1000000000)%Z end.
  Definition name_ok (n : str) : Prop :=
    trimmed n /\ no_delim comma n /\ plain n /\ first_char n <> "_"%char.
  Definition wcomp_ok (c : wcomp) : Prop :=
    name_ok (wc_name c) /\ Forall item9 (wc_items c) /\ (N.of_nat (length (encode (wc_items c))) < 65536)%N.
  (* the number of terms for which CE is read right (C48) *)
  Definition ce_terms_ok (m : mpc D) : Prop :=
    length (mp_eq D m) = 0 \/ length (mp_eq D m) = 2 \/ length (mp_eq D m) = 4.
  Record wm_ok (m : wmesh) : Prop := mkOK {
    ok_nodes : Forall (fun p => n9 (fst p) /\ length (snd p) <= 3) (wm_nodes m);
    ok_cells : Forall cell_ok (wm_cells m);
    ok_short : Forall short_ok (wm_short m);
    ok_fix : Forall bc_ok (wm_fix m);
    ok_load : Forall bc_ok (wm_load m);
    ok_terms : Forall (fun c => Forall term_ok (mp_eq D c)) (wm_mpcs m);
    ok_comps : Forall wcomp_ok (wm_comps m) }.
  (* the printed doubles: 20 characters, read back by std::stod with or without the blanks around *)
  Definition fmt_ok (stod : str -> conv D) : Prop :=
    forall x, length (fmt x) = 20 /\ stod (fmt x) = CVal x /\ stod (strim (fmt x)) = CVal x /\
              no_delim comma (fmt x) /\ plain (fmt x).
End Write.
