(* src/lib/FEReaders.cpp: strings, lines, tokens, the *.cdb reader and MeshData *)
From Coq Require Import Ascii String.
From Verif Require Import Base.
Local Open Scope nat_scope.

(* a std::string: its bytes *)
Notation str := (list ascii).
Definition s_ (x : string) : str := list_ascii_of_string x.
Arguments s_ x%string_scope.
Definition LF : ascii := ascii_of_nat 10.
Definition CR : ascii := ascii_of_nat 13.
Definition code (c : ascii) : nat := nat_of_ascii c.
Fixpoint str_eqb (a b : str) : bool :=
  match a, b with
  | [], [] => true
  | x :: a, y :: b => Ascii.eqb x y && str_eqb a b
  | _, _ => false
  end.

(* ---- strim, FEReaders.cpp:109-124; space_chars = " \t", line 17 *)
Definition is_blank (c : ascii) : bool := (code c =? 32) || (code c =? 9).
Fixpoint drop_blank (l : str) : str :=
  match l with
  | [] => []
  | c :: t => if is_blank c then drop_blank t else l
  end.
Definition strim (l : str) : str := rev (drop_blank (rev (drop_blank l))).
(* stolower, stoupper: 127-136; tolower/toupper of the "C" locale *)
Definition lower (c : ascii) : ascii :=
  if (65 <=? code c) && (code c <=? 90) then ascii_of_nat (code c + 32) else c.
Definition upperc (c : ascii) : ascii :=
  if (97 <=? code c) && (code c <=? 122) then ascii_of_nat (code c - 32) else c.
Definition stolower (l : str) : str := map lower l.
Definition stoupper (l : str) : str := map upperc l.
(* sfirstNotBlank: 139-142; find_first_not_of gives npos when there is none, str[npos] is UB *)
Definition sfirstNotBlank (l : str) : outcome ascii :=
  match drop_blank l with [] => UB | c :: _ => Ok c end.
(* iequals: 167-175 *)
Definition iequals (a b : str) : bool := str_eqb (stolower a) (stolower b).

(* ---- ssplit: 145-164 *)
Fixpoint ssplit_from (line : str) (ind : nat) (ws : list nat) (strict : bool) (vv : list str)
  : outcome (list str) :=
  match ws with
  | [] => Ok vv
  | w :: ws =>
      if length line - ind <? w then
        if strict then Fatal
        else if negb (length line - ind =? 0) then Fatal else Ok vv
      else ssplit_from line (ind + w) ws strict (vv ++ [firstn w (skipn ind line)])
  end.
Definition ssplit (line : str) (ws : list nat) (strict : bool) : outcome (list str) :=
  ssplit_from line 0 ws strict [].

(* ---- getLine: 179-211.  The stream: the bytes not yet read.  Result: the line, the rest of
   the stream and whether eofbit was set *)
Fixpoint getLine_from (t : str) (s : str) : str * str * bool :=
  match s with
  | [] => (t, [], match t with [] => true | _ => false end)
  | c :: s' =>
      if Ascii.eqb c LF then (t, s', false)
      else if Ascii.eqb c CR then
        (t, match s' with d :: s'' => if Ascii.eqb d LF then s'' else s' | [] => s' end, false)
      else getLine_from (t ++ [c]) s'
  end.
Definition getLine (s : str) : str * str * bool := getLine_from [] s.
(* while (!getLine(file, line).eof()) ... : the lines *)
Fixpoint read_lines (fuel : nat) (s : str) : outcome (list str) :=
  match fuel with
  | 0 => Loop
  | S n =>
      match getLine s with
      | (l, s', eof) => if eof then Ok [] else r <- read_lines n s' ;; Ok (l :: r)
      end
  end.

(* ---- Tokenizer::tokenize: 214-243 (delims: the delimiter characters, lowr: member tolower);
   result: tokens and dtokens *)
Definition mem (c : ascii) (ds : list ascii) : bool := existsb (Ascii.eqb c) ds.
Fixpoint find_first_of (ds : list ascii) (l : str) : option (str * ascii * str) :=
  match l with
  | [] => None
  | c :: t =>
      if mem c ds then Some ([], c, t)
      else match find_first_of ds t with
           | None => None
           | Some (a, d, b) => Some (c :: a, d, b)
           end
  end.
Fixpoint tokenize_from (fuel : nat) (ds : list ascii) (l : str) (tok : list str) (dtok : list ascii)
  : outcome (list str * list ascii) :=
  match fuel with
  | 0 => Loop
  | S n =>
      match find_first_of ds l with
      | None => Ok (tok ++ [strim l], dtok)
      | Some (a, d, b) => tokenize_from n ds b (tok ++ [strim a]) (dtok ++ [d])
      end
  end.
Definition tokenize (ds : list ascii) (lowr : bool) (line : str) : outcome (list str * list ascii) :=
  r <- tokenize_from (S (length line)) ds line [] [] ;;
  Ok (if lowr then map stolower (fst r) else fst r, snd r).

(* ---- std::stoi: blanks, sign, digits; the rest of the string is ignored *)
Inductive conv (A : Type) := CVal (a : A) | CInvalid | CRange.
Arguments CVal {A} a.
Arguments CInvalid {A}.
Arguments CRange {A}.
(* an exception that is not caught ends the program *)
Definition thrown {A} (x : conv A) : outcome A :=
  match x with CVal a => Ok a | _ => Fatal end.
Definition is_space (c : ascii) : bool := (code c =? 32) || ((9 <=? code c) && (code c <=? 13)).
Definition is_digit (c : ascii) : bool := (48 <=? code c) && (code c <=? 57).
Fixpoint drop_space (l : str) : str :=
  match l with [] => [] | c :: t => if is_space c then drop_space t else l end.
Fixpoint digits_val (acc : Z) (l : str) : Z :=
  match l with
  | [] => acc
  | c :: t => if is_digit c then digits_val (acc * 10 + Z.of_nat (code c - 48)) t else acc
  end.
Definition starts_digit (l : str) : bool := match l with c :: _ => is_digit c | [] => false end.
Definition int_range (z : Z) : conv Z :=
  if ((-2147483648 <=? z) && (z <=? 2147483647))%Z then CVal z else CRange.
Definition stoi (l : str) : conv Z :=
  let l := drop_space l in
  let p := match l with
           | c :: t => if code c =? 45 then (true, t) else if code c =? 43 then (false, t) else (false, l)
           | [] => (false, l)
           end in
  if starts_digit (snd p)
  then int_range (if fst p then - digits_val 0 (snd p) else digits_val 0 (snd p))
  else CInvalid.
Definition wrap32 (z : Z) : Z := (z mod 4294967296)%Z.

(* ---- labels *)
Fixpoint index_of (x : str) (l : list str) (i : nat) : option nat :=
  match l with
  | [] => None
  | y :: t => if str_eqb x y then Some i else index_of x t (S i)
  end.
(* Dof.cpp:6-21, Dof.h:15-42 *)
Definition dofLabels : list str :=
  map s_ ["UX"; "UY"; "UZ"; "ROTX"; "ROTY"; "ROTZ"; "HYDRO_PRESSURE"; "TEMP"; "UNDEFINED"]%string.
Definition numberOfDofTypes := 8.
Definition label2dofType (x : str) : nat :=
  match index_of x (firstn numberOfDofTypes dofLabels) 0 with Some i => i | None => numberOfDofTypes end.
Definition dofType2label (t : nat) : outcome str :=
  asserting (t <? numberOfDofTypes) (aget dofLabels t).
(* sys.h:151-178, ElementFactory.cpp:19-26 *)
Definition elTypeLabels : list str :=
  map s_ ["TRUSS3"; "PLANE41"; "SOLID81"; "TETRA0"; "TETRA1"; "QUADTH"; "SurfaceLINETH";
          "TRIANGLE4"; "INTER0"; "INTER3"; "UNDEFINED"]%string.
Definition elUNDEFINED := 10.
Definition elName2elType (x : str) : nat :=
  match index_of x (firstn elUNDEFINED elTypeLabels) 0 with Some i => i | None => elUNDEFINED end.
(* ElementFactory::createElements: 29-93, the class of the created objects *)
Inductive elclass := CTRUSS3 | CPLANE41 | CSOLID81 | CTETRA0 | CTETRA1 | CQUADTH | CSurfaceLINETH
                   | CTRIANGLE4 | CINTER0 | CINTER3.
Definition createElements (t : nat) (n : nat) (ptr : list elclass) : outcome (list elclass) :=
  if t =? elUNDEFINED then Fatal
  else if n =? 0 then Ok ptr
  else match nth_error [CTRUSS3; CPLANE41; CSOLID81; CTETRA0; CTETRA1; CQUADTH; CSurfaceLINETH;
                        CTRIANGLE4; CINTER0; CINTER3] t with
       | Some c => Ok (ptr ++ repeat c n)
       | None => Ok ptr          (* default: LOG(ERROR) *)
       end.
(* MaterialFactory.cpp:9-49, MaterialFactory.h:13-19 *)
Definition matModelLabels : list str :=
  map s_ ["UNDEFINED"; "Neo-Hookean"; "Biderman"; "Mooney-Rivlin"]%string.
Definition matLAST := 4.
Definition matName2matId (x : str) : nat :=
  match index_of x (firstn matLAST matModelLabels) 0 with Some i => i | None => 0 end.
(* None: nullptr; otherwise the code of the new material *)
Definition createMaterial (x : str) : option nat :=
  let id := matName2matId x in
  if id =? 0 then None else if id <? matLAST then Some id else None.
(* FEComponent.cpp:9, 19-27 *)
Definition labelsOfComponent : list str := map s_ ["NOT DEFINED"; "ELEM"; "NODE"; "LAST"]%string.
Definition typeFromString (x : str) : nat :=
  match index_of x (firstn 2 (skipn 1 labelsOfComponent)) 1 with Some i => i | None => 0 end.
Definition comp_ELEMENTS := 1.
Definition comp_NODES := 2.
(* query.h *)
Definition scalarLabels : list str := map s_ ["UNDEFINED"; "S_P"; "W"; "WU"; "WP"; "VOL"; "LAST"]%string.
Definition vectorLabels : list str := map s_ ["UNDEFINEDS"; "IC"; "FLUX"; "GRADT"; "LAST"]%string.
Definition tensorLabels : list str :=
  map s_ ["UNDEFINED"; "COUCHY"; "PK2"; "E"; "C"; "TSTRAIN"; "LAST"]%string.
Definition query2label (labels : list str) (q : nat) : outcome str :=
  asserting (q <? length labels - 1) (aget labels q).

(* ---- MeshData, FEReaders.h:26-56.  D: double *)
Section Mesh.
  Variable D : Type.
  Record comp := mkComp { cp_type : nat; cp_list : list Z }.
  Record bc := mkBC { bc_node : Z; bc_dof : nat; bc_value : D }.
  Record term := mkTerm { tm_node : Z; tm_dof : nat; tm_coef : D }.
  Record mpc := mkMPC { mp_b : D; mp_eq : list term }.
  Record cell := mkCell { ce_num : Z; ce_nodes : list Z; ce_type : Z; ce_mat : Z; ce_real : Z;
                          ce_sect : Z; ce_cs : Z; ce_shape : Z }.
  (* the parallel vectors cellNumbers, cellNodes, cellIntData[..] as one list of records; they
     are only extended together *)
  Record mesh := mkMesh { md_nodes : list Z; md_pos : list (D * D * D); md_cells : list cell;
                          md_fix : list bc; md_load : list bc; md_mpcs : list mpc;
                          md_comps : list (str * comp) }.
  Definition md_empty : mesh := mkMesh [] [] [] [] [] [] [].

  (* ---- compressNumbers: 35-83.  std::map<uint32,uint32>: operator[] inserts 0 for a missing key *)
  Definition nmap := list (Z * Z).
  Definition nm_get (m : nmap) (k : Z) : Z :=
    match find (fun p => Z.eqb (fst p) k) m with Some p => snd p | None => 0%Z end.
  Fixpoint zmax (l : list Z) : Z := match l with [] => 0%Z | x :: t => Z.max x (zmax t) end.
  Fixpoint old2new (l : list Z) (next : Z) : nmap :=
    (* later assignments overwrite: they are put in front *)
    match l with
    | [] => []
    | n :: t => old2new t (next + 1)%Z ++ [(n, next)]
    end.
  Definition map_cell (f : Z -> Z) (c : cell) : cell :=
    mkCell (ce_num c) (map f (ce_nodes c)) (ce_type c) (ce_mat c) (ce_real c) (ce_sect c) (ce_cs c) (ce_shape c).
  Definition map_bc (f : Z -> Z) (b : bc) : bc := mkBC (f (bc_node b)) (bc_dof b) (bc_value b).
  Definition map_term (f : Z -> Z) (t : term) : term := mkTerm (f (tm_node t)) (tm_dof t) (tm_coef t).
  Definition map_mpc (f : Z -> Z) (p : mpc) : mpc := mkMPC (mp_b p) (map (map_term f) (mp_eq p)).
  Definition map_comp (f : Z -> Z) (c : comp) : comp :=
    if cp_type c =? comp_NODES then mkComp (cp_type c) (map f (cp_list c)) else c.
  Definition compressNumbers (md : mesh) : outcome mesh :=
    match md_nodes md with
    | [] => UB                                      (* *max_element of an empty range *)
    | _ =>
        if Z.eqb (Z.of_nat (length (md_nodes md))) (zmax (md_nodes md)) then Ok md
        else
          let m := old2new (md_nodes md) 1%Z in
          let f := nm_get m in
          Ok (mkMesh (map Z.of_nat (seq 1 (length (md_nodes md)))) (md_pos md)
                     (map (map_cell f) (md_cells md)) (map (map_bc f) (md_fix md))
                     (map (map_bc f) (md_load md)) (map (map_mpc f) (md_mpcs md))
                     (map (fun p => (fst p, map_comp f (snd p))) (md_comps md)))
    end.
  (* getDegeneratedCells: 86-95 *)
  Fixpoint zdup (l : list Z) : bool :=
    match l with [] => false | x :: t => existsb (Z.eqb x) t || zdup t end.
  Definition getDegeneratedCells (md : mesh) : list nat :=
    filter (fun i => match nth_error (md_cells md) i with Some c => zdup (ce_nodes c) | None => false end)
           (seq 0 (length (md_cells md))).

  (* ---- readCdbFile: 321-729 on the lines of the file *)
  Variable d0 : D.                                  (* Vec<3> is filled with zeros *)
  Variable stod : str -> conv D.

  (* getLine on the lines that are left; at the end it gives the empty line *)
  Definition next_line (ls : list str) : str * list str :=
    match ls with [] => ([], []) | l :: t => (l, t) end.
  Definition comma : list ascii := [","%char].
  Definition toks (line : str) : outcome (list str) := r <- tokenize comma false line ;; Ok (fst r).
  Definition tokenInt (t : list str) (i : nat) : outcome (conv Z) := x <- aget t i ;; Ok (stoi x).
  Definition tokenDouble (t : list str) (i : nat) : outcome (conv D) := x <- aget t i ;; Ok (stod x).

  (* std::regex_match with \((\d+)i(\d+)\) and \((\d+)i(\d+),(\d+)e(\d+)\.[0-9e]+\) *)
  Fixpoint span (p : ascii -> bool) (l : str) : str * str :=
    match l with
    | [] => ([], [])
    | c :: t => if p c then let r := span p t in (c :: fst r, snd r) else ([], l)
    end.
  Definition lit (c : ascii) (l : str) : option str :=
    match l with x :: t => if Ascii.eqb x c then Some t else None | [] => None end.
  Definition plus (p : ascii -> bool) (l : str) : option (str * str) :=
    match span p l with ([], _) => None | r => Some r end.
  Notation "'let?' p := e 'in' k" := (match e with Some p => k | None => None end)
    (at level 200, p pattern, right associativity).
  Definition re_i (l : str) : option (str * str) :=
    let? l := lit "("%char l in
    let? (a, l) := plus is_digit l in
    let? l := lit "i"%char l in
    let? (b, l) := plus is_digit l in
    let? l := lit ")"%char l in
    match l with [] => Some (a, b) | _ => None end.
  Definition is_09e (c : ascii) : bool := is_digit c || Ascii.eqb c "e"%char.
  Definition re_ie (l : str) : option (str * str * str * str) :=
    let? l := lit "("%char l in
    let? (a, l) := plus is_digit l in
    let? l := lit "i"%char l in
    let? (b, l) := plus is_digit l in
    let? l := lit ","%char l in
    let? (c, l) := plus is_digit l in
    let? l := lit "e"%char l in
    let? (d, l) := plus is_digit l in
    let? l := lit "."%char l in
    let? (_, l) := plus is_09e l in
    let? l := lit ")"%char l in
    match l with [] => Some (a, b, c, d) | _ => None end.
  Definition fmt_i (line : str) : outcome (nat * nat) :=
    match re_i (stolower (strim line)) with
    | None => Fatal
    | Some (a, b) => n <- thrown (stoi a) ;; w <- thrown (stoi b) ;; Ok (Z.to_nat n, Z.to_nat w)
    end.
  Definition fmt_ie (line : str) : outcome (nat * nat * nat * nat) :=
    match re_ie (stolower (strim line)) with
    | None => Fatal
    | Some (a, b, c, d) =>
        n <- thrown (stoi a) ;; w <- thrown (stoi b) ;;
        n2 <- thrown (stoi c) ;; w2 <- thrown (stoi d) ;;
        Ok (Z.to_nat n, Z.to_nat w, Z.to_nat n2, Z.to_nat w2)
    end.
  Definition fieldInt (v : list str) (i : nat) : outcome Z := x <- aget v i ;; z <- thrown (stoi x) ;; Ok (wrap32 z).
  Definition is_end (c : ascii) : bool := Ascii.eqb c "-"%char || Ascii.eqb c "N"%char.

  (* NBLOCK: 398-414; result: the lines after the table and the read nodes *)
  Definition coord (v : list str) (int_num k : nat) : outcome D :=
    if int_num + k <? length v then x <- aget v (int_num + k) ;; thrown (stod x) else Ok d0.
  Fixpoint read_nodes (int_num : nat) (ws : list nat) (ls : list str)
    : outcome (list str * list (Z * (D * D * D))) :=
    match ls with
    | [] => Ok ([], [])
    | line :: ls =>
        ch <- sfirstNotBlank line ;;
        if is_end ch then Ok (ls, [])
        else
          v <- ssplit line ws false ;;
          number <- fieldInt v 0 ;;
          x <- coord v int_num 0 ;; y <- coord v int_num 1 ;; z <- coord v int_num 2 ;;
          r <- read_nodes int_num ws ls ;;
          Ok (fst r, (number, (x, y, z)) :: snd r)
    end.
  (* EBLOCK: 460-522 *)
  Definition fieldInts (v : list str) (st n : nat) : outcome (list Z) :=
    ofold (fun l i => x <- fieldInt v (st + i) ;; Ok (l ++ [x])) (seq 0 n) [].
  Definition read_cell (isSolid : bool) (v : list str) : outcome cell :=
    if isSolid then
      mat <- fieldInt v 0 ;; ty <- fieldInt v 1 ;; re <- fieldInt v 2 ;; se <- fieldInt v 3 ;;
      cs <- fieldInt v 4 ;; sh <- fieldInt v 7 ;; nn <- fieldInt v 8 ;; el <- fieldInt v 10 ;;
      if negb (Z.eqb (Z.of_nat (length v)) (11 + nn)) then Fatal
      else ns <- fieldInts v 11 (length v - 11) ;; Ok (mkCell el ns ty mat re se cs sh)
    else
      el <- fieldInt v 0 ;; ty <- fieldInt v 1 ;; re <- fieldInt v 2 ;; mat <- fieldInt v 3 ;;
      cs <- fieldInt v 4 ;;
      ns <- fieldInts v 5 (length v - 5) ;; Ok (mkCell el ns ty mat re 0%Z cs 0%Z).
  Fixpoint read_cells (isSolid : bool) (ws : list nat) (ls : list str)
    : outcome (list str * list cell) :=
    match ls with
    | [] => Ok ([], [])
    | line :: ls =>
        ch <- sfirstNotBlank line ;;
        if is_end ch then Ok (ls, [])
        else
          v <- ssplit line ws false ;;
          c <- read_cell isSolid v ;;
          r <- read_cells isSolid ws ls ;;
          Ok (fst r, c :: snd r)
    end.
  (* CE: 549-573 *)
  Fixpoint ce_for (fuel : nat) (t : list str) (i : nat) (n_terms : Z) (eq : list term)
    : outcome (Z * list term) :=
    match fuel with
    | 0 => Loop
    | S fuel =>
        if (Z.of_nat i <? Z.max n_terms 2)%Z then
          a <- tokenInt t (3 + 3 * i + 0) ;; node <- thrown a ;;
          lab <- aget t (3 + 3 * i + 1) ;;
          b <- tokenDouble t (3 + 3 * i + 2) ;; coef <- thrown b ;;
          ce_for fuel t (S i) (n_terms - 1)%Z (eq ++ [mkTerm (wrap32 node) (label2dofType lab) coef])
        else Ok (n_terms, eq)
    end.
  Fixpoint ce_while (fuel : nat) (ls : list str) (n_terms : Z) (eq : list term)
    : outcome (list str * list term) :=
    match fuel with
    | 0 => Loop
    | S fuel =>
        if (0 <? n_terms)%Z then
          t <- toks (fst (next_line ls)) ;;
          r <- ce_for (Z.to_nat n_terms + 3) t 0 n_terms eq ;;
          ce_while fuel (snd (next_line ls)) (fst r) (snd r)
        else Ok (ls, eq)
    end.
  Definition read_ce (t : list str) (ls : list str) : outcome (list str * mpc) :=
    b0 <- tokenDouble t 5 ;; b <- thrown b0 ;;
    n0 <- tokenInt t 3 ;; n <- thrown n0 ;;
    r <- ce_while (Z.to_nat n + 1) ls n [] ;;
    Ok (fst r, mkMPC b (snd r)).
  (* CMBLOCK: 574-653.  all, in_row: uint16.  If numRanges >= 65536 the loop condition
     all < numRanges cannot become false: the loop goes on until a line is too short, which comes
     at the end of the file at the latest.  The fuel is enough for that; in files with rows of
     65536 or more numbers in_row can also start again, then the loop has no end *)
  Definition w16 (n : nat) : nat := N.to_nat (N.of_nat n mod 65536)%N.
  Fixpoint cm_read (fuel : nat) (int_num : nat) (ws : list nat) (numRanges : Z)
                   (ls : list str) (v : list str) (in_row all : nat) (rv : list Z) (numEntity : Z)
    : outcome (list str * (list Z * Z)) :=
    match fuel with
    | 0 => Loop
    | S fuel =>
        if (Z.of_nat all <? numRanges)%Z then
          q <- (if in_row =? int_num
                then v <- ssplit (fst (next_line ls)) ws false ;; Ok (snd (next_line ls), (v, 0))
                else Ok (ls, (v, in_row))) ;;
          let ls := fst q in let v := fst (snd q) in let in_row := snd (snd q) in
          x <- aget v in_row ;; z <- thrown (stoi x) ;;
          let rv := rv ++ [z] in
          cur <- aget rv all ;;
          ne <- (if (0 <? cur)%Z then Ok (numEntity + 1)%Z
                 else asserting (0 <? all)
                        (pr <- aget rv (all - 1) ;;
                         asserting (0 <? pr)%Z
                           (asserting (negb (Z.eqb cur (-2147483648)))
                              (Ok ((numEntity + (- cur - pr)) mod 18446744073709551616)%Z)))) ;;
          cm_read fuel int_num ws numRanges ls v (w16 (in_row + 1)) (w16 (all + 1)) rv ne
        else Ok (ls, (rv, numEntity))
    end.
  Fixpoint zseq (a : Z) (n : nat) : list Z := match n with 0 => [] | S n => a :: zseq (a + 1)%Z n end.
  Fixpoint cm_fill (prev : Z) (rv : list Z) : list Z :=
    match rv with
    | [] => []
    | r :: t =>
        (if (0 <? r)%Z then [r]
         else zseq (prev + 1)%Z (Z.to_nat (- r - prev))) ++ cm_fill r t
    end.
  Definition read_cm (t : list str) (ls : list str) : outcome (list str * (str * comp)) :=
    name <- aget t 1 ;;
    lab <- aget t 2 ;;
    let ty := typeFromString (stoupper lab) in
    n0 <- tokenInt t 3 ;; n <- thrown n0 ;;
    let numRanges := (n mod 18446744073709551616)%Z in
    f <- fmt_i (fst (next_line ls)) ;;
    let ws := repeat (snd f) (fst f) in
    let ls := snd (next_line ls) in
    v <- ssplit (fst (next_line ls)) ws false ;;
    r <- cm_read (S (Z.to_nat (Z.min numRanges 65536)) + (length ls + 2) * S (fst f)) (fst f) ws numRanges (snd (next_line ls)) v 0 0 [] 0%Z ;;
    (* reserve(): std::length_error *)
    if (2305843009213693951 <? snd (snd r))%Z then Fatal
    else Ok (fst r, (name, mkComp ty (cm_fill 0%Z (fst (snd r))))).
  (* std::map::insert keeps an existing entry *)
  Definition comps_insert (l : list (str * comp)) (p : str * comp) : list (str * comp) :=
    if existsb (fun q => str_eqb (fst q) (fst p)) l then l else l ++ [p].
  (* D and F: 532-548, 676-707; caught: invalid_argument only.  None: the record is skipped *)
  Definition read_bc (dof : str -> nat) (t : list str) : outcome (option bc) :=
    a <- tokenInt t 1 ;;
    match a with
    | CInvalid => Ok None
    | CRange => Fatal
    | CVal n =>
        b <- tokenDouble t 3 ;;
        match b with
        | CInvalid => Ok None
        | CRange => Fatal
        | CVal x => l <- aget t 2 ;; Ok (Some (mkBC (wrap32 n) (dof l) x))
        end
    end.
  Definition force_dof (l : str) : nat :=
    if iequals l (s_ "HEAT") then 7
    else if iequals l (s_ "FX") then 0
    else if iequals l (s_ "FY") then 1
    else if iequals l (s_ "FZ") then 2
    else label2dofType l.
  Definition snoc_opt {A} (l : list A) (o : option A) : list A :=
    match o with Some a => l ++ [a] | None => l end.
  Definition first_char (l : str) : ascii := match l with c :: _ => c | [] => ascii_of_nat 0 end.

  (* one command, its line already taken from the stream; result: the lines left, the mesh *)
  Definition command (t : list str) (ls : list str) (md : mesh) : outcome (list str * mesh) :=
    t0 <- aget t 0 ;;
    if str_eqb t0 [] then Ok (ls, md)
    else if Ascii.eqb (first_char t0) "/"%char then Ok (ls, md)
    else if Ascii.eqb (first_char t0) "!"%char then Ok (ls, md)
    else if iequals t0 (s_ "NBLOCK") then
      f <- fmt_ie (fst (next_line ls)) ;;
      match f with
      | (int_num, int_field, float_num, float_field) =>
          r <- read_nodes int_num (repeat int_field int_num ++ repeat float_field float_num) (snd (next_line ls)) ;;
          Ok (fst r, mkMesh (md_nodes md ++ map fst (snd r)) (md_pos md ++ map snd (snd r)) (md_cells md)
                            (md_fix md) (md_load md) (md_mpcs md) (md_comps md))
      end
    else if iequals t0 (s_ "EBLOCK") then
      t2 <- aget t 2 ;;
      f <- fmt_i (fst (next_line ls)) ;;
      r <- read_cells (iequals t2 (s_ "SOLID")) (repeat (snd f) (fst f)) (snd (next_line ls)) ;;
      Ok (fst r, mkMesh (md_nodes md) (md_pos md) (md_cells md ++ snd r)
                        (md_fix md) (md_load md) (md_mpcs md) (md_comps md))
    else if iequals t0 (s_ "D") then
      b <- read_bc label2dofType t ;;
      Ok (ls, mkMesh (md_nodes md) (md_pos md) (md_cells md)
                     (snoc_opt (md_fix md) b) (md_load md) (md_mpcs md) (md_comps md))
    else if iequals t0 (s_ "CE") then
      r <- read_ce t ls ;;
      Ok (fst r, mkMesh (md_nodes md) (md_pos md) (md_cells md)
                        (md_fix md) (md_load md) (md_mpcs md ++ [snd r]) (md_comps md))
    else if iequals t0 (s_ "CMBLOCK") then
      t1 <- aget t 1 ;;
      if Ascii.eqb (first_char t1) "_"%char then Ok (ls, md)
      else
        r <- read_cm t ls ;;
        Ok (fst r, mkMesh (md_nodes md) (md_pos md) (md_cells md)
                          (md_fix md) (md_load md) (md_mpcs md) (comps_insert (md_comps md) (snd r)))
    else if iequals t0 (s_ "ET") || iequals t0 (s_ "ETYPE") || iequals t0 (s_ "TYPE") then
      (* only the unused local variable type is changed *)
      a <- tokenInt t 1 ;; match a with CRange => Fatal | _ => Ok (ls, md) end
    else if iequals t0 (s_ "F") then
      b <- read_bc force_dof t ;;
      Ok (ls, mkMesh (md_nodes md) (md_pos md) (md_cells md)
                     (md_fix md) (snoc_opt (md_load md) b) (md_mpcs md) (md_comps md))
    else if iequals t0 (s_ "*set") then
      (* only the unused local map apdlParameters is changed *)
      x <- aget t 1 ;; b <- tokenDouble t 2 ;; match b with CRange => Fatal | _ => Ok (ls, md) end
    else Ok (ls, md).
  Fixpoint read_cdb_from (fuel : nat) (ls : list str) (md : mesh) : outcome mesh :=
    match fuel with
    | 0 => Loop
    | S fuel =>
        match ls with
        | [] => Ok md
        | line :: ls =>
            t <- toks line ;;
            r <- command t ls md ;;
            read_cdb_from fuel (fst r) (snd r)
        end
    end.
  Definition read_cdb_lines (ls : list str) : outcome mesh := read_cdb_from (S (length ls)) ls md_empty.
  (* the file as bytes *)
  Definition readCdbFile (file : str) : outcome mesh :=
    ls <- read_lines (S (length file)) file ;; read_cdb_lines ls.
End Mesh.
