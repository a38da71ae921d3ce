(* Files: C44-C50, C73, C74 *)
From Coq Require Import Ascii String.
From Verif Require Import Base ReaderModel SpecReader ReaderProofs ReaderNum SpecCdb ReaderFile ReaderMesh ReaderEnd.
Local Open Scope nat_scope.
Local Open Scope list_scope.

(* ---- C44 *)
(* every line ending in any mixture, with or without a terminator at the end *)
Theorem C44_lines : forall (ls : list (str * eol)) (last : str),
  Forall (fun p => plain (fst p)) ls -> plain last -> unambiguous ls ->
  read_lines (S (length (file_of ls last))) (file_of ls last) = Ok (map fst ls ++ last_line last).
Proof. intros ls last F P U. exact (read_lines_file ls last _ F P U (file_length ls last)). Qed.
(* every file has this form *)
Theorem C44_every_file : forall file : str, exists ls last,
  file = file_of ls last /\ Forall (fun p => plain (fst p)) ls /\ plain last /\ unambiguous ls.
Proof. intros file. exact (file_decompose (S (length file)) file (Nat.lt_succ_diag_r _)). Qed.
Example C44_ex : let ls := [(s_ "a", E_CR); (s_ "", E_CRLF); (s_ "b", E_LF); (s_ "", E_LF)] in
  unambiguous ls /\ read_lines 20 (file_of ls (s_ "c")) = Ok [s_ "a"; []; s_ "b"; []; s_ "c"].
Proof. split; [|reflexivity]. cbn. repeat split; intros; try discriminate. Qed.
Print Assumptions C44_lines.
Print Assumptions C44_every_file.

(* ---- C45 *)
Theorem C45_tokens_of_line : forall ds lowr line, exists raws dts,
  tokenize ds lowr line = Ok (map (fun r => if lowr then stolower (strim r) else strim r) raws, dts) /\
  length raws = S (length dts) /\ join raws dts = line /\
  Forall (no_delim ds) raws /\ Forall (fun d => mem d ds = true) dts.
Proof. exact tokenize_spec. Qed.
Theorem C45_tokens_of_join : forall ds lowr raws dts, length raws = S (length dts) ->
  Forall (no_delim ds) raws -> Forall (fun d => mem d ds = true) dts ->
  tokenize ds lowr (join raws dts) = Ok (map (fun r => if lowr then stolower (strim r) else strim r) raws, dts).
Proof. exact tokenize_join. Qed.
Theorem C45_trim : forall l, exists b1 b2, blanks b1 /\ blanks b2 /\ l = b1 ++ strim l ++ b2 /\ trimmed (strim l).
Proof. exact strim_split. Qed.
Theorem C45_trim_unique : forall b1 l b2, blanks b1 -> blanks b2 -> trimmed l -> strim (b1 ++ l ++ b2) = l.
Proof. exact strim_trimmed. Qed.
Example C45_ex : tokenize (s_ ",;") true (s_ "  Ab , ;c") = Ok ([s_ "ab"; []; s_ "c"], s_ ",;").
Proof. reflexivity. Qed.
Print Assumptions C45_tokens_of_line.
Print Assumptions C45_tokens_of_join.
Print Assumptions C45_trim.
Print Assumptions C45_trim_unique.

(* ---- C46 *)
Theorem C46_long_enough : forall line ws strict, total ws <= length line ->
  ssplit line ws strict = Ok (fields line ws) /\ concat (fields line ws) = firstn (total ws) line /\
  map (@length _) (fields line ws) = ws.
Proof.
  intros line ws strict H. split; [exact (ssplit_ok line ws strict 0 [] (Nat.le_0_l _) H)|].
  exact (fields_concat ws line H).
Qed.
(* strict: too short lines are refused; not strict: the line may end between two fields *)
Theorem C46_too_short : forall line ws strict, length line < total ws ->
  exists k, k < length ws /\ total (firstn k ws) <= length line < total (firstn (S k) ws) /\
    ssplit line ws strict =
      if strict then Fatal
      else if total (firstn k ws) =? length line then Ok (fields line (firstn k ws)) else Fatal.
Proof. intros line ws strict H. exact (ssplit_short line ws strict 0 [] (Nat.le_0_l _) H). Qed.
Example C46_ex : ssplit (s_ "abcdef") [2; 3] true = Ok [s_ "ab"; s_ "cde"] /\
  ssplit (s_ "ab") [2; 3] true = Fatal /\ ssplit (s_ "ab") [2; 3] false = Ok [s_ "ab"] /\ ssplit (s_ "abc") [2; 3] false = Fatal.
Proof. repeat split. Qed.
Print Assumptions C46_long_enough.
Print Assumptions C46_too_short.

(* ---- C47: the block after its first line; k numbers in a row, w columns for a number *)
Theorem C47_component : forall t name lab ntok hdr k w xs rest,
  nth_error t 1 = Some name -> nth_error t 2 = Some lab -> nth_error t 3 = Some ntok ->
  stoi ntok = CVal (Z.of_nat (length (encode xs))) ->
  fmt_i hdr = Ok (k, w) -> 0 < k -> (N.of_nat k < 65536)%N -> 0 < w ->
  (N.of_nat (length (encode xs)) < 65536)%N ->
  Forall item_ok xs -> Forall (fun z => length (show z) <= w) (encode xs) ->
  read_cm t (hdr :: number_rows k w (encode xs) ++ rest) =
    Ok (rest, (name, mkComp (typeFromString (stoupper lab)) (expand xs))).
Proof. exact read_cm_ok. Qed.
Definition cm_ex : list item := [One 5; Range 7 10; One 20; Range 3 3]%Z.
Example C47_ex : read_cm [s_ "CMBLOCK"; s_ "TOP"; s_ "node"; show 6] (s_ "(4i10)" :: number_rows 4 10 (encode cm_ex) ++ [s_ "END"]) =
  Ok ([s_ "END"], (s_ "TOP", mkComp comp_NODES [5; 7; 8; 9; 10; 20; 3]%Z)) /\ Forall item_ok cm_ex.
Proof. split; [vm_compute; reflexivity|]. unfold cm_ex. repeat (apply Forall_cons; [cbn; lia|]). apply Forall_nil. Qed.
(* 65536 or more numbers: never read, whatever the lines are *)
Theorem C47_long_list_refuted : forall t ntok n ls q,
  nth_error t 3 = Some ntok -> stoi ntok = CVal n -> (65536 <= n)%Z -> read_cm t ls <> Ok q.
Proof. exact read_cm_big. Qed.
Example C47_long_ex : stoi (show 65536) = CVal 65536%Z.
Proof. reflexivity. Qed.
Print Assumptions C47_component.
Print Assumptions C47_long_list_refuted.

(* ---- C48 *)
Theorem C48_equation_partial : forall D stod fmt, fmt_ok D fmt stod -> forall m rest,
  Forall (term_ok D) (mp_eq D m) -> ce_terms_ok D m ->
  read_ce D stod (ce_head_toks D fmt m) (term_lines D fmt (mp_eq D m) ++ rest) = Ok (rest, m).
Proof. exact read_ce_ok. Qed.
(* for every other number of terms tokens outside the line are used *)
Theorem C48_other_numbers_refuted : forall D stod fmt, fmt_ok D fmt stod -> forall m rest,
  Forall (term_ok D) (mp_eq D m) -> ~ ce_terms_ok D m -> n9 (Z.of_nat (length (mp_eq D m))) ->
  read_ce D stod (ce_head_toks D fmt m) (term_lines D fmt (mp_eq D m) ++ rest) = UB.
Proof. exact read_ce_ub. Qed.
(* two doubles, written as integers *)
Definition fmt2 (b : bool) : str := pad 20 (show (if b then 1 else 0)).
Definition stod2 (l : str) : conv bool := match stoi l with CVal z => CVal (negb (Z.eqb z 0)) | CInvalid => CInvalid | CRange => CRange end.
Lemma fmt2_ok : fmt_ok bool fmt2 stod2.
Proof.
  intros b. split; [destruct b; reflexivity|]. split; [destruct b; reflexivity|]. split; [destruct b; reflexivity|].
  split; [|apply plainb_ok; destruct b; reflexivity]. apply commafree_ok. destruct b; reflexivity.
Qed.
Example C48_ex_2 : let t := mkTerm bool 3 1 true in let m := mkMPC bool false [t; t] in
  read_ce bool stod2 (ce_head_toks bool fmt2 m) (term_lines bool fmt2 (mp_eq bool m)) = Ok ([], m).
Proof. vm_compute. reflexivity. Qed.
Example C48_ex_3 : let t := mkTerm bool 3 1 true in let m := mkMPC bool false [t; t; t] in
  read_ce bool stod2 (ce_head_toks bool fmt2 m) (term_lines bool fmt2 (mp_eq bool m)) = UB.
Proof. vm_compute. reflexivity. Qed.
Print Assumptions C48_equation_partial.
Print Assumptions C48_other_numbers_refuted.

(* ---- C49 *)
Theorem C49_renumbering_partial : forall D (m : mesh D),
  NoDup (md_nodes D m) -> length (md_nodes D m) = length (md_pos D m) -> md_nodes D m <> [] ->
  Z.of_nat (length (md_nodes D m)) <> zmax (md_nodes D m) \/
    md_nodes D m = map Z.of_nat (seq 1 (length (md_nodes D m))) ->
  exists m' f, compressNumbers D m = Ok m' /\ mesh_rest D m' = mesh_rest D m /\ refs_map D f m m' /\
    md_nodes D m' = map Z.of_nat (seq 1 (length (md_nodes D m))) /\
    (forall n, In n (md_nodes D m) -> stored_pos D (md_pos D m') (f n) = pos_of D (md_nodes D m) (md_pos D m) n) /\
    (forall n, In n (md_nodes D m) -> In (f n) (md_nodes D m')) /\
    (forall n n', In n (md_nodes D m) -> In n' (md_nodes D m) -> f n = f n' -> n = n').
Proof. exact compress_ok. Qed.
Definition gap_mesh (a b : Z) : mesh Z :=
  mkMesh Z [a; b] [(10, 0, 0); (20, 0, 0)]%Z [mkCell 1 [b; a] 1 1 1 1 0 0] [mkBC Z a 0 5%Z] [mkBC Z b 1 6%Z]
         [mkMPC Z 0%Z [mkTerm Z a 0 1%Z; mkTerm Z b 0 2%Z]] [(s_ "N", mkComp comp_NODES [b]); (s_ "E", mkComp comp_ELEMENTS [7%Z])].
Example C49_ex : compressNumbers Z (gap_mesh 7 3) = Ok (gap_mesh 1 2).
Proof. reflexivity. Qed.
(* nodes 2, 1: the positions of the two nodes are exchanged in the storage *)
Theorem C49_permuted_refuted : exists m m' : mesh Z,
  NoDup (md_nodes Z m) /\ length (md_nodes Z m) = length (md_pos Z m) /\ compressNumbers Z m = Ok m' /\
  exists c c' n n', md_cells Z m = [c] /\ md_cells Z m' = [c'] /\ nth_error (ce_nodes c) 0 = Some n /\
    nth_error (ce_nodes c') 0 = Some n' /\ stored_pos Z (md_pos Z m') n' <> pos_of Z (md_nodes Z m) (md_pos Z m) n.
Proof.
  exists (gap_mesh 2 1), (gap_mesh 2 1). split; [repeat constructor; cbn; intuition discriminate|].
  split; [reflexivity|]. split; [reflexivity|]. repeat eexists; try reflexivity. vm_compute. discriminate.
Qed.
Print Assumptions C49_renumbering_partial.
Print Assumptions C49_permuted_refuted.

(* ---- C50 *)
Theorem C50_dof_label_of_code : forall d, d < 8 -> exists x, dofType2label d = Ok x /\ label2dofType x = d.
Proof. exact dof_label_code. Qed.
Theorem C50_dof_code_of_label : forall x, label2dofType x < 8 -> dofType2label (label2dofType x) = Ok x.
Proof. exact dof_code. Qed.
Theorem C50_dof_unknown : forall x, label2dofType x = 8 <-> forall d, d < 8 -> dofType2label d <> Ok x.
Proof. exact dof_unknown. Qed.
(* the enumerators of Dof::dofType with their values *)
Definition dof_enum : list (str * nat) :=
  [(s_ "UX", 0); (s_ "UY", 1); (s_ "UZ", 2); (s_ "ROTX", 3); (s_ "ROTY", 4); (s_ "ROTZ", 5); (s_ "HYDRO_PRESSURE", 6); (s_ "TEMP", 7)].
Theorem C50_dof_enumerators : Forall (fun p => label2dofType (fst p) = snd p /\ dofType2label (snd p) = Ok (fst p)) dof_enum.
Proof. repeat (apply Forall_cons; [split; reflexivity|]). apply Forall_nil. Qed.
Print Assumptions C50_dof_enumerators.
Theorem C50_element_class : forall c n ptr, n <> 0 ->
  createElements (elName2elType (class_name c)) n ptr = Ok (ptr ++ repeat c n).
Proof. exact element_created. Qed.
Theorem C50_element_unknown : forall x n ptr, (forall c, x <> class_name c) -> createElements (elName2elType x) n ptr = Fatal.
Proof. exact element_unknown. Qed.
Theorem C50_material : forall k x, nth_error mat_names k = Some x -> createMaterial x = Some (S k).
Proof. exact material_created. Qed.
Theorem C50_material_unknown : forall x, ~ In x mat_names <-> createMaterial x = None.
Proof. exact material_unknown. Qed.
Theorem C50_component : forall x, typeFromString x =
  match (str_eqb x (s_ "ELEM"), str_eqb x (s_ "NODE")) with (true, _) => comp_ELEMENTS | (false, true) => comp_NODES | _ => 0 end.
Proof. exact component_type. Qed.
Theorem C50_query_labels : forall ls, In ls [scalarLabels; vectorLabels; tensorLabels] ->
  forall q q', q < length ls - 1 -> q' < length ls - 1 ->
  exists x, query2label ls q = Ok x /\ (query2label ls q' = Ok x -> q' = q).
Proof. exact query_injective. Qed.
Example C50_ex : label2dofType (s_ "UZ") = 2 /\ label2dofType (s_ "ux") = 8 /\ createMaterial (s_ "UNDEFINED") = None /\
  createElements (elName2elType (s_ "SOLID82")) 3 [] = Fatal /\ typeFromString (s_ "NODE") = comp_NODES.
Proof. repeat split. Qed.
Print Assumptions C50_dof_label_of_code.
Print Assumptions C50_dof_code_of_label.
Print Assumptions C50_dof_unknown.
Print Assumptions C50_element_class.
Print Assumptions C50_element_unknown.
Print Assumptions C50_material.
Print Assumptions C50_material_unknown.
Print Assumptions C50_component.
Print Assumptions C50_query_labels.

(* ---- C73: a written mesh file with any line endings is read as it was written *)
Theorem C73_cdb_roundtrip : forall D d0 stod fmt, fmt_ok D fmt stod -> forall m ends last,
  wm_ok D m -> Forall (ce_terms_ok D) (wm_mpcs D m) ->
  map fst ends ++ last_line last = w_lines D fmt m -> unambiguous ends ->
  readCdbFile D d0 stod (file_of ends last) = Ok (mesh_of D d0 m).
Proof. exact cdb_roundtrip. Qed.
Definition ex_mesh : wmesh bool :=
  mkWM bool [(1, [true]); (2, [false; true; true]); (5, [])]%Z [mkCell 3 [1; 2; 5] 1 2 3 4 5 6]%Z
       [mkCell 4 [5; 2] 1 2 3 0 5 0]%Z [mkBC bool 1 7 true] [mkBC bool 5 1 true; mkBC bool 2 7 false]
       [mkMPC bool true [mkTerm bool 1 0 true; mkTerm bool 2 1 false]] [mkWC (s_ "TOP") true cm_ex; mkWC (s_ "TOP") false cm_ex].
Definition ex_ends : list (str * eol) := map (fun l => (l, E_CRLF)) (w_lines bool fmt2 ex_mesh).
Ltac nines := repeat (first [apply Forall_nil | apply Forall_cons | split | discriminate | reflexivity | exact I]).
Lemma ex_mesh_ok : wm_ok bool ex_mesh /\ Forall (ce_terms_ok bool) (wm_mpcs bool ex_mesh).
Proof.
  split; [|apply Forall_cons; [right; left; reflexivity|apply Forall_nil]].
  assert (L : forall a b, (a <=? b) = true -> a <= b) by (intros a b H; apply Nat.leb_le; exact H).
  constructor; cbn [ex_mesh wm_nodes wm_cells wm_short wm_fix wm_load wm_mpcs wm_comps map].
  - nines; apply L; reflexivity.
  - nines; apply L; reflexivity.
  - nines; apply L; reflexivity.
  - nines; apply L; reflexivity.
  - nines; apply L; reflexivity.
  - nines; apply L; reflexivity.
  - apply Forall_cons; [|apply Forall_cons; [|apply Forall_nil]]; unfold wcomp_ok; split.
    1, 3: split; [|split; [apply commafree_ok; reflexivity|split; [apply plainb_ok; reflexivity|discriminate]]].
    1, 2: apply trimmed_nonblank; cbn; repeat constructor.
    all: split; [|reflexivity]; nines.
Qed.
Lemma ex_unambiguous : unambiguous ex_ends.
Proof. unfold ex_ends. generalize (w_lines bool fmt2 ex_mesh). induction l as [|a [|b l] IH]; cbn; auto. split; [discriminate|exact IH]. Qed.
Example C73_ex : readCdbFile bool false stod2 (file_of ex_ends []) = Ok (mesh_of bool false ex_mesh).
Proof.
  apply (C73_cdb_roundtrip bool false stod2 fmt2 fmt2_ok ex_mesh ex_ends []); try apply ex_mesh_ok; [|apply ex_unambiguous].
  unfold ex_ends. rewrite map_map, map_id. apply app_nil_r.
Qed.
Print Assumptions C73_cdb_roundtrip.

(* ---- C74: every file is read in finite time ... *)
Theorem C74_ends_partial : forall D d0 stod file, exists lines, read_lines (S (length file)) file = Ok lines /\
  ((forall l k w, In l lines -> fmt_i l = Ok (k, w) -> (N.of_nat k < 65536)%N) ->
   readCdbFile D d0 stod file <> Loop).
Proof. exact reader_ends. Qed.
(* ... but many files make it use characters and tokens that do not exist *)
Theorem C74_blank_line_refuted :
  readCdbFile bool false stod2 (file_of (map (fun l => (l, E_LF)) [s_ "NBLOCK,6,SOLID"; s_ "(3i9,6e20.13)"; []]) []) = UB.
Proof. vm_compute. reflexivity. Qed.
Theorem C74_short_command_refuted :
  readCdbFile bool false stod2 (s_ "D,1,UX") = UB /\ readCdbFile bool false stod2 (s_ "CMBLOCK") = UB /\
  readCdbFile bool false stod2 (s_ "EBLOCK,19") = UB /\ readCdbFile bool false stod2 (s_ "*SET,A") = UB.
Proof. vm_compute. repeat split. Qed.
Example C74_ex : exists m, readCdbFile bool false stod2 (s_ "/COM,a") = Ok m.
Proof. eexists. vm_compute. reflexivity. Qed.
Print Assumptions C74_ends_partial.
Print Assumptions C74_blank_line_refuted.
Print Assumptions C74_short_command_refuted.
