(* C101-C109: the program nla3d *)
From Coq Require Import String Ascii Permutation Reals Lra.
From Verif Require Import Base ReaderModel SpecReader ReaderProofs ReaderNum ReaderMesh DofModel ReactModel ProgModel SpecProg ProgProofs ProgCurve ProgFinal.
Local Open Scope list_scope.
Local Open Scope nat_scope.

(* integers as numbers, for examples *)
Definition ZNum : Num := mkNum Z 0%Z 1%Z Z.add Z.mul Z.sub Z.opp.
Definition zget (l : str) : option Z * str :=
  let p := match l with c :: t => if code c =? 45 then (true, t) else (false, l) | [] => (false, l) end in
  if starts_digit (snd p)
  then (Some (if fst p then - digits_val 0 (snd p) else digits_val 0 (snd p))%Z, snd (span is_digit (snd p)))
  else (None, snd p).
Definition ZDbl : Dbl :=
  mkDbl ZNum Z.eqb Z.ltb Z.abs (fun a n => (a / Z.of_nat n)%Z) (fun l => match zget l with (Some z, _) => z | _ => 0%Z end) zget.
Definition words (l : list string) : list str := map s_ l.

(* ---------------- C101 ---------------- *)
(* the options in any order *)
Theorem C101_any_order : forall D gs model s, settings_ok s -> Permutation (keep (table s)) gs ->
  parse_args D (model :: flat gs) = go (options_of D model s).
Proof. exact parse_ok. Qed.
Print Assumptions C101_any_order.
(* also with options of other names in between *)
Theorem C101_values : forall gs name o, separate gs -> option_name name -> found gs name o ->
  getCmdManyOptions (flat gs) name = match o with Some vs => vs | None => [] end /\
  cmdOptionExists (flat gs) name = (match o with Some _ => true | None => false end) /\
  (o <> Some [] -> getCmdOption (flat gs) name = match o with Some (v :: _) => Some v | _ => None end).
Proof. intros gs name o S N F. split; [exact (many_ok gs name o S N F)|]. split; [exact (exists_ok gs name o S N F)|exact (one_ok gs name o S N F)]. Qed.
Print Assumptions C101_values.
(* command lines that are refused with a status *)
Theorem C101_refused : forall D fuel w,
  main D fuel w [] = Ok 1 /\
  (forall model args it ls, opt_num args (s_ "-iterations") 15 = Ok it -> opt_num args (s_ "-loadsteps") 10 = Ok ls ->
     getCmdManyOptions args (s_ "-material") = [] -> main D fuel w (model :: args) = Ok 1) /\
  (forall model args it ls x m, opt_num args (s_ "-iterations") 15 = Ok it -> opt_num args (s_ "-loadsteps") 10 = Ok ls ->
     opt_material D args = go m -> getCmdManyOptions args (s_ "-rigidbody") = [x] -> main D fuel w (model :: args) = Ok 1) /\
  (forall argv o, parse_args D argv = go o -> o_ref D o <> [] -> o_comp D o = [] -> main D fuel w argv = Ok 1).
Proof.
  intros D fuel w. split; [exact (refused_empty D fuel w)|]. split; [exact (refused_material D fuel w)|].
  split; [exact (refused_rigid D fuel w)|exact (refused_no_reaction D fuel w)].
Qed.
Print Assumptions C101_refused.
Example C101_refused_inhabited : forall D fuel w,
  main D fuel w (words ["m.cdb"; "-loadsteps"; "3"]%string) = Ok 1 /\
  main D fuel w (words ["m.cdb"; "-material"; "Biderman"; "-rigidbody"; "3"; "-novtk"]%string) = Ok 1 /\
  main D fuel w (words ["m.cdb"; "-material"; "Biderman"; "-refcurve"; "f"]%string) = Ok 1.
Proof. intros D fuel w. repeat split. Qed.
Definition set_ex : settings :=
  mkSet None (Some 20%Z) (Some 1) true (s_ "Mooney-Rivlin") (words ["1.5"; "-2"; "1e3"]%string) (Some (s_ "ref.txt")) None
        (Some (s_ "RIGHT", [0; 1])) (Some (5%Z, s_ "TOP", [])).
Example C101_inhabited : settings_ok set_ex /\ Permutation (keep (table set_ex)) (rev (keep (table set_ex))) /\
  flat (rev (keep (table set_ex))) = words ["-rigidbody"; "5"; "TOP"; "-reaction"; "RIGHT"; "UX"; "UY"; "-refcurve"; "ref.txt";
    "-material"; "Mooney-Rivlin"; "1.5"; "-2"; "1e3"; "-novtk"; "-element"; "PLANE41"; "-loadsteps"; "20"]%string.
Proof.
  split; [|split; [apply Permutation_rev|vm_compute; reflexivity]].
  assert (V : forall x, ends_values x = false -> ~ option_name x) by (intros x E O; apply ends_iff in O; congruence).
  unfold settings_ok. cbn [set_ex s_iter s_steps s_elem s_mat s_consts s_ref s_thr s_react s_rigid all_opt fst snd].
  repeat split; try lia; try (apply V; reflexivity); try (cbn; lia).
  - repeat (constructor; [apply V; reflexivity|]). constructor.
  - repeat (constructor; [lia|]). constructor.
  - constructor.
Qed.

(* ---------------- C102 ---------------- *)
(* every number is the one that was given *)
Theorem C102_large_number_refuted : forall D, exists o,
  parse_args D (words ["m.cdb"; "-material"; "Biderman"; "-loadsteps"; "65536"]%string) = go o /\ o_steps D o = 0%Z.
Proof. intros D. eexists. split; reflexivity. Qed.
Print Assumptions C102_large_number_refuted.
Theorem C102_overflow_refuted : forall D, parse_args D (words ["m.cdb"; "-material"; "Biderman"; "-loadsteps"; "3000000000"]%string) = UB.
Proof. intros D. reflexivity. Qed.
Print Assumptions C102_overflow_refuted.
Theorem C102_wrapped_partial : forall gs name z d, separate gs -> option_name name -> found gs name (Some [show z]) -> (0 <= z < 2147483648)%Z ->
  opt_num (flat gs) name d = Ok (z mod 65536)%Z.
Proof. intros gs name z d S N F Z0. unfold opt_num. rewrite (one_ok gs name _ S N F) by discriminate. rewrite atoi_show by exact Z0. reflexivity. Qed.
Print Assumptions C102_wrapped_partial.
(* a value written as -.5 ends the values of its option *)
Theorem C102_negative_fraction_refuted : forall D,
  exists o, parse_args D (words ["m.cdb"; "-material"; "Mooney-Rivlin"; "-.5"; "1"; "2"]%string) = go o /\ o_consts D o = [].
Proof. intros D. eexists. split; reflexivity. Qed.
Print Assumptions C102_negative_fraction_refuted.
(* an option without its value takes the name of the next option *)
Theorem C102_missing_value_refuted : forall D,
  exists o, parse_args D (words ["m.cdb"; "-iterations"; "-novtk"; "-material"; "Biderman"; "-refcurve"; "-threshold"]%string) = go o /\
    o_iter D o = 0%Z /\ o_ref D o = s_ "-threshold".
Proof. intros D. eexists. repeat split. Qed.
Print Assumptions C102_missing_value_refuted.

(* ---------------- C103 ---------------- *)
(* a wrong material is refused with a message *)
Theorem C103_unknown_material_refuted : forall D fuel w argv o m,
  parse_args D argv = go o -> o_ref D o = [] -> w_mesh D w (o_model D o) = Ok (Some m) -> md_nodes D m <> [] ->
  createMaterial (o_mat D o) = None -> main D fuel w argv = UB.
Proof. intros D fuel w argv o m P R M N C. exact (main_ub D fuel w argv o m P R M (unknown_material D o m N C)). Qed.
Print Assumptions C103_unknown_material_refuted.
Theorem C103_few_constants_refuted : forall D fuel w argv o m id,
  parse_args D argv = go o -> o_ref D o = [] -> w_mesh D w (o_model D o) = Ok (Some m) -> md_nodes D m <> [] ->
  createMaterial (o_mat D o) = Some id -> length (o_consts D o) < mat_numC id -> main D fuel w argv = UB.
Proof. intros D fuel w argv o m id P R M N C L. exact (main_ub D fuel w argv o m P R M (few_constants D o m id N C L)). Qed.
Print Assumptions C103_few_constants_refuted.
(* a mesh that can not be read; a component that is not one of nodes *)
Theorem C107_refused : forall (D : Dbl),
  (forall fuel w argv o, parse_args D argv = go o -> o_ref D o = [] -> w_mesh D w (o_model D o) = Ok None -> main D fuel w argv = Fatal) /\
  (forall o m md mat cells name, compressNumbers D m = Ok md -> setup_material D (o_mat D o) (o_consts D o) = Ok mat ->
     setup_cells D (o_elem D o) md = Ok cells -> name <> [] -> cp_type (find_comp (md_comps D md) name) <> comp_NODES ->
     o_comp D o = name \/ o_comp D o = [] /\ (0 < o_master D o)%Z /\ o_slaves D o = name -> setup D o m = stop 1).
Proof. intros D. split; [exact (refused_mesh D)|exact (refused_component D)]. Qed.
Print Assumptions C107_refused.
Definition mesh1 : mesh ZDbl := mkMesh ZDbl [7%Z; 3%Z] [(10, 0, 0); (20, 0, 0)]%Z [mkCell 1 [7; 3]%Z 1 1 1 1 0 0] [] []
  [] [(s_ "N", mkComp comp_NODES [3%Z])].
Definition world1 : world ZDbl := mkW ZDbl (fun _ => None) (fun _ => Ok (Some mesh1)) (fun _ => Ok None).
Example C103_inhabited : main ZDbl 10 world1 (words ["m.cdb"; "-material"; "Neo-Hookian"; "1"; "2"]%string) = UB /\
  main ZDbl 10 world1 (words ["m.cdb"; "-material"; "Neo-Hookean"; "1"]%string) = UB /\
  main ZDbl 10 world1 (words ["m.cdb"; "-element"; "TRUSS3"; "-material"; "Neo-Hookean"; "1"; "2"]%string) = Ok 0.
Proof. repeat split; vm_compute; reflexivity. Qed.
(* enough constants: those after the needed ones are ignored *)
Theorem C103_given_partial : forall D name cs id, createMaterial name = Some id -> mat_numC id <= length cs ->
  setup_material D name cs = Ok (id, firstn (mat_numC id) cs).
Proof. exact given_constants. Qed.
Print Assumptions C103_given_partial.

(* ---------------- C104 ---------------- *)
(* a reference file with two words and a value per row gives one value per row *)
Theorem C104_repeated_refuted : forall fuel, 4 < fuel ->
  readRefCurveData ZDbl fuel (Some (s_ "time disp force 0 0 0 1 1 5 2 2 5")) = go [0%Z; 5%Z].
Proof. intros fuel H. do 5 (destruct fuel as [|fuel]; [lia|]). reflexivity. Qed.
Print Assumptions C104_repeated_refuted.
Theorem C104_minus_one_refuted : forall fuel, 4 < fuel ->
  readRefCurveData ZDbl fuel (Some (s_ "time disp force 0 0 -1 1 1 5")) = go [5%Z].
Proof. intros fuel H. do 5 (destruct fuel as [|fuel]; [lia|]). reflexivity. Qed.
Print Assumptions C104_minus_one_refuted.
Section Rows.
  Variables (D : Dbl) (sh : D -> str) (h0 h1 p1 p2 p3 : str).
  Hypothesis HW : is_word h0 /\ is_word h1.
  Hypothesis HP : spaces p1 /\ spaces p2 /\ p2 <> [] /\ spaces p3 /\ p3 <> [].
  (* what is read: the values that differ from the one before (the first: from -1), in any layout *)
  Theorem C104_read_partial : forall fuel rows t, Forall (row_ok D sh) rows -> rows <> [] -> spaces t ->
    (forall r, In r rows -> deq (rw_val r) (rw_val r) = true) -> S (S (length rows)) <= fuel ->
    readRefCurveData D fuel (Some (curve_file sh h0 h1 p1 p2 p3 rows t)) = go (squeeze D (ropp r1) (map rw_val rows)).
  Proof. exact (read_curve D sh h0 h1 p1 p2 p3 HW HP). Qed.
  Theorem C104_roundtrip_partial : forall fuel rows t, Forall (row_ok D sh) rows -> rows <> [] -> spaces t ->
    (forall r, In r rows -> deq (rw_val r) (rw_val r) = true) -> S (S (length rows)) <= fuel -> changing D (ropp r1) (map rw_val rows) ->
    readRefCurveData D fuel (Some (curve_file sh h0 h1 p1 p2 p3 rows t)) = go (map rw_val rows).
  Proof.
    intros fuel rows t A B C E L X. rewrite (C104_read_partial fuel rows t A B C E L). f_equal. f_equal. exact (squeeze_changing D (ropp r1) _ X).
  Qed.
  (* the value of an empty table was never read *)
  Theorem C104_header_only_refuted : forall fuel t, spaces t -> t <> [] -> 0 < fuel ->
    readRefCurveData D fuel (Some (curve_file sh h0 h1 p1 p2 p3 [] t)) = UB.
  Proof. exact (header_only D sh h0 h1 p1 p2 p3 HW HP). Qed.
  (* a value that is not a number: the program never ends *)
  Theorem C104_malformed_refuted : forall fuel rows a b p x l rest, Forall (row_ok D sh) rows -> sep_word a -> sep_word b ->
    p <> [] -> spaces p -> is_word x -> @dget D (x ++ l) = (None, rest) -> rest <> [] ->
    (l = [] \/ exists c u, l = c :: u /\ is_space c = true) ->
    readRefCurveData D fuel (Some (curve_file sh h0 h1 p1 p2 p3 rows (text [a; b; (p, x)] ++ l))) = Loop.
  Proof. exact (malformed_file D sh h0 h1 p1 p2 p3 HW HP). Qed.
End Rows.
Print Assumptions C104_read_partial.
Print Assumptions C104_roundtrip_partial.
Print Assumptions C104_header_only_refuted.
Print Assumptions C104_malformed_refuted.
Lemma show_printed z : (0 <= z < 10)%Z -> printed ZDbl (show : ZDbl -> str) z.
Proof.
  intros H. assert (E : exists c, show z = [c] /\ is_digit c = true /\ is_space c = false /\ (code c =? 45) = false /\ Z.of_nat (code c - 48) = z).
  { assert (z = 0 \/ z = 1 \/ z = 2 \/ z = 3 \/ z = 4 \/ z = 5 \/ z = 6 \/ z = 7 \/ z = 8 \/ z = 9)%Z as K by lia.
    repeat (destruct K as [->|K]; [eexists; repeat split; reflexivity|]). subst. eexists; repeat split; reflexivity. }
  destruct E as (c & E & A & B & C & F). unfold printed. rewrite E. split; [split; [discriminate|constructor; [exact B|constructor]]|].
  intros t T. change (zget (c :: t) = (Some z, t)). unfold zget. rewrite C. cbn [fst snd starts_digit span digits_val]. rewrite A.
  assert (G : forall a, digits_val a t = a /\ span is_digit t = ([], t)).
  { intros a. destruct T as [->|(d & u & -> & S)]; [split; reflexivity|]. cbn [digits_val span].
    replace (is_digit d) with false; [split; reflexivity|]. symmetry. unfold is_digit, is_space in *.
    apply orb_true_iff in S. rewrite Nat.eqb_eq, andb_true_iff, !Nat.leb_le in S. apply andb_false_iff. left. apply Nat.leb_gt. lia. }
  destruct (G (0 * 10 + Z.of_nat (code c - 48))%Z) as [G1 G2]. rewrite G1, G2, F. reflexivity.
Qed.
Definition row_ex (v : Z) : row ZDbl := mkRow ([LF], s_ "a") (s_ " ", s_ "b") (s_ " ") v.
Example C104_inhabited : (is_word (s_ "t") /\ is_word (s_ "u")) /\
  (spaces [] /\ spaces (s_ " ") /\ s_ " " <> [] /\ spaces (s_ " ") /\ s_ " " <> []) /\
  Forall (row_ok ZDbl show) [row_ex 0; row_ex 7] /\ changing ZDbl (-1)%Z [0%Z; 7%Z] /\
  curve_file (A := ZDbl) show (s_ "t") (s_ "u") [] (s_ " ") (s_ " ") [row_ex 0; row_ex 7] [LF]
  = s_ "t u force" ++ [LF] ++ s_ "a b 0" ++ [LF] ++ s_ "a b 7" ++ [LF] /\
  (forall fuel, readRefCurveData ZDbl fuel (Some (s_ "t u force a b 0 a b x c d 1")) = Loop).
Proof.
  assert (W : forall c, is_space c = false -> is_word [c]) by (intros c E; split; [discriminate|constructor; [exact E|constructor]]).
  assert (S1 : spaces (s_ " ")) by (constructor; [reflexivity|constructor]).
  assert (S2 : spaces [LF]) by (constructor; [reflexivity|constructor]).
  assert (R : forall v, (0 <= v < 10)%Z -> row_ok ZDbl show (row_ex v)).
  { intros v V. split; [split; [discriminate|split; [exact S2|apply W; reflexivity]]|]. split; [split; [discriminate|split; [exact S1|apply W; reflexivity]]|].
    split; [discriminate|]. split; [exact S1|]. apply show_printed. exact V. }
  split; [split; apply W; reflexivity|]. split; [repeat split; try discriminate; try exact S1; constructor|].
  split; [constructor; [apply R; lia|constructor; [apply R; lia|constructor]]|]. split; [repeat split; reflexivity|]. split; [reflexivity|].
  intros fuel. destruct fuel as [|fuel]; [reflexivity|]. destruct fuel as [|fuel]; [reflexivity|].
  change (lift (ref_loop ZDbl fuel (mkSt (s_ "x c d 1") false true) (Some 0%Z) 0%Z [0%Z]) = Loop).
  rewrite stuck by discriminate. reflexivity.
Qed.

(* ---------------- C105 ---------------- *)
Section Compare.
  Variables (atof : str -> ext) (get : str -> option ext * str).
  Notation X := (XDbl atof get).
  Theorem C105_mean : forall a b, length a = length b -> compareCurves X (map Fin a) (map Fin b) = go (Fin (mean_diff a b)).
  Proof. exact (compare_fin atof get). Qed.
  (* finite curves: the status of the process *)
  Theorem C105_status : forall fuel w argv o m pb ref p t ds cur thr,
    parse_args X argv = go o -> o_ref X o <> [] -> o_comp X o <> [] ->
    readRefCurveData X fuel (w_ref X w (o_ref X o)) = go (map Fin ref) -> ref <> [] ->
    w_mesh X w (o_model X o) = Ok (Some m) -> setup X o m = go pb -> w_solve X w pb = Ok (Some p) ->
    recorded X p (S (Z.to_nat (o_steps X o))) -> rp_dofs p = t :: ds -> getReactions p t = Ok (Some (map Fin cur)) -> o_thr X o = Fin thr ->
    main X fuel w argv = Ok (if (length ref =? length cur) && negb (gtb thr 0 && gtb (mean_diff ref cur) thr) then 0 else 1).
  Proof. exact (main_status atof get). Qed.
  (* ---------------- C106: a run passes only if the curves agree ---------------- *)
  Theorem C106_not_a_number_refuted : forall fuel w argv o m pb ref p t ds cur,
    parse_args X argv = go o -> o_ref X o <> [] -> o_comp X o <> [] ->
    readRefCurveData X fuel (w_ref X w (o_ref X o)) = go ref -> ref <> [] ->
    w_mesh X w (o_model X o) = Ok (Some m) -> setup X o m = go pb -> w_solve X w pb = Ok (Some p) ->
    recorded X p (S (Z.to_nat (o_steps X o))) -> rp_dofs p = t :: ds -> getReactions p t = Ok (Some cur) ->
    length ref = length cur -> In NaN cur ->
    main X fuel w argv = Ok 0.
  Proof. exact (main_nan atof get). Qed.
End Compare.
Print Assumptions C105_mean.
Print Assumptions C105_status.
Print Assumptions C106_not_a_number_refuted.
Theorem C105_zero : forall a b, length a = length b -> (mean_diff a b = 0%R <-> a = b).
Proof. exact mean_zero. Qed.
Print Assumptions C105_zero.
Theorem C105_no_reference : forall D fuel w argv o, parse_args D argv = go o -> o_ref D o <> [] -> w_ref D w (o_ref D o) = None ->
  main D fuel w argv = Ok 1.
Proof. exact main_no_reference. Qed.
Print Assumptions C105_no_reference.

(* a program run with a reference 0, 5, a threshold, and reactions that are not numbers *)
Definition xget (l : str) : option ext * str := let r := word l in (Some (Fin (IZR (digits_val 0 (fst r)))), snd r).
Local Notation XD := (XDbl (fun _ => Fin (1 / 2)) xget).
Definition argv_ex : list str :=
  words ["m.cdb"; "-element"; "TRUSS3"; "-material"; "Neo-Hookean"; "1"; "2"; "-loadsteps"; "1"; "-refcurve"; "r"; "-threshold"; "0.5"; "-reaction"; "N"; "UX"]%string.
Definition mesh_x : mesh XD := mkMesh XD [1%Z; 2%Z] [(Fin 0, Fin 0, Fin 0); (Fin 1, Fin 0, Fin 0)] [mkCell 1 [1; 2]%Z 1 1 1 1 0 0] [] [] []
  [(s_ "N", mkComp comp_NODES [2%Z])].
Definition proc_x (second : ext) : rproc XD := @mkRP XD [2] [0] false [[Fin 0; second]].
Definition world_x (second : ext) : world XD :=
  mkW XD (fun _ => Some (s_ "time disp force 0 0 0 1 1 5")) (fun _ => Ok (Some mesh_x)) (fun _ => Ok (Some (proc_x second))).
Lemma ref_x : readRefCurveData XD 5 (Some (s_ "time disp force 0 0 0 1 1 5")) = go (map Fin [0%R; 5%R]).
Proof.
  change (lift (ref_loop XD 5 (mkSt (s_ " 0 0 0 1 1 5") false false) None (Fin (- (1))) []) = go [Fin 0; Fin 5]).
  change (lift (if xeq (Fin 0) (Fin (- (1))) then ref_loop XD 4 (mkSt (s_ " 1 1 5") false false) (Some (Fin 0)) (Fin (- (1))) []
                else ref_loop XD 4 (mkSt (s_ " 1 1 5") false false) (Some (Fin 0)) (Fin 0) [Fin 0]) = go [Fin 0; Fin 5]).
  cbn [xeq]. destruct (Req_EM_T 0 (- (1))) as [E|_]; [lra|].
  change (lift (if xeq (Fin 5) (Fin 0) then ref_loop XD 3 (mkSt [] true false) (Some (Fin 5)) (Fin 0) [Fin 0]
                else ref_loop XD 3 (mkSt [] true false) (Some (Fin 5)) (Fin 5) [Fin 0; Fin 5]) = go [Fin 0; Fin 5]).
  cbn [xeq]. destruct (Req_EM_T 5 0) as [E|_]; [lra|]. reflexivity.
Qed.
Lemma recorded_x v : recorded XD (proc_x v) 2.
Proof. intros t [<-|[]]. eexists. split; reflexivity. Qed.
Example C106_inhabited : main XD 5 (world_x NaN) argv_ex = Ok 0.
Proof.
  eapply (C106_not_a_number_refuted (fun _ => Fin (1 / 2)) xget 5 (world_x NaN) argv_ex);
    [reflexivity|discriminate|discriminate|exact ref_x|discriminate|reflexivity|reflexivity|reflexivity|exact (recorded_x NaN)|reflexivity|reflexivity|reflexivity|cbn; auto].
Qed.
Example C105_inhabited : main XD 5 (world_x (Fin 5)) argv_ex = Ok 0 /\ main XD 5 (world_x (Fin 9)) argv_ex = Ok 1.
Proof.
  split.
  - erewrite (C105_status (fun _ => Fin (1 / 2)) xget 5 (world_x (Fin 5)) argv_ex _ _ _ [0%R; 5%R] _ _ _ [0%R; 5%R] (1 / 2)%R);
      [|reflexivity|discriminate|discriminate|exact ref_x|discriminate|reflexivity|reflexivity|reflexivity|exact (recorded_x (Fin 5))|reflexivity|reflexivity|reflexivity].
    cbn [length Nat.eqb andb]. assert (M : mean_diff [0%R; 5%R] [0%R; 5%R] = 0%R) by (apply mean_zero; reflexivity). rewrite M.
    unfold gtb. destruct (Rlt_dec 0 (1 / 2)); [|reflexivity]. destruct (Rlt_dec (1 / 2) 0); [lra|reflexivity].
  - erewrite (C105_status (fun _ => Fin (1 / 2)) xget 5 (world_x (Fin 9)) argv_ex _ _ _ [0%R; 5%R] _ _ _ [0%R; 9%R] (1 / 2)%R);
      [|reflexivity|discriminate|discriminate|exact ref_x|discriminate|reflexivity|reflexivity|reflexivity|exact (recorded_x (Fin 9))|reflexivity|reflexivity|reflexivity].
    cbn [length Nat.eqb andb].
    assert (M : mean_diff [0%R; 5%R] [0%R; 9%R] = 2%R).
    { unfold mean_diff. cbn [abs_sum length INR]. replace (0 - 0)%R with 0%R by ring. rewrite Rabs_R0. replace (5 - 9)%R with (- (4))%R by ring.
      rewrite Rabs_Ropp, Rabs_right by lra. field. }
    rewrite M. unfold gtb. destruct (Rlt_dec 0 (1 / 2)); [|lra]. destruct (Rlt_dec (1 / 2) 2); [reflexivity|lra].
Qed.

(* ---------------- C107 ---------------- *)
(* the problem given to the solver is the one of the file, with the nodes renumbered *)
Theorem C107_refers : forall D o m pb, numbered D m -> setup D o m = go pb -> exists f,
  (forall n, In n (md_nodes D m) -> stored_pos D (pb_pos D pb) (f n) = pos_of D (md_nodes D m) (md_pos D m) n) /\
  (forall n n', In n (md_nodes D m) -> In n' (md_nodes D m) -> f n = f n' -> n = n') /\
  pb_cells D pb = map (map f) (cells1 D m) /\
  map (bc_node D) (pb_loads D pb) = map f (map (bc_node D) (md_load D m)) /\
  map (fun b => (bc_dof D b, bc_value D b)) (pb_loads D pb) = map (fun b => (bc_dof D b, bc_value D b)) (md_load D m) /\
  map (bc_node D) (pb_fixes D pb) = map f (map (bc_node D) (md_fix D m)) /\
  map (fun b => (bc_dof D b, bc_value D b)) (pb_fixes D pb) = map (fun b => (bc_dof D b, bc_value D b)) (md_fix D m) /\
  map (fun p => map (tm_node D) (mp_eq D p)) (pb_mpcs D pb) = map (map f) (map (fun p => map (tm_node D) (mp_eq D p)) (md_mpcs D m)) /\
  map (fun p => (mp_b D p, map (fun t => (tm_dof D t, tm_coef D t)) (mp_eq D p))) (pb_mpcs D pb) =
  map (fun p => (mp_b D p, map (fun t => (tm_dof D t, tm_coef D t)) (mp_eq D p))) (md_mpcs D m) /\
  (o_comp D o <> [] -> pb_react D pb = Some (map f (comp_nodes D m (o_comp D o)), o_rdofs D o)) /\
  ((0 < o_master D o)%Z -> o_slaves D o <> [] ->
     pb_rigid D pb = Some (o_master D o, map f (comp_nodes D m (o_slaves D o)), o_bdofs D o)).
Proof. exact setup_refers. Qed.
Print Assumptions C107_refers.
Theorem C107_controls : forall D o m pb, setup D o m = go pb ->
  pb_elem D pb = o_elem D o /\ Forall (fun ns => length ns = elem_nodes (o_elem D o)) (pb_cells D pb) /\
  pb_iter D pb = o_iter D o /\ pb_steps D pb = o_steps D o /\
  setup_material D (o_mat D o) (o_consts D o) = Ok (pb_mat D pb, pb_consts D pb).
Proof.
  intros D o m pb H. destruct (setup_go D o m pb H) as (md & _ & M & _ & E & _ & F & _ & _ & _ & I & S & _). auto.
Qed.
Print Assumptions C107_controls.
Definition opt_ex (master : Z) : options ZDbl :=
  mkOpt ZDbl 15 10 0 false (s_ "m") (s_ "Neo-Hookean") [1%Z; 2%Z] [] 0%Z (s_ "N") [0] master (s_ "N") [0; 1; 2].
Example C107_inhabited : numbered ZDbl mesh1 /\ exists pb, setup ZDbl (opt_ex 7) mesh1 = go pb /\ pb_cells ZDbl pb = [[1%Z; 2%Z]] /\
  pb_react ZDbl pb = Some ([2%Z], [0]).
Proof.
  split.
  - split; [repeat constructor; cbn; intuition discriminate|]. split; [reflexivity|]. split; [discriminate|]. left. vm_compute. discriminate.
  - eexists. split; [reflexivity|]. split; reflexivity.
Qed.

(* ---------------- C108 ---------------- *)
(* the master node of -rigidbody is the node of that number in the file *)
Theorem C108_master_refuted : exists m pb ns ds, numbered ZDbl m /\ setup ZDbl (opt_ex 7) m = go pb /\
  pb_rigid ZDbl pb = Some (7%Z, ns, ds) /\ In 7%Z (md_nodes ZDbl m) /\
  stored_pos ZDbl (pb_pos ZDbl pb) 7 <> pos_of ZDbl (md_nodes ZDbl m) (md_pos ZDbl m) 7.
Proof.
  exists mesh1. do 3 eexists. split; [exact (proj1 C107_inhabited)|]. split; [reflexivity|]. split; [reflexivity|].
  split; [cbn; auto|]. vm_compute. discriminate.
Qed.
Print Assumptions C108_master_refuted.
Theorem C108_other_node_refuted : exists m pb ns ds, numbered ZDbl m /\ setup ZDbl (opt_ex 2) m = go pb /\
  pb_rigid ZDbl pb = Some (2%Z, ns, ds) /\ In 2%Z (md_nodes ZDbl m) /\ (exists p q, stored_pos ZDbl (pb_pos ZDbl pb) 2 = Some p /\
  pos_of ZDbl (md_nodes ZDbl m) (md_pos ZDbl m) 2 = Some q /\ p <> q).
Proof.
  exists (mkMesh ZDbl [2%Z; 3%Z] [(10, 0, 0); (20, 0, 0)]%Z [] [] [] [] [(s_ "N", mkComp comp_NODES [3%Z])]). do 3 eexists.
  split; [split; [repeat constructor; cbn; intuition discriminate|]; split; [reflexivity|]; split; [discriminate|]; left; vm_compute; discriminate|].
  split; [reflexivity|]. split; [reflexivity|]. split; [cbn; auto|]. do 2 eexists. split; [reflexivity|]. split; [reflexivity|]. discriminate.
Qed.
Print Assumptions C108_other_node_refuted.
Theorem C108_numbered_partial : forall (D : Dbl) o m pb, md_nodes D m = map Z.of_nat (seq 1 (length (md_nodes D m))) -> md_nodes D m <> [] ->
  length (md_nodes D m) = length (md_pos D m) -> setup D o m = go pb ->
  forall n, In n (md_nodes D m) -> stored_pos D (pb_pos D pb) n = pos_of D (md_nodes D m) (md_pos D m) n.
Proof. exact numbered_same. Qed.
Print Assumptions C108_numbered_partial.
(* more than nine DoFs: the labels for the log message are read outside their table *)
Theorem C108_many_dofs_refuted : forall (D : Dbl) o m md, compressNumbers D m = Ok md -> (0 < o_master D o)%Z -> o_slaves D o <> [] -> 9 < length (o_bdofs D o) ->
  forall pb, setup D o m <> go pb.
Proof. exact many_dofs. Qed.
Print Assumptions C108_many_dofs_refuted.

Example C108_inhabited : exists md, compressNumbers ZDbl mesh1 = Ok md /\
  setup ZDbl (mkOpt ZDbl 15 10 0 false (s_ "m") (s_ "Neo-Hookean") [1%Z; 2%Z] [] 0%Z [] [] 2%Z (s_ "N") [0; 1; 2; 3; 4; 5; 6; 7; 8; 0]) mesh1 = UB.
Proof. eexists. split; reflexivity. Qed.

(* ---------------- C109 ---------------- *)
(* the job name is the model file name without its extension *)
Theorem C109_extension_partial : forall b e, ~ In "."%char e -> getFileNameFromPath (b ++ "."%char :: e) = b.
Proof. exact job_dot. Qed.
Print Assumptions C109_extension_partial.
Theorem C109_none_partial : forall f, ~ In "."%char f -> getFileNameFromPath f = f.
Proof. exact job_plain. Qed.
Print Assumptions C109_none_partial.
Theorem C109_directory_refuted : getFileNameFromPath (s_ "run.v2/model") = s_ "run".
Proof. reflexivity. Qed.
Print Assumptions C109_directory_refuted.
