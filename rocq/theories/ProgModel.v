(* The program nla3d: src/main.cpp, and the helpers of src/lib/sys.cpp it uses.
   Argument strings and file contents are lists of characters; the arguments are those after the program name. *)
From Coq Require Import String Ascii.
From Verif Require Import Base ReaderModel DofModel ReactModel.

(* A run either goes on with a value (inl) or ends the process with a status (inr: exit, return from main) *)
Definition run (A : Type) : Type := outcome (A + nat).
Definition go {A} (a : A) : run A := Ok (inl a).
Definition stop {A} (st : nat) : run A := Ok (inr st).
Definition pbind {A B} (x : run A) (f : A -> run B) : run B :=
  r <- x ;; match r with inl a => f a | inr st => Ok (inr st) end.
Notation "x <~ e ;;; k" := (pbind e (fun x => k)) (at level 61, e at next level, right associativity).
Definition lift {A} (x : outcome A) : run A := a <- x ;; go a.

(* sys.cpp:78-105 *)
Fixpoint find_arg (args : list str) (opt : str) : option (list str) :=
  match args with
  | [] => None
  | a :: t => if str_eqb a opt then Some t else find_arg t opt
  end.
Definition getCmdOption (args : list str) (opt : str) : option str :=
  match find_arg args opt with Some (v :: _) => Some v | _ => None end.
(* itr[0][0] == '-' && (itr[0][1] < '0' || itr[0][1] > '9'); a string of one character is followed by a zero *)
Definition ends_values (a : str) : bool :=
  match a with
  | c :: t => (code c =? 45) && negb (starts_digit t)
  | [] => false
  end.
Fixpoint take_values (l : list str) : list str :=
  match l with
  | [] => []
  | a :: t => if ends_values a then [] else a :: take_values t
  end.
Definition getCmdManyOptions (args : list str) (opt : str) : list str :=
  match find_arg args opt with Some t => take_values t | None => [] end.
Definition cmdOptionExists (args : list str) (opt : str) : bool :=
  match find_arg args opt with Some _ => true | None => false end.
(* sys.cpp:109-115 *)
Fixpoint after_last_dot (r : str) : option str :=      (* of the reversed name *)
  match r with
  | [] => None
  | c :: t => if Ascii.eqb c "."%char then Some t else after_last_dot t
  end.
Definition getFileNameFromPath (f : str) : str :=
  match after_last_dot (rev f) with None => f | Some t => rev t end.

(* atoi: a value outside int is UB *)
Definition atoi (l : str) : outcome Z :=
  match stoi l with CVal z => Ok z | CInvalid => Ok 0%Z | CRange => UB end.
Definition wrap16 (z : Z) : Z := (z mod 65536)%Z.

(* double: arithmetic, comparisons (false if an operand is not a number), atof and operator>> of a stream:
   the number read (None: the extraction fails) and the characters left *)
Record Dbl := mkDbl {
  dnum :> Num;
  deq : dnum -> dnum -> bool;
  dlt : dnum -> dnum -> bool;
  dabs : dnum -> dnum;
  ddivn : dnum -> nat -> dnum;
  datof : str -> dnum;
  dget : str -> option dnum * str }.
Arguments deq {_} _ _.
Arguments dlt {_} _ _.
Arguments dabs {_} _.
Arguments ddivn {_} _ _.
Arguments datof {_} _.
Arguments dget {_} _.

Section Prog.
  Variable D : Dbl.

  (* main.cpp:21-36 *)
  Record options := mkOpt {
    o_iter : Z; o_steps : Z; o_elem : nat; o_vtk : bool; o_model : str; o_mat : str; o_consts : list D;
    o_ref : str; o_thr : D; o_comp : str; o_rdofs : list nat;
    o_master : Z; o_slaves : str; o_bdofs : list nat }.
  Definition opt_num (args : list str) (name : str) (default : Z) : outcome Z :=
    match getCmdOption args name with Some v => z <- atoi v ;; Ok (wrap16 z) | None => Ok default end.
  (* main.cpp:64-74; with 65536 values or more the uint16 counter never ends and the memory is exhausted *)
  Definition opt_material (args : list str) : run (str * list D) :=
    match getCmdManyOptions args (s_ "-material") with
    | [] => stop 1
    | m :: cs => if (65535 <? Z.of_nat (length (m :: cs)))%Z then Fatal else go (m, map datof cs)
    end.
  (* main.cpp:86-101 *)
  Definition opt_reaction (args : list str) : str * list nat :=
    let comp := match getCmdOption args (s_ "-reaction") with Some v => v | None => [] end in
    match getCmdManyOptions args (s_ "-reaction") with
    | [] => (comp, [])
    | c :: ds => (c, map label2dofType ds)
    end.
  (* main.cpp:103-122 *)
  Definition opt_rigid (args : list str) : run (Z * str * list nat) :=
    match getCmdManyOptions args (s_ "-rigidbody") with
    | [] => go (0%Z, [], [])
    | [_] => stop 1
    | m :: c :: ds =>
        z <~ lift (atoi m) ;;;
        go (wrap32 z, c, match ds with [] => [0; 1; 2] | _ => map label2dofType ds end)
    end.
  (* main.cpp:38-125; false: usage() and exit(1) in main *)
  Definition parse_args (argv : list str) : run options :=
    match argv with
    | [] => stop 1
    | model :: args =>
        let vtk := negb (cmdOptionExists args (s_ "-novtk")) in
        it <~ lift (opt_num args (s_ "-iterations") 15) ;;;
        ls <~ lift (opt_num args (s_ "-loadsteps") 10) ;;;
        let el := match getCmdOption args (s_ "-element") with Some v => elName2elType v | None => 2 end in
        mc <~ opt_material args ;;;
        let ref := match getCmdOption args (s_ "-refcurve") with Some v => v | None => [] end in
        let thr := match getCmdOption args (s_ "-threshold") with Some v => datof v | None => r0 end in
        let re := opt_reaction args in
        rb <~ opt_rigid args ;;;
        go (mkOpt it ls el vtk model (fst mc) (snd mc) ref thr (fst re) (snd re) (fst (fst rb)) (snd (fst rb)) (snd rb))
    end.

  (* ---- readRefCurveData, main.cpp:341-362. A stream: characters left, eofbit, failbit *)
  Record stream := mkSt { sm_left : str; sm_eof : bool; sm_fail : bool }.
  Definition good (s : stream) : bool := negb (sm_eof s) && negb (sm_fail s).
  Fixpoint word (l : str) : str * str :=
    match l with
    | [] => ([], [])
    | c :: t => if is_space c then ([], l) else let r := word t in (c :: fst r, snd r)
    end.
  Definition at_end (l : str) : bool := match l with [] => true | _ => false end.
  (* >> string; the old value stays if the stream is not good *)
  Definition get_word (s : stream) (old : str) : str * stream :=
    if good s then
      match drop_space (sm_left s) with
      | [] => (old, mkSt [] true true)
      | l => let r := word l in (fst r, mkSt (snd r) (at_end (snd r)) false)
      end
    else (old, mkSt (sm_left s) (sm_eof s) true).
  (* >> double; a failed conversion stores zero. None: the variable was not initialised *)
  Definition get_num (s : stream) (old : option D) : option D * stream :=
    if good s then
      match drop_space (sm_left s) with
      | [] => (old, mkSt [] true true)
      | l => match dget l with
             | (Some v, t) => (Some v, mkSt t (at_end t) false)
             | (None, t) => (Some r0, mkSt t (at_end t) true)
             end
      end
    else (old, mkSt (sm_left s) (sm_eof s) true).
  Fixpoint ref_loop (fuel : nat) (s : stream) (tmp : option D) (pre : D) (res : list D) : outcome (list D) :=
    match fuel with
    | 0 => Loop
    | S fuel =>
        if sm_eof s then Ok res else
        let s := snd (get_word s []) in
        let s := snd (get_word s []) in
        let ts := get_num s tmp in
        match fst ts with
        | None => UB
        | Some v => if deq v pre then ref_loop fuel (snd ts) (Some v) pre res
                    else ref_loop fuel (snd ts) (Some v) v (res ++ [v])
        end
    end.
  (* file: None if it can not be opened (failbit) *)
  Definition readRefCurveData (fuel : nat) (file : option str) : run (list D) :=
    let s := match file with Some l => mkSt l false false | None => mkSt [] false true end in
    let a := get_word s [] in
    let b := get_word (snd a) (fst a) in
    let c := get_word (snd b) (fst b) in
    if str_eqb (fst c) (s_ "force") then lift (ref_loop fuel (snd c) None (ropp r1) []) else stop 1.

  (* main.cpp:327-340 *)
  Definition compareCurves (ref cur : list D) : run D :=
    if length ref =? length cur then
      go (fold_left (fun e p => radd e (ddivn (dabs (rsub (fst p) (snd p))) (length cur))) (combine ref cur) r0)
    else stop 1.

  (* ---- the statement of the problem given to the storage and to the solver *)
  Record problem := mkPb {
    pb_pos : list (D * D * D); pb_elem : nat; pb_cells : list (list Z); pb_mat : nat; pb_consts : list D;
    pb_mpcs : list (mpc D); pb_loads : list (bc D); pb_fixes : list (bc D); pb_iter : Z; pb_steps : Z;
    pb_react : option (list Z * list nat); pb_rigid : option (Z * list Z * list nat) }.
  (* number of nodes of the element classes; numbers of constants, materials_hyperelastic.h:54,77,97 *)
  Definition elem_nodes (t : nat) : nat := nth t [2; 4; 8; 4; 4; 4; 2; 3; 2; 6] 0.
  Definition mat_numC (id : nat) : nat := nth id [0; 2; 5; 3] 0.
  (* main.cpp:173-182: an unknown name gives a null pointer (CHECK_NOTNULL does nothing, sys.h:42-44); a wrong number of constants is only logged *)
  Definition setup_material (name : str) (cs : list D) : outcome (nat * list D) :=
    match createMaterial name with
    | None => UB
    | Some id => vs <- ofold (fun vs i => v <- aget cs i ;; Ok (vs ++ [v])) (seq 0 (mat_numC id)) [] ;; Ok (id, vs)
    end.
  (* main.cpp:199-208 *)
  Definition setup_cells (t : nat) (md : mesh D) : outcome (list (list Z)) :=
    let cs := filter (fun c => Z.eqb (ce_type c) 1) (md_cells D md) in
    _ <- createElements t (length cs) [] ;;
    ofold (fun l c => asserting (length (ce_nodes c) =? elem_nodes t) (Ok (l ++ [ce_nodes c]))) cs [].
  (* md.feComps[name]: a missing component is created with the type NOT_DEFINED *)
  Fixpoint find_comp (l : list (str * comp)) (name : str) : comp :=
    match l with
    | [] => mkComp 0 []
    | (n, c) :: t => if str_eqb n name then c else find_comp t name
    end.
  Definition node_comp (md : mesh D) (name : str) : run (list Z) :=
    let c := find_comp (md_comps D md) name in
    if cp_type c =? comp_NODES then go (cp_list c) else stop 1.
  Definition nonempty (l : str) : bool := match l with [] => false | _ => true end.
  (* main.cpp:163-289, with the mesh that was read. The labels of the rigid body are logged from dofTypeLabels[i] *)
  Definition setup (o : options) (md0 : mesh D) : run problem :=
    md <~ lift (compressNumbers D md0) ;;;
    mat <~ lift (setup_material (o_mat o) (o_consts o)) ;;;
    cells <~ lift (setup_cells (o_elem o) md) ;;;
    re <~ (if nonempty (o_comp o) then ns <~ node_comp md (o_comp o) ;;; go (Some (ns, o_rdofs o)) else go None) ;;;
    rb <~ (if (0 <? o_master o)%Z && nonempty (o_slaves o)
           then ns <~ node_comp md (o_slaves o) ;;;
                _ <~ lift (ofold (fun _ i => _ <- aget dofLabels i ;; Ok tt) (seq 0 (length (o_bdofs o))) tt) ;;;
                go (Some (o_master o, ns, o_bdofs o))
           else go None) ;;;
    go (mkPb (md_pos D md) (o_elem o) cells (fst mat) (snd mat) (md_mpcs D md) (md_load D md) (md_fix D md)
             (o_iter o) (o_steps o) re rb).

  (* main.cpp:293-324; p: the reaction processor after solve() *)
  Definition report (o : options) (ref : list D) (p : rproc D) : run unit :=
    _ <~ lift (ofold (fun _ ls => ofold (fun _ t => c <- getReactions p t ;; _ <- aget (match c with Some l => l | None => [] end) ls ;; Ok tt)
                                   (rp_dofs p) tt)
                 (seq 0 (S (Z.to_nat (o_steps o)))) tt) ;;;
    match ref with
    | [] => go tt
    | _ =>
        t <~ lift (aget (rp_dofs p) 0) ;;;
        c <~ lift (getReactions p t) ;;;
        e <~ compareCurves ref (match c with Some l => l | None => [] end) ;;;
        if dlt r0 (o_thr o) then if dlt (o_thr o) e then stop 1 else go tt else go tt
    end.

  (* the outside world: the reference file, the mesh file (false: None), the solution of a problem with the state of
     its reaction processor *)
  Record world := mkW { w_ref : str -> option str; w_mesh : str -> outcome (option (mesh D));
                        w_solve : problem -> outcome (option (rproc D)) }.
  (* main.cpp:141-324: the status of the process *)
  Definition main (fuel : nat) (w : world) (argv : list str) : outcome nat :=
    r <- (o <~ parse_args argv ;;;
          ref <~ (if nonempty (o_ref o)
                  then if nonempty (o_comp o) then readRefCurveData fuel (w_ref w (o_ref o)) else stop 1
                  else go []) ;;;
          m <~ lift (w_mesh w (o_model o)) ;;;
          match m with
          | None => Fatal
          | Some md =>
              pb <~ setup o md ;;;
              p <~ lift (w_solve w pb) ;;;
              match p with Some p => report o ref p | None => go tt end
          end) ;;
    Ok (match r with inl _ => 0 | inr st => st end).
End Prog.
