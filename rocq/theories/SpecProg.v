(* Own notions for the program: command lines, reference curves, comparison of curves *)
From Coq Require Import String Ascii Reals.
From Verif Require Import Base ReaderModel SpecReader DofModel ReactModel ProgModel.
Local Open Scope list_scope.
Local Open Scope nat_scope.

(* ---- command lines: a group is the name of an option with its values *)
Definition group : Type := str * list str.
Definition option_name (a : str) : Prop :=
  exists t, a = "-"%char :: t /\ match t with c :: _ => ~ (48 <= nat_of_ascii c <= 57) | [] => True end.
Definition flat (gs : list group) : list str := flat_map (fun g => fst g :: snd g) gs.
Definition separate (gs : list group) : Prop :=
  NoDup (map fst gs) /\ forall g, In g gs -> option_name (fst g) /\ Forall (fun v => ~ option_name v) (snd g).
(* o is what gs has for the name *)
Definition found (gs : list group) (name : str) (o : option (list str)) : Prop :=
  match o with Some vs => In (name, vs) gs | None => ~ In name (map fst gs) end.

(* the settings a user wants *)
Record settings := mkSet {
  s_iter : option Z; s_steps : option Z; s_elem : option nat; s_novtk : bool; s_mat : str; s_consts : list str;
  s_ref : option str; s_thr : option str; s_react : option (str * list nat); s_rigid : option (Z * str * list nat) }.
Definition dof_name (d : nat) : str := nth d (map s_ ["UX"; "UY"; "UZ"; "ROTX"; "ROTY"; "ROTZ"; "HYDRO_PRESSURE"; "TEMP"]%string) [].
Definition elem_name (e : nat) : str :=
  nth e (map s_ ["TRUSS3"; "PLANE41"; "SOLID81"; "TETRA0"; "TETRA1"; "QUADTH"; "SurfaceLINETH"; "TRIANGLE4"; "INTER0"; "INTER3"]%string) [].
Definition table (s : settings) : list (str * option (list str)) :=
  [ (s_ "-iterations", option_map (fun n => [show n]) (s_iter s));
    (s_ "-loadsteps", option_map (fun n => [show n]) (s_steps s));
    (s_ "-element", option_map (fun e => [elem_name e]) (s_elem s));
    (s_ "-novtk", if s_novtk s then Some [] else None);
    (s_ "-material", Some (s_mat s :: s_consts s));
    (s_ "-refcurve", option_map (fun f => [f]) (s_ref s));
    (s_ "-threshold", option_map (fun f => [f]) (s_thr s));
    (s_ "-reaction", option_map (fun r => fst r :: map dof_name (snd r)) (s_react s));
    (s_ "-rigidbody", option_map (fun r => show (fst (fst r)) :: snd (fst r) :: map dof_name (snd r)) (s_rigid s)) ].
Definition keep (l : list (str * option (list str))) : list group :=
  flat_map (fun p => match snd p with Some vs => [(fst p, vs)] | None => [] end) l.
Definition all_opt {A} (P : A -> Prop) (o : option A) : Prop := match o with Some a => P a | None => True end.
Definition settings_ok (s : settings) : Prop :=
  all_opt (fun n => (0 <= n < 65536)%Z) (s_iter s) /\ all_opt (fun n => (0 <= n < 65536)%Z) (s_steps s) /\
  all_opt (fun e => e < 10) (s_elem s) /\ ~ option_name (s_mat s) /\ Forall (fun c => ~ option_name c) (s_consts s) /\
  (Z.of_nat (length (s_consts s)) < 65535)%Z /\ all_opt (fun f => ~ option_name f) (s_ref s) /\ all_opt (fun f => ~ option_name f) (s_thr s) /\
  all_opt (fun r => ~ option_name (fst r) /\ Forall (fun d => d < 8) (snd r)) (s_react s) /\
  all_opt (fun r => (0 <= fst (fst r) < 2147483648)%Z /\ ~ option_name (snd (fst r)) /\ Forall (fun d => d < 8) (snd r)) (s_rigid s).
Definition default {A} (d : A) (o : option A) : A := match o with Some a => a | None => d end.
(* the options that belong to the settings *)
Definition options_of (D : Dbl) (model : str) (s : settings) : options D :=
  mkOpt D (default 15%Z (s_iter s)) (default 10%Z (s_steps s)) (default 2 (s_elem s)) (negb (s_novtk s)) model
        (s_mat s) (map datof (s_consts s)) (default [] (s_ref s)) (default r0 (option_map datof (s_thr s)))
        (default [] (option_map fst (s_react s))) (default [] (option_map snd (s_react s)))
        (default 0%Z (option_map (fun r => fst (fst r)) (s_rigid s))) (default [] (option_map (fun r => snd (fst r)) (s_rigid s)))
        (default [] (option_map (fun r => match snd r with [] => [0; 1; 2] | ds => ds end) (s_rigid s))).

(* ---- files of words: every word after a separator of white space *)
Definition spaces (l : str) : Prop := Forall (fun c => is_space c = true) l.
Definition is_word (l : str) : Prop := l <> [] /\ Forall (fun c => is_space c = false) l.
Definition text (l : list (str * str)) : str := flat_map (fun p => fst p ++ snd p) l.
Definition sep_word (p : str * str) : Prop := fst p <> [] /\ spaces (fst p) /\ is_word (snd p).
(* a row of the curve: two words and the value *)
Record row (A : Type) := mkRow { rw_a : str * str; rw_b : str * str; rw_sep : str; rw_val : A }.
Arguments mkRow {A} _ _ _ _.
Arguments rw_a {A} _.
Arguments rw_b {A} _.
Arguments rw_sep {A} _.
Arguments rw_val {A} _.
Definition row_text {A} (sh : A -> str) (r : row A) : list (str * str) := [rw_a r; rw_b r; (rw_sep r, sh (rw_val r))].
(* v is printed so that the stream reads it back *)
Definition printed (D : Dbl) (sh : D -> str) (v : D) : Prop :=
  is_word (sh v) /\ forall t, (t = [] \/ exists c u, t = c :: u /\ is_space c = true) -> dget (sh v ++ t) = (Some v, t).
Definition row_ok (D : Dbl) (sh : D -> str) (r : row D) : Prop :=
  sep_word (rw_a r) /\ sep_word (rw_b r) /\ rw_sep r <> [] /\ spaces (rw_sep r) /\ printed D sh (rw_val r).
Definition curve_file {A} (sh : A -> str) (h0 h1 : str) (p1 p2 p3 : str) (rows : list (row A)) (trail : str) : str :=
  p1 ++ h0 ++ p2 ++ h1 ++ p3 ++ s_ "force" ++ text (flat_map (row_text sh) rows) ++ trail.
(* values equal to the one before them left out *)
Fixpoint squeeze (D : Dbl) (pre : D) (l : list D) : list D :=
  match l with [] => [] | v :: t => if deq v pre then squeeze D pre t else v :: squeeze D v t end.
Fixpoint changing (D : Dbl) (pre : D) (l : list D) : Prop :=
  match l with [] => True | v :: t => deq v pre = false /\ changing D v t end.

(* ---- extended real numbers: doubles without rounding *)
Inductive ext := Fin (r : R) | Inf (pos : bool) | NaN.
Definition xneg (a : ext) : ext := match a with Fin r => Fin (- r)%R | Inf p => Inf (negb p) | NaN => NaN end.
Definition xadd (a b : ext) : ext :=
  match a, b with
  | Fin x, Fin y => Fin (x + y)%R
  | NaN, _ | _, NaN => NaN
  | Inf p, Inf q => if Bool.eqb p q then Inf p else NaN
  | Inf p, Fin _ => Inf p
  | Fin _, Inf q => Inf q
  end.
Definition xmul (a b : ext) : ext :=
  match a, b with
  | Fin x, Fin y => Fin (x * y)%R
  | NaN, _ | _, NaN => NaN
  | Inf p, Inf q => Inf (Bool.eqb p q)
  | Inf p, Fin y | Fin y, Inf p => if Req_EM_T y 0 then NaN else if Rlt_dec 0 y then Inf p else Inf (negb p)
  end.
Definition xabs (a : ext) : ext := match a with Fin r => Fin (Rabs r) | Inf _ => Inf true | NaN => NaN end.
Definition xdivn (a : ext) (n : nat) : ext := match a with Fin r => Fin (r / INR n)%R | x => x end.
Definition xeq (a b : ext) : bool :=
  match a, b with Fin x, Fin y => if Req_EM_T x y then true else false | Inf p, Inf q => Bool.eqb p q | _, _ => false end.
Definition xlt (a b : ext) : bool :=
  match a, b with
  | Fin x, Fin y => if Rlt_dec x y then true else false
  | NaN, _ | _, NaN => false
  | Inf p, Inf q => negb p && q
  | Inf p, Fin _ => negb p
  | Fin _, Inf q => q
  end.
Definition XNum : Num := mkNum ext (Fin 0) (Fin 1) xadd xmul (fun a b => xadd a (xneg b)) xneg.
Definition XDbl (atof : str -> ext) (get : str -> option ext * str) : Dbl := mkDbl XNum xeq xlt xabs xdivn atof get.
(* mean absolute difference *)
Fixpoint abs_sum (a b : list R) : R := match a, b with x :: s, y :: t => (Rabs (x - y) + abs_sum s t)%R | _, _ => 0%R end.
Definition mean_diff (a b : list R) : R := (abs_sum a b / INR (length b))%R.
