(* src/lib/sys.cpp: small tools (powers, blanks, tokens); src/lib/materials/material.{h,cpp}: named constants *)
From Coq Require Import Ascii String Reals.
From Verif Require Import Base ReaderModel HyperModel.
Local Open Scope nat_scope.

(* ---- npow, sys.cpp:18-24; dig : int16, power : uint16, res : int32; overflow of int32 is undefined *)
Definition int32_ok (z : Z) : bool := ((-2147483648 <=? z) && (z <=? 2147483647))%Z.
Fixpoint npow_loop (n : nat) (dig res : Z) : outcome Z :=
  match n with
  | 0 => Ok res
  | S n => let r := (res * dig)%Z in if int32_ok r then npow_loop n dig r else UB
  end.
Definition npow (dig : Z) (power : nat) : outcome Z := npow_loop power dig 1%Z.

(* ---- del_spaces, sys.cpp:63-78; start and end are uint16 *)
Definition U16 : N := 65536%N.
Definition SP : ascii := " "%char.
Definition nul : ascii := ascii_of_nat 0.
Definition at_ (l : str) (i : N) : ascii := nth (N.to_nat i) l nul.
Definition len (l : str) : N := N.of_nat (length l).
(* None: the whole string is blank *)
Fixpoint skip_blanks (fuel : nat) (l : str) (start : N) : outcome (option N) :=
  match fuel with
  | 0 => Loop
  | S f =>
    if Ascii.eqb (at_ l start) SP then
      let s := ((start + 1) mod U16)%N in
      if (s =? len l)%N then Ok None else skip_blanks f l s
    else Ok (Some start)
  end.
Fixpoint back_blanks (fuel : nat) (l : str) (e : N) : outcome N :=
  match fuel with
  | 0 => Loop
  | S f => if Ascii.eqb (at_ l e) SP then back_blanks f l ((e + U16 - 1) mod U16)%N else Ok e
  end.
(* std::string(str, start, count): count is cut at the end, a negative int becomes a huge size *)
Definition substr (l : str) (start : N) (count : Z) : str :=
  if (count <? 0)%Z then skipn (N.to_nat start) l else firstn (Z.to_nat count) (skipn (N.to_nat start) l).
Definition del_spaces (fuel : nat) (l : str) : outcome str :=
  match l with
  | [] => Ok []
  | _ =>
    s <- skip_blanks fuel l 0 ;;
    match s with
    | None => Ok [SP]
    | Some s => e <- back_blanks fuel l ((len l - 1) mod U16)%N ;;
                Ok (substr l s (Z.of_N e - Z.of_N s + 1))
    end
  end.

(* ---- read_tokens, sys.cpp:26-61; the input is the text before the terminating zero *)
Definition delimeters : list ascii := ["("; ")"; ","]%char.
Definition is_delim (c : ascii) : bool := existsb (Ascii.eqb c) delimeters.
(* tmp.assign(start, (int16)(p-start)): the length is taken modulo 65536; a negative one becomes a huge size (std::length_error) *)
Definition int16_of (n : N) : Z :=
  let r := (n mod U16)%N in if (r <? 32768)%N then Z.of_N r else (Z.of_N r - 65536)%Z.
Definition assign16 (tok : str) : outcome str :=
  let n := int16_of (len tok) in
  if (n <? 0)%Z then Fatal else Ok (firstn (Z.to_nat n) tok).
Definition put_token (fuel : nat) (vec : list str) (tok : str) : outcome (list str) :=
  t <- assign16 tok ;; t <- del_spaces fuel t ;; Ok (vec ++ [t]).
(* tok: the characters from start to p *)
Fixpoint token_loop (fuel : nat) (input : str) (tok : str) (vec : list str) : outcome (list str) :=
  match input with
  | [] => put_token fuel vec tok
  | c :: rest =>
    if Ascii.eqb c "!"%char then put_token fuel vec tok
    else if is_delim c then vec <- put_token fuel vec tok ;; token_loop fuel rest [] (vec ++ [[c]])
    else token_loop fuel rest (tok ++ [c]) vec
  end.
Definition read_tokens (fuel : nat) (input : str) : outcome (list str) := token_loop fuel input [] [].

(* ---- Material; mo_MC: None = the value left by new double[] *)
Record matobj := mkMat { mo_code : nat; mo_name : str; mo_names : list str; mo_MC : list (option R) }.
Definition getNumC (m : matobj) : nat := length (mo_names m).
(* register_mat_const, material.cpp:42-53 *)
Definition register_mat_const (name : str) (names : list str) : matobj :=
  mkMat 0 name names (repeat None (length names)).
(* materials_hyperelastic.h:52-56, 75-79, 95-99 *)
Definition Mat_Comp_Neo_Hookean : matobj := register_mat_const (s_ "Neo-Hookean") (map s_ ["G"; "K"]%string).
Definition Mat_Comp_Biderman : matobj :=
  register_mat_const (s_ "Biderman") (map s_ ["C10"; "C20"; "C30"; "C01"; "K"]%string).
Definition Mat_Comp_MooneyRivlin : matobj :=
  register_mat_const (s_ "Money-Rivlin") (map s_ ["C10"; "C01"; "K"]%string).
(* MaterialFactory.cpp:24-47; None: nullptr *)
Definition new_material (x : str) : option matobj :=
  match matName2matId x with
  | 1 => Some (mkMat 1 (mo_name Mat_Comp_Neo_Hookean) (mo_names Mat_Comp_Neo_Hookean) (mo_MC Mat_Comp_Neo_Hookean))
  | 2 => Some (mkMat 2 (mo_name Mat_Comp_Biderman) (mo_names Mat_Comp_Biderman) (mo_MC Mat_Comp_Biderman))
  | 3 => Some (mkMat 3 (mo_name Mat_Comp_MooneyRivlin) (mo_names Mat_Comp_MooneyRivlin) (mo_MC Mat_Comp_MooneyRivlin))
  | _ => None
  end.
(* Ci(uint16), material.h:59-63; Ci(string), material.cpp:30-39: an unknown name gives a reference to a dead local variable *)
Inductive ckey := By_number (i : nat) | By_name (x : str).
Definition ref_Ci (m : matobj) (k : ckey) : outcome nat :=
  match k with
  | By_number i => asserting (i <? getNumC m) (Ok i)
  | By_name x => match index_of x (mo_names m) 0 with Some i => Ok i | None => UB end
  end.
Definition set_Ci (m : matobj) (k : ckey) (v : R) : outcome matobj :=
  i <- ref_Ci m k ;; mc <- aset (mo_MC m) i (Some v) ;; Ok (mkMat (mo_code m) (mo_name m) (mo_names m) mc).
Definition read_MC (m : matobj) (i : nat) : outcome R :=
  v <- aget (mo_MC m) i ;; match v with Some v => Ok v | None => UB end.
Definition get_Ci (m : matobj) (k : ckey) : outcome R := i <- ref_Ci m k ;; read_MC m i.
(* toString, material.cpp:21-28: the text is the name, then " name = value" for each constant *)
Definition mat_toString (m : matobj) : outcome (str * list (str * R)) :=
  l <- ofold (fun l i => x <- aget (mo_names m) i ;; v <- read_MC m i ;; Ok (l ++ [(x, v)])) (seq 0 (getNumC m)) [] ;;
  Ok (mo_name m, l).
Definition set_all (m : matobj) (l : list (ckey * R)) : outcome matobj :=
  ofold (fun m kv => set_Ci m (fst kv) (snd kv)) l m.

(* the virtual functions, materials_hyperelastic.cpp:136-204; enum constants C_G, C_K, C_C10 ... of each class *)
Local Open Scope R_scope.
Definition mat_first (m : matobj) (I1 I2 I3 : R) : outcome (list R) :=
  match mo_code m with
  | 1%nat => G <- read_MC m 0 ;; Ok [(1 / 2) * G; 0]
  | 2%nat => a <- read_MC m 0 ;; b <- read_MC m 1 ;; c <- read_MC m 2 ;; d <- read_MC m 3 ;;
             Ok [a + 2 * b * (I1 - 3) + 3 * c * (I1 - 3) * (I1 - 3); d]
  | 3%nat => a <- read_MC m 0 ;; d <- read_MC m 1 ;; Ok [a; d]
  | _ => UB
  end.
Definition mat_second (m : matobj) (I1 I2 I3 : R) : outcome (list R) :=
  match mo_code m with
  | 1%nat => G <- read_MC m 0 ;; Ok [(1 / 2) * G; 0; 0; 0; 0]
  | 2%nat => a <- read_MC m 0 ;; b <- read_MC m 1 ;; c <- read_MC m 2 ;; d <- read_MC m 3 ;;
             Ok [a + 2 * b * (I1 - 3) + 3 * c * (I1 - 3) * (I1 - 3); d; 2 * b + 6 * c * (I1 - 3); 0; 0]
  | 3%nat => a <- read_MC m 0 ;; d <- read_MC m 1 ;; Ok [a; d; 0; 0; 0]
  | _ => UB
  end.
Definition mat_W (m : matobj) (I1 I2 I3 : R) : outcome R :=
  match mo_code m with
  | 1%nat => G <- read_MC m 0 ;; Ok ((1 / 2) * G * (I1 - 3))
  | 2%nat => a <- read_MC m 0 ;; b <- read_MC m 1 ;; c <- read_MC m 2 ;; d <- read_MC m 3 ;;
             Ok (a * (I1 - 3) + b * (I1 - 3) * (I1 - 3) + c * (I1 - 3) * (I1 - 3) * (I1 - 3) + d * (I2 - 3))
  | 3%nat => a <- read_MC m 0 ;; d <- read_MC m 1 ;; Ok (a * (I1 - 3) + d * (I2 - 3))
  | _ => UB
  end.
Definition mat_getK (m : matobj) : outcome R :=
  match mo_code m with
  | 1%nat => read_MC m 1 | 2%nat => read_MC m 4 | 3%nat => read_MC m 2 | _ => UB
  end.
