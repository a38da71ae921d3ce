(* What the small tools are meant to do *)
From Coq Require Import Ascii String Reals.
From Verif Require Import Base ReaderModel HyperModel ToolsModel.
Local Open Scope nat_scope.

(* blanks at both ends of a text *)
Definition edges (w : str) : Prop := exists c t, w = c :: t /\ c <> SP /\ last w nul <> SP.
Definition blanks (n : nat) : str := repeat SP n.
Fixpoint unlead (l : str) : str := match l with [] => [] | c :: t => if Ascii.eqb c SP then unlead t else l end.
(* the text without the blanks at its ends; a text of blanks only is written as one blank *)
Definition tidy (l : str) : str :=
  match l, unlead l with
  | [], _ => []
  | _, [] => [SP]
  | _, w => rev (unlead (rev w))
  end.

(* a command: a word, then delimiters each followed by a word, then perhaps a comment *)
Definition delim_sign (c : ascii) : bool := match c with "(" | ")" | "," => true | _ => false end%char.
Definition plain (w : str) : Prop := Forall (fun c => delim_sign c = false /\ c <> "!"%char) w.
Definition comment (c : str) : Prop := c = [] \/ exists t, c = "!"%char :: t.
Definition spell (w : str) (l : list (ascii * str)) : str := w ++ flat_map (fun p => fst p :: snd p) l.
Definition tokens (w : str) (l : list (ascii * str)) : list str :=
  tidy w :: flat_map (fun p => [[fst p]; tidy (snd p)]) l.
Definition words (w : str) (l : list (ascii * str)) : list str := w :: map snd l.
Definition command (w : str) (l : list (ascii * str)) : Prop :=
  Forall plain (words w l) /\ Forall (fun p => delim_sign (fst p) = true) l.
Definition shorter (n : N) (w : str) : Prop := (len w < n)%N.

(* the constant meant by a number or by a name: the first one of that name *)
Definition means (names : list str) (k : ckey) (i : nat) : Prop :=
  match k with
  | By_number n => n = i /\ i < length names
  | By_name x => nth_error names i = Some x /\ forall j, j < i -> nth_error names j <> Some x
  end.
Definition known (names : list str) (k : ckey) : Prop := exists i, means names k i.
(* v is the value given last to constant i by the assignments l *)
Definition last_value (names : list str) (l : list (ckey * R)) (i : nat) (v : R) : Prop :=
  exists l1 k l2, l = l1 ++ (k, v) :: l2 /\ means names k i /\ Forall (fun kv => ~ means names (fst kv) i) l2.
Definition never (names : list str) (l : list (ckey * R)) (i : nat) : Prop :=
  Forall (fun kv => ~ means names (fst kv) i) l.
(* what material object m computes is the law h *)
Definition follows (m : matobj) (h : hyper) : Prop :=
  (forall I1 I2 I3, mat_first m I1 I2 I3 = Ok (W_first h I1 I2 I3)) /\
  (forall I1 I2 I3, mat_second m I1 I2 I3 = Ok (W_second h I1 I2 I3)) /\
  (forall I1 I2 I3, mat_W m I1 I2 I3 = Ok (hW h I1 I2 I3)) /\
  mat_getK m = Ok (hK h).
