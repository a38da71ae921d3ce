(* FESolver::dumpMatricesAndVectors and compareMatricesAndVectors, src/lib/FESolver.cpp:262-327 *)
From Coq Require Import QArith Qabs Qcanon Qround.
From Verif Require Import Base SparseModel.
From Verif Require VecModel.
Local Open Scope nat_scope.

(* ---- printing a number (ISO C printf %e, %g): the exact decimal expansion is rounded to a
   given number of significant digits, ties to even *)
Definition ten : Q := 10.
Definition round_even (q : Q) : Z :=
  let f := Qfloor q in
  match (q - inject_Z f ?= 1 # 2)%Q with
  | Lt => f
  | Gt => (f + 1)%Z
  | Eq => if Z.even f then f else (f + 1)%Z
  end.
(* the exponent e with 10^e <= q < 10^(e+1), searched upwards *)
Fixpoint exponent_from (fuel : nat) (e : Z) (q : Q) : Z :=
  match fuel with
  | 0 => e
  | S n => if Qle_bool (ten ^ (e + 1)) q then exponent_from n (e + 1) q else e
  end.
Definition exponent (q : Q) : Z :=
  let lo := (- Z.log2_up (Zpos (Qden q)))%Z in
  exponent_from (Z.to_nat (Z.log2_up (Qnum q) + 1 - lo)) lo q.
(* q > 0, rounded to p digits after the first one *)
Definition round_pos (p : nat) (q : Q) : Q :=
  let u := (ten ^ (exponent q - Z.of_nat p))%Q in (inject_Z (round_even (q / u)) * u)%Q.
Definition round_digits (p : nat) (x : Qc) : Qc :=
  match (this x ?= 0)%Q with
  | Eq => Q2Qc 0
  | Gt => Q2Qc (round_pos p (this x))
  | Lt => Q2Qc (- round_pos p (- this x))
  end.
(* operator<<(double) with the given stream flags; fixed: a given number of decimal places *)
Definition print_num (o : ostate) (x : Qc) : Qc :=
  if os_scientific o then round_digits (os_prec o) x
  else if os_fixed o then Q2Qc (inject_Z (round_even (this x * ten ^ Z.of_nat (os_prec o))) / ten ^ Z.of_nat (os_prec o))
  else round_digits (Nat.max (os_prec o) 1 - 1) x.

(* ---- the file: tokens separated by blanks *)
Inductive tok := TN (n : nat) | TX (x : Qc).

(* writeCoordinateTextFormat *)
Definition write_mat (o : ostate) (m : smat QcRng) : outcome (list tok * ostate) :=
  r <- mat_records m ;;
  match r with
  | ((nr, nc, nv), es) =>
      Ok (TN nr :: TN nc :: TN nv ::
          flat_map (fun e => [TN (fst (fst e)); TN (snd (fst e)); TX (print_num (mkOS 15 false true) (snd e))]) es,
          write_fmt_effect o)
  end.
Definition write_vec (o : ostate) (v : list Qc) : list tok := TN (length v) :: map (fun x => TX (print_num o x)) v.
Fixpoint write_mats (o : ostate) (ms : list (smat QcRng)) : outcome (list tok * ostate) :=
  match ms with
  | [] => Ok ([], o)
  | m :: ms => r <- write_mat o m ;; t <- write_mats (snd r) ms ;; Ok (fst r ++ fst t, snd t)
  end.
(* matrices: K1 K12 K2 (and those of C and M in transient problems); vectors F and R *)
Record sysd := mkSys { sys_mats : list (smat QcRng); sys_F : list Qc; sys_R : list Qc }.
Definition fresh_stream : ostate := mkOS 6 false false.
Definition dump (s : sysd) : outcome (list tok) :=
  r <- write_mats fresh_stream (sys_mats s) ;;
  Ok (fst r ++ write_vec (snd r) (sys_F s) ++ write_vec (snd r) (sys_R s)).

(* ---- reading; rd: decimal to the number type *)
Section Read.
  Variable rd : Qc -> Qc.
  Definition get_n (t : list tok) : outcome (nat * list tok) := match t with TN n :: t => Ok (n, t) | _ => UB end.
  Definition get_x (t : list tok) : outcome (Qc * list tok) := match t with TX x :: t => Ok (rd x, t) | _ => UB end.
  Fixpoint get_entries (n : nat) (t : list tok) : outcome (list (nat * nat * Qc) * list tok) :=
    match n with
    | 0 => Ok ([], t)
    | S n => i <- get_n t ;; j <- get_n (snd i) ;; x <- get_x (snd j) ;; r <- get_entries n (snd x) ;;
             Ok ((fst i, fst j, fst x) :: fst r, snd r)
    end.
  Definition read_mat (t : list tok) : outcome (smat QcRng * list tok) :=
    nr <- get_n t ;; nc <- get_n (snd nr) ;; nv <- get_n (snd nc) ;; es <- get_entries (fst nv) (snd nv) ;;
    m <- mat_reinit_entries (K := QcRng) None (fst nr) (fst nc) (fst es) ;; Ok (m, snd es).
  Fixpoint get_vals (n : nat) (t : list tok) : outcome (list Qc * list tok) :=
    match n with
    | 0 => Ok ([], t)
    | S n => x <- get_x t ;; r <- get_vals n (snd x) ;; Ok (fst x :: fst r, snd r)
    end.
  Definition read_vec (t : list tok) : outcome (list Qc * list tok) :=
    n <- get_n t ;; get_vals (fst n) (snd n).

  Definition differ_by (th : Q) (a b : Qc) : bool := negb (Qle_bool (Qabs (this a - this b)) th).
  Fixpoint compare_mats (th : Q) (ms : list (smat QcRng)) (t : list tok) : outcome (list tok) :=
    match ms with
    | [] => Ok t
    | m :: ms => r <- read_mat t ;; b <- mat_compare (K := QcRng) (differ_by th) m (fst r) ;;
                 checking b (compare_mats th ms (snd r))
    end.
  Definition compare_sys (th : Q) (s : sysd) (t : list tok) : outcome unit :=
    t1 <- compare_mats th (sys_mats s) t ;;
    f <- read_vec t1 ;; checking (VecModel.vcompare (K := QcNum) (differ_by th) (sys_F s) (fst f))
    (r <- read_vec (snd f) ;; checking (VecModel.vcompare (K := QcNum) (differ_by th) (sys_R s) (fst r)) (Ok tt)).
End Read.
