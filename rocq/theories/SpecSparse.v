(* Specification vocabulary for the sparse matrix properties *)
From Verif Require Import Base SparseModel.
From Coq Require Import QArith Qcanon Qabs.
Local Open Scope nat_scope.

(* an existing (1-based) position of an nr x nc matrix *)
Definition in_shape (nr nc : nat) (e : nat * nat) : Prop :=
  1 <= fst e <= nr /\ 1 <= snd e <= nc.

(* a history of addEntry calls *)
Definition add_entries (s : spinfo) (es : list (nat * nat)) : outcome spinfo :=
  ofold (fun s e => si_addEntry s (fst e) (snd e)) es s.

(* create a pattern, register positions, compress *)
Definition build (nr nc m : nat) (es : list (nat * nat)) : outcome spinfo :=
  s <- si_reinit nr nc m ;; s' <- add_entries s es ;; si_compress s'.

(* the distinct columns registered for row i *)
Definition row_cols (es : list (nat * nat)) (i : nat) : list nat :=
  nodup Nat.eq_dec (map snd (filter (fun e => fst e =? i) es)).

(* every row has at most m distinct columns *)
Definition fits (nr m : nat) (es : list (nat * nat)) : Prop :=
  forall i, 1 <= i <= nr -> length (row_cols es i) <= m.

Definition pos_dec : forall a b : nat * nat, {a = b} + {a <> b}.
Proof. decide equality; apply Nat.eq_dec. Defined.
(* the distinct registered positions *)
Definition positions (es : list (nat * nat)) : list (nat * nat) := nodup pos_dec es.

(* ------------------------------------------------------------------ *)
Section Values.
  Variable K : Num.
  Local Open Scope rng_scope.

  (* histories of value operations on a compressed matrix *)
  Inductive vop :=
  | VAdd (i j : nat) (x : K)     (* addValue(i, j, x) *)
  | VSet (i j : nat) (x : K)     (* operator()(i, j) = x *)
  | VZero.                       (* zero() *)

  Definition run_vop (m : smat K) (o : vop) : outcome (smat K) :=
    match o with
    | VAdd i j x => mat_addValue m i j x
    | VSet i j x => mat_set m i j x
    | VZero => mat_zero m
    end.
  Definition run_sym_vop (m : smat K) (o : vop) : outcome (smat K) :=
    match o with
    | VAdd i j x => sym_addValue m i j x
    | VSet i j x => sym_set m i j x
    | VZero => mat_zero m
    end.
  Definition vop_pos (o : vop) : option (nat * nat) :=
    match o with VAdd i j _ | VSet i j _ => Some (i, j) | VZero => None end.

  (* the abstract matrix: a function from positions to numbers *)
  Definition here (i j i' j' : nat) : bool := Nat.eqb i i' && Nat.eqb j j'.
  Definition spec_vop (f : nat -> nat -> K) (o : vop) : nat -> nat -> K :=
    match o with
    | VAdd i j x => fun a b => if here i j a b then f a b + x else f a b
    | VSet i j x => fun a b => if here i j a b then x else f a b
    | VZero => fun _ _ => 0
    end.
  Definition spec_vops (os : list vop) : nat -> nat -> K :=
    fold_left spec_vop os (fun _ _ => 0).

  (* matrix-vector products of an abstract nr x nc matrix *)
  Definition mv (f : nat -> nat -> K) (nc : nat) (V : list K) (i : nat) : K :=
    sumof (fun j => f i j * nth (j - 1) V 0) (seq 1 nc).
  Definition mtv (f : nat -> nat -> K) (nr : nat) (V : list K) (j : nat) : K :=
    sumof (fun i => f i j * nth (i - 1) V 0) (seq 1 nr).
End Values.
Arguments VAdd {K} i j x.
Arguments VSet {K} i j x.
Arguments VZero {K}.
Arguments run_vop {K} m o.
Arguments run_sym_vop {K} m o.
Arguments vop_pos {K} o.
Arguments spec_vop {K} f o.
Arguments spec_vops {K} os.
Arguments mv {K} f nc V i.
Arguments mtv {K} f nr V j.

(* the value listed last for position (i,j), 0 if the position is not listed *)
Definition last_value {K : Num} (es : list (nat * nat * K)) (i j : nat) : K :=
  match find (fun e => here i j (fst (fst e)) (snd (fst e))) (rev es) with
  | Some e => snd e
  | None => r0
  end.

Section Histories.
  Variable K : Num.
  Local Open Scope rng_scope.

  (* create a matrix, register positions, compress *)
  Definition new_matrix (nr nc cap : nat) (es : list (nat * nat)) : outcome (smat K) :=
    m <- mat_new K nr nc cap ;;
    m' <- ofold (fun m e => mat_addEntry m (fst e) (snd e)) es m ;;
    mat_compress m'.
  (* ... and then perform any history of value operations *)
  Definition filled (nr nc cap : nat) (es : list (nat * nat)) (os : list (vop K))
    : outcome (smat K) :=
    m <- new_matrix nr nc cap es ;; ofold run_vop os m.

  (* the same for symmetric matrices, created by reinit (no diagonal) *)
  Definition new_sym (n cap : nat) (es : list (nat * nat)) : outcome (smat K) :=
    m <- sym_reinit K n cap ;;
    m' <- ofold (fun m e => sym_addEntry m (fst e) (snd e)) es m ;;
    mat_compress m'.
  Definition filled_sym (n cap : nat) (es : list (nat * nat)) (os : list (vop K))
    : outcome (smat K) :=
    m <- new_sym n cap es ;; ofold run_sym_vop os m.

  (* unordered positions *)
  Definition same_pair (i j a b : nat) : bool := here i j a b || here j i a b.
  Definition spec_sym_vop (f : nat -> nat -> K) (o : vop K) : nat -> nat -> K :=
    match o with
    | VAdd i j x => fun a b => if same_pair i j a b then f a b + x else f a b
    | VSet i j x => fun a b => if same_pair i j a b then x else f a b
    | VZero => fun _ _ => 0
    end.
  Definition spec_sym_vops (os : list (vop K)) : nat -> nat -> K :=
    fold_left spec_sym_vop os (fun _ _ => 0).
  Definition sym_in (es : list (nat * nat)) (i j : nat) : Prop :=
    In (i, j) es \/ In (j, i) es.
End Histories.
Arguments new_matrix {K} _ _ _ _.
Arguments filled {K} _ _ _ _ _.
Arguments new_sym {K} _ _ _.
Arguments filled_sym {K} _ _ _ _.
Arguments spec_sym_vop {K} _ _.
Arguments spec_sym_vops {K} _.
(* the upper-triangle position of an unordered pair *)
Definition up (e : nat * nat) : nat * nat :=
  if snd e <? fst e then (snd e, fst e) else e.

(* fabs(x) > 1e-20 and fabs(a-b) > th for rational numbers *)
Definition big_Qc (x : QcNum) : bool := negb (Qle_bool (Qabs (this x)) (1 # 100000000000000000000)).
Definition differ_Qc (th : Q) (a b : QcNum) : bool := negb (Qle_bool (Qabs (this a - this b)) th).
(* the tolerance relation meant by it *)
Definition close_Qc (th : Q) (a b : QcNum) : Prop := (Qabs (this a - this b) <= th)%Q.
