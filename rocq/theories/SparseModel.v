(* Model of src/lib/math/SparseMatrix.{h,cpp}.
   Simplifications, valid for the whole file:
   - uint32 indices are nat, without wrap-around (sizes below 2^32);
   - the value `invalid` (0xFFFFFFFF, SparseMatrix.cpp:11) of a column slot or of an
     index is None; it compares greater than every column number;
   - new[] never fails, uninitialised cells are never read before they are written. *)
From Verif Require Import Base.

(* class SparsityInfo, SparseMatrix.h:24-72 *)
Record spinfo := mkSI {
  si_nrows : nat;                   (* nRows *)
  si_ncols : nat;                   (* nColumns *)
  si_max : nat;                     (* maxInRow *)
  si_columns : list (option nat);   (* columns[] *)
  si_iofeir : list nat;             (* iofeir[], 1-based starts, nRows+1 cells *)
  si_nvals : nat;                   (* numberOfValues *)
  si_compressed : bool }.

(* SparsityInfo::reinit, SparseMatrix.cpp:44-60 *)
Definition si_reinit (nr nc max_in_row : nat) : outcome spinfo :=
  asserting (0 <? max_in_row)
    (let m := if max_in_row <? nc then max_in_row else nc in
     Ok (mkSI nr nc m (repeat None (nr * m))
              (map (fun i => 1 + i * m) (seq 0 (S nr))) 0 false)).

(* the scan in SparsityInfo::addEntry, SparseMatrix.cpp:73-84; n slots are left,
   starting at slot p. Ok None: already there; Ok (Some q): store into q. *)
Fixpoint add_scan (cols : list (option nat)) (p n j : nat) : outcome (option nat) :=
  match n with
  | 0 => Fatal
  | S n' =>
      c <- aget cols p ;;
      match c with
      | Some c' => if c' =? j then Ok None else add_scan cols (S p) n' j
      | None => Ok (Some p)
      end
  end.

(* SparsityInfo::addEntry, SparseMatrix.cpp:64-85 *)
Definition si_addEntry (s : spinfo) (i j : nat) : outcome spinfo :=
  asserting ((0 <? i) && (i <=? si_nrows s))
  (asserting ((0 <? j) && (j <=? si_ncols s))
  (asserting (negb (si_compressed s))
  (a <- aget (si_iofeir s) (i - 1) ;;
   b <- aget (si_iofeir s) i ;;
   let st := a - 1 in let en := b - 1 in
   r <- add_scan (si_columns s) st (en - st) j ;;
   match r with
   | None => Ok s
   | Some q =>
       cols <- aset (si_columns s) q (Some j) ;;
       Ok (mkSI (si_nrows s) (si_ncols s) (si_max s) cols (si_iofeir s)
                (S (si_nvals s)) false)
   end))).

(* std::sort on uint32, used in SparseMatrix.cpp:102 *)
Fixpoint insert_sorted (x : nat) (l : list nat) : list nat :=
  match l with
  | [] => [x]
  | y :: t => if x <=? y then x :: l else y :: insert_sorted x t
  end.
Definition std_sort (l : list nat) : list nat := fold_right insert_sorted [] l.

(* inner copy loop of compress, SparseMatrix.cpp:97-100 *)
Fixpoint copy_row (old : list (option nat)) (p n : nat) : outcome (list nat) :=
  match n with
  | 0 => Ok []
  | S n' =>
      c <- aget old p ;;
      match c with
      | None => Ok []
      | Some c' => t <- copy_row old (S p) n' ;; Ok (c' :: t)
      end
  end.

(* one pass of the row loop of compress, SparseMatrix.cpp:96-107.
   State: new columns so far (its length is `next` and also `nextRow`) and iofeir,
   which is overwritten in place while the loop still reads iofeir[i], iofeir[i+1]. *)
Definition compress_row (old : list (option nat)) (st : list nat * list nat) (i : nat)
  : outcome (list nat * list nat) :=
  let '(cols, iof) := st in
  a <- aget iof i ;;
  b <- aget iof (i + 1) ;;
  r <- copy_row old (a - 1) ((b - 1) - (a - 1)) ;;
  iof' <- aset iof i (length cols + 1) ;;
  Ok (cols ++ std_sort r, iof').

(* SparsityInfo::compress, SparseMatrix.cpp:88-114. The new array has numberOfValues cells;
   writing past its end (UB) and ending short of it (assert at 109) both mean that the
   number of copied columns differs from numberOfValues. *)
Definition si_compress (s : spinfo) : outcome spinfo :=
  if si_compressed s then Ok s else
  r <- ofold (compress_row (si_columns s)) (seq 0 (si_nrows s)) ([], si_iofeir s) ;;
  let '(cols, iof) := r in
  asserting (length cols =? si_nvals s)
    (iof' <- aset iof (si_nrows s) (length cols + 1) ;;
     Ok (mkSI (si_nrows s) (si_ncols s) (si_max s) (map Some cols) iof' (si_nvals s) true)).

Definition slot_is (c : option nat) (j : nat) : bool :=
  match c with Some c' => c' =? j | None => false end.
Definition slot_gt (c : option nat) (j : nat) : bool :=
  match c with Some c' => j <? c' | None => true end.

(* the search loop of getIndex, SparseMatrix.cpp:131-152; st and en are inclusive.
   (uint32)((en+st)*0.5) is (en+st)/2. *)
Fixpoint bsearch (fuel : nat) (cols : list (option nat)) (st en j : nat)
  : outcome (option nat) :=
  match fuel with
  | 0 => Loop
  | S fuel' =>
      if en - st =? 1 then
        c1 <- aget cols st ;;
        if slot_is c1 j then Ok (Some st) else
        c2 <- aget cols en ;;
        if slot_is c2 j then Ok (Some en) else Ok None
      else
        let ind := (en + st) / 2 in
        c <- aget cols ind ;;
        if slot_is c j then Ok (Some ind) else
        if en =? st then Ok None else
        if slot_gt c j then bsearch fuel' cols st ind j
        else bsearch fuel' cols ind en j
  end.

(* SparsityInfo::getIndex, SparseMatrix.cpp:117-154. Each pass of the loop that does not
   return shrinks en-st, if it shrinks at all; en-st+1 passes of fuel are therefore enough
   and running out means an endless loop. *)
Definition si_getIndex (s : spinfo) (i j : nat) : outcome (option nat) :=
  asserting ((0 <? i) && (i <=? si_nrows s))
  (asserting ((0 <? j) && (j <=? si_ncols s))
  (a <- aget (si_iofeir s) (i - 1) ;;
   b <- aget (si_iofeir s) i ;;
   let st := a - 1 in let en := b - 1 in
   if st =? en then Ok None
   else bsearch (en - st + 1) (si_columns s) st (en - 1) j)).

(* ------------------------------------------------------------------ *)
(* class BaseSparseMatrix / SparseMatrix / SparseSymMatrix, SparseMatrix.h:86-186.
   The pattern is held by value here; sharing one SparsityInfo between several matrices
   (std::shared_ptr) is modelled where it matters by handing the same pattern around. *)
Section Mat.
  Variable K : Num.
  Local Open Scope rng_scope.
  Local Notation "a && b" := (andb a b) : rng_scope.

  Record smat := mkSM {
    sm_si : spinfo;
    sm_vals : option (list K) }.     (* values, None = nullptr *)

  (* BaseSparseMatrix(nrows,ncols,max) 268-271, SparseMatrix::reinit 370-376 *)
  Definition mat_new (nr nc m : nat) : outcome smat :=
    s <- si_reinit nr nc m ;; Ok (mkSM s None).

  (* BaseSparseMatrix::zero, SparseMatrix.h:200-204 *)
  Definition mat_zero (m : smat) : outcome smat :=
    match sm_vals m with
    | None => UB
    | Some v =>
        asserting (Nat.leb (si_nvals (sm_si m)) (length v))
          (Ok (mkSM (sm_si m)
                 (Some (repeat r0 (si_nvals (sm_si m)) ++ skipn (si_nvals (sm_si m)) v))))
    end.

  (* BaseSparseMatrix::compress, SparseMatrix.cpp:325-338 *)
  Definition mat_compress (m : smat) : outcome smat :=
    let alloc s := Ok (mkSM s (Some (repeat r0 (si_nvals s)))) in
    if si_compressed (sm_si m) then
      match sm_vals m with
      | Some _ => Ok m
      | None => alloc (sm_si m)
      end
    else s <- si_compress (sm_si m) ;; alloc s.

  (* BaseSparseMatrix::setSparsityInfo, SparseMatrix.cpp:341-349 *)
  Definition mat_setSI (m : smat) (s : spinfo) : outcome smat :=
    let m' := mkSM s (sm_vals m) in
    if si_compressed s then mat_compress m' else Ok m'.

  (* SparseMatrix::addEntry, SparseMatrix.h:249-252 *)
  Definition mat_addEntry (m : smat) (i j : nat) : outcome smat :=
    s <- si_addEntry (sm_si m) i j ;; Ok (mkSM s (sm_vals m)).

  (* the cell that SparseMatrix::operator() returns a reference to, SparseMatrix.cpp:395-404 *)
  Definition mat_ref (m : smat) (i j : nat) : outcome (nat * list K) :=
    match sm_vals m with
    | None => UB
    | Some v =>
        o <- si_getIndex (sm_si m) i j ;;
        match o with
        | None => Fatal
        | Some k => asserting (Nat.ltb k (length v)) (Ok (k, v))
        end
    end.

  (* m(i,j) = x *)
  Definition mat_set (m : smat) (i j : nat) (x : K) : outcome smat :=
    r <- mat_ref m i j ;;
    let '(k, v) := r in
    v' <- aset v k x ;; Ok (mkSM (sm_si m) (Some v')).

  (* SparseMatrix::addValue, SparseMatrix.h:254-256 *)
  Definition mat_addValue (m : smat) (i j : nat) (x : K) : outcome smat :=
    r <- mat_ref m i j ;;
    let '(k, v) := r in
    old <- aget v k ;;
    v' <- aset v k (old + x) ;; Ok (mkSM (sm_si m) (Some v')).

  (* SparseMatrix::value, SparseMatrix.cpp:406-415 *)
  Definition mat_value (m : smat) (i j : nat) : outcome K :=
    match sm_vals m with
    | None => UB
    | Some v =>
        o <- si_getIndex (sm_si m) i j ;;
        match o with
        | None => Ok 0
        | Some k => aget v k
        end
    end.

  (* std::swap to the upper triangle, e.g. SparseMatrix.cpp:472, SparseMatrix.h:263 *)
  Definition upper {A} (f : nat -> nat -> A) (i j : nat) : A :=
    if Nat.ltb j i then f j i else f i j.

  (* SparseSymMatrix::reinit, SparseMatrix.cpp:442-448 (no diagonal entries here) *)
  Definition sym_reinit (n m : nat) : outcome smat := mat_new n n m.
  (* SparseSymMatrix(nrows, max_in_row), SparseMatrix.cpp:423-431 *)
  Definition sym_new (n m : nat) : outcome smat :=
    r <- mat_new n n m ;;
    ofold (fun a i => mat_addEntry a i i) (seq 1 n) r.
  (* SparseMatrix.h:259-265 *)
  Definition sym_addEntry (m : smat) := upper (mat_addEntry m).
  (* SparseMatrix.cpp:467-479 *)
  Definition sym_set (m : smat) (i j : nat) (x : K) := upper (fun a b => mat_set m a b x) i j.
  (* SparseMatrix.h:267-269 *)
  Definition sym_addValue (m : smat) (i j : nat) (x : K) :=
    upper (fun a b => mat_addValue m a b x) i j.
  (* SparseMatrix.cpp:482-494 *)
  Definition sym_value (m : smat) := upper (mat_value m).

  (* R[i] += x *)
  Definition aadd (R : list K) (i : nat) (x : K) : outcome (list K) :=
    r <- aget R i ;; aset R i (r + x).

  (* columns[p] as a number; after compress there is no `invalid` left, reading V at
     invalid-1 would be outside every vector *)
  Definition col_at (s : spinfo) (p : nat) : outcome nat :=
    c <- aget (si_columns s) p ;;
    match c with Some c' => Ok c' | None => UB end.

  (* matBVprod(SparseMatrix), SparseMatrix.cpp:522-542. The inner loop runs from st to
     en = iofeir[i]-2 inclusive, i.e. over iofeir[i]-iofeir[i-1] slots. *)
  Definition prod_row (m : smat) (v : list K) (V : list K) (coef : K) (R : list K) (i : nat)
    : outcome (list K) :=
    a <- aget (si_iofeir (sm_si m)) (i - 1) ;;
    b <- aget (si_iofeir (sm_si m)) i ;;
    if Nat.eqb (b - a) 0 then Ok R else
    ofold (fun R p =>
             c <- col_at (sm_si m) p ;;
             x <- aget v p ;;
             y <- aget V (c - 1) ;;
             aadd R (i - 1) (x * y * coef))
          (seq (a - 1) (S ((b - 2) - (a - 1)))) R.

  Definition mat_BVprod (m : smat) (V : list K) (coef : K) (R : list K) : outcome (list K) :=
    asserting (si_compressed (sm_si m))
    (match sm_vals m with
     | None => UB
     | Some v =>
        asserting (Nat.eqb (si_ncols (sm_si m)) (length V))
        (asserting (Nat.leb (si_nrows (sm_si m)) (length R))
        (ofold (prod_row m v V coef) (seq 1 (si_nrows (sm_si m))) R))
     end).

  (* matBTVprod(SparseMatrix), SparseMatrix.cpp:544-561 *)
  Definition tprod_row (m : smat) (v : list K) (V : list K) (coef : K) (R : list K) (i : nat)
    : outcome (list K) :=
    a <- aget (si_iofeir (sm_si m)) (i - 1) ;;
    b <- aget (si_iofeir (sm_si m)) i ;;
    if Nat.eqb (b - a) 0 then Ok R else
    ofold (fun R p =>
             c <- col_at (sm_si m) p ;;
             x <- aget v p ;;
             y <- aget V (i - 1) ;;
             aadd R (c - 1) (x * y * coef))
          (seq (a - 1) (S ((b - 2) - (a - 1)))) R.

  Definition mat_BTVprod (m : smat) (V : list K) (coef : K) (R : list K) : outcome (list K) :=
    asserting (si_compressed (sm_si m))
    (match sm_vals m with
     | None => UB
     | Some v =>
        asserting (Nat.eqb (si_nrows (sm_si m)) (length V))
        (asserting (Nat.leb (si_ncols (sm_si m)) (length R))
        (ofold (tprod_row m v V coef) (seq 1 (si_nrows (sm_si m))) R))
     end).

  (* matBVprod(SparseSymMatrix), SparseMatrix.cpp:497-519.
     big x stands for fabs(x) > 1e-20. *)
  Definition sym_BVprod (big : K -> bool) (m : smat) (V : list K) (coef : K) (R : list K)
    : outcome (list K) :=
    asserting (si_compressed (sm_si m))
    (match sm_vals m with
     | None => UB
     | Some _ =>
        let n := si_nrows (sm_si m) in
        asserting (Nat.eqb n (length V))
        (asserting (Nat.leb n (length R))
        (ofold (fun R i =>
           R1 <- ofold (fun R j =>
                   y <- aget V (j - 1) ;;
                   if big y then x <- sym_value m j i ;; aadd R (i - 1) (x * y * coef)
                   else Ok R) (seq 1 i) R ;;
           ofold (fun R j =>
                   y <- aget V (j - 1) ;;
                   if big y then x <- sym_value m i j ;; aadd R (i - 1) (x * y * coef)
                   else Ok R) (seq (i + 1) (n - i)) R1)
          (seq 1 n) R))
     end).

  (* BaseSparseMatrix::compare, SparseMatrix.cpp:222-261.
     differ a b stands for fabs(a-b) > th. *)
  Definition opt_eqb (a b : option nat) : bool :=
    match a, b with
    | Some x, Some y => Nat.eqb x y
    | None, None => true
    | _, _ => false
    end.
  Fixpoint all_pairs {A} (f : A -> A -> bool) (n : nat) (l1 l2 : list A) : outcome bool :=
    match n with
    | 0 => Ok true
    | S n' =>
        match l1, l2 with
        | x :: t1, y :: t2 => if f x y then all_pairs f n' t1 t2 else Ok false
        | _, _ => UB
        end
    end.
  Definition mat_compare (differ : K -> K -> bool) (m1 m2 : smat) : outcome bool :=
    match sm_vals m1, sm_vals m2 with
    | Some v1, Some v2 =>
        let s1 := sm_si m1 in let s2 := sm_si m2 in
        asserting (si_compressed s1 && si_compressed s2)
        (if negb (Nat.eqb (si_nrows s1) (si_nrows s2)) then Ok false else
         if negb (Nat.eqb (si_ncols s1) (si_ncols s2)) then Ok false else
         if negb (Nat.eqb (si_nvals s1) (si_nvals s2)) then Ok false else
         b1 <- all_pairs Nat.eqb (S (si_nrows s1)) (si_iofeir s1) (si_iofeir s2) ;;
         if negb b1 then Ok false else
         b2 <- all_pairs opt_eqb (si_nvals s1) (si_columns s1) (si_columns s2) ;;
         if negb b2 then Ok false else
         all_pairs (fun a b => negb (differ a b)) (si_nvals s1) v1 v2)
    | _, _ => UB
    end.

  (* struct SparseEntry and BaseSparseMatrix::reinit(entries), SparseMatrix.cpp:285-323.
     `old` is the previous state of the matrix object (its values array may exist). *)
  Definition count_row (es : list (nat * nat * K)) (i : nat) : nat :=
    length (filter (fun e => Nat.eqb (fst (fst e)) i) es).
  Definition mat_reinit_entries (oldvals : option (list K)) (nr nc : nat)
    (es : list (nat * nat * K)) : outcome smat :=
    match es with
    | [] => s <- si_reinit nr nc 1 ;; mat_compress (mkSM s oldvals)
    | _ =>
        (* entriesInRow[v.i-1] += 1, 298-301 *)
        asserting (forallb (fun e => (Nat.ltb 0 (fst (fst e))) && (Nat.leb (fst (fst e)) nr)) es)
        (let mx := list_max (map (count_row es) (seq 1 nr)) in
         s <- si_reinit nr nc mx ;;
         s1 <- ofold (fun s e => si_addEntry s (fst (fst e)) (snd (fst e))) es s ;;
         m <- mat_compress (mkSM s1 oldvals) ;;
         ofold (fun m e => mat_set m (fst (fst e)) (snd (fst e)) (snd e)) es m)
    end.

  (* the records that writeCoordinateTextFormat prints, SparseMatrix.cpp:184-204: the header
     numbers and one (row, column, value) triple per stored value *)
  Definition write_row (s : spinfo) (v : list K) (i : nat) : outcome (list (nat * nat * K)) :=
    a <- aget (si_iofeir s) (i - 1) ;;
    b <- aget (si_iofeir s) i ;;
    ofold (fun acc p => c <- col_at s p ;; x <- aget v p ;; Ok (acc ++ [(i, c, x)]))
          (seq (a - 1) ((b - 1) - (a - 1))) [].
  Definition mat_records (m : smat) : outcome ((nat * nat * nat) * list (nat * nat * K)) :=
    match sm_vals m with
    | None => UB
    | Some v =>
        asserting (si_compressed (sm_si m))
        (es <- ofold (fun acc i => r <- write_row (sm_si m) v i ;; Ok (acc ++ r))
                     (seq 1 (si_nrows (sm_si m))) [] ;;
         asserting (Nat.eqb (length es) (si_nvals (sm_si m)))
         (Ok ((si_nrows (sm_si m), si_ncols (sm_si m), si_nvals (sm_si m)), es)))
    end.
End Mat.

Arguments mkSM {K} _ _.
Arguments sm_si {K} _.
Arguments sm_vals {K} _.
Arguments mat_zero {K} _.
Arguments mat_compress {K} _.
Arguments mat_setSI {K} _ _.
Arguments mat_addEntry {K} _ _ _.
Arguments mat_ref {K} _ _ _.
Arguments mat_set {K} _ _ _ _.
Arguments mat_addValue {K} _ _ _ _.
Arguments mat_value {K} _ _ _.
Arguments sym_addEntry {K} _ _ _.
Arguments sym_set {K} _ _ _ _.
Arguments sym_addValue {K} _ _ _ _.
Arguments sym_value {K} _ _ _.
Arguments mat_BVprod {K} _ _ _ _.
Arguments mat_BTVprod {K} _ _ _ _.
Arguments sym_BVprod {K} _ _ _ _ _.
Arguments mat_compare {K} _ _ _.
Arguments mat_records {K} _.
Arguments mat_reinit_entries {K} _ _ _ _.

(* Formatting state of an output stream as far as writeCoordinateTextFormat touches it:
   precision and the floatfield flags (SparseMatrix.cpp:189-190, 202-203).
   out.setf(f, mask) clears mask and sets f, and returns the flags as they were;
   out.setf(f) only sets bits (ISO C++ [ios.base.locales]/fmtflags state). *)
Record ostate := mkOS { os_prec : nat; os_fixed : bool; os_scientific : bool }.
Definition setf_scientific_floatfield (o : ostate) : ostate :=
  mkOS (os_prec o) false true.
Definition setf_or (o f : ostate) : ostate :=
  mkOS (os_prec o) (os_fixed o || os_fixed f) (os_scientific o || os_scientific f).
Definition write_fmt_effect (o : ostate) : ostate :=
  let o1 := mkOS 15 (os_fixed o) (os_scientific o) in
  let o2 := setf_scientific_floatfield o1 in
  (* ... writing ... *)
  let o3 := mkOS (os_prec o) (os_fixed o2) (os_scientific o2) in
  setf_or o3 o.
