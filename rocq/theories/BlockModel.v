(* Model of src/lib/math/BlockSparseMatrix.h *)
From Verif Require Import Base SparseModel.

(* number of off-diagonal blocks: the size of upper[], BlockSparseMatrix.h:63 *)
Definition n_upper (nb : nat) : nat := nb * (nb + 1) / 2 - nb.

(* block(i,j), BlockSparseMatrix.h:115-123. The int expression is evaluated in Z (int does
   not overflow for nb <= 46341), `/` truncates towards zero, the result is converted to
   uint16. *)
Definition blk_index (nb i j : nat) : outcome nat :=
  checking (negb (i =? j))
  (let i' := Z.of_nat (Nat.min i j) in
   let j' := Z.of_nat (Nat.max i j) in
   let v := (Z.of_nat nb * (i' - 1) - Z.quot ((i' - 2) * (i' - 1)) 2 + (j' - i') - i')%Z in
   let ind := Z.to_nat (v mod 65536) in
   asserting (ind <? n_upper nb) (Ok ind)).

(* a loop `for (uint16 i = 0; i < n; i++)`: the counter wraps at 65536 *)
Definition loop16 {A} (n : nat) (k : outcome A) : outcome A :=
  if (Z.of_nat n <=? 65535)%Z then k else Loop.

(* getBlockAndPosition without its assert, BlockSparseMatrix.h:129-135 *)
Fixpoint gbp (rows : list nat) (blk pos : nat) : nat * nat :=
  match rows with
  | [] => (blk, pos)
  | r :: t => if pos <=? r then (blk, pos) else gbp t (blk + 1) (pos - r)
  end.

Section Block.
  Variable K : Num.

  (* class BlockSparseSymMatrix<nb>, BlockSparseMatrix.h:40-68 *)
  Record bmat := mkBM {
    bm_nb : nat;
    bm_diag : list (smat K);
    bm_upper : list (smat K);
    bm_rows : list nat;         (* rows_in_block *)
    bm_total : nat;             (* total_rows *)
    bm_compressed : bool }.

  (* a default constructed SparseMatrix has no pattern and no values; nothing is done with it
     before reinit or setSparsityInfo *)
  Definition blank : smat K := mkSM (mkSI 0 0 0 [] [1] 0 false) None.

  (* block(i), block(i,j): reading and writing through the returned pointer,
     BlockSparseMatrix.h:108-123. *)
  Definition block_get (B : bmat) (i j : nat) : outcome (smat K) :=
    if i =? j then asserting ((0 <? i) && (i <=? bm_nb B)) (aget (bm_diag B) (i - 1))
    else k <- blk_index (bm_nb B) i j ;; aget (bm_upper B) k.
  Definition block_put (B : bmat) (i j : nat) (m : smat K) : outcome bmat :=
    if i =? j then
      asserting ((0 <? i) && (i <=? bm_nb B))
        (d <- aset (bm_diag B) (i - 1) m ;;
         Ok (mkBM (bm_nb B) d (bm_upper B) (bm_rows B) (bm_total B) (bm_compressed B)))
    else
      k <- blk_index (bm_nb B) i j ;;
      u <- aset (bm_upper B) k m ;;
      Ok (mkBM (bm_nb B) (bm_diag B) u (bm_rows B) (bm_total B) (bm_compressed B)).

  Definition add_total (B : bmat) (r : nat) : bmat :=
    mkBM (bm_nb B) (bm_diag B) (bm_upper B) (bm_rows B) (bm_total B + r) (bm_compressed B).

  (* BlockSparseSymMatrix(rows, max_in_row), BlockSparseMatrix.h:72-85 *)
  Definition b_new (nb : nat) (rows : list nat) (cap : nat) : outcome bmat :=
    asserting (length rows =? nb)
    (ofold (fun B i =>
        ri <- aget rows i ;;
        m <- sym_reinit K ri cap ;;
        B1 <- block_put B (i + 1) (i + 1) m ;;
        B2 <- ofold (fun B j =>
                rj <- aget rows j ;;
                m <- mat_new K ri rj cap ;;
                block_put B (i + 1) (j + 1) m)
              (seq (i + 1) (nb - (i + 1))) B1 ;;
        Ok (add_total B2 ri))
      (seq 0 nb)
      (mkBM nb (repeat blank nb) (repeat blank (n_upper nb)) rows 0 false)).

  (* BlockSparseSymMatrix(ex), BlockSparseMatrix.h:88-104 *)
  Definition b_copy (ex : bmat) : outcome bmat :=
    let nb := bm_nb ex in
    let rows := bm_rows ex in
    asserting (length rows =? nb)
    (ofold (fun B i =>
        ri <- aget rows i ;;
        e <- block_get ex (i + 1) (i + 1) ;;
        m <- mat_setSI blank (sm_si e) ;;
        B1 <- block_put B (i + 1) (i + 1) m ;;
        B2 <- ofold (fun B j =>
                e <- block_get ex (i + 1) (j + 1) ;;
                m <- mat_setSI blank (sm_si e) ;;
                block_put B (i + 1) (j + 1) m)
              (seq (i + 1) (nb - (i + 1))) B1 ;;
        Ok (add_total B2 ri))
      (seq 0 nb)
      (mkBM nb (repeat blank nb) (repeat blank (n_upper nb)) rows (bm_total ex)
            (bm_compressed ex))).

  (* getBlockAndPosition, BlockSparseMatrix.h:127-136 *)
  Definition b_locate (B : bmat) (i : nat) : outcome (nat * nat) :=
    asserting ((0 <? i) && (i <=? bm_total B)) (Ok (gbp (bm_rows B) 1 i)).

  (* addEntry, addValue, BlockSparseMatrix.h:140-168: both find the block and the local
     position and call the block's method *)
  Definition b_route (B : bmat) (i0 j0 : nat)
    (fsym fgen : smat K -> nat -> nat -> outcome (smat K)) : outcome bmat :=
    let i := Nat.min i0 j0 in
    let j := Nat.max i0 j0 in
    bi <- b_locate B i ;;
    bj <- b_locate B j ;;
    m <- block_get B (fst bi) (fst bj) ;;
    m' <- (if fst bi =? fst bj then fsym m (snd bi) (snd bj) else fgen m (snd bi) (snd bj)) ;;
    block_put B (fst bi) (fst bj) m'.
  Definition b_addEntry (B : bmat) (i j : nat) : outcome bmat :=
    b_route B i j sym_addEntry mat_addEntry.
  Definition b_addValue (B : bmat) (i j : nat) (x : K) : outcome bmat :=
    b_route B i j (fun m a b => sym_addValue m a b x) (fun m a b => mat_addValue m a b x).

  Fixpoint omap {A C} (f : A -> outcome C) (l : list A) : outcome (list C) :=
    match l with
    | [] => Ok []
    | a :: t => c <- f a ;; r <- omap f t ;; Ok (c :: r)
    end.

  (* zero, BlockSparseMatrix.h:171-179 *)
  Definition b_zero (B : bmat) : outcome bmat :=
    d <- omap mat_zero (bm_diag B) ;;
    u <- loop16 (n_upper (bm_nb B)) (omap mat_zero (bm_upper B)) ;;
    Ok (mkBM (bm_nb B) d u (bm_rows B) (bm_total B) (bm_compressed B)).

  (* compress, BlockSparseMatrix.h:183-195 *)
  Definition b_compress (B : bmat) : outcome bmat :=
    d <- omap mat_compress (bm_diag B) ;;
    u <- loop16 (n_upper (bm_nb B)) (omap mat_compress (bm_upper B)) ;;
    Ok (mkBM (bm_nb B) d u (bm_rows B) (bm_total B) true).
End Block.
Arguments bm_nb {K} _.
Arguments bm_diag {K} _.
Arguments bm_upper {K} _.
Arguments bm_rows {K} _.
Arguments bm_total {K} _.
Arguments bm_compressed {K} _.
Arguments mkBM {K} _ _ _ _ _ _.
Arguments block_get {K} _ _ _.
Arguments block_put {K} _ _ _ _.
Arguments add_total {K} _ _.
Arguments b_copy {K} _.
Arguments b_locate {K} _ _.
Arguments b_route {K} _ _ _ _ _.
Arguments b_addEntry {K} _ _ _.
Arguments b_addValue {K} _ _ _ _.
Arguments b_zero {K} _.
Arguments b_compress {K} _.
