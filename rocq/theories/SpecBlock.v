(* Specification vocabulary for the block matrix properties *)
From Verif Require Import Base SparseModel SpecSparse BlockModel.

(* number of global rows before block a (a = 1..nb) *)
Definition offset (rows : list nat) (a : nat) : nat := list_sum (firstn (a - 1) rows).
(* size of block a *)
Definition bsize (rows : list nat) (a : nat) : nat := nth (a - 1) rows 0.

Section BlockHistory.
  Variable K : Num.
  (* value operations on a block matrix *)
  Inductive bop := BAdd (i j : nat) (x : K) | BZero.
  Definition run_bop (B : bmat K) (o : bop) : outcome (bmat K) :=
    match o with BAdd i j x => b_addValue B i j x | BZero => b_zero B end.
  Definition bop_vop (o : bop) : vop K :=
    match o with BAdd i j x => VAdd i j x | BZero => VZero end.

  (* create, register global positions, compress *)
  Definition new_block (nb : nat) (rows : list nat) (cap : nat) (es : list (nat * nat))
    : outcome (bmat K) :=
    B <- b_new K nb rows cap ;;
    B' <- ofold (fun B e => b_addEntry B (fst e) (snd e)) es B ;;
    b_compress B'.
  Definition filled_block (nb : nat) (rows : list nat) (cap : nat) (es : list (nat * nat))
    (os : list bop) : outcome (bmat K) :=
    B <- new_block nb rows cap es ;; ofold run_bop os B.

  (* reading an element through the blocks: block(a)->value(p,q) resp. block(a,b)->value(p,q) *)
  Definition block_value (B : bmat K) (a b p q : nat) : outcome K :=
    m <- block_get B a b ;; if a =? b then sym_value m p q else mat_value m p q.
End BlockHistory.
Arguments BAdd {K} _ _ _.
Arguments BZero {K}.
Arguments run_bop {K} _ _.
Arguments bop_vop {K} _.
Arguments new_block {K} _ _ _ _.
Arguments filled_block {K} _ _ _ _ _.
Arguments block_value {K} _ _ _ _ _.

(* local positions of the registered global positions that fall into block (a,b), a <= b *)
Definition in_blk (rows : list nat) (a i : nat) : bool :=
  (offset rows a <? i) && (i <=? offset rows a + bsize rows a).
Definition loc (rows : list nat) (a b : nat) (es : list (nat * nat)) : list (nat * nat) :=
  map (fun e => (fst e - offset rows a, snd e - offset rows b))
      (filter (fun e => in_blk rows a (fst e) && in_blk rows b (snd e)) (map up es)).
(* no row of a block needs more than cap distinct columns *)
Definition fits_blocks (rows : list nat) (cap : nat) (es : list (nat * nat)) : Prop :=
  forall a b, 1 <= a -> a <= b -> b <= length rows -> fits (bsize rows a) cap (loc rows a b es).
