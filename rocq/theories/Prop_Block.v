(* C12-C14: block matrices (src/lib/math/BlockSparseMatrix.h) *)
From Verif Require Import Base BaseProofs SparseModel SpecSparse BlockModel SpecBlock BlockProofs.

(* ---------------- C12 ---------------- *)
(* number of pairs i < j: n_upper nb is the size of the array of off-diagonal matrices *)
Theorem C12_number_of_offdiagonal_blocks : forall nb, 2 * n_upper nb = nb * (nb - 1).
Proof. exact n_upper_double. Qed.
Print Assumptions C12_number_of_offdiagonal_blocks.
Theorem C12_blocks_bijection : forall nb, nb <= 362 ->
  (forall i j, 1 <= i -> i < j -> j <= nb -> exists k, blk_index nb i j = Ok k /\ k < n_upper nb) /\
  (forall i j i' j' k, 1 <= i -> i < j -> j <= nb -> 1 <= i' -> i' < j' -> j' <= nb ->
     blk_index nb i j = Ok k -> blk_index nb i' j' = Ok k -> (i, j) = (i', j')) /\
  (forall k, k < n_upper nb -> exists i j, 1 <= i /\ i < j /\ j <= nb /\ blk_index nb i j = Ok k).
Proof. exact blk_bijection. Qed.
Print Assumptions C12_blocks_bijection.
Theorem C12_block_dimensions : forall (K : Rng) rows cap es, length rows <= 362 -> 0 < cap ->
  (forall e, In e es -> in_shape (list_sum rows) (list_sum rows) e) -> fits_blocks rows cap es ->
  exists B : bmat K, new_block (length rows) rows cap es = Ok B /\
    forall i j, 1 <= i -> i < j -> j <= length rows ->
      exists m, block_get B i j = Ok m /\ block_get B j i = Ok m /\
        si_nrows (sm_si m) = bsize rows i /\ si_ncols (sm_si m) = bsize rows j.
Proof. exact block_dims. Qed.
Print Assumptions C12_block_dimensions.
(* the bound is the limit: with 363 blocks the 16 bit index wraps around *)
Theorem C12_bound_is_sharp : exists k, blk_index 363 1 2 = Ok k /\ blk_index 363 345 350 = Ok k.
Proof. eexists; split; vm_compute; reflexivity. Qed.
Print Assumptions C12_bound_is_sharp.
Example C12_example : map (fun e => blk_index 4 (fst e) (snd e)) [(1,2);(1,3);(1,4);(2,3);(2,4);(3,4)]
  = [Ok 0; Ok 1; Ok 2; Ok 3; Ok 4; Ok 5].
Proof. vm_compute; reflexivity. Qed.

(* ---------------- C13 ---------------- *)
Theorem C13_block_matrix_is_global_symmetric_matrix :
  forall (K : Rng) rows cap es (os : list (bop K)),
  (Z.of_nat (n_upper (length rows)) <= 65535)%Z -> 0 < cap ->
  (forall e, In e es -> in_shape (list_sum rows) (list_sum rows) e) ->
  fits_blocks rows cap es ->
  (forall i j x, In (BAdd i j x) os -> sym_in es i j) ->
  exists B, filled_block (length rows) rows cap es os = Ok B /\
    (forall a b p q, 1 <= a -> a <= b -> b <= length rows ->
       1 <= p <= bsize rows a -> 1 <= q <= bsize rows b ->
       block_value B a b p q =
         Ok (spec_sym_vops (map bop_vop os) (offset rows a + p) (offset rows b + q))) /\
    (forall i j x, in_shape (list_sum rows) (list_sum rows) (i, j) -> ~ sym_in es i j ->
       b_addValue B i j x = Fatal).
Proof. exact block_semantics. Qed.
Print Assumptions C13_block_matrix_is_global_symmetric_matrix.
(* it is enough that no global row (upper triangle) has more than cap distinct columns *)
Theorem C13_capacity_condition : forall rows cap es,
  (forall e, In e es -> in_shape (list_sum rows) (list_sum rows) e) ->
  fits (list_sum rows) cap (map up es) -> fits_blocks rows cap es.
Proof. exact fits_blocks_of_fits. Qed.
Print Assumptions C13_capacity_condition.

(* three blocks of sizes 2, 0, 3; registrations and additions across blocks, both orders *)
Definition ex_rows := [2; 0; 3].
Definition ex_bes : list (nat * nat) := [(1, 1); (4, 2); (5, 3); (2, 2); (2, 4)].
Definition ex_bos : list (bop ZRng) :=
  [BAdd 4 2 7%Z; BZero; BAdd 2 4 5%Z; BAdd 3 5 1%Z; BAdd 4 2 (-2)%Z; BAdd 1 1 9%Z].
Example ex_block_ok :
  (Z.of_nat (n_upper (length ex_rows)) <= 65535)%Z /\ 0 < 4 /\
  (forall e, In e ex_bes -> in_shape (list_sum ex_rows) (list_sum ex_rows) e) /\
  fits_blocks ex_rows 4 ex_bes /\
  (forall i j x, In (BAdd i j x) ex_bos -> sym_in ex_bes i j).
Proof.
  assert (H : forall e, In e ex_bes -> in_shape (list_sum ex_rows) (list_sum ex_rows) e).
  { intros e [<-|[<-|[<-|[<-|[<-|[]]]]]]; split; cbn; lia. }
  split; [apply n_upper_small; cbn; lia|]. split; [lia|]. split; [exact H|]. split.
  - apply C13_capacity_condition; auto. intros i Hi.
    assert (C : i = 1 \/ i = 2 \/ i = 3 \/ i = 4 \/ i = 5) by (cbn in Hi; lia).
    destruct C as [->|[->|[->|[->| ->]]]]; apply Nat.leb_le; vm_compute; reflexivity.
  - intros i j x Hi. unfold ex_bos in Hi. cbn in Hi. unfold sym_in.
    repeat (destruct Hi as [[= <- <- <-]|Hi]; [cbn; tauto|]); try tauto.
    destruct Hi as [E|Hi]; [discriminate E|].
    repeat (destruct Hi as [[= <- <- <-]|Hi]; [cbn; tauto|]); try tauto.
Qed.
Example ex_block_value : exists B, filled_block 3 ex_rows 4 ex_bes ex_bos = Ok B /\
  block_value B 1 3 2 2 = Ok 3%Z /\ block_value B 3 3 3 1 = Ok 1%Z /\ block_value B 1 1 2 1 = Ok 0%Z.
Proof. eexists; split; [vm_compute; reflexivity|]. repeat split; vm_compute; reflexivity. Qed.

(* ---------------- C14 ---------------- *)
(* Full statement: as below, but with bm_total B' = bm_total B (nRows of the copy). *)
Theorem C14_copy_partial : forall (K : Rng) rows cap es (os : list (bop K)) B,
  length rows <= 362 -> 0 < cap ->
  (forall e, In e es -> in_shape (list_sum rows) (list_sum rows) e) -> fits_blocks rows cap es ->
  (forall i j x, In (BAdd i j x) os -> sym_in es i j) ->
  filled_block (length rows) rows cap es os = Ok B ->
  exists B', b_copy B = Ok B' /\ bm_rows B' = bm_rows B /\ bm_compressed B' = bm_compressed B /\
    bm_total B = list_sum rows /\ bm_total B' = 2 * bm_total B /\
    forall a b, 1 <= a -> a <= b -> b <= length rows ->
      exists m m', block_get B a b = Ok m /\ block_get B' a b = Ok m' /\ sm_si m' = sm_si m /\
        forall p q, 1 <= p <= bsize rows a -> 1 <= q <= bsize rows b ->
          block_value B' a b p q = Ok r0.
Proof. exact block_copy. Qed.
Print Assumptions C14_copy_partial.
Theorem C14_copy_total_rows_refuted : exists (B B' : bmat ZRng),
  filled_block 3 ex_rows 4 ex_bes ex_bos = Ok B /\ b_copy B = Ok B' /\
  bm_total B = 5 /\ bm_total B' = 10.
Proof. eexists _, _; split; [vm_compute; reflexivity|]. split; [vm_compute; reflexivity|]. split; reflexivity. Qed.
Print Assumptions C14_copy_total_rows_refuted.
