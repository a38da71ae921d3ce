(* The products of MatModel over the reals in closed form. *)
From Coq Require Import Reals Lra Lia.
From Verif Require Import Base RealBase MatModel AsmModel SpecAsm MatProofs ElemModel SpecElem.
Local Open Scope R_scope.

Lemma list_seq : forall (l : list R) n f, length l = n -> (forall i, (i < n)%nat -> nth i l 0 = f i) -> l = map f (seq 0 n).
Proof.
  intros l n f L H. apply nth_ext with (d := 0) (d' := f 0%nat).
  - rewrite map_length, seq_length. exact L.
  - intros i Hi. rewrite map_nth, seq_nth by lia. rewrite H by lia. reflexivity.
Qed.
Lemma nth_map_seq : forall (f : nat -> R) n i, (i < n)%nat -> nth i (map f (seq 0 n)) 0 = f i.
Proof. intros f n i Hi. rewrite (nth_indep _ 0 (f 0%nat)) by (rewrite map_length, seq_length; exact Hi). rewrite map_nth, seq_nth by exact Hi. reflexivity. Qed.

Lemma bv_R : forall M N B V coef R0, length B = (M * N)%nat -> length V = N -> length R0 = M ->
  @matBVprod RNum M N B V coef R0
  = Ok (map (fun i => nth i R0 0 + coef * rsumn N (fun j => nth (i * N + j) B 0 * nth j V 0)) (seq 0 M)).
Proof.
  intros M N B V coef R0 LB LV LR.
  destruct (matBV_ok RRng M N B V coef R0 LB LV LR) as (R' & E & L & W).
  etransitivity; [exact E|]. f_equal. apply list_seq; [exact L|]. exact W.
Qed.
Lemma sbv_R : forall n B V coef R0, length B = tri n -> (Z.of_nat (tri n) < 65536)%Z -> length V = n -> length R0 = n ->
  @matSymBVprod RNum n B V coef R0
  = Ok (map (fun i => nth i R0 0 + coef * rsumn n (fun j => nth (sym_comp n i j) B 0 * nth j V 0)) (seq 0 n)).
Proof.
  intros n B V coef R0 LB HT LV LR.
  destruct (matSymBV_ok RRng n B V coef R0 LB HT LV LR) as (R' & E & L & W).
  etransitivity; [exact E|]. f_equal. apply list_seq; [exact L|]. exact W.
Qed.
Lemma btdb_R : forall M N B D coef, length B = (M * N)%nat -> length D = tri M ->
  exists Ke, @matBTDBprod RNum M N B D coef (repeat 0 (tri N)) = Ok Ke /\ length Ke = tri N /\
    forall i j, (i < N)%nat -> (j < N)%nat -> nth (sym_comp N i j) Ke 0
      = coef * rsumn M (fun k => rsumn M (fun l => nth (k * N + i) B 0 * nth (sym_comp M k l) D 0 * nth (l * N + j) B 0)).
Proof.
  intros M N B D coef LB LD.
  destruct (matBTDB_ok RRng M N B D LB LD coef (repeat 0 (tri N)) (repeat_length _ _)) as (Ke & E & L & W).
  exists Ke. split; [exact E|]. split; [etransitivity; [exact L|apply repeat_length]|].
  intros i j Hi Hj. etransitivity; [exact (W i j Hi Hj)|].
  unfold sym. change (@r0 RRng) with 0. rewrite nth_repeat. unfold BTDB, mat, sym.
  change (0 + coef * rsumn M (fun k => rsumn M (fun l => nth (k * N + i) B 0 * nth (sym_comp M k l) D 0 * nth (l * N + j) B 0))
        = coef * rsumn M (fun k => rsumn M (fun l => nth (k * N + i) B 0 * nth (sym_comp M k l) D 0 * nth (l * N + j) B 0))).
  ring.
Qed.
(* K U = coef B^T D (B U) *)
Lemma kmul_R : forall M N B D coef Ke U e,
  (forall i j, (i < N)%nat -> (j < N)%nat -> nth (sym_comp N i j) Ke 0
      = coef * rsumn M (fun k => rsumn M (fun l => nth (k * N + i) B 0 * nth (sym_comp M k l) D 0 * nth (l * N + j) B 0))) ->
  (forall l, (l < M)%nat -> rsumn N (fun j => nth (l * N + j) B 0 * nth j U 0) = e l) ->
  forall i, (i < N)%nat ->
  kmul N Ke U i = coef * rsumn M (fun k => nth (k * N + i) B 0 * rsumn M (fun l => nth (sym_comp M k l) D 0 * e l)).
Proof.
  intros M N B D coef Ke U e W He i Hi. unfold kmul.
  rewrite (rsumn_ext N _ (fun j => rsumn M (fun k => rsumn M (fun l =>
     coef * nth (k * N + i) B 0 * nth (sym_comp M k l) D 0 * (nth (l * N + j) B 0 * nth j U 0))))).
  2: { intros j Hj. rewrite W by auto. rewrite <- rsumn_mul, <- rsumn_mulr. apply rsumn_ext. intros k Hk.
       rewrite <- rsumn_mul, <- rsumn_mulr. apply rsumn_ext. intros l Hl. ring. }
  rewrite rsumn_swap, <- rsumn_mul. apply rsumn_ext. intros k Hk.
  rewrite rsumn_swap, <- !rsumn_mul. apply rsumn_ext. intros l Hl.
  rewrite rsumn_mul, (He l Hl). ring.
Qed.
Lemma kmul_zero : forall M N B D coef Ke U,
  (forall i j, (i < N)%nat -> (j < N)%nat -> nth (sym_comp N i j) Ke 0
      = coef * rsumn M (fun k => rsumn M (fun l => nth (k * N + i) B 0 * nth (sym_comp M k l) D 0 * nth (l * N + j) B 0))) ->
  (forall l, (l < M)%nat -> rsumn N (fun j => nth (l * N + j) B 0 * nth j U 0) = 0) ->
  forall i, (i < N)%nat -> kmul N Ke U i = 0.
Proof.
  intros M N B D coef Ke U W He i Hi. rewrite (kmul_R M N B D coef Ke U (fun _ => 0) W He i Hi).
  rewrite rsumn_zero; [ring|]. intros k Hk. rewrite (rsumn_zero M); [ring|]. intros; ring.
Qed.
(* V . K U = coef (B V) . D (B U) *)
Lemma work_R : forall M N B D coef Ke U V e f,
  (forall i j, (i < N)%nat -> (j < N)%nat -> nth (sym_comp N i j) Ke 0
      = coef * rsumn M (fun k => rsumn M (fun l => nth (k * N + i) B 0 * nth (sym_comp M k l) D 0 * nth (l * N + j) B 0))) ->
  (forall l, (l < M)%nat -> rsumn N (fun j => nth (l * N + j) B 0 * nth j U 0) = e l) ->
  (forall l, (l < M)%nat -> rsumn N (fun j => nth (l * N + j) B 0 * nth j V 0) = f l) ->
  dot N (kmul N Ke U) V = coef * rsumn M (fun k => f k * rsumn M (fun l => nth (sym_comp M k l) D 0 * e l)).
Proof.
  intros M N B D coef Ke U V e f W He Hf. unfold dot.
  rewrite (rsumn_ext N _ (fun i => rsumn M (fun k => coef * rsumn M (fun l => nth (sym_comp M k l) D 0 * e l) * (nth (k * N + i) B 0 * nth i V 0)))).
  2: { intros i Hi. rewrite (kmul_R M N B D coef Ke U e W He i Hi). rewrite <- rsumn_mul, <- rsumn_mulr.
       apply rsumn_ext. intros k Hk. ring. }
  rewrite rsumn_swap, <- rsumn_mul. apply rsumn_ext. intros k Hk. rewrite rsumn_mul, (Hf k Hk). ring.
Qed.
