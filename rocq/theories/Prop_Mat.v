(* C40-C43: small dense matrices *)
From Verif Require Import Base BaseProofs MatModel MatElem AsmModel SpecAsm AsmLists MatProofs.
From Verif Require MatDet.
From mathcomp Require ssrbool ssralg matrix.
From Coq Require Import QArith Qcanon.
Local Open Scope nat_scope.

(* ---- C40: for every field of mathcomp and every size; \det is mathcomp's determinant (Leibniz formula) *)
Theorem C40_det : forall (F : ssralg.GRing.Field.type) (n : nat) (A : nat -> nat -> ssralg.GRing.Field.sort F),
  @mdet (MatDet.NumF F) (S n) A = @matrix.determinant (ssralg.GRing.Field.ringType F) (S n) (MatDet.mx (S n) A).
Proof. exact MatDet.mdet_det. Qed.
Print Assumptions C40_det.

Theorem C40_inverse : forall (F : ssralg.GRing.Field.type) (n : nat) (A : nat -> nat -> ssralg.GRing.Field.sort F),
  0 < n -> @mdet (MatDet.NumF F) n A <> @r0 (MatDet.NumF F) ->
  forall i j, i < n -> j < n ->
    @mmul (MatDet.FldF F) n A (@minv (MatDet.FldF F) n A (@mdet (MatDet.NumF F) n A)) i j = @eye (MatDet.FldF F) i j /\
    @mmul (MatDet.FldF F) n (@minv (MatDet.FldF F) n A (@mdet (MatDet.NumF F) n A)) A i j = @eye (MatDet.FldF F) i j.
Proof. exact MatDet.minv_inverse. Qed.
Print Assumptions C40_inverse.

(* the hand-written versions and the general expansion agree, in every commutative ring *)
Theorem C40_special_cases : forall (K : Rng) n (A : nat -> nat -> K),
  mdet (S (S n)) A
  = fst (fold_left (fun s j => (radd (fst s) (rmul (rmul (snd s) (A 0 j)) (mdet (S n) (cross_cut A 0 j))), rmul (snd s) (ropp r1)))
                   (seq 0 (S (S n))) (r0, r1)).
Proof. exact mdet_step. Qed.
Print Assumptions C40_special_cases.

(* sizes 1-3, the ones used by the elements, in every field *)
Theorem C40_inverse_small : forall (K : Fld) n (A : nat -> nat -> K), 1 <= n <= 3 -> mdet n A <> r0 ->
  forall i j, i < n -> j < n ->
    mmul n A (minv n A (mdet n A)) i j = eye i j /\ mmul n (minv n A (mdet n A)) A i j = eye i j.
Proof. exact minv_small. Qed.
Print Assumptions C40_inverse_small.

Definition exA (i j : nat) : QcFld := Q2Qc (inject_Z (nth j (nth i [[2; 1; 0; 3]; [0; 1; 4; 1]; [5; 0; 1; 2]; [1; 1; 1; 0]]%Z []) 0%Z)).
Example exA_det : this (mdet 4 exA) = (-50 # 1)%Q.
Proof. vm_compute. reflexivity. Qed.
Example exA_inv : map (fun i => map (fun j => this (mmul 4 exA (minv 4 exA (mdet 4 exA)) i j)) (seq 0 4)) (seq 0 4)
  = [[1; 0; 0; 0]; [0; 1; 0; 0]; [0; 0; 1; 0]; [0; 0; 0; 1]]%Q.
Proof. vm_compute. reflexivity. Qed.
(* ---- C41 *)
Theorem C41_packed : forall n, (Z.of_nat (tri n) < 65536)%Z ->
  length16 n = tri n /\
  (forall i j, i < n -> j < n -> comp16 n i j < tri n /\ comp16 n i j = comp16 n j i) /\
  (forall i j i' j', i < n -> j < n -> i' < n -> j' < n -> comp16 n i j = comp16 n i' j' ->
     (i = i' /\ j = j') \/ (i = j' /\ j = i')) /\
  (forall p, p < tri n -> exists i j, i <= j < n /\ comp16 n i j = p) /\
  map (fun x => comp16 n (fst x) (snd x)) (flat_map (fun i => map (pair i) (seq i (n - i))) (seq 0 n)) = seq 0 (tri n).
Proof. exact packed_ok. Qed.
Print Assumptions C41_packed.

Theorem C41_toMat : forall (K : Rng) n (D : list K), length D = tri n -> (Z.of_nat (tri n) < 65536)%Z ->
  exists Mt, sym_toMat n D = Ok Mt /\ length Mt = n * n /\
    forall i j, i < n -> j < n -> nth (i * n + j) Mt r0 = nth (comp16 n i j) D r0.
Proof. exact toMat_comp. Qed.
Print Assumptions C41_toMat.

Theorem C41_add : forall (K : Rng) n (A B : list K), length A = tri n -> length B = tri n -> (Z.of_nat (tri n) < 65536)%Z ->
  exists A', sym_add n A B = Ok A' /\ length A' = tri n /\
    forall i j, i < n -> j < n -> nth (comp16 n i j) A' r0 = radd (nth (comp16 n i j) A r0) (nth (comp16 n i j) B r0).
Proof. exact sym_add_comp. Qed.
Print Assumptions C41_add.

(* beyond 361 rows the 16-bit index wraps *)
Example comp16_wraps : comp16 362 361 361 = 166 /\ comp16 362 0 166 = 166.
Proof. split; vm_compute; reflexivity. Qed.
Example exD_toMat : sym_toMat (K := ZNum) 3 [1; 2; 3; 4; 5; 6]%Z = Ok [1; 2; 3; 2; 4; 5; 3; 5; 6]%Z.
Proof. vm_compute. reflexivity. Qed.

(* ---- C42 *)
Theorem C42_BTDB : forall (K : Rng) (M N : nat) (B D : list K), length B = M * N -> length D = tri M ->
  forall (coef : K) (R : list K), length R = tri N ->
  exists R', matBTDBprod M N B D coef R = Ok R' /\ length R' = length R /\
    forall i j, i < N -> j < N ->
      nth (sym_comp N i j) R' r0 =
      radd (nth (sym_comp N i j) R r0)
        (rmul coef (sumof (fun k => sumof (fun l => rmul (rmul (nth (k * N + i) B r0) (nth (sym_comp M k l) D r0)) (nth (l * N + j) B r0))
                             (seq 0 M)) (seq 0 M))).
Proof. exact matBTDB_ok. Qed.
Print Assumptions C42_BTDB.

Theorem C42_BTV : forall (K : Rng) (M N : nat) (B V : list K) (coef : K) (R : list K),
  length B = M * N -> length V = M -> length R = N ->
  exists R', matBTVprod M N B V coef R = Ok R' /\ length R' = N /\
    forall i, i < N -> nth i R' r0 = radd (nth i R r0) (rmul coef (sumof (fun j => rmul (nth (j * N + i) B r0) (nth j V r0)) (seq 0 M))).
Proof. exact matBTV_ok. Qed.
Print Assumptions C42_BTV.

Theorem C42_BV : forall (K : Rng) (M N : nat) (B V : list K) (coef : K) (R : list K),
  length B = M * N -> length V = N -> length R = M ->
  exists R', matBVprod M N B V coef R = Ok R' /\ length R' = M /\
    forall i, i < M -> nth i R' r0 = radd (nth i R r0) (rmul coef (sumof (fun j => rmul (nth (i * N + j) B r0) (nth j V r0)) (seq 0 N))).
Proof. exact matBV_ok. Qed.
Print Assumptions C42_BV.

Theorem C42_symBV : forall (K : Rng) (n : nat) (B V : list K) (coef : K) (R : list K),
  length B = tri n -> (Z.of_nat (tri n) < 65536)%Z -> length V = n -> length R = n ->
  exists R', matSymBVprod n B V coef R = Ok R' /\ length R' = n /\
    forall i, i < n -> nth i R' r0 = radd (nth i R r0) (rmul coef (sumof (fun j => rmul (nth (sym_comp n i j) B r0) (nth j V r0)) (seq 0 n))).
Proof. exact matSymBV_ok. Qed.
Print Assumptions C42_symBV.

Theorem C42_AB : forall (K : Rng) (M1 N1 N2 : nat) (A B : list K) (coef : K) (R : list K),
  length A = M1 * N1 -> length B = N1 * N2 -> length R = M1 * N2 ->
  exists R', matABprod M1 N1 N2 A B coef R = Ok R' /\ length R' = M1 * N2 /\
    forall i j, i < M1 -> j < N2 ->
      nth (i * N2 + j) R' r0 = radd (nth (i * N2 + j) R r0)
        (rmul coef (sumof (fun k => rmul (nth (i * N1 + k) A r0) (nth (k * N2 + j) B r0)) (seq 0 N1))).
Proof. exact matAB_ok. Qed.
Print Assumptions C42_AB.

Theorem C42_ATB : forall (K : Rng) (M1 N1 N2 : nat) (A B : list K) (coef : K) (R : list K),
  length A = M1 * N1 -> length B = M1 * N2 -> length R = N1 * N2 ->
  exists R', matATBprod M1 N1 N2 A B coef R = Ok R' /\ length R' = N1 * N2 /\
    forall i j, i < N1 -> j < N2 ->
      nth (i * N2 + j) R' r0 = radd (nth (i * N2 + j) R r0)
        (rmul coef (sumof (fun k => rmul (nth (k * N1 + i) A r0) (nth (k * N2 + j) B r0)) (seq 0 M1))).
Proof. exact matATB_ok. Qed.
Print Assumptions C42_ATB.

Example btdb_ex : matBTDBprod (K := ZNum) 2 3 [1; 2; 3; 4; 5; 6]%Z [1; 2; 3]%Z 10%Z [1; 1; 1; 1; 1; 1]%Z
  = Ok [651; 881; 1111; 1191; 1501; 1891]%Z.
Proof. vm_compute. reflexivity. Qed.

(* ---- C43 *)
Theorem C43_same_when_zero_partial : forall (K : Rng),
  (forall M N (B V : list K) coef, length B = M * N -> length V = M ->
     matBTVprod M N B V coef (repeat r0 N) = matBTVprod_blas M N B V coef (repeat r0 N)) /\
  (forall M N (B V : list K) coef, length B = M * N -> length V = N ->
     matBVprod M N B V coef (repeat r0 M) = matBVprod_blas M N B V coef (repeat r0 M)) /\
  (forall M1 N1 N2 (A B : list K) coef, length A = M1 * N1 -> length B = N1 * N2 ->
     matABprod M1 N1 N2 A B coef (repeat r0 (M1 * N2)) = matABprod_blas M1 N1 N2 A B coef (repeat r0 (M1 * N2))) /\
  (forall M1 N1 N2 (A B : list K) coef, length A = M1 * N1 -> length B = M1 * N2 ->
     matATBprod M1 N1 N2 A B coef (repeat r0 (N1 * N2)) = matATBprod_blas M1 N1 N2 A B coef (repeat r0 (N1 * N2))).
Proof. exact blas_same. Qed.
Print Assumptions C43_same_when_zero_partial.

(* the BLAS call overwrites where the loop adds: any second call on the same vector differs *)
Theorem C43_accumulation_refuted :
  ~ (forall M N (B V : list ZNum) coef R, length B = M * N -> length V = M -> length R = N ->
       matBTVprod M N B V coef R = matBTVprod_blas M N B V coef R).
Proof.
  intros H. specialize (H 1 1 [1%Z] [1%Z] 1%Z [1%Z] eq_refl eq_refl eq_refl). vm_compute in H. discriminate.
Qed.
Print Assumptions C43_accumulation_refuted.
