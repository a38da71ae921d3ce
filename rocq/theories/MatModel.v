(* Small dense matrices: src/lib/math/Mat.h, src/lib/math/Mat.cpp *)
From Verif Require Import Base.
Local Open Scope nat_scope.

(* ---- determinant and inverse; a matrix of size n is a function of row and column (from 0) *)
Section Det.
  Variable K : Num.
  Open Scope rng_scope.
  (* cross_cut, Mat.h:293-300 *)
  Definition cross_cut (A : nat -> nat -> K) (ci cj i j : nat) : K :=
    A (if (ci <=? i)%nat then S i else i) (if (cj <=? j)%nat then S j else j).
  Definition det1 (A : nat -> nat -> K) : K := A 0%nat 0%nat.
  Definition det2 (A : nat -> nat -> K) : K :=
    let a i j := A i j in a 0%nat 0%nat * a 1%nat 1%nat - a 0%nat 1%nat * a 1%nat 0%nat.
  Definition det3 (A : nat -> nat -> K) : K :=
    A 0%nat 0%nat * (A 1%nat 1%nat * A 2%nat 2%nat - A 1%nat 2%nat * A 2%nat 1%nat)
    - A 0%nat 1%nat * (A 1%nat 0%nat * A 2%nat 2%nat - A 1%nat 2%nat * A 2%nat 0%nat)
    + A 0%nat 2%nat * (A 1%nat 0%nat * A 2%nat 1%nat - A 1%nat 1%nat * A 2%nat 0%nat).
  (* det: Mat.cpp:12-26 for sizes 1-3, Mat.h:259-273 otherwise *)
  Fixpoint mdet (n : nat) (A : nat -> nat -> K) : K :=
    match n with
    | 0 => 0
    | S m =>
        match m with
        | 0 => det1 A
        | 1 => det2 A
        | 2 => det3 A
        | _ => fst (fold_left (fun s j => (fst s + snd s * A 0%nat j * mdet m (cross_cut A 0 j), snd s * - (1)))
                              (seq 0 n) (0, 1))
        end
    end.
  (* npow(-1, p), sys.cpp:18-24 *)
  Fixpoint npow1 (p : nat) : K := match p with 0 => 1 | S p => npow1 p * - (1) end.
End Det.
Arguments mdet {K} _ _.
Arguments cross_cut {K} _ _ _ _ _.
Arguments npow1 {K} _.
Arguments det1 {K} _.
Arguments det2 {K} _.
Arguments det3 {K} _.

Section Inv.
  Variable K : Fld.
  Open Scope rng_scope.
  Definition row3 (a b c : K) (j : nat) : K := match j with 0 => a | 1 => b | _ => c end.
  (* inv: Mat.cpp:28-46 for sizes 1-3, Mat.h:279-290 otherwise *)
  Definition minv (n : nat) (A : nat -> nat -> K) (d : K) (i j : nat) : K :=
    match n with
    | 0 => 0
    | 1 => 1 / d
    | 2 => row3 (row3 (A 1%nat 1%nat) (- A 0%nat 1%nat) 0 j) (row3 (- A 1%nat 0%nat) (A 0%nat 0%nat) 0 j) 0 i * (1 / d)
    | 3 => row3
        (row3 (A 1%nat 1%nat * A 2%nat 2%nat - A 1%nat 2%nat * A 2%nat 1%nat)
              (A 0%nat 2%nat * A 2%nat 1%nat - A 0%nat 1%nat * A 2%nat 2%nat)
              (A 0%nat 1%nat * A 1%nat 2%nat - A 0%nat 2%nat * A 1%nat 1%nat) j)
        (row3 (A 2%nat 0%nat * A 1%nat 2%nat - A 1%nat 0%nat * A 2%nat 2%nat)
              (A 0%nat 0%nat * A 2%nat 2%nat - A 0%nat 2%nat * A 2%nat 0%nat)
              (A 1%nat 0%nat * A 0%nat 2%nat - A 0%nat 0%nat * A 1%nat 2%nat) j)
        (row3 (A 1%nat 0%nat * A 2%nat 1%nat - A 1%nat 1%nat * A 2%nat 0%nat)
              (A 0%nat 1%nat * A 2%nat 0%nat - A 0%nat 0%nat * A 2%nat 1%nat)
              (A 0%nat 0%nat * A 1%nat 1%nat - A 0%nat 1%nat * A 1%nat 0%nat) j) i * (1 / d)
    | S m => (* transposed matrix of the cofactors *)
        npow1 (j + i) * mdet m (cross_cut A j i) * (1 / d)
    end.
End Inv.
Arguments minv {K} _ _ _ _ _.

(* ---- packed symmetric matrices, MatSym; the arithmetic is done in int and stored to a uint16 *)
Definition comp16 (n i j : nat) : nat :=
  let a := Nat.min i j in let b := Nat.max i j in
  Z.to_nat ((Z.of_nat n * Z.of_nat a - Z.quot ((Z.of_nat a - 1) * Z.of_nat a) 2 + (Z.of_nat b - Z.of_nat a)) mod 65536).
(* getLength *)
Definition length16 (n : nat) : nat := Z.to_nat ((Z.of_nat n * (Z.of_nat n + 1) / 2) mod 65536).

(* a value stored to a uint16 *)
Definition wrap16 (x : nat) : nat := Z.to_nat (Z.of_nat x mod 65536).

(* ---- products on row-wise arrays *)
Section Prod.
  Variable K : Num.
  Open Scope rng_scope.
  (* *p += x *)
  Definition addat (l : list K) (p : nat) (x : K) : outcome (list K) :=
    y <- aget l p ;; aset l p (y + x).
  Definition for_ {S} (a n : nat) (f : S -> nat -> outcome S) (s : S) : outcome S := ofold f (seq a n) s.

  (* toMat, Mat.h:654-665 *)
  Definition sym_toMat (n : nat) (D : list K) : outcome (list K) :=
    r <- for_ 0 n (fun s i =>
           for_ i (n - i) (fun s j => d <- aget D (snd s) ;; m1 <- aset (fst s) (i * n + j) d ;; m2 <- aset m1 (j * n + i) d ;;
                                      Ok (m2, wrap16 (S (snd s)))) s) (repeat r0 (n * n), 0%nat) ;;
    Ok (fst r).
  (* operator+=, Mat.h:669-679 *)
  Definition sym_add (n : nat) (A B : list K) : outcome (list K) :=
    for_ 0 (length16 n) (fun A i => b <- aget B i ;; addat A i b) A.

  (* matBTDBprod, Mat.h:687-741; B: M x N, D: packed M x M, R: packed N x N *)
  Definition matBTDBprod (M N : nat) (B D : list K) (coef : K) (R : list K) : outcome (list K) :=
    s1 <- for_ 0 M (fun s k =>
            for_ k (M - k) (fun s j =>
              A <- for_ 0 N (fun A i => b <- aget B (k * N + i) ;; d <- aget D (snd s) ;; addat A (i * M + j) (b * d)) (fst s) ;;
              Ok (A, S (snd s))) s) (repeat r0 (N * M), 0%nat) ;;
    s2 <- for_ 0 M (fun s j =>
            for_ (j + 1) (M - (j + 1)) (fun s k =>
              A <- for_ 0 N (fun A i => b <- aget B (k * N + i) ;; d <- aget D (snd s) ;; addat A (i * M + j) (b * d)) (fst s) ;;
              Ok (A, S (snd s))) (fst s, S (snd s))) (fst s1, 0%nat) ;;
    let A := fst s2 in
    s3 <- for_ 0 N (fun s i =>
            for_ i (N - i) (fun s j =>
              R <- for_ 0 M (fun R k => a <- aget A (i * M + k) ;; b <- aget B (k * N + j) ;; addat R (snd s) (a * b * coef)) (fst s) ;;
              Ok (R, S (snd s))) s) (R, 0%nat) ;;
    Ok (fst s3).

  (* Mat.h:745-757; B: M x N *)
  Definition matBTVprod (M N : nat) (B V : list K) (coef : K) (R : list K) : outcome (list K) :=
    for_ 0 N (fun R i => for_ 0 M (fun R j => b <- aget B (j * N + i) ;; v <- aget V j ;; addat R i (b * v * coef)) R) R.
  Definition matBVprod (M N : nat) (B V : list K) (coef : K) (R : list K) : outcome (list K) :=
    for_ 0 M (fun R i => for_ 0 N (fun R j => b <- aget B (i * N + j) ;; v <- aget V j ;; addat R i (b * v * coef)) R) R.
  Definition matSymBVprod (M : nat) (B V : list K) (coef : K) (R : list K) : outcome (list K) :=
    mB <- sym_toMat M B ;; matBVprod M M mB V coef R.
  (* A: M1 x N1, B: N1 x N2 *)
  Definition matABprod (M1 N1 N2 : nat) (A B : list K) (coef : K) (R : list K) : outcome (list K) :=
    s <- for_ 0 M1 (fun s i => for_ 0 N2 (fun s j =>
           R <- for_ 0 N1 (fun R k => a <- aget A (i * N1 + k) ;; b <- aget B (k * N2 + j) ;; addat R (snd s) (a * b * coef)) (fst s) ;;
           Ok (R, S (snd s))) s) (R, 0%nat) ;;
    Ok (fst s).
  (* A: M1 x N1, B: M1 x N2 *)
  Definition matATBprod (M1 N1 N2 : nat) (A B : list K) (coef : K) (R : list K) : outcome (list K) :=
    s <- for_ 0 N1 (fun s i => for_ 0 N2 (fun s j =>
           R <- for_ 0 M1 (fun R k => a <- aget A (k * N1 + i) ;; b <- aget B (k * N2 + j) ;; addat R (snd s) (a * b * coef)) (fst s) ;;
           Ok (R, S (snd s))) s) (R, 0%nat) ;;
    Ok (fst s).

  (* with NLA3D_USE_BLAS: cblas_dgemv y := alpha*op(A)*x + beta*y and
     cblas_dgemm C := alpha*op(A)*B + beta*C, called with beta = 0.0, which by the BLAS definition
     means that the old contents are not read *)
  Definition dot (n : nat) (f : nat -> K) : K := sumof f (seq 0 n).
  Definition dgemv_trans (M N : nat) (alpha : K) (A x : list K) : list K :=
    map (fun i => alpha * dot M (fun j => nth (j * N + i) A r0 * nth j x r0)) (seq 0 N).
  Definition dgemv (M N : nat) (alpha : K) (A x : list K) : list K :=
    map (fun i => alpha * dot N (fun j => nth (i * N + j) A r0 * nth j x r0)) (seq 0 M).
  Definition dgemm (M N L : nat) (alpha : K) (a b : nat -> nat -> K) : list K :=
    map (fun p => alpha * dot L (fun k => a (p / N)%nat k * b k (p mod N)%nat)) (seq 0 (M * N)).
  Definition matBTVprod_blas (M N : nat) (B V : list K) (coef : K) (R : list K) : outcome (list K) :=
    Ok (dgemv_trans M N coef B V ++ skipn N R).
  Definition matBVprod_blas (M N : nat) (B V : list K) (coef : K) (R : list K) : outcome (list K) :=
    Ok (dgemv M N coef B V ++ skipn M R).
  Definition matABprod_blas (M1 N1 N2 : nat) (A B : list K) (coef : K) (R : list K) : outcome (list K) :=
    Ok (dgemm M1 N2 N1 coef (fun i k => nth (i * N1 + k) A r0) (fun k j => nth (k * N2 + j) B r0)).
  Definition matATBprod_blas (M1 N1 N2 : nat) (A B : list K) (coef : K) (R : list K) : outcome (list K) :=
    Ok (dgemm N1 N2 M1 coef (fun i k => nth (k * N1 + i) A r0) (fun k j => nth (k * N2 + j) B r0)).
End Prod.
Arguments addat {K} _ _ _.
Arguments sym_toMat {K} _ _.
Arguments sym_add {K} _ _ _.
Arguments matBTDBprod {K} _ _ _ _ _ _.
Arguments matBTVprod {K} _ _ _ _ _ _.
Arguments matBVprod {K} _ _ _ _ _ _.
Arguments matSymBVprod {K} _ _ _ _ _.
Arguments matABprod {K} _ _ _ _ _ _ _.
Arguments matATBprod {K} _ _ _ _ _ _ _.
Arguments dot {K} _ _.
Arguments matBTVprod_blas {K} _ _ _ _ _ _.
Arguments matBVprod_blas {K} _ _ _ _ _ _.
Arguments matABprod_blas {K} _ _ _ _ _ _ _.
Arguments matATBprod_blas {K} _ _ _ _ _ _ _.
