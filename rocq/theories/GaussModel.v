(* GaussDenseEquationSolver: src/lib/math/EquationSolver.cpp:26-133 *)
From Verif Require Import Base SparseModel SolveModel.

(* what the solver needs of the numbers besides + * - : division, fabs, <, the constant 1e-20 *)
Record GNum := mkGNum {
  gn :> Num;
  gdiv : gn -> gn -> gn;
  gabs : gn -> gn;
  glt : gn -> gn -> bool;
  gtiny : gn }.
Arguments gdiv {_} _ _.
Arguments gabs {_} _.
Arguments glt {_} _ _.
Arguments gtiny {_}.

Section Gauss.
  Variable K : GNum.
  Local Open Scope rng_scope.

  (* a division by zero is made visible as UB *)
  Definition gquot (a b : K) : outcome K := if glt 0 (gabs b) then Ok (gdiv a b) else UB.

  (* for (ip = i; ip < n; ip++) if (fabs(A[ip*n+i]) > max) { imax = ip; max = ... }   :77-84
     imax is not initialised before the first assignment: None *)
  Definition find_pivot (A : list K) (n i : nat) (imax : option nat) : outcome (option nat * K) :=
    ofold (fun st ip => a <- aget A (ip * n + i) ;;
             Ok (if glt (snd st) (gabs a) then (Some ip, gabs a) else st))
          (seq i (n - i)) (imax, 0).
  (* swap of two entries *)
  Definition aswap (l : list K) (p q : nat) : outcome (list K) :=
    t <- aget l p ;; u <- aget l q ;; l1 <- aset l p u ;; aset l1 q t.
  (* rows imax and i are swapped: :91-97 *)
  Definition swap_rows (A : list K) (n i imax : nat) : outcome (list K) :=
    ofold (fun A jp => aswap A (i * n + jp) (imax * n + jp)) (seq 0 n) A.
  (* x[p] -= t * y *)
  Definition asubm (l : list K) (p : nat) (t y : K) : outcome (list K) :=
    v <- aget l p ;; aset l p (v - t * y).
  (* one row of the elimination: :105-113 *)
  Definition elim_row (n i : nat) (st : list K * list K) (ip : nat) : outcome (list K * list K) :=
    let '(A, B) := st in
    a <- aget A (ip * n + i) ;; p <- aget A (i * n + i) ;; temp <- gquot a p ;;
    A' <- ofold (fun A jp => y <- aget A (i * n + jp) ;; asubm A (ip * n + jp) temp y) (seq i (n - i)) A ;;
    b <- aget B i ;; B' <- asubm B ip temp b ;;
    Ok (A', B').
  (* one pass of the outer loop: :73-115; None: return false *)
  Definition gstate : Type := list K * list K * option nat.
  Definition elim_step (n : nat) (st : option gstate) (i : nat) : outcome (option gstate) :=
    match st with
    | None => Ok None
    | Some (A, B, imax) =>
        pm <- find_pivot A n i imax ;;
        if glt (gabs (snd pm)) gtiny then Ok None else
        match fst pm with
        | None => UB
        | Some im =>
            A1 <- swap_rows A n i im ;; B1 <- aswap B i im ;;
            AB <- ofold (elim_row n i) (seq (i + 1) (n - (i + 1))) (A1, B1) ;;
            Ok (Some (fst AB, snd AB, Some im))
        end
    end.
  (* back substitution, one row: :119-130 *)
  Definition back_step (n : nat) (A B : list K) (X : option (list K)) (i : nat) : outcome (option (list K)) :=
    match X with
    | None => Ok None
    | Some X =>
        d <- aget A (i * n + i) ;;
        if glt (gabs d) gtiny then Ok None else
        b <- aget B i ;;
        temp <- ofold (fun t j => x <- aget X j ;; a <- aget A (i * n + j) ;; Ok (t - x * a))
                      (rev (seq (i + 1) (n - (i + 1)))) b ;;
        q <- gquot temp d ;;
        X' <- aset X i q ;; Ok (Some X')
    end.
  (* _solve(X, A, B, n): :64-133; None: false is returned *)
  Definition gauss_solve (X A B : list K) (n : nat) : outcome (option (list K)) :=
    st <- ofold (elim_step n) (seq 0 n) (Some (A, B, None)) ;;
    match st with
    | None => Ok None
    | Some (A, B, _) => ofold (back_step n A B) (rev (seq 0 n)) (Some X)
    end.

  (* matA[i][j] = matrix->value(i+1, j+1): :55-59 *)
  Definition fill_dense (m : smat K) (n : nat) : outcome (list K) :=
    ofold (fun l ij => v <- sym_value m (fst ij + 1) (snd ij + 1) ;; Ok (l ++ [v]))
          (flat_map (fun i => map (fun j => (i, j)) (seq 0 n)) (seq 0 n)) [].
  (* solveEquations: :26-61; unknowns: the previous contents of the vector for the unknowns *)
  Definition gauss_dense (unknowns : list K) (m : smat K) (rhs : list K) : outcome (list K) :=
    let n := si_nrows (sm_si m) in
    checking (n <? 1000)%nat
      (A <- fill_dense m n ;;
       r <- gauss_solve unknowns A rhs n ;;
       match r with Some x => Ok x | None => Fatal end).
End Gauss.
Arguments gquot {K} _ _.
Arguments find_pivot {K} _ _ _ _.
Arguments aswap {K} _ _ _.
Arguments swap_rows {K} _ _ _ _.
Arguments asubm {K} _ _ _ _.
Arguments elim_row {K} _ _ _ _.
Arguments elim_step {K} _ _ _.
Arguments back_step {K} _ _ _ _ _.
Arguments gauss_solve {K} _ _ _ _.
Arguments fill_dense {K} _ _.
Arguments gauss_dense {K} _ _ _.
