(* dVec: src/lib/math/Vec.h:200-265, src/lib/math/Vec.cpp *)
From Coq Require Import NArith.
From Verif Require Import Base.
Local Open Scope nat_scope.

Section Vec.
  Variable K : Num.

  (* memory_owner, data (block and position in it; None: nullptr), _size *)
  Record dv := mkDv { dv_own : bool; dv_data : option (nat * nat); dv_size : nat }.
  Definition dv_empty : dv := mkDv false None 0.
  (* all arrays obtained with new (None: already deleted) and all dVec objects *)
  Record vst := mkVst { vs_heap : list (option (list K)); vs_vars : list dv }.

  (* n numbers at p; nothing is accessed for n = 0 *)
  Definition read_mem (h : list (option (list K))) (p : option (nat * nat)) (n : nat) : outcome (list K) :=
    if n =? 0 then Ok [] else
    match p with
    | Some (b, off) =>
        match nth_error h b with
        | Some (Some l) => if off + n <=? length l then Ok (firstn n (skipn off l)) else UB
        | _ => UB
        end
    | None => UB
    end.
  Definition write_mem (h : list (option (list K))) (p : option (nat * nat)) (xs : list K) : outcome (list (option (list K))) :=
    if length xs =? 0 then Ok h else
    match p with
    | Some (b, off) =>
        match nth_error h b with
        | Some (Some l) =>
            if off + length xs <=? length l then Ok (upd h b (Some (firstn off l ++ xs ++ skipn (off + length xs) l))) else UB
        | _ => UB
        end
    | None => UB
    end.
  (* delete[] *)
  Definition free_mem (h : list (option (list K))) (p : option (nat * nat)) : outcome (list (option (list K))) :=
    match p with
    | Some (b, off) =>
        match nth_error h b with
        | Some (Some _) => if off =? 0 then Ok (upd h b None) else UB
        | _ => UB
        end
    | None => Ok h
    end.

  (* dVec::clear, Vec.cpp:87-94 *)
  Definition clear_dv (h : list (option (list K))) (d : dv) : outcome (list (option (list K)) * dv) :=
    h' <- (if dv_own d then free_mem h (dv_data d) else Ok h) ;; Ok (h', dv_empty).
  (* new double[n] filled with l *)
  Definition new_dv (h : list (option (list K))) (l : list K) : list (option (list K)) * dv :=
    (h ++ [Some l], mkDv true (Some (length h, 0)) (length l)).
  Definition is_init (d : dv) : bool := match dv_data d with Some _ => true | None => false end.
  (* the arrays have a common number *)
  Definition overlap (d e : dv) : bool :=
    match dv_data d, dv_data e with
    | Some (b, i), Some (c, j) => (b =? c) && (i <? j + dv_size e) && (j <? i + dv_size d)
    | _, _ => false
    end.

  (* -a, a * x, x * a, a / x: one operand; a + b, a - b: two operands.  Vec.cpp:123-193 *)
  Inductive vexpr := EMap (f : K -> K) (a : nat) | EZip (f : K -> K -> K) (a b : nat).
  Inductive vop :=
  | VNew                               (* dVec v; *)
  | VReinit (v n : nat) (x : K)        (* v.reinit(n, x) *)
  | VView (v r start n : nat)          (* v.reinit(r, start, n) *)
  | VCopyNew (r : nat)                 (* dVec v(r); *)
  | VMoveNew (r : nat)                 (* dVec v(std::move(r)); *)
  | VAssign (v r : nat)                (* v = r *)
  | VEval (v : nat) (e : vexpr)        (* v = a + b and so on *)
  | VAddTo (f : K -> K -> K) (v r : nat) (* v += r, v -= r *)
  | VFill (v : nat) (x : K)
  | VSet (v i : nat) (x : K)           (* v[i] = x *)
  | VClear (v : nat).                  (* v.clear(); also the destructor *)

  Definition read_dv (h : list (option (list K))) (d : dv) : outcome (list K) := read_mem h (dv_data d) (dv_size d).
  (* asserts of the operators *)
  Definition operand (s : vst) (a : nat) : outcome (list K) :=
    d <- aget (vs_vars s) a ;; asserting (is_init d) (read_dv (vs_heap s) d).
  Definition eval (s : vst) (e : vexpr) : outcome (list K) :=
    match e with
    | EMap f a => l <- operand s a ;; Ok (map f l)
    | EZip f a b => l <- operand s a ;; m <- operand s b ;;
        asserting (length l =? length m) (Ok (map (fun p => f (fst p) (snd p)) (combine l m)))
    end.
  (* memcpy of a temporary; reinit first if the sizes are different.  Vec.cpp:221-232 *)
  Definition assign_list (s : vst) (v : nat) (l : list K) : outcome vst :=
    d <- aget (vs_vars s) v ;;
    hd <- (if dv_size d =? length l then Ok (vs_heap s, d)
           else hc <- clear_dv (vs_heap s) d ;; Ok (new_dv (fst hc) (repeat r0 (length l)))) ;;
    h <- write_mem (fst hd) (dv_data (snd hd)) l ;;
    Ok (mkVst h (upd (vs_vars s) v (snd hd))).

  Definition wrap32 (n : nat) : N := (N.of_nat n mod 2 ^ 32)%N.

  Definition run_vop (s : vst) (o : vop) : outcome vst :=
    let h := vs_heap s in
    match o with
    | VNew => Ok (mkVst h (vs_vars s ++ [dv_empty]))
    | VReinit v n x =>
        d <- aget (vs_vars s) v ;; hc <- clear_dv h d ;;
        let nd := new_dv (fst hc) (repeat x n) in Ok (mkVst (fst nd) (upd (vs_vars s) v (snd nd)))
    | VView v r start n =>
        d <- aget (vs_vars s) v ;; hc <- clear_dv h d ;;
        let vars := upd (vs_vars s) v dv_empty in
        e <- aget vars r ;;
        match dv_data e with
        | None => UB
        | Some (b, off) =>
            asserting (wrap32 (start + n) <=? N.of_nat (dv_size e))%N
              (Ok (mkVst (fst hc) (upd vars v (mkDv false (Some (b, off + start)) n))))
        end
    | VCopyNew r =>
        d <- aget (vs_vars s) r ;;
        if is_init d then l <- read_dv h d ;; let nd := new_dv h l in Ok (mkVst (fst nd) (vs_vars s ++ [snd nd]))
        else Ok (mkVst h (vs_vars s ++ [dv_empty]))
    | VMoveNew r =>
        d <- aget (vs_vars s) r ;; Ok (mkVst h (upd (vs_vars s) r dv_empty ++ [d]))
    | VAssign v r =>
        d <- aget (vs_vars s) v ;; e <- aget (vs_vars s) r ;;
        if v =? r then Ok s
        else if negb (is_init e) then hc <- clear_dv h d ;; Ok (mkVst (fst hc) (upd (vs_vars s) v (snd hc)))
        else
          hd <- (if dv_size d =? dv_size e then Ok (h, d)
                 else hc <- clear_dv h d ;; Ok (new_dv (fst hc) (repeat r0 (dv_size e)))) ;;
          (* memcpy of overlapping arrays is undefined *)
          if overlap (snd hd) e then UB
          else l <- read_dv (fst hd) e ;; h' <- write_mem (fst hd) (dv_data (snd hd)) l ;;
               Ok (mkVst h' (upd (vs_vars s) v (snd hd)))
    | VEval v e => l <- eval s e ;; assign_list s v l
    | VAddTo f v r =>
        d <- aget (vs_vars s) v ;; e <- aget (vs_vars s) r ;;
        match dv_data d, dv_data e with
        | Some (b, i), Some (c, j) =>
            asserting (dv_size d =? dv_size e)
              (h' <- ofold (fun h k => x <- read_mem h (Some (b, i + k)) 1 ;; y <- read_mem h (Some (c, j + k)) 1 ;;
                        write_mem h (Some (b, i + k)) [f (nth 0 x r0) (nth 0 y r0)]) (seq 0 (dv_size d)) h ;;
               Ok (mkVst h' (vs_vars s)))
        | _, _ => UB
        end
    | VFill v x =>
        d <- aget (vs_vars s) v ;;
        asserting (is_init d) (h' <- write_mem h (dv_data d) (repeat x (dv_size d)) ;; Ok (mkVst h' (vs_vars s)))
    | VSet v i x =>
        d <- aget (vs_vars s) v ;;
        match dv_data d with
        | Some (b, off) => asserting (i <? dv_size d) (h' <- write_mem h (Some (b, off + i)) [x] ;; Ok (mkVst h' (vs_vars s)))
        | None => UB
        end
    | VClear v =>
        d <- aget (vs_vars s) v ;; hc <- clear_dv h d ;; Ok (mkVst (fst hc) (upd (vs_vars s) v (snd hc)))
    end.
  Definition run_vops (s : vst) (os : list vop) : outcome vst := ofold run_vop os s.
  Definition vstart : vst := mkVst [] [].

  (* operator[] const *)
  Definition vget_at (s : vst) (v i : nat) : outcome K :=
    d <- aget (vs_vars s) v ;;
    match dv_data d with
    | Some (b, off) => asserting (i <? dv_size d) (l <- read_mem (vs_heap s) (Some (b, off + i)) 1 ;; Ok (nth 0 l r0))
    | None => UB
    end.
  (* compare, Vec.cpp:235-252 *)
  Definition vcompare (differ : K -> K -> bool) (a b : list K) : bool :=
    (length a =? length b) && forallb (fun p => negb (differ (fst p) (snd p))) (combine a b).
End Vec.
Arguments mkVst {K} _ _.
Arguments vs_heap {K} _.
Arguments vs_vars {K} _.
Arguments read_mem {K} _ _ _.
Arguments write_mem {K} _ _ _.
Arguments free_mem {K} _ _.
Arguments clear_dv {K} _ _.
Arguments new_dv {K} _ _.
Arguments read_dv {K} _ _.
Arguments operand {K} _ _.
Arguments eval {K} _ _.
Arguments assign_list {K} _ _ _.
Arguments run_vop {K} _ _.
Arguments run_vops {K} _ _.
Arguments vstart {K}.
Arguments vget_at {K} _ _ _.
Arguments vcompare {K} _ _ _.
Arguments EMap {K} _ _.
Arguments EZip {K} _ _ _.
Arguments VNew {K}.
Arguments VReinit {K} _ _ _.
Arguments VView {K} _ _ _ _.
Arguments VCopyNew {K} _.
Arguments VMoveNew {K} _.
Arguments VAssign {K} _ _.
Arguments VEval {K} _ _.
Arguments VAddTo {K} _ _ _.
Arguments VFill {K} _ _.
Arguments VSet {K} _ _ _.
Arguments VClear {K} _.
