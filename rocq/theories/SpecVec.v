(* What vectors and views are expected to do *)
From Coq Require Import NArith.
From Verif Require Import Base VecModel.
Local Open Scope nat_scope.

Section Spec.
  Variable K : Num.
  Implicit Types (s : vst K) (o : vop K).

  Definition var s (v : nat) : dv := nth v (vs_vars s) dv_empty.
  (* the numbers of vector v *)
  Definition contents s (v : nat) : outcome (list K) := read_dv (vs_heap s) (var s v).
  (* v and w have a number in common *)
  Definition shared s (v w : nat) : bool := overlap (var s v) (var s w).

  (* the vector an operation writes to (or creates) *)
  Definition target s o : nat :=
    match o with
    | VNew | VCopyNew _ | VMoveNew _ => length (vs_vars s)
    | VReinit v _ _ | VView v _ _ _ | VAssign v _ | VEval v _ | VAddTo _ v _ | VFill v _ | VSet v _ _ | VClear v => v
    end.
  (* its numbers afterwards *)
  Definition expected s o : outcome (list K) :=
    match o with
    | VNew | VClear _ => Ok []
    | VReinit _ n x => Ok (repeat x n)
    | VView _ r start n => l <- contents s r ;; Ok (firstn n (skipn start l))
    | VCopyNew r | VMoveNew r | VAssign _ r => contents s r
    | VEval _ e => eval s e
    | VAddTo f v r => l <- contents s v ;; m <- contents s r ;; Ok (map (fun p => f (fst p) (snd p)) (combine l m))
    | VFill v x => Ok (repeat x (dv_size (var s v)))
    | VSet v i x => l <- contents s v ;; Ok (upd l i x)
    end.
  (* the operation makes x point to other memory *)
  Definition repoints s o (x : nat) : bool :=
    match o with
    | VNew | VCopyNew _ => false
    | VReinit v _ _ | VView v _ _ _ | VClear v => v =? x
    | VMoveNew r => r =? x
    | VAssign v r => (v =? x) && negb (v =? r) && negb (is_init (var s r) && (dv_size (var s v) =? dv_size (var s r)))
    | VEval v e => (v =? x) && match eval s e with Ok l => negb (dv_size (var s v) =? length l) | _ => true end
    | VAddTo _ _ _ | VFill _ _ | VSet _ _ _ => false
    end.
  (* start + n is computed in 32 bits *)
  Definition no_wrap o : Prop :=
    match o with VView _ _ start n => (N.of_nat (start + n) < 2 ^ 32)%N | _ => True end.
  (* += and -= on partly overlapping arrays see their own results *)
  Definition clean o s : Prop :=
    match o with
    | VAddTo _ v r => shared s v r = false \/ dv_data (var s v) = dv_data (var s r)
    | _ => True
    end.

  (* every array is owned by exactly one vector, which covers it; nobody points outside *)
  Record wf s : Prop := {
    wf_own : forall v, dv_own (var s v) = true -> exists b l, dv_data (var s v) = Some (b, 0) /\
       nth_error (vs_heap s) b = Some (Some l) /\ length l = dv_size (var s v);
    wf_one : forall v w b i j, dv_own (var s v) = true -> dv_own (var s w) = true ->
       dv_data (var s v) = Some (b, i) -> dv_data (var s w) = Some (b, j) -> v = w;
    wf_live : forall b l, nth_error (vs_heap s) b = Some (Some l) ->
       exists v, dv_own (var s v) = true /\ dv_data (var s v) = Some (b, 0);
    wf_null : forall v, dv_data (var s v) = None -> dv_size (var s v) = 0 /\ dv_own (var s v) = false;
    wf_in : forall v b i, dv_data (var s v) = Some (b, i) -> b < length (vs_heap s) /\
       forall l, nth_error (vs_heap s) b = Some (Some l) -> i + dv_size (var s v) <= length l }.
  (* the memory v points to has been deleted *)
  Definition dangling s (v : nat) : Prop :=
    exists b i, dv_data (var s v) = Some (b, i) /\ nth_error (vs_heap s) b = Some None.

  (* what the caller has to respect: existing objects, no deleted memory, matching sizes, no overlapping memcpy *)
  Definition readable s (v : nat) : Prop := v < length (vs_vars s) /\ (dv_size (var s v) <> 0 -> ~ dangling s v).
  Definition operand_ok s (v : nat) : Prop := readable s v /\ dv_data (var s v) <> None.
  Definition expr_ok s (e : vexpr K) : Prop :=
    match e with
    | EMap _ a => operand_ok s a
    | EZip _ a b => operand_ok s a /\ operand_ok s b /\ dv_size (var s a) = dv_size (var s b)
    end.
  Definition allowed s o : Prop :=
    match o with
    | VNew => True
    | VReinit v _ _ | VClear v | VMoveNew v => v < length (vs_vars s)
    | VView v r start n => v < length (vs_vars s) /\ r < length (vs_vars s) /\ v <> r /\ dv_data (var s r) <> None /\ start + n <= dv_size (var s r)
    | VCopyNew r => readable s r
    | VAssign v r => v < length (vs_vars s) /\ readable s r /\
        (dv_size (var s v) = dv_size (var s r) -> readable s v /\ (v = r \/ shared s v r = false)) /\
        (dv_size (var s v) <> dv_size (var s r) -> dv_own (var s v) = true -> option_map fst (dv_data (var s v)) <> option_map fst (dv_data (var s r)))
    | VEval v e => readable s v /\ expr_ok s e
    | VAddTo _ v r => operand_ok s v /\ operand_ok s r /\ dv_size (var s v) = dv_size (var s r)
    | VFill v _ => operand_ok s v
    | VSet v i _ => operand_ok s v /\ i < dv_size (var s v)
    end.

  (* w is the part start .. start + n - 1 of v *)
  Definition is_view s (w v start n : nat) : Prop :=
    exists b i, dv_data (var s v) = Some (b, i) /\ dv_data (var s w) = Some (b, i + start) /\
      dv_size (var s w) = n /\ start + n <= dv_size (var s v).

  (* no operation of the history re-points x *)
  Fixpoint keeps s (os : list (vop K)) (x : nat) : Prop :=
    match os with
    | [] => True
    | o :: os => repoints s o x = false /\ match run_vop s o with Ok s' => keeps s' os x | _ => True end
    end.
End Spec.
Arguments var {K} _ _.
Arguments contents {K} _ _.
Arguments shared {K} _ _ _.
Arguments target {K} _ _.
Arguments expected {K} _ _.
Arguments repoints {K} _ _ _.
Arguments no_wrap {K} _.
Arguments clean {K} _ _.
Arguments wf {K} _.
Arguments dangling {K} _ _.
Arguments readable {K} _ _.
Arguments operand_ok {K} _ _.
Arguments expr_ok {K} _ _.
Arguments allowed {K} _ _.
Arguments is_view {K} _ _ _ _ _.
Arguments keeps {K} _ _ _.
