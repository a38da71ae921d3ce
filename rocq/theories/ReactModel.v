(* Model of the recorder of reaction curves.
   Sources: src/lib/ReactionProcessor.cpp:14-134, src/lib/FEStorage.cpp:105-120. *)
From Verif Require Import Base DofModel.

Section React.
  Variable K : Num.
  Local Open Scope rng_scope.

  (* FEStorage.cpp:105-120; the part of the storage with the DoFs, vecR *)
  Definition getReaction (s : numst) (R : list K) (n t : nat) : outcome K :=
    u <- isDofUsed (ns_node s) n t ;;
    if u then
      e <- dof_eq s KNode n t ;;
      asserting ((0 <? e)%nat && (e <=? length R)%nat) (aget R (e - 1))
    else Ok 0.

  (* ReactionProcessor.h:24-29; rp_named: filename is not empty *)
  Record rproc := mkRP { rp_nodes : list nat; rp_dofs : list nat; rp_named : bool; rp_sums : list (list K) }.
  (* lines of the result file: labels of the DoFs; step number and values *)
  Inductive rline := Head (dofs : list nat) | Row (step : nat) (vals : list K).

  (* storage->getNodeDof(n, t)->isConstrained *)
  Definition dof_con (s : numst) (n t : nat) : outcome bool :=
    o <- getDof (ns_node s) n t ;;
    match o with
    | None => UB
    | Some i => d <- aget (dc_dofs (ns_node s)) i ;; Ok (d_con d)
    end.
  (* ReactionProcessor.cpp:30-35: && does not evaluate the right side if the left is false *)
  Definition auto_step (s : numst) (n : nat) (ds : list nat) (t : nat) : outcome (list nat) :=
    u <- isDofUsed (ns_node s) n t ;;
    if u then (c <- dof_con s n t ;; Ok (if c then ds ++ [t] else ds)) else Ok ds.
  (* ReactionProcessor.cpp:40-52; sameDofsConstrained becomes false only after LOG(FATAL) *)
  Definition auto_check (s : numst) (n t : nat) : outcome unit :=
    u <- isDofUsed (ns_node s) n t ;;
    if u then Ok tt else
    c <- dof_con s n t ;;
    if c then Ok tt else Fatal.
  (* ReactionProcessor.cpp:55-66: result dofsUsed *)
  Fixpoint user_check (s : numst) (n : nat) (ds : list nat) : outcome bool :=
    match ds with
    | [] => Ok true
    | t :: r => u <- isDofUsed (ns_node s) n t ;; if u then user_check s n r else Ok false
    end.
  Fixpoint user_checks (s : numst) (ds ns : list nat) : outcome unit :=
    match ns with
    | [] => Ok tt
    | n :: r => u <- user_check s n ds ;; if u then user_checks s ds r else Ok tt
    end.

  (* ReactionProcessor.cpp:19-89; can: the file can be created; file: its lines *)
  Definition rp_pre (s : numst) (can : bool) (p : rproc) (file : list rline) : outcome (rproc * list rline) :=
    match rp_nodes p with
    | [] => Ok (p, file)
    | n0 :: _ =>
        ds <- match rp_dofs p with
              | [] => ds <- ofold (auto_step s n0) (seq 0 n_dof_types) [] ;;
                      _ <- ofold (fun _ n => ofold (fun _ t => auto_check s n t) ds tt) (rp_nodes p) tt ;;
                      Ok ds
              | ds => _ <- user_checks s ds (rp_nodes p) ;; Ok ds
              end ;;
        if rp_named p && negb can then Ok (mkRP (rp_nodes p) ds (rp_named p) (rp_sums p), file) else
        let file' := if rp_named p then [Head ds; Row 0 (map (fun _ => 0) ds)] else file in
        Ok (mkRP (rp_nodes p) ds (rp_named p) (map (fun _ => [0]) ds), file')
    end.

  (* ReactionProcessor.cpp:95-99: reactions[d] += getReaction(n, dofs[d]) *)
  Fixpoint add_reactions (s : numst) (R : list K) (n : nat) (ds : list nat) (acc : list K) : outcome (list K) :=
    match ds, acc with
    | t :: r, a :: q => v <- getReaction s R n t ;; l <- add_reactions s R n r q ;; Ok (a + v :: l)
    | [], _ => Ok acc
    | _, [] => UB
    end.
  (* ReactionProcessor.cpp:114-116 *)
  Fixpoint push_all (sums : list (list K)) (vals : list K) : outcome (list (list K)) :=
    match vals, sums with
    | v :: r, c :: q => l <- push_all q r ;; Ok ((c ++ [v]) :: l)
    | [], _ => Ok sums
    | _, [] => UB
    end.
  (* ReactionProcessor.cpp:91-117; can: the file can be opened for appending *)
  Definition rp_process (s : numst) (R : list K) (can : bool) (step : nat) (p : rproc) (file : list rline)
    : outcome (rproc * list rline) :=
    re <- ofold (fun acc n => add_reactions s R n (rp_dofs p) acc) (rp_nodes p) (map (fun _ => 0) (rp_dofs p)) ;;
    if rp_named p && negb can then Ok (p, file) else
    let file' := if rp_named p then file ++ [Row step re] else file in
    l <- push_all (rp_sums p) re ;;
    Ok (mkRP (rp_nodes p) (rp_dofs p) (rp_named p) l, file').

  (* ReactionProcessor.cpp:124-132; None: the error "There is not results" and an empty vector *)
  Fixpoint find_curve (ds : list nat) (sums : list (list K)) (i t : nat) : outcome (option (list K)) :=
    match ds with
    | [] => Ok None
    | d :: r => if (d =? t)%nat then (c <- aget sums i ;; Ok (Some c)) else find_curve r sums (S i) t
    end.
  Definition getReactions (p : rproc) (t : nat) : outcome (option (list K)) := find_curve (rp_dofs p) (rp_sums p) 0 t.

  (* the calls made by a solution procedure (FESolver.cpp:358-396, 434-506, 586-641): pre() once,
     process() after every step with the step number and the contents of vecR at that time *)
  Record step := mkStep { st_num : nat; st_R : list K; st_can : bool }.
  Definition rp_run (s : numst) (can : bool) (steps : list step) (p : rproc) (file : list rline)
    : outcome (rproc * list rline) :=
    pf <- rp_pre s can p file ;;
    ofold (fun pf x => rp_process s (st_R x) (st_can x) (st_num x) (fst pf) (snd pf)) steps pf.
End React.
Arguments getReaction {K} _ _ _ _.
Arguments mkRP {K} _ _ _ _.
Arguments rp_nodes {K} _.
Arguments rp_dofs {K} _.
Arguments rp_named {K} _.
Arguments rp_sums {K} _.
Arguments Head {K} _.
Arguments Row {K} _ _.
Arguments rp_pre {K} _ _ _ _.
Arguments add_reactions {K} _ _ _ _ _.
Arguments push_all {K} _ _.
Arguments rp_process {K} _ _ _ _ _ _.
Arguments find_curve {K} _ _ _ _.
Arguments getReactions {K} _ _.
Arguments mkStep {K} _ _ _.
Arguments st_num {K} _.
Arguments st_R {K} _.
Arguments st_can {K} _.
Arguments rp_run {K} _ _ _ _ _.
