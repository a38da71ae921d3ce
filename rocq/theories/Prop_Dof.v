(* Properties C15-C18: DoF table and equation numbering. *)
From Verif Require Import Base DofModel SpecDof DofProofs NumberingProofs.

(* C15: the table is a map from entities to sets of DoF types *)
Theorem C15_dof_table N calls :
  (forall x, In x calls -> 1 <= fst x <= N) ->
  exists c, fill_table N calls = Ok c /\
    (forall n t, 1 <= n <= N -> exists b,
        isDofUsed c n t = Ok b /\ (b = true <-> registered calls n t)) /\
    (forall n t, 1 <= n <= N -> ~ registered calls n t -> getDof c n t = Ok None) /\
    (forall n t, 1 <= n <= N -> registered calls n t -> exists i d,
        getDof c n t = Ok (Some i) /\ nth_error (dc_dofs c) i = Some d /\ d_type d = t) /\
    (forall n t n' t' i, 1 <= n <= N -> 1 <= n' <= N ->
        getDof c n t = Ok (Some i) -> getDof c n' t' = Ok (Some i) -> n = n' /\ t = t') /\
    (forall n, 1 <= n <= N -> exists ds,
        getEntityDofs c n = Ok ds /\ NoDup (map d_type ds) /\
        (forall t, In t (map d_type ds) <-> registered calls n t)) /\
    dc_used c = length (reg_pairs calls) /\
    (forall t, In t (dc_unique c) <-> exists n, registered calls n t).
Proof. exact (dof_table N calls). Qed.
Print Assumptions C15_dof_table.

(* entities register out of order and repeatedly *)
Example C15_example :
  exists c, fill_table 3 [(3, [1; 0]); (1, [7; 7]); (3, [2; 1]); (2, [0])] = Ok c /\
    (match getEntityDofs c 3 with Ok ds => map d_type ds = [0; 1; 2] | _ => False end) /\
    (match getEntityDofs c 1 with Ok ds => map d_type ds = [7] | _ => False end) /\
    getDof c 2 1 = Ok None /\ getDof c 2 0 = Ok (Some 1) /\ dc_used c = 5.
Proof. eexists. split; [vm_compute; reflexivity|]. vm_compute. repeat split. Qed.

(* C16: the equation numbers *)
Theorem C16_numbering nn ne m regs newm fixes :
  Forall (good_reg nn ne) regs ->
  Forall (fun x => In x (reg_keys regs)) fixes ->
  (exists x, In x (reg_keys regs) /\ ~ In x fixes) ->
  Forall (fun k => 0 < k) (m ++ newm) ->
  exists s, init_sequence (fresh_storage nn ne m) regs newm fixes = Ok s /\
    ns_ndofs s = length (reg_keys regs) /\
    ns_ncon s = length (fix_keys fixes) /\
    ns_nunk s = ns_ndofs s - ns_ncon s /\
    (forall x, In x (reg_keys regs) -> exists e, key_eq s x = Ok e /\ 1 <= e <= ns_ndofs s /\
        (e <= ns_ncon s <-> In x fixes)) /\
    (forall x y e, In x (reg_keys regs) -> In y (reg_keys regs) ->
        key_eq s x = Ok e -> key_eq s y = Ok e -> x = y) /\
    (forall e, 1 <= e <= ns_ndofs s -> exists x, In x (reg_keys regs) /\ key_eq s x = Ok e) /\
    map snd (ns_mpc s) = seq (ns_ndofs s + 1) (length m + length newm).
Proof. exact (numbering nn ne m regs newm fixes). Qed.
Print Assumptions C16_numbering.

(* two quadrangles sharing an edge with one element DoF (pressure) each *)
Definition ex_regs : list reg :=
  [(KNode, 1, [0; 1]); (KNode, 2, [0; 1]); (KEl, 1, [6]); (KNode, 2, [1; 0]); (KNode, 3, [0; 1]); (KEl, 2, [6])].
Definition ex_fixes : list key := [(KNode, 3, 1); (KNode, 1, 0); (KNode, 3, 1)].

Example C16_example :
  Forall (good_reg 3 2) ex_regs /\
  Forall (fun x => In x (reg_keys ex_regs)) ex_fixes /\
  (exists x, In x (reg_keys ex_regs) /\ ~ In x ex_fixes) /\
  Forall (fun k => 0 < k) ([2] ++ [3]) /\
  exists s, init_sequence (fresh_storage 3 2 [2]) ex_regs [3] ex_fixes = Ok s /\
    map (fun x => key_eq s x) [(KNode, 1, 0); (KNode, 3, 1); (KEl, 1, 6); (KEl, 2, 6); (KNode, 1, 1)]
    = [Ok 1; Ok 2; Ok 3; Ok 4; Ok 5] /\ map snd (ns_mpc s) = [9; 10].
Proof.
  split; [repeat constructor|]. split.
  { repeat (constructor; [vm_compute; tauto|]). constructor. }
  split.
  { exists (KEl, 1, 6). split; [vm_compute; tauto|]. intros [H|[H|[H|[]]]]; discriminate. }
  split; [repeat constructor|].
  eexists. split; [vm_compute; reflexivity|]. vm_compute. repeat split.
Qed.

(* C17: each fixed DoF is counted once *)
Theorem C17_fix_count nn ne m regs newm fixes :
  Forall (good_reg nn ne) regs -> reg_keys regs <> [] ->
  Forall (fun x => In x (reg_keys regs)) fixes ->
  exists s1 s2, initDofs (fresh_storage nn ne m) regs newm = Ok s1 /\ run_fixes s1 fixes = Ok s2 /\
    ns_ncon s2 = length (fix_keys fixes).
Proof. exact (fix_count nn ne m regs newm fixes). Qed.
Print Assumptions C17_fix_count.

Example C17_example :
  exists s1 s2, initDofs (fresh_storage 3 2 []) ex_regs [] = Ok s1 /\ run_fixes s1 ex_fixes = Ok s2 /\
    ns_ncon s2 = 2.
Proof. do 2 eexists. split; [vm_compute; reflexivity|]. split; vm_compute; reflexivity. Qed.

(* C18: initDofs does not reset the number of constrained DoFs: a second solve
   on the same storage counts them again, and the numbering stops at an assert *)
Theorem C18_second_run_refuted :
  ~ (forall nn ne m regs newm fixes s,
       init_sequence (fresh_storage nn ne m) regs newm fixes = Ok s ->
       init_sequence s regs newm fixes = Ok s).
Proof.
  intros H.
  assert (exists s, init_sequence (fresh_storage 3 2 []) ex_regs [] ex_fixes = Ok s /\
                    init_sequence s ex_regs [] ex_fixes = UB) as (s & E & U).
  { eexists. split; vm_compute; reflexivity. }
  apply H in E. rewrite U in E. discriminate.
Qed.
Print Assumptions C18_second_run_refuted.

(* with deleteSolutionData in between (and no MPC collections, whose equations
   would be registered twice) the second run reproduces the first *)
Theorem C18_second_run_after_delete_partial nn ne m regs fixes s :
  init_sequence (fresh_storage nn ne m) regs [] fixes = Ok s ->
  init_sequence (deleteSolutionData s) regs [] fixes = Ok s.
Proof. exact (second_run nn ne m regs fixes s). Qed.
Print Assumptions C18_second_run_after_delete_partial.

(* without fixed DoFs no clean-up is needed *)
Theorem C18_second_run_unconstrained_partial nn ne m regs s :
  init_sequence (fresh_storage nn ne m) regs [] [] = Ok s ->
  init_sequence s regs [] [] = Ok s.
Proof. exact (second_run_free nn ne m regs s). Qed.
Print Assumptions C18_second_run_unconstrained_partial.

(* MPC collections: even after deleteSolutionData the equations are doubled *)
Theorem C18_mpc_doubled_refuted :
  exists s s', init_sequence (fresh_storage 3 2 []) ex_regs [2] ex_fixes = Ok s /\
    init_sequence (deleteSolutionData s) ex_regs [2] ex_fixes = Ok s' /\
    length (ns_mpc s) = 1 /\ length (ns_mpc s') = 2.
Proof. do 2 eexists. split; [vm_compute; reflexivity|]. split; [vm_compute; reflexivity|]. split; reflexivity. Qed.
Print Assumptions C18_mpc_doubled_refuted.

Example C18_example :
  exists s, init_sequence (fresh_storage 3 2 [2]) ex_regs [] ex_fixes = Ok s /\
    init_sequence s ex_regs [] ex_fixes = UB.
Proof. eexists. split; vm_compute; reflexivity. Qed.
