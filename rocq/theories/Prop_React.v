(* C66, C85, C86: curves of reactions recorded by ReactionProcessor *)
From Coq Require Import QArith Qcanon.
From Verif Require Import Base SparseModel SpecSparse BlockModel SpecBlock DofModel SpecDof AsmModel SpecAsm SolveModel SpecSolve GaussModel SpecGauss
  ReactModel SpecReact ReactProofs ReactFinal Prop_Asm Prop_Solve.
Local Open Scope nat_scope.

(* ---------------- C66 ---------------- *)
Theorem C66_curves :
  forall (K : Rng) nn ne m regs newm fixes s, ready nn ne m regs newm fixes s ->
  forall (p : rproc K) file steps, nodes_ok nn (rp_nodes p) -> rp_nodes p <> [] ->
  let ds := chosen fixes (rp_nodes p) (rp_dofs p) in
  (rp_dofs p = [] -> has_dofs regs (rp_nodes p) ds) ->
  Forall (fun x => st_can x = true /\ ns_ndofs s <= length (st_R x)) steps ->
  exists p' file', rp_run s true steps p file = Ok (p', file') /\ rp_dofs p' = ds /\ rp_nodes p' = rp_nodes p /\
    (forall t, In t ds -> getReactions p' t = Ok (Some (r0 :: map (fun x => set_reaction regs s (rp_nodes p) t (st_R x)) steps))) /\
    (forall t, ~ In t ds -> getReactions p' t = Ok None) /\
    (rp_named p = true -> file' = Head ds :: Row 0 (map (fun _ => r0) ds) ::
       map (fun x => Row (st_num x) (map (fun t => set_reaction regs s (rp_nodes p) t (st_R x)) ds)) steps) /\
    (rp_named p = false -> file' = file).
Proof.
  intros K nn ne m regs newm fixes s RD p file steps G NE ds H HS.
  assert (RS : forall b, recorded b steps = steps).
  { intros b. unfold recorded. clear -HS. induction HS as [|x l [C _] HS IH]; cbn [filter]; auto. rewrite C, orb_true_r, IH. reflexivity. }
  destruct (run_ok RD K true steps p file G NE) as (p' & file' & A & B & C & D & E).
  - unfold ds in H. intros X. specialize (H X). rewrite X in H. exact H.
  - auto.
  - revert HS. apply Forall_impl. tauto.
  - rewrite !RS in *. fold ds in B, D, E. exists p', file'. repeat (split; auto).
    + intros t Ht. rewrite D. destruct (in_dec Nat.eq_dec t ds); [reflexivity|contradiction].
    + intros t Ht. rewrite D. destruct (in_dec Nat.eq_dec t ds); [contradiction|reflexivity].
    + intros X. rewrite X in E. exact E.
    + intros X. rewrite X in E. exact E.
Qed.
Print Assumptions C66_curves.

(* the DoFs recorded if none are given: the fixed ones of the first node, in order of their numbers *)
Theorem C66_chosen : forall fixes n ns t,
  (In t (chosen fixes (n :: ns) []) <-> In (KNode, n, t) fixes /\ t < 8) /\ NoDup (chosen fixes (n :: ns) []).
Proof.
  intros. unfold chosen. cbn [nth]. split.
  - rewrite filter_In, in_seq. destruct (in_dec key_dec (KNode, n, t) fixes); unfold n_dof_types; intuition (lia || discriminate).
  - apply NoDup_filter. apply seq_NoDup.
Qed.
Print Assumptions C66_chosen.

(* after a linear solution the recorded value is the sum of (K u - F) over the node set *)
Theorem C66_equilibrium : forall (K : Rng) (big : K -> bool) slv, exact_solver slv ->
  forall nn mesh regs ks mpcs loads fixes st, good_linear nn mesh regs ks mpcs loads fixes ->
  (forall x v, last_fix fixes x = Some v -> big v = false -> v = r0) ->
  linear_solve big slv nn mesh regs ks mpcs loads fixes = Ok st ->
  forall (p : rproc K) file, nodes_ok nn (rp_nodes p) -> rp_nodes p <> [] ->
  let s := g_num (so_g st) in let N := g_size (so_g st) in let ds := chosen (map bc_key fixes) (rp_nodes p) (rp_dofs p) in
  has_dofs regs (rp_nodes p) ds ->
  exists p' file' Kf, rp_run s true [mkStep 1 (so_R st) true] p file = Ok (p', file') /\
    (forall a b, 1 <= a <= N -> 1 <= b <= N -> gvalue (g_K (so_g st)) a b = Ok (Kf a b)) /\
    forall t, In t ds -> getReactions p' t =
      Ok (Some [r0; sumof (fun n => rsub (mv Kf N (so_U st) (eqn s (KNode, n, t))) (vget s (g_F (so_g st)) (KNode, n, t))) (rp_nodes p)]).
Proof. intros K. exact (linear_curve K). Qed.
Print Assumptions C66_equilibrium.

(* the bar of C24: the support of node 1 carries u1 = 1/2, u2 = 7/16: 10 * (1/2 - 7/16) = 5/8 *)
Definition bar_rp : rproc QcRng := mkRP [1] [] true [].
Example C66_bar_hyps : nodes_ok 4 (rp_nodes bar_rp) /\
  has_dofs bar_regs (rp_nodes bar_rp) (chosen (map bc_key bar_fixes) (rp_nodes bar_rp) (rp_dofs bar_rp)) /\
  chosen (map bc_key bar_fixes) (rp_nodes bar_rp) (rp_dofs bar_rp) = [0].
Proof.
  split; [repeat constructor|]. split; [|vm_compute; reflexivity].
  intros n t [<-|[]] Ht. vm_compute in Ht. destruct Ht as [<-|[]]. vm_compute. auto.
Qed.
Example C66_bar :
  match linear_solve (K := QcRng) bigq (gauss_slv gz) 4 bar_mesh bar_regs bar_ks bar_mpcs bar_loads bar_fixes with
  | Ok st => match rp_run (g_num (so_g st)) true [mkStep 1 (so_R st) true] bar_rp [] with
             | Ok (p', file') => Some (length file', option_map (map this) (match getReactions p' 0 with Ok r => r | _ => None end))
             | _ => None end
  | _ => None end = Some (3, Some [0 # 1; 5 # 8]%Q).
Proof. vm_compute. reflexivity. Qed.
Example C66_inhabited : ready 2 0 [] two_regs [] two_fixes two_st /\ has_dofs two_regs [1; 2] (chosen two_fixes [1; 2] []) /\
  exists p' f', rp_run two_st true [mkStep 1 [10; 20; 30; 40]%Z true; mkStep 2 [1; 2; 3; 4]%Z true] set12 [] = Ok (p', f') /\
  getReactions p' 1 = Ok (Some [0; 60; 6]%Z).
Proof.
  split; [apply two_ready|]. split.
  - intros n t Hn Ht. vm_compute in Ht, Hn. destruct Hn as [<-|[<-|[]]], Ht as [<-|[<-|[]]]; vm_compute; auto 10.
  - eexists. eexists. split; vm_compute; reflexivity.
Qed.

(* ---------------- C85 ---------------- *)
(* automatic choice: the check never stops the program; a chosen DoF that a node does not have is undefined behaviour *)
Theorem C85_outcome : forall (K : Rng) nn ne m regs newm fixes s, ready nn ne m regs newm fixes s ->
  forall can (p : rproc K) file, nodes_ok nn (rp_nodes p) -> rp_nodes p <> [] -> rp_dofs p = [] ->
  (has_dofs regs (rp_nodes p) (chosen fixes (rp_nodes p) []) -> exists r, rp_pre s can p file = Ok r) /\
  (~ has_dofs regs (rp_nodes p) (chosen fixes (rp_nodes p) []) -> rp_pre s can p file = UB).
Proof.
  intros K nn ne m regs newm fixes s RD can p file G NE ED. split; intros H.
  - eexists. apply (pre_ok RD); auto.
  - now apply (pre_ub RD).
Qed.
Print Assumptions C85_outcome.
Theorem C85_never_refused_refuted : forall (K : Rng) nn ne m regs newm fixes s, ready nn ne m regs newm fixes s ->
  forall can (p : rproc K) file, nodes_ok nn (rp_nodes p) -> rp_pre s can p file <> Fatal.
Proof. intros K nn ne m regs newm fixes s RD can p file. exact (never_refused RD K can p file). Qed.
Print Assumptions C85_never_refused_refuted.
(* inconsistent node sets: accepted, undefined *)
Theorem C85_inconsistent_accepted_refuted : ready 2 0 [] two_regs [] two_fixes two_st /\ ~ same_fixed two_fixes [1; 2] /\
  exists r, rp_pre two_st true set12 [] = Ok r.
Proof.
  split; [apply two_ready|]. split.
  - intros H. destruct (proj1 (H 1 2 0 (or_introl eq_refl) (or_intror (or_introl eq_refl)))) as [X|[X|[]]]; try discriminate. now left.
  - eexists. vm_compute. reflexivity.
Qed.
Print Assumptions C85_inconsistent_accepted_refuted.
Theorem C85_inconsistent_undefined_refuted : ready 2 0 [] odd_regs [] two_fixes odd_st /\ ~ same_fixed two_fixes [1; 2] /\
  rp_pre odd_st true set12 [] = UB.
Proof.
  split; [apply odd_ready|]. split.
  - intros H. destruct (proj1 (H 1 2 0 (or_introl eq_refl) (or_intror (or_introl eq_refl)))) as [X|[X|[]]]; try discriminate. now left.
  - vm_compute. reflexivity.
Qed.
Print Assumptions C85_inconsistent_undefined_refuted.

(* ---------------- C86 ---------------- *)
(* what is kept if the file could be created but not opened after some steps: only the other steps *)
Theorem C86_kept_steps_partial :
  forall (K : Rng) nn ne m regs newm fixes s, ready nn ne m regs newm fixes s ->
  forall (p : rproc K) file steps, nodes_ok nn (rp_nodes p) -> rp_nodes p <> [] -> rp_dofs p <> [] -> rp_named p = true ->
  Forall (fun x => ns_ndofs s <= length (st_R x)) steps ->
  exists p' file', rp_run s true steps p file = Ok (p', file') /\
    forall t, In t (rp_dofs p) -> getReactions p' t =
      Ok (Some (r0 :: map (fun x => set_reaction regs s (rp_nodes p) t (st_R x)) (filter (fun x => st_can x) steps))).
Proof.
  intros K nn ne m regs newm fixes s RD p file steps G NE ND NM HS.
  destruct (run_ok RD K true steps p file G NE) as (p' & file' & A & B & C & D & E); auto; [congruence|].
  exists p', file'. split; auto. intros t Ht. rewrite D.
  assert (Q : chosen fixes (rp_nodes p) (rp_dofs p) = rp_dofs p) by (destruct (rp_dofs p); [congruence|reflexivity]). rewrite Q.
  destruct (in_dec Nat.eq_dec t (rp_dofs p)); [|contradiction]. unfold curve_of, recorded. rewrite NM. reflexivity.
Qed.
Print Assumptions C86_kept_steps_partial.
Theorem C86_lost_step_refuted : exists (p : rproc ZNum) steps p' f', ready 2 0 [] two_regs [] two_fixes two_st /\
  Forall (fun x => ns_ndofs two_st <= length (st_R x)) steps /\ length steps = 1 /\
  rp_run two_st true steps p [] = Ok (p', f') /\ getReactions p' 0 = Ok (Some [0%Z]).
Proof.
  exists (mkRP [1; 2] [0] true []), [mkStep 1 [10; 20; 30; 40]%Z false]. eexists. eexists.
  split; [apply two_ready|]. split; [repeat constructor|]. split; [reflexivity|]. split; vm_compute; reflexivity.
Qed.
Print Assumptions C86_lost_step_refuted.
(* the file cannot be created, but can be opened after the first step *)
Theorem C86_late_file_refuted : forall (K : Rng) nn ne m regs newm fixes s, ready nn ne m regs newm fixes s ->
  forall R k (p : rproc K) file, nodes_ok nn (rp_nodes p) -> rp_nodes p <> [] -> rp_dofs p <> [] -> rp_sums p = [] ->
  rp_named p = true -> ns_ndofs s <= length R -> rp_run s false [mkStep k R true] p file = UB.
Proof. intros K nn ne m regs newm fixes s RD. exact (late_file RD K). Qed.
Print Assumptions C86_late_file_refuted.
(* DoFs given, but no nodes *)
Theorem C86_no_nodes_refuted : forall (K : Rng) nn ne m regs newm fixes s, ready nn ne m regs newm fixes s ->
  forall R can can' k (p : rproc K) file, rp_nodes p = [] -> rp_dofs p <> [] -> rp_sums p = [] ->
  (rp_named p = true -> can' = true) -> ns_ndofs s <= length R -> rp_run s can [mkStep k R can'] p file = UB.
Proof. intros K nn ne m regs newm fixes s RD. exact (no_nodes RD K). Qed.
Print Assumptions C86_no_nodes_refuted.
Example C86_inhabited : ready 2 0 [] two_regs [] two_fixes two_st /\ ns_ndofs two_st <= length [1; 2; 3; 4]%Z /\
  rp_run two_st false [mkStep 1 [1; 2; 3; 4]%Z true] (mkRP [1] [0] true []) [] = UB /\
  rp_run two_st true [mkStep 1 [1; 2; 3; 4]%Z true] (mkRP [] [0] true []) [] = UB.
Proof. split; [apply two_ready|]. split; [vm_compute; lia|]. split; vm_compute; reflexivity. Qed.
