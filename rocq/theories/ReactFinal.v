(* Recorded reactions of a linear solution; node sets on which the choice of DoFs goes wrong. *)
From Verif Require Import Base BaseProofs SparseModel SpecSparse BlockModel SpecBlock DofModel SpecDof NumberingProofs AsmModel SpecAsm
  AsmProofs AsmRun AsmFinal SolveModel SpecSolve LinearProofs ReactModel SpecReact ReactProofs.

Section Linear.
  Variable K : Rng.
  Add Ring kring2 : (rth K).
  Local Open Scope rng_scope.

  Lemma linear_ready (big : K -> bool) slv nn mesh regs ks mpcs loads fixes st : good_linear nn mesh regs ks mpcs loads fixes ->
    linear_solve big slv nn mesh regs ks mpcs loads fixes = Ok st ->
    ready nn (length mesh) (map (fun m => length (mp_terms m)) mpcs) regs [] (map bc_key fixes) (g_num (so_g st)).
  Proof.
    intros GL HS. destruct (linear_start K big slv nn mesh regs ks mpcs loads fixes GL)
      as (s & g0 & g & U & R & E0 & N0 & HN & EG & I1 & _ & _ & _ & _ & _ & EL).
    rewrite EL in HS. apply obind_ok in HS as (xr & EC & HS). injection HS as <-. cbn [so_g].
    rewrite (gi_num _ _ _ _ _ _ _ _ _ I1). destruct GL as [P _ _ _ _]. split.
    - apply (gp_regs _ _ _ _ _ P).
    - apply (gp_fixes _ _ _ _ _ P).
    - apply (gp_free _ _ _ _ _ P).
    - rewrite app_nil_r. pose proof (gp_terms _ _ _ _ _ P) as T. apply Forall_forall. intros k Hk. apply in_map_iff in Hk as (m & <- & Hm).
      rewrite Forall_forall in T. specialize (T m Hm). destruct (mp_terms m); [congruence|cbn; lia].
    - unfold prepare in E0. apply obind_ok in E0 as (s' & E0 & E1). rewrite E0. f_equal.
      unfold initSolutionData in E1. repeat (apply obind_ok in E1 as (? & _ & E1)). injection E1 as E1. subst g0. exact N0.
  Qed.

  Theorem linear_curve (big : K -> bool) slv : exact_solver slv ->
    forall nn mesh regs ks mpcs loads fixes st, good_linear nn mesh regs ks mpcs loads fixes ->
    (forall x v, last_fix fixes x = Some v -> big v = false -> v = 0) ->
    linear_solve big slv nn mesh regs ks mpcs loads fixes = Ok st ->
    forall (p : rproc K) file, nodes_ok nn (rp_nodes p) -> rp_nodes p <> [] ->
    let s := g_num (so_g st) in let N := g_size (so_g st) in let ds := chosen (map bc_key fixes) (rp_nodes p) (rp_dofs p) in
    has_dofs regs (rp_nodes p) ds ->
    exists p' file' Kf, rp_run s true [mkStep 1 (so_R st) true] p file = Ok (p', file') /\
      (forall a b, (1 <= a <= N)%nat -> (1 <= b <= N)%nat -> gvalue (g_K (so_g st)) a b = Ok (Kf a b)) /\
      forall t, In t ds -> getReactions p' t =
        Ok (Some [0; sumof (fun n => mv Kf N (so_U st) (eqn s (KNode, n, t)) - vget s (g_F (so_g st)) (KNode, n, t)) (rp_nodes p)]).
  Proof.
    intros EX nn mesh regs ks mpcs loads fixes st GL HB HS p file G NE s N ds HD.
    pose proof (linear_ready _ _ _ _ _ _ _ _ _ _ GL HS) as RD. fold s in RD.
    destruct (linear_solution K big slv EX _ _ _ _ _ _ _ _ GL HB HS) as (Kf & X). cbv zeta in X. fold s in X. fold N in X.
    destruct X as (HN & LU & LR & LF & KV & EQ & _).
    assert (ND : ns_ndofs s = length (reg_keys regs)).
    { destruct (ready_numbered RD) as (E & M & I). apply I. }
    destruct (run_ok RD K true [mkStep 1 (so_R st) true] p file G NE) as (p' & file' & RR & _ & _ & GR & _).
    { intros E. unfold ds in HD. rewrite E in HD. exact HD. }
    { auto. }
    { constructor; [|constructor]. cbn [st_R]. lia. }
    exists p', file', Kf. split; auto. split; auto. intros t Ht. rewrite GR. fold ds.
    destruct (in_dec Nat.eq_dec t ds) as [_|Y]; [|contradiction]. unfold curve_of. f_equal. f_equal. f_equal.
    replace (recorded (rp_named p) [mkStep 1 (so_R st) true]) with [mkStep 1 (so_R st) true]
      by (unfold recorded; cbn [filter st_can]; now rewrite orb_true_r).
    cbn [map st_R]. f_equal. unfold set_reaction. apply sumof_ext. intros n Hn.
    unfold node_reaction. destruct (in_dec _ _ _) as [i|i]; [|destruct i; auto].
    unfold nodes_ok in G. rewrite Forall_forall in G.
    destruct (eq_spec RD n t (G _ Hn) i) as (e & _ & E & RG). unfold vget. rewrite E.
    rewrite EQ by lia. ring.
  Qed.
End Linear.

(* ---- node sets with different fixed DoFs ---- *)
(* two nodes with UX, UY; node 1 has both fixed, node 2 none: accepted *)
Definition two_regs : list reg := [(KNode, 1, [0; 1]); (KNode, 2, [0; 1])].
Definition two_fixes : list key := [(KNode, 1, 0); (KNode, 1, 1)].
Definition two_st : numst := match init_sequence (fresh_storage 2 0 []) two_regs [] two_fixes with Ok s => s | _ => fresh_storage 0 0 [] end.
Definition set12 : rproc ZNum := mkRP [1; 2] [] false [].
Lemma two_ready : ready 2 0 [] two_regs [] two_fixes two_st.
Proof.
  split.
  - repeat (apply Forall_cons || apply Forall_nil); cbn; (split; [lia|]); repeat constructor; unfold n_dof_types; lia.
  - repeat (apply Forall_cons || apply Forall_nil); cbn; intuition.
  - exists (KNode, 2, 0). split; [cbn; intuition|]. intros [H|[H|[]]]; discriminate.
  - constructor.
  - vm_compute. reflexivity.
Qed.
(* node 2 without UY *)
Definition odd_regs : list reg := [(KNode, 1, [0; 1]); (KNode, 2, [0])].
Definition odd_st : numst := match init_sequence (fresh_storage 2 0 []) odd_regs [] two_fixes with Ok s => s | _ => fresh_storage 0 0 [] end.
Lemma odd_ready : ready 2 0 [] odd_regs [] two_fixes odd_st.
Proof.
  split.
  - repeat (apply Forall_cons || apply Forall_nil); cbn; (split; [lia|]); repeat constructor; unfold n_dof_types; lia.
  - repeat (apply Forall_cons || apply Forall_nil); cbn; intuition.
  - exists (KNode, 2, 0). split; [cbn; intuition|]. intros [H|[H|[]]]; discriminate.
  - constructor.
  - vm_compute. reflexivity.
Qed.

Section Outcome.
  Context {nn ne : nat} {m : list nat} {regs : list reg} {newm : list nat} {fixes : list key} {s : numst}.
  Hypothesis RD : ready nn ne m regs newm fixes s.
  Variable K : Rng.
  Lemma never_refused can (p : rproc K) file : nodes_ok nn (rp_nodes p) -> rp_pre s can p file <> Fatal.
  Proof.
    intros G. destruct (rp_nodes p) eqn:EN.
    { unfold rp_pre. rewrite EN. discriminate. }
    destruct (rp_dofs p) as [|d ds] eqn:ED.
    - destruct (Forall_dec (fun n => Forall (fun t => In (KNode, n, t) (reg_keys regs)) (chosen fixes (rp_nodes p) []))
        (fun n => Forall_dec _ (fun t => in_dec key_dec _ _) _) (rp_nodes p)) as [D|D].
      + rewrite (pre_ok RD); rewrite ?EN; auto; try congruence. rewrite EN in D. intros _ a b Ha Hb. rewrite Forall_forall in D. specialize (D _ Ha).
        rewrite Forall_forall in D. auto.
      + rewrite (pre_ub RD); rewrite ?EN; auto; try congruence. rewrite EN in D. intros H. apply D. apply Forall_forall. intros a Ha. apply Forall_forall. intros b Hb. auto.
    - rewrite (pre_ok RD); rewrite ?EN; auto; congruence.
  Qed.

  (* the file cannot be created by pre() but can be opened later *)
  Lemma late_file R k (p : rproc K) file : nodes_ok nn (rp_nodes p) -> rp_nodes p <> [] -> rp_dofs p <> [] -> rp_sums p = [] ->
    rp_named p = true -> ns_ndofs s <= length R -> rp_run s false [mkStep k R true] p file = UB.
  Proof.
    intros G NE ND SE NM LR. unfold rp_run. rewrite (pre_ok RD) by (auto; congruence). unfold pre_result. rewrite NM. cbn [andb negb obind ofold fst snd st_R st_can st_num].
    rewrite (process_ub RD); auto. destruct (rp_dofs p); [congruence|]. discriminate.
  Qed.
  (* no nodes but DoFs given *)
  Lemma no_nodes R can can' k (p : rproc K) file : rp_nodes p = [] -> rp_dofs p <> [] -> rp_sums p = [] ->
    (rp_named p = true -> can' = true) -> ns_ndofs s <= length R -> rp_run s can [mkStep k R can'] p file = UB.
  Proof.
    intros E ND SE NM LR. unfold rp_run, rp_pre. rewrite E. cbn [obind ofold fst snd st_R st_can st_num].
    rewrite (process_ub RD); auto.
    - rewrite E. constructor.
    - destruct (rp_named p); auto. now rewrite NM.
  Qed.
End Outcome.
