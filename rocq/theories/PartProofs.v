(* Problems made of elements that hand over one contribution each, with the same DoF types at all nodes *)
From Coq Require Import Reals Lra Lia.
From Verif Require Import Base BaseProofs RealBase MatModel SparseModel BlockModel DofModel SpecDof NumberingProofs AsmModel SpecAsm AsmLists AsmProofs AsmRun AsmFinal
  SolveModel SpecSolve GaussModel SpecGauss GaussProofs IsoModel SpecIso ElemModel SpecElem SpecBal BalProofs BalMore StructModel SpecStruct StructProofs StructFinal StructMore.
Local Open Scope R_scope.

Definition part : Type := (list nat * contrib RNum)%type.
Definition p_mesh (ps : list part) : list (list nat) := map fst ps.
Definition p_ks (ps : list part) : list (list (contrib RNum)) := map (fun p => [snd p]) ps.
Definition pform (i : nat) (p : part) : nat * list nat * contrib RNum := (i, fst p, snd p).
Definition p_forms (st : nat) (ps : list part) : list (nat * list nat * contrib RNum) := map (fun x => pform (fst x) (snd x)) (combine (seq st (length ps)) ps).
Lemma p_contribs ps : contribs (p_mesh ps) (p_ks ps) = p_forms 1 ps.
Proof.
  unfold contribs, p_mesh. rewrite map_length. 
  assert (G : forall l st, (forall i, (i < length l)%nat -> nth (st + i) (map fst ps) [] = nth i (map fst l) []) ->
    flat_map (fun x : nat * list (contrib RNum) => map (fun c => (fst x, nth (fst x - 1) (map fst ps) [], c)) (snd x)) (combine (seq (S st) (length l)) (p_ks l)) = p_forms (S st) l).
  { induction l as [|p l IH]; intros st NT; [reflexivity|]. cbn [length seq p_ks map combine flat_map snd fst app p_forms].
    assert (E0 : nth (S st - 1) (map fst ps) [] = fst p) by (pose proof (NT 0%nat ltac:(cbn; lia)) as Q; cbn [map nth] in Q; rewrite Nat.add_0_r in Q; replace (S st - 1)%nat with st by lia; exact Q).
    unfold p_forms. cbn [length seq combine map]. f_equal; [unfold pform; cbn [fst snd]; now rewrite E0|].
    apply (IH (S st)). intros i Hi. specialize (NT (S i) ltac:(cbn; lia)). cbn [map nth] in NT. rewrite <- NT. f_equal. lia. }
  apply (G ps 0%nat). reflexivity.
Qed.
Lemma in_forms ps : forall st x, In x (p_forms st ps) -> exists i p, In p ps /\ x = pform i p.
Proof.
  intros st x H. apply in_map_iff in H as ([i p] & <- & H). apply in_combine_r in H. eauto.
Qed.
Lemma forms_sum (f : nat * list nat * contrib RNum -> R) (g : part -> R) ps : (forall i p, In p ps -> f (pform i p) = g p) ->
  forall st, @sumof RNum _ f (p_forms st ps) = @sumof RNum _ g ps.
Proof.
  induction ps as [|p l IH]; intros H st; [reflexivity|]. unfold p_forms. cbn [length seq combine map fst snd]. rewrite !(sumof_cons RRng). f_equal.
  - apply H. now left.
  - apply IH. intros; apply H. now right.
Qed.

Section Parts.
  Variable types : list nat.
  Hypothesis TND : NoDup types.
  Hypothesis TR : Forall (fun t => (t < n_dof_types)%nat) types.
  Record part_ok (nn : nat) (p : part) : Prop := {
    p_nodup : NoDup (fst p);
    p_range : Forall (fun n => (1 <= n <= nn)%nat) (fst p);
    p_keys : forall en, ckeys en (fst p) (snd p) = node_keys (fst p) types;
    p_types : ctypes (snd p) = types;
    p_target : ctarget (snd p) = TK;
    p_sizes : good_sizes (fst p) (snd p) }.
  Definition p_regs (ps : list part) : list reg := flat_map (fun p => map (fun n => (KNode, n, types)) (fst p)) ps.
  Definition p_key (ps : list part) (k : key) : Prop :=
    match k with (KNode, n, t) => (exists p, In p ps /\ In n (fst p)) /\ In t types | _ => False end.
  Lemma p_key_in ps k : In k (reg_keys (p_regs ps)) <-> p_key ps k.
  Proof.
    unfold reg_keys. rewrite nodup_In, in_flat_map. split.
    - intros (r & Hr & Hk). apply in_flat_map in Hr as (p & Hp & Hr). apply in_map_iff in Hr as (n & <- & Hn).
      apply in_map_iff in Hk as (t & <- & Ht). cbn [p_key]. eauto.
    - destruct k as [[[|] n] t]; cbn [p_key]; [intros []|]. intros [(p & Hp & Hn) Ht]. exists (KNode, n, types). split.
      + apply in_flat_map. exists p. split; [exact Hp|]. apply in_map_iff. exists n. auto.
      + apply in_map_iff. exists t. auto.
  Qed.
  Lemma p_elem_key ps p i q : In p ps -> (forall en, ckeys en (fst p) (snd p) = node_keys (fst p) types) -> (q < length (x_keys (pform i p)))%nat ->
    p_key ps (nth q (x_keys (pform i p)) dkey).
  Proof.
    intros Hp HK Hq. cbn [pform x_keys] in *. rewrite HK in *. pose proof (nth_In _ dkey Hq) as H. unfold node_keys in H at 2.
    apply in_flat_map in H as (n & Hn & H). apply in_map_iff in H as (t & E & Ht). rewrite <- E. cbn [p_key]. eauto.
  Qed.

  Variables (nn : nat) (ps : list part) (loads fixes : list (bc RNum)).
  Record parts_ok : Prop := {
    pk_parts : Forall (part_ok nn) ps;
    pk_loads : Forall (fun l => p_key ps (bc_key l)) loads;
    pk_fixes : Forall (fun f => p_key ps (bc_key f)) fixes;
    pk_free : exists k, p_key ps k /\ ~ In k (map bc_key fixes);
    pk_capacity : capacity_ok (K := RNum) nn (p_mesh ps) (p_regs ps) (map bc_key fixes) [] }.
  Hypothesis OK : parts_ok.
  Lemma parts_good : good_linear (K := RNum) nn (p_mesh ps) (p_regs ps) (p_ks ps) [] loads fixes /\ distinct_nodes (K := RNum) (p_mesh ps) (p_ks ps).
  Proof.
    destruct OK as [M LO FI FR CA]. rewrite Forall_forall in M.
    assert (CT : forall l c, In l (p_ks ps) -> In c l -> exists p, In p ps /\ c = snd p).
    { intros l c Hl Hc. apply in_map_iff in Hl as (p & <- & Hp). destruct Hc as [<-|[]]. eauto. }
    split; [split|split].
    - split.
      + intros nodes n Hn H. apply in_map_iff in Hn as (p & <- & Hp). pose proof (p_range _ _ (M p Hp)) as RN. rewrite Forall_forall in RN. auto.
      + apply Forall_forall. intros r Hr. apply in_flat_map in Hr as (p & Hp & Hr). apply in_map_iff in Hr as (n & <- & Hn).
        pose proof (p_range _ _ (M p Hp)) as RN. rewrite Forall_forall in RN. cbn [good_reg entities]. split; [now apply RN|exact TR].
      + apply Forall_forall. intros k Hk. apply in_map_iff in Hk as (f & <- & Hf). rewrite Forall_forall in FI. apply p_key_in. auto.
      + destruct FR as (k & Hk & Nk). exists k. split; [now apply p_key_in|exact Nk].
      + constructor.
      + intros m t [].
    - exact CA.
    - split; [unfold p_ks, p_mesh; rewrite !map_length; lia|]. intros en nodes c Hx. change (rnum RRng) with RNum in Hx. rewrite p_contribs in Hx.
      apply in_forms in Hx as (i & p & Hp & E). unfold pform in E. injection E as -> -> ->. split; [apply (M p Hp)|].
      apply Forall_forall. intros k Hk. apply p_key_in. rewrite (p_keys _ _ (M p Hp)) in Hk. unfold node_keys in Hk. apply in_flat_map in Hk as (n & Hn & Hk).
      apply in_map_iff in Hk as (t & <- & Ht). cbn [p_key]. eauto.
    - apply Forall_forall. intros l Hl. apply Forall_forall. intros c Hc. destruct (CT l c Hl Hc) as (p & Hp & ->). apply (M p Hp).
    - apply Forall_forall. intros l Hl. rewrite Forall_forall in LO. apply p_key_in. auto.
    - apply Forall_forall. intros nodes Hn. apply in_map_iff in Hn as (p & <- & Hp). apply (M p Hp).
    - apply Forall_forall. intros l Hl. apply Forall_forall. intros c Hc. destruct (CT l c Hl Hc) as (p & Hp & ->). rewrite (p_types _ _ (M p Hp)). exact TND.
  Qed.

  Variable big : R -> bool.
  Section Any.
    Variable slv : eqsolver RNum.
    Hypothesis EX : exact_solver slv.
    Hypothesis PF : plain_fixes big fixes.
    Variable st : sol RNum.
    Hypothesis HS : linear_solve (K := RNum) big slv nn (p_mesh ps) (p_regs ps) (p_ks ps) [] loads fixes = Ok st.
    Lemma parts_nodal :
      (forall k, p_key ps k -> @sumof RNum _ (fun p => force_on (K := RNum) (disp st) k (pform 0 p)) ps = ext st k) /\
      (forall k, p_key ps k -> last_fix fixes k = None -> ext st k = total_load loads k) /\
      (forall k v, last_fix fixes k = Some v -> disp st k = v).
    Proof.
      destruct parts_good as [GL DN]. destruct (nodal_balance RRng big slv EX nn _ _ _ [] loads fixes st GL DN PF HS) as (N1 & N2 & N3). cbv zeta in *.
      split; [|split].
      - intros k Hk. apply p_key_in in Hk. unfold ext. etransitivity; [|exact (N1 k Hk)].
        assert (M0 : mpc_on (K := RNum) (g_num (so_g st)) (so_U st) [] k = 0).
        { unfold mpc_on, mpc_list. destruct (map snd (ns_mpc (g_num (so_g st)))); reflexivity. }
        change (rnum RRng) with RNum. rewrite M0, p_contribs. symmetry. etransitivity; [apply Rplus_0_r|]. 
        apply forms_sum. intros i p Hp. pose proof (pk_parts OK) as M. rewrite Forall_forall in M. pose proof (p_keys _ _ (M p Hp)) as PK.
        unfold force_on. cbn [x_keys pform elem_force elem_stiff]. rewrite !PK. reflexivity.
      - intros k Hk Nk. apply N2; [now apply p_key_in|exact Nk].
      - exact N3.
    Qed.
    (* work of the supplied forces on w *)
    Lemma parts_work w : @sumof RNum _ (fun k => ext st k * w k) (reg_keys (p_regs ps)) =
      @sumof RNum _ (fun p => @sumof RNum _ (fun q => elem_force (K := RNum) (disp st) (pform 0 p) q * w (nth q (x_keys (pform 0 p)) dkey)) (seq 0 (length (x_keys (pform 0 p))))) ps.
    Proof.
      destruct parts_good as [GL DN]. destruct (nodal_balance RRng big slv EX nn _ _ _ [] loads fixes st GL DN PF HS) as (N1 & _ & _). cbv zeta in *.
      assert (ML : mpc_list (g_num (so_g st)) ([] : list (mpc RNum)) = []) by (unfold mpc_list; destruct (map snd (ns_mpc (g_num (so_g st)))); reflexivity).
      pose proof (work_balance RRng (p_mesh ps) (p_regs ps) (p_ks ps) [] (g_num (so_g st)) (so_U st) (ext st) (disp st) w (gl_contribs _ _ _ _ _ _ _ GL)) as WB.
      change (rnum RRng) with RNum in WB. rewrite ML in WB. etransitivity; [apply WB; [intros x t []|exact N1]|].
      etransitivity; [apply Rplus_0_r|]. rewrite p_contribs.
      apply (forms_sum (fun x => @sumof RNum _ (fun p => elem_force (K := RNum) (disp st) x p * w (nth p (x_keys x) dkey)) (seq 0 (length (x_keys x))))).
      intros i p Hp. pose proof (pk_parts OK) as M. rewrite Forall_forall in M. pose proof (p_keys _ _ (M p Hp)) as PK.
      cbn [x_keys pform elem_force elem_stiff]. rewrite !PK. reflexivity.
    Qed.
  End Any.

  Variable u : nat -> list R.
  Hypothesis HU : forall n, length (u n) = n.
  Let gs : eqsolver RNum := gauss_slv (K := RG) u.
  Lemma parts_ends : linear_solve (K := RNum) big gs nn (p_mesh ps) (p_regs ps) (p_ks ps) [] loads fixes = Fatal \/
    exists st, linear_solve (K := RNum) big gs nn (p_mesh ps) (p_regs ps) (p_ks ps) [] loads fixes = Ok st.
  Proof. destruct parts_good as [GL DN]. exact (linear_ends RG RG_laws big u HU nn _ _ _ [] loads fixes GL). Qed.
  Lemma parts_known st (v : key -> R) : plain_fixes big fixes ->
    linear_solve (K := RNum) big gs nn (p_mesh ps) (p_regs ps) (p_ks ps) [] loads fixes = Ok st ->
    (forall k y, last_fix fixes k = Some y -> v k = y) ->
    (forall k, p_key ps k -> last_fix fixes k = None -> @sumof RNum _ (fun p => force_on (K := RNum) v k (pform 0 p)) ps = total_load loads k) ->
    forall k, p_key ps k -> disp st k = v k.
  Proof.
    intros PF HS FX FR k Hk. destruct parts_good as [GL DN].
    refine (known_solution RG RG_laws big u HU nn _ _ _ loads fixes st GL DN PF HS v FX _ k _); [|now apply p_key_in].
    intros x Hx Nx. change (gn RG) with RNum. rewrite p_contribs. rewrite <- (FR x) by (try apply p_key_in; assumption). apply forms_sum.
    intros i p Hp. pose proof (pk_parts OK) as M. rewrite Forall_forall in M. pose proof (p_keys _ _ (M p Hp)) as PK.
    unfold force_on. cbn [x_keys pform elem_force elem_stiff]. rewrite !PK. reflexivity.
  Qed.
  (* a field that nothing resists and no prescribed value excludes *)
  Lemma parts_loose (w : key -> R) : (forall k, last_fix fixes k <> None -> p_key ps k -> w k = 0) ->
    (forall p k q, In p ps -> (q < length (x_keys (pform 0 p)))%nat -> nth q (x_keys (pform 0 p)) dkey = k -> elem_stiff (K := RNum) w (pform 0 p) q = 0) ->
    (exists k, p_key ps k /\ w k <> 0) -> linear_solve (K := RNum) big gs nn (p_mesh ps) (p_regs ps) (p_ks ps) [] loads fixes = Fatal.
  Proof.
    intros W0 WZ (k & Hk & Nk). destruct parts_ends as [H|(st & H)]; [exact H|]. exfalso. destruct parts_good as [GL DN].
    apply Nk, (held RG RG_laws big u HU nn _ _ _ loads fixes st GL DN H w).
    - intros x Fx Hx. apply W0; [exact Fx|now apply p_key_in].
    - intros x Hx Fx. change (gn RG) with RNum. rewrite p_contribs. rewrite (forms_sum _ (fun _ => 0)); [apply (sumof_zero RRng); reflexivity|].
      intros i p Hp. pose proof (pk_parts OK) as M. rewrite Forall_forall in M. pose proof (p_keys _ _ (M p Hp)) as PK.
      transitivity (stiff_on (K := RNum) w x (pform 0 p)).
      { unfold stiff_on. cbn [x_keys pform elem_stiff]. rewrite !PK. reflexivity. }
      unfold stiff_on. apply (sumof_zero RRng). intros q Hq. apply in_seq in Hq. destruct (key_dec _ x) as [E|]; [|reflexivity]. apply (WZ p x q Hp (proj2 Hq) E).
    - now apply p_key_in.
  Qed.
End Parts.
