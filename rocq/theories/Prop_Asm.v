(* C19-C23: global assembly (src/lib/FEStorage.cpp, src/lib/elements/element.{h,cpp}) *)
From Verif Require Import Base BaseProofs SparseModel SpecSparse BlockModel SpecBlock DofModel SpecDof AsmModel SpecAsm
  AsmProofs AsmFinal.

(* a decision procedure for the example problems *)
Definition key_in (x : key) (l : list key) : bool := if in_dec key_dec x l then true else false.
Definition problem_check {K : Num} (nn : nat) mesh regs fixes (mpcs : list (mpc K)) : bool :=
  forallb (fun nodes => forallb (fun n => (1 <=? n) && (n <=? nn)) nodes) mesh &&
  forallb (fun r : reg => match r with (k, n, ts) =>
     (1 <=? n) && (n <=? entities nn (length mesh) k) && forallb (fun t => t <? n_dof_types) ts end) regs &&
  forallb (fun x => key_in x (reg_keys regs)) fixes &&
  existsb (fun x => negb (key_in x fixes)) (reg_keys regs) &&
  forallb (fun m => negb (length (mp_terms m) =? 0) && forallb (fun t => key_in (term_key t) (reg_keys regs)) (mp_terms m)) mpcs.
Lemma key_in_ok x l : key_in x l = true <-> In x l.
Proof. unfold key_in. destruct (in_dec key_dec x l); split; auto; discriminate. Qed.
Lemma problem_check_ok {K : Num} nn mesh regs fixes (mpcs : list (mpc K)) :
  problem_check nn mesh regs fixes mpcs = true -> good_problem nn mesh regs fixes mpcs.
Proof.
  unfold problem_check. rewrite !andb_true_iff. intros [[[[H1 H2] H3] H4] H5].
  rewrite forallb_forall in H1, H2, H3, H5.
  split.
  - intros nodes n Hn Hi. specialize (H1 nodes Hn). rewrite forallb_forall in H1. specialize (H1 n Hi).
    apply andb_true_iff in H1 as [A B]. apply Nat.leb_le in A, B. auto.
  - apply Forall_forall. intros [[k n] ts] Hr. specialize (H2 _ Hr). cbv beta iota in H2.
    rewrite !andb_true_iff in H2. destruct H2 as [[A B] C]. apply Nat.leb_le in A, B. rewrite forallb_forall in C.
    split; auto. apply Forall_forall. intros t Ht. now apply Nat.ltb_lt, C.
  - apply Forall_forall. intros x Hx. now apply key_in_ok, H3.
  - apply existsb_exists in H4 as (x & Hx & N). exists x. split; auto. intros Hf. apply key_in_ok in Hf.
    rewrite Hf in N. discriminate.
  - apply Forall_forall. intros m Hm. specialize (H5 m Hm). apply andb_true_iff in H5 as [A _].
    intros E. rewrite E in A. discriminate.
  - intros m t Hm Ht. specialize (H5 m Hm). apply andb_true_iff in H5 as [_ B]. rewrite forallb_forall in B.
    now apply key_in_ok, B.
Qed.

(* ---------------- C19 ---------------- *)
Theorem C19_assembly_never_aborts :
  forall (K : Rng) transient nn mesh regs fixes (mpcs : list (mpc K)) hist,
  good_problem nn mesh regs fixes mpcs -> capacity_ok nn mesh regs fixes mpcs ->
  Forall (good_step transient mesh regs mpcs) hist ->
  exists g g', prepare transient nn mesh regs fixes mpcs = Ok g /\ assemble_all g hist = Ok g'.
Proof. exact assembly_never_aborts. Qed.
Print Assumptions C19_assembly_never_aborts.
(* exactly the couplings through an element and the MPC coefficients are registered *)
Theorem C19_registered_positions :
  forall (K : Rng) transient nn mesh regs fixes (mpcs : list (mpc K)),
  good_problem nn mesh regs fixes mpcs -> capacity_ok nn mesh regs fixes mpcs ->
  exists g, prepare transient nn mesh regs fixes mpcs = Ok g /\
    g_size g = length (reg_keys regs) + length mpcs /\
    forall i j x, 1 <= i <= g_size g -> 1 <= j <= g_size g ->
      let s := g_num g in
      let reg_pos :=
        (exists x y, In x (reg_keys regs) /\ In y (reg_keys regs) /\ share_element mesh x y /\
           eqn s x = i /\ eqn s y = j) \/
        (exists e t, In e (mpc_list s mpcs) /\ In t (mp_terms (snd e)) /\
           (i = fst e /\ j = eqn s (term_key t) \/ j = fst e /\ i = eqn s (term_key t))) in
      (reg_pos -> exists B, b_addValue (g_K g) i j x = Ok B) /\
      (~ reg_pos -> b_addValue (g_K g) i j x = Fatal).
Proof. exact registered_positions. Qed.
Print Assumptions C19_registered_positions.
(* the capacity condition holds at least for all problems with up to 100 equations *)
Theorem C19_capacity_of_small_problems :
  forall (K : Rng) nn mesh regs fixes (mpcs : list (mpc K)),
  good_problem nn mesh regs fixes mpcs -> length (reg_keys regs) + length mpcs <= max_in_row ->
  capacity_ok nn mesh regs fixes mpcs.
Proof. exact small_capacity. Qed.
Print Assumptions C19_capacity_of_small_problems.
(* it is needed: with one DoF per node and a node connected to 100 others the creation of
   the matrix aborts *)
Definition star_mesh (k : nat) : list (list nat) := map (fun i => [1; i]) (seq 2 k).
Definition star_regs (k : nat) : list reg := map (fun n => (KNode, n, [UX])) (seq 1 (S k)).
Theorem C19_capacity_limit :
  (exists g : gst ZRng, prepare false 100 (star_mesh 99) (star_regs 99) [] [] = Ok g) /\
  prepare (K := ZRng) false 101 (star_mesh 100) (star_regs 100) [] [] = Fatal.
Proof. split; [eexists|]; vm_compute; reflexivity. Qed.
Print Assumptions C19_capacity_limit.

(* two bars with common node 2, a third element with an element DoF, one DoF fixed, one MPC *)
Definition ex_mesh := [[1; 2]; [2; 3]; [3]].
Definition ex_regs : list reg :=
  [(KNode, 1, [UX; UY]); (KNode, 2, [UX; UY]); (KNode, 3, [UX]); (KEl, 3, [HYDRO_PRESSURE]); (KNode, 4, [UZ])].
Definition ex_fixes : list key := [(KNode, 2, UY)].
Definition ex_mpcs : list (mpc ZRng) := [mkMpc 5%Z [((3, UX), 2%Z); ((1, UY), (-1)%Z)]].
Definition ex_step (k : Z) : step ZRng := mkStep
  [[CKF [UX; UY] [1;2;3;4;5;6;7;8;9;10]%Z [1;2;3;4]%Z]; [CK [UX] [k; 20; 30]%Z]; []]
  [[CC [UX; UY] [1;2;3;4;5;6;7;8;9;10]%Z]; []; []]
  [mkMpc (5 + k)%Z [((3, UX), 2%Z); ((1, UY), k)]].
Example ex_problem : good_problem 4 ex_mesh ex_regs ex_fixes ex_mpcs.
Proof. apply problem_check_ok. vm_compute. reflexivity. Qed.
Example ex_capacity : capacity_ok 4 ex_mesh ex_regs ex_fixes ex_mpcs.
Proof. apply small_capacity; [exact ex_problem|]. vm_compute. lia. Qed.
Lemma contribs_check {K : Num} mesh regs (ks : list (list (contrib K))) : length ks = length mesh ->
  Forall (fun x => match x with (en, nodes, c) => good_sizes nodes c /\ Forall (fun x => key_in x (reg_keys regs) = true) (ckeys en nodes c) end)
    (contribs mesh ks) -> good_contribs mesh regs ks.
Proof.
  intros L H. split; auto. intros en nodes c Hx. rewrite Forall_forall in H. specialize (H _ Hx). cbv beta iota in H.
  destruct H as [H1 H2]. split; auto. eapply Forall_impl; [|exact H2]. intros x. apply key_in_ok.
Qed.
Example ex_step_good k : good_step true ex_mesh ex_regs ex_mpcs (ex_step k).
Proof.
  split; [apply contribs_check; [reflexivity|]; repeat constructor|].
  split; [repeat constructor|]. split; [intros _; apply contribs_check; [reflexivity|]; repeat constructor|].
  split; [repeat constructor; discriminate|repeat constructor].
Qed.
Example ex_assembled : exists g g', prepare true 4 ex_mesh ex_regs ex_fixes ex_mpcs = Ok g /\
  assemble_all g [ex_step 3; ex_step 7] = Ok g' /\
  gvalue (g_K g') (eqn (g_num g) (KNode, 2, UX)) (eqn (g_num g) (KNode, 2, UX)) = Ok 15%Z /\
  gvalue (g_K g') (g_size g) (eqn (g_num g) (KNode, 1, UY)) = Ok 7%Z /\ nth (g_size g - 1) (g_F g') 0%Z = 12%Z.
Proof. eexists _, _; split; [vm_compute; reflexivity|]. split; [vm_compute; reflexivity|]. vm_compute. auto. Qed.

(* ---------------- C20 ---------------- *)
(* hist: earlier assemblies, h: the last one *)
Theorem C20_assembled_is_sum :
  forall (K : Rng) transient nn mesh regs fixes (mpcs : list (mpc K)) hist h,
  good_problem nn mesh regs fixes mpcs -> capacity_ok nn mesh regs fixes mpcs ->
  Forall (good_step transient mesh regs mpcs) (hist ++ [h]) -> distinct_nodes mesh (st_ks h) ->
  exists g g', prepare transient nn mesh regs fixes mpcs = Ok g /\ assemble_all g (hist ++ [h]) = Ok g' /\
    g_size g = length (reg_keys regs) + length mpcs /\ length (g_F g') = g_size g /\
    let s := g_num g in
    (forall a b, 1 <= a <= g_size g -> 1 <= b <= g_size g ->
       gvalue (g_K g') a b = Ok (radd (sum_matrix s mesh (st_ks h) TK a b) (mpc_matrix s (st_mpcs h) a b))) /\
    (forall a, 1 <= a <= length (reg_keys regs) -> nth (a - 1) (g_F g') r0 = sum_vector s mesh (st_ks h) a) /\
    (forall x, In x (mpc_list s (st_mpcs h)) -> nth (fst x - 1) (g_F g') r0 = mp_b (snd x)).
Proof. exact distinct_assembly. Qed.
Print Assumptions C20_assembled_is_sum.
Example C20_hypotheses_met : distinct_nodes ex_mesh (st_ks (ex_step 7)).
Proof. split; repeat constructor; cbn; intros H; repeat (destruct H as [H|H]; try discriminate); auto. Qed.

(* ---------------- C21 ---------------- *)
(* Full statement: C20 without the assumption distinct_nodes.  What is assembled instead: *)
Theorem C21_repeated_nodes_partial :
  forall (K : Rng) transient nn mesh regs fixes (mpcs : list (mpc K)) hist h,
  good_problem nn mesh regs fixes mpcs -> capacity_ok nn mesh regs fixes mpcs ->
  Forall (good_step transient mesh regs mpcs) (hist ++ [h]) ->
  exists g g', prepare transient nn mesh regs fixes mpcs = Ok g /\ assemble_all g (hist ++ [h]) = Ok g' /\
    let s := g_num g in
    (forall a b, 1 <= a <= g_size g -> 1 <= b <= g_size g ->
       gvalue (g_K g') a b = Ok (radd (rsub (sum_matrix s mesh (st_ks h) TK a b) (sum_dup s mesh (st_ks h) TK a b))
                                      (mpc_matrix s (st_mpcs h) a b))) /\
    (forall a b, a <> b -> sum_dup s mesh (st_ks h) TK a b = (r0 : K)) /\
    (forall a, 1 <= a <= length (reg_keys regs) -> nth (a - 1) (g_F g') r0 = sum_vector s mesh (st_ks h) a).
Proof.
  intros K tr nn mesh regs fixes mpcs hist h P C H.
  destruct (assembled_values K tr nn mesh regs fixes mpcs hist h P C H)
    as (g & g' & E & E' & N & HN & GS' & GS & V1 & V2 & V3 & V4 & _).
  exists g, g'. split; auto. split; auto. cbv zeta. split; [exact V1|]. split.
  - intros a b Hab. unfold sum_dup. apply sumof_zero. intros [[en nodes] c] _. cbn [dpart]. unfold dup_part.
    apply Nat.eqb_neq in Hab. now rewrite Hab.
  - intros a Ha. apply V3. pose proof (pn_nd _ _ _ _ _ _ HN). lia.
Qed.
Print Assumptions C21_repeated_nodes_partial.
(* a four node element collapsed to a triangle (nodes 1 2 3 3) *)
Definition tri_mesh := [[1; 2; 3; 3]].
Definition tri_regs : list reg := [(KNode, 1, [UX]); (KNode, 2, [UX]); (KNode, 3, [UX])].
Definition tri_step : step ZRng := mkStep [[CK [UX] [10; 1; 2; 3; 20; 4; 5; 30; 6; 40]%Z]] [[]] [].
Theorem C21_repeated_nodes_refuted : exists g g' : gst ZRng,
  good_problem (K := ZRng) 3 tri_mesh tri_regs [] [] /\ capacity_ok (K := ZRng) 3 tri_mesh tri_regs [] [] /\
  good_step false tri_mesh tri_regs [] tri_step /\
  prepare false 3 tri_mesh tri_regs [] [] = Ok g /\ assemble_all g [tri_step] = Ok g' /\
  gvalue (g_K g') 3 3 = Ok 76%Z /\ sum_matrix (g_num g) tri_mesh (st_ks tri_step) TK 3 3 = 82%Z.
Proof.
  assert (P : good_problem (K := ZRng) 3 tri_mesh tri_regs [] []) by (apply problem_check_ok; vm_compute; reflexivity).
  eexists _, _. split; [exact P|]. split; [apply small_capacity; [exact P|vm_compute; lia]|]. split.
  - split; [apply contribs_check; [reflexivity|]; repeat constructor|].
    split; [repeat constructor|]. split; [discriminate|]. split; repeat constructor.
  - split; [vm_compute; reflexivity|]. split; [vm_compute; reflexivity|]. split; vm_compute; reflexivity.
Qed.
Print Assumptions C21_repeated_nodes_refuted.

(* ---------------- C22 ---------------- *)
(* Full statement: C is the sum of the matrices given to assembleC and M the sum of those
   given to assembleM. *)
Theorem C22_damping_and_mass_partial :
  forall (K : Rng) nn mesh regs fixes (mpcs : list (mpc K)) hist h,
  good_problem nn mesh regs fixes mpcs -> capacity_ok nn mesh regs fixes mpcs ->
  Forall (good_step true mesh regs mpcs) (hist ++ [h]) -> distinct_nodes mesh (st_cs h) ->
  exists g g' C M, prepare true nn mesh regs fixes mpcs = Ok g /\ assemble_all g (hist ++ [h]) = Ok g' /\
    g_CM g' = Some (C, M) /\
    forall a b, 1 <= a <= g_size g -> 1 <= b <= g_size g ->
      gvalue C a b = Ok (radd (sum_matrix (g_num g) mesh (st_cs h) TC a b) (sum_matrix (g_num g) mesh (st_cs h) TM a b)) /\
      gvalue M a b = Ok r0.
Proof.
  intros K nn mesh regs fixes mpcs hist h P C H D.
  destruct (assembled_values K true nn mesh regs fixes mpcs hist h P C H)
    as (g & g' & E & E' & N & HN & GS' & GS & V1 & V2 & V3 & V4 & V5).
  assert (Hh : good_step true mesh regs mpcs h) by (rewrite Forall_forall in H; apply H; apply in_or_app; right; now left).
  destruct (V5 eq_refl) as (Cm & Mm & Q & HV). exists g, g', Cm, Mm. split; auto. split; auto. split; auto.
  intros a b Ha Hb. destruct (HV a b Ha Hb) as [HC HM]. split; [|exact HM]. rewrite HC. f_equal.
  rewrite !(sum_dup_zero K nn mesh regs fixes _ (g_num g) (st_cs h) _ a b HN); auto; [|apply Hh; auto..].
  assert (Z : forall u : K, rsub u r0 = u).
  { intros u. rewrite (Ring_theory.Rsub_def (rth K)). transitivity (radd u (radd r0 (ropp r0))).
    - now rewrite (Ring_theory.Radd_0_l (rth K)).
    - rewrite (Ring_theory.Ropp_def (rth K)), (Ring_theory.Radd_comm (rth K)). apply (Ring_theory.Radd_0_l (rth K)). }
  now rewrite !Z.
Qed.
Print Assumptions C22_damping_and_mass_partial.
Definition mass_step : step ZRng := mkStep [[]] [[CM [UX] [10; 1; 20]%Z]] [].
Theorem C22_mass_refuted : exists g g' C M : _,
  good_step true [[1; 2]] tri_regs [] mass_step /\
  prepare (K := ZRng) true 3 [[1; 2]] tri_regs [] [] = Ok g /\ assemble_all g [mass_step] = Ok g' /\
  g_CM g' = Some (C, M) /\
  sum_matrix (g_num g) [[1; 2]] (st_cs mass_step) TM 1 2 = 1%Z /\ gvalue M 1 2 = Ok 0%Z /\
  sum_matrix (g_num g) [[1; 2]] (st_cs mass_step) TC 1 2 = 0%Z /\ gvalue C 1 2 = Ok 1%Z.
Proof.
  eexists _, _, _, _. split.
  - split; [apply contribs_check; [reflexivity|]; repeat constructor|].
    split; [repeat constructor|]. split; [intros _; apply contribs_check; [reflexivity|]; repeat constructor|].
    split; [repeat constructor; discriminate|repeat constructor].
  - split; [vm_compute; reflexivity|]. split; [vm_compute; reflexivity|]. split; [vm_compute; reflexivity|].
    repeat split; vm_compute; reflexivity.
Qed.
Print Assumptions C22_mass_refuted.

(* ---------------- C23 ---------------- *)
(* Full statement: every equation e with nConstrained < e <= g_size g has a diagonal position.
   Exactly the DoFs of elements and of nodes belonging to an element have one. *)
Theorem C23_diagonal_partial :
  forall (K : Rng) transient nn mesh regs fixes (mpcs : list (mpc K)),
  good_problem nn mesh regs fixes mpcs -> capacity_ok nn mesh regs fixes mpcs ->
  exists g, prepare transient nn mesh regs fixes mpcs = Ok g /\
    (forall x v, In x (reg_keys regs) ->
       (share_element mesh x x -> exists B, b_addValue (g_K g) (eqn (g_num g) x) (eqn (g_num g) x) v = Ok B) /\
       (~ share_element mesh x x -> b_addValue (g_K g) (eqn (g_num g) x) (eqn (g_num g) x) v = Fatal)) /\
    (forall e v, ns_ndofs (g_num g) < e <= g_size g -> b_addValue (g_K g) e e v = Fatal).
Proof. exact diagonal_exact. Qed.
Print Assumptions C23_diagonal_partial.
Theorem C23_diagonal_refuted : exists g : gst ZRng,
  prepare false 4 ex_mesh ex_regs ex_fixes ex_mpcs = Ok g /\
  (* the multiplier of the MPC *)
  ns_ncon (g_num g) < g_size g /\ b_addValue (g_K g) (g_size g) (g_size g) 1%Z = Fatal /\
  (* a free DoF of a node without elements *)
  ns_ncon (g_num g) < eqn (g_num g) (KNode, 4, UZ) /\
  b_addValue (g_K g) (eqn (g_num g) (KNode, 4, UZ)) (eqn (g_num g) (KNode, 4, UZ)) 1%Z = Fatal.
Proof. eexists; split; [vm_compute; reflexivity|]. vm_compute. repeat split; auto; lia. Qed.
Print Assumptions C23_diagonal_refuted.
