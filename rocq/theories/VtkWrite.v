(* The written tokens are the encoding of the expected file. *)
From Coq Require Import String NArith.
From Verif Require Import Base BaseProofs SparseModel SparseProofs DofModel SpecDof DofProofs NumberingProofs AsmModel SpecAsm SolveModel SpecSolve ReactModel SpecReact ReactProofs VtkModel SpecVtk VtkProofs.
Local Open Scope nat_scope.
Local Open Scope list_scope.

Lemma omap_ok {A B} (f : A -> outcome B) (g : A -> B) l : (forall x, In x l -> f x = Ok (g x)) -> omap f l = Ok (map g l).
Proof.
  induction l as [|a l IH]; intros H; cbn [omap map]; [reflexivity|]. rewrite H by now left. cbn [obind]. rewrite IH; [reflexivity|].
  intros x Hx. apply H. now right.
Qed.
Lemma map_nth_seq1 {A} (l : list A) d : map (fun i => nth (i - 1) l d) (seq 1 (List.length l)) = l.
Proof.
  rewrite <- seq_shift, map_map. erewrite map_ext; [apply map_nth_seq|]. intros i. cbn. now rewrite Nat.sub_0_r.
Qed.
Lemma aget_ok {A} (l : list A) i d : i < List.length l -> aget l i = Ok (nth i l d).
Proof. intros H. unfold aget. destruct (nth_error l i) eqn:E; [|apply nth_error_None in E; lia]. now rewrite (nth_error_nth _ _ d E). Qed.
Lemma concat_map_flat {A B} (f : A -> list B) l : concat (map f l) = flat_map f l.
Proof. now rewrite flat_map_concat_map. Qed.

Lemma flat_map_map {A B C} (f : B -> list C) (g : A -> B) l : flat_map f (map g l) = flat_map (fun x => f (g x)) l.
Proof. induction l as [|a l IH]; cbn; [reflexivity|]. now rewrite IH. Qed.
Lemma flat_map_flat {A B C} (f : B -> list C) (g : A -> list B) l : flat_map f (flat_map g l) = flat_map (fun x => flat_map f (g x)) l.
Proof. induction l as [|a l IH]; cbn; [reflexivity|]. now rewrite flat_map_app, IH. Qed.

(* ---- tables of DoFs of nodes and elements ---- *)
Section Ready.
  Context {nn ne : nat} {m : list nat} {regs : list reg} {newm : list nat} {fixes : list key} {s : numst}.
  Hypothesis RD : ready nn ne m regs newm fixes s.
  Lemma used_k k n t : 1 <= n <= entities nn ne k ->
    isDofUsed (table s k) n t = Ok (if in_dec key_dec (k, n, t) (reg_keys regs) then true else false).
  Proof.
    intros Hn. destruct (ready_numbered RD) as (E & N & I). destruct I as [SR Hnn Hne _ _ _ RG _ _ _].
    assert (R : rep (table s k) (segs_of E N k) /\ List.length (segs_of E N k) = entities nn ne k).
    { destruct SR as (Re & R & Le & L). destruct k; cbn; split; auto; congruence. }
    destruct R as [R L]. set (G := segs_of E N k) in *.
    assert (Hl : 1 <= n <= List.length G) by lia.
    unfold isDofUsed. rewrite (segment_ok _ G n R) by lia. cbn [obind fst snd].
    pose proof (RG k n t Hn) as GG. unfold klook, look in GG. fold G in GG. rewrite <- reg_keys_in in GG.
    pose proof (find_pos_find t (DofProofs.seg G n)) as F.
    destruct R as (_ & Hd & _). rewrite Hd, (search_spec G n t) by lia. cbn [obind].
    destruct (psum G (n - 1) =? psum G n) eqn:Z.
    - apply Nat.eqb_eq in Z. rewrite (psum_seg G n) in Z by lia. assert (List.length (DofProofs.seg G n) = 0) by lia.
      destruct (DofProofs.seg G n); [|discriminate]. destruct (in_dec _ _ _) as [i|i]; auto. apply GG in i. now cbn in i.
    - destruct (find_pos t (DofProofs.seg G n)) as [q|]; cbn [option_map].
      + destruct F as (d & A & _). destruct (in_dec _ _ _) as [i|i]; auto. destruct i. apply GG. congruence.
      + destruct (in_dec _ _ _) as [i|i]; auto. apply GG in i. congruence.
  Qed.
  Lemma eq_k k n t : 1 <= n <= entities nn ne k -> In (k, n, t) (reg_keys regs) ->
    exists e, dof_eq s k n t = Ok e /\ eqn s (k, n, t) = e /\ 1 <= e <= ns_ndofs s.
  Proof.
    intros Hn i. destruct (ready_numbered RD) as (E & N & I). pose proof I as I0. destruct I as [R Hnn Hne ND _ _ RG CN _ _].
    apply reg_keys_in, (RG k n t Hn) in i.
    destruct (klook E N (k, n, t)) as [d|] eqn:Q; [|congruence].
    destruct (CN k n t d Hn Q) as (_ & CF & _). rewrite <- ND in CF.
    exists (d_eq d). assert (X : dof_eq s k n t = Ok (d_eq d)).
    { apply (dof_eq_look s E N); auto. rewrite Hnn, Hne. exact Hn. }
    split; auto. split; auto. unfold eqn. cbn [key_eq]. now rewrite X.
  Qed.
  Lemma entities_k k : dc_n (table s k) = entities nn ne k.
  Proof.
    destruct (ready_numbered RD) as (E & N & I). destruct I as [SR Hnn Hne _ _ _ _ _ _ _].
    destruct SR as ((Re & _) & (R & _) & Le & L). destruct k; cbn [table entities]; congruence.
  Qed.

  (* uniqueDofTypes *)
  Lemma put_unique c i d c' : put_dof c i d = Ok c' -> dc_unique c' = dc_unique c.
  Proof. unfold put_dof. intros H. destruct (aset _ _ _); cbn in H; try discriminate. now injection H as <-. Qed.
  Lemma con_unique a k n t b : setConstrained a k n t = Ok b -> forall k', dc_unique (table b k') = dc_unique (table a k').
  Proof.
    unfold setConstrained. intros H. destruct (getDof _ _ _) as [o| | |]; cbn in H; try discriminate. destruct o as [i|]; [|discriminate].
    destruct (aget _ _) as [d| | |]; cbn in H; try discriminate. destruct (d_con d); [now injection H as <-|].
    destruct (put_dof _ _ _) as [c| | |] eqn:P; cbn in H; try discriminate. apply put_unique in P. injection H as <-.
    intros k'. destruct k, k'; cbn in *; auto.
  Qed.
  Lemma cons_unique l : forall a b, ofold (fun s f => match f with (k, n, t) => setConstrained s k n t end) l a = Ok b ->
    forall k, dc_unique (table b k) = dc_unique (table a k).
  Proof.
    induction l as [|[[k n] t] l IH]; intros a b H k'; cbn [ofold] in H; [now injection H as <-|].
    destruct (setConstrained a k n t) as [c| | |] eqn:C; cbn in H; try discriminate. rewrite (IH _ _ H k'). eapply con_unique; eauto.
  Qed.
  Lemma assign_unique l : forall st st', ofold assign_step l st = Ok st' -> dc_unique (fst st') = dc_unique (fst st).
  Proof.
    induction l as [|[n t] l IH]; intros st st' H; cbn [ofold] in H; [now injection H as <-|].
    destruct (assign_step st (n, t)) as [x| | |] eqn:A; cbn in H; try discriminate. rewrite (IH _ _ H). clear IH H.
    destruct st as [c [nc ns]]. unfold assign_step in A. cbn [fst snd] in A. destruct (getDof c n t) as [o| | |]; cbn in A; try discriminate.
    destruct o as [i|]; [|now injection A as <-]. destruct (aget _ _) as [d| | |]; cbn in A; try discriminate.
    destruct (d_con d); destruct (put_dof _ _ _) as [c'| | |] eqn:P; cbn in A; try discriminate; injection A as <-; cbn; now apply put_unique in P.
  Qed.
  Lemma add_incr c n ts c' : addDof c n ts = Ok c' -> incr (dc_unique c) -> incr (dc_unique c').
  Proof.
    unfold addDof. intros H I. destruct (segment c n) as [pq| | |]; cbn in H; try discriminate.
    destruct (new_types _ _ _ _) as [l| | |]; cbn in H; try discriminate. destruct l; injection H as <-; auto. cbn. now apply fold_set_incr.
  Qed.
  Lemma adds_incr l : forall c c', ofold (fun c x => addDof c (fst x) (snd x)) l c = Ok c' -> incr (dc_unique c) -> incr (dc_unique c').
  Proof.
    induction l as [|x l IH]; intros c c' H I; cbn [ofold] in H; [now injection H as <-|].
    destruct (addDof c (fst x) (snd x)) eqn:A; cbn in H; try discriminate. eapply IH; eauto. eapply add_incr; eauto.
  Qed.
  Lemma unique_k k : incr (dc_unique (table s k)) /\ (forall t, In t (dc_unique (table s k)) <-> exists n, In (k, n, t) (reg_keys regs)).
  Proof.
    destruct RD as [G _ _ _ RUN]. unfold init_sequence in RUN.
    destruct (initDofs _ _ _) as [s1| | |] eqn:I1; cbn [obind] in RUN; try discriminate.
    match type of RUN with context [ofold ?f fixes s1] => destruct (ofold f fixes s1) as [s2| | |] eqn:I2 end; cbn [obind] in RUN; try discriminate.
    assert (U : dc_unique (table s k) = dc_unique (table s1 k)).
    { rewrite <- (cons_unique _ _ _ I2 k). unfold assignEquationNumbers, checking in RUN. destruct (negb _); [|discriminate].
      destruct (ofold assign_step (dof_loop (ns_els s2)) _) as [r1| | |] eqn:A1; cbn [obind] in RUN; try discriminate.
      destruct (ofold assign_step (dof_loop (ns_nodes s2)) _) as [r2| | |] eqn:A2; cbn [obind] in RUN; try discriminate.
      unfold asserting in RUN. destruct (_ =? _); [|discriminate]. destruct (_ =? _); [|discriminate].
      destruct (number_mpcs _ _) as [mm| | |]; cbn [obind] in RUN; try discriminate. destruct (_ =? _); [|discriminate]. injection RUN as <-.
      apply assign_unique in A1, A2. destruct k; cbn in *; auto. }
    rewrite U. clear U I2 RUN. unfold initDofs in I1. destruct (_ && _); [discriminate|].
    set (s0 := mkNumst _ _ (initDofTable _) (initDofTable _) _ _ _ _) in I1.
    destruct (ofold register regs s0) as [r| | |] eqn:R; cbn [obind] in I1; try discriminate.
    unfold checking in I1. destruct (negb _); [|discriminate]. injection I1 as <-.
    assert (Q : table r k = table (mkNumst (ns_nodes r) (ns_els r) (ns_node r) (ns_el r) (dc_used (ns_el r) + dc_used (ns_node r)) (ns_ncon r) (ns_nunk r) (ns_mpc r ++ map (fun k => (k, 0)) newm)) k)
      by (destruct k; reflexivity). rewrite <- Q. clear Q.
    assert (GC : forall k, forall x, In x (calls_of k regs) -> 1 <= fst x <= entities nn ne k).
    { intros k' [n ts] Hx. apply calls_of_in in Hx. rewrite Forall_forall in G. apply (G _ Hx). }
    destruct (register_fold regs s0) as [F|(e & F & NO)]; [|exfalso; apply (NO r); congruence].
    rewrite R in F. cbn [s0 ns_el ns_node fresh_storage ns_nodes ns_els] in F.
    destruct (fill_ok' ne (calls_of KEl regs) (GC KEl)) as (ce & Se & Fe & _ & _ & _ & Ue).
    destruct (fill_ok' nn (calls_of KNode regs) (GC KNode)) as (cn & Sn & Fn & _ & _ & _ & Un).
    unfold fill_table in Fe, Fn. unfold entities in *.
    rewrite Fe in F. cbn [obind] in F. rewrite Fn in F. cbn [obind] in F. injection F as ->.
    destruct k; cbn [table ns_el ns_node].
    - split. { eapply adds_incr; [exact Fe|constructor]. } intros t. rewrite Ue. split; intros (n & H); exists n.
      + apply reg_keys_in. now apply calls_of_registered.
      + apply calls_of_registered. now apply reg_keys_in.
    - split. { eapply adds_incr; [exact Fn|constructor]. } intros t. rewrite Un. split; intros (n & H); exists n.
      + apply reg_keys_in. now apply calls_of_registered.
      + apply calls_of_registered. now apply reg_keys_in.
  Qed.
  Lemma types_range k n t : In (k, n, t) (reg_keys regs) -> t < n_dof_types.
  Proof.
    intros H. apply reg_keys_in in H. destruct H as (ts & H & T). pose proof (rd_regs _ _ _ _ _ _ _ RD) as G. rewrite Forall_forall in G.
    apply G in H. destruct H as [_ H]. rewrite Forall_forall in H. auto.
  Qed.
End Ready.

(* ---- increasing lists are determined by their members ---- *)
Lemma incr_ext l : incr l -> forall l', incr l' -> (forall x, In x l <-> In x l') -> l = l'.
Proof.
  induction 1 as [|x l A I IH]; intros l' I' E.
  - destruct l' as [|y l']; auto. exfalso. apply (E y). now left.
  - destruct I' as [|y l' A' I']; [exfalso; apply (E x); now left|].
    assert (x = y).
    { destruct (proj1 (E x) (or_introl eq_refl)) as [|H]; auto. destruct (proj2 (E y) (or_introl eq_refl)) as [|H']; auto.
      apply A' in H. apply A in H'. lia. }
    subst y. f_equal. apply IH; auto. intros z. split; intros Hz.
    + destruct (proj1 (E z) (or_intror Hz)); auto. subst. apply A in Hz. lia.
    + destruct (proj2 (E z) (or_intror Hz)); auto. subst. apply A' in Hz. lia.
Qed.
Lemma seq_incr a n : incr (seq a n).
Proof. revert a. induction n as [|n IH]; intros a; cbn; constructor; auto. intros y Hy. apply in_seq in Hy. lia. Qed.
Lemma filter_incr f l : incr l -> incr (filter f l).
Proof.
  induction 1 as [|x l A I IH]; cbn; [constructor|]. destruct (f x); auto. constructor; auto. intros y Hy. apply filter_In in Hy. now apply A.
Qed.
Lemma insert_in l s x : In x (insert_all l s) <-> In x l \/ In x s.
Proof. apply fold_set_in. Qed.
Lemma insert_incr l s : incr s -> incr (insert_all l s).
Proof. apply fold_set_incr. Qed.
Lemma uses_spec regs k t : uses regs k t = true <-> exists n, In (k, n, t) (reg_keys regs).
Proof.
  unfold uses. rewrite existsb_exists. split.
  - intros ([[k' n] t'] & H & E). apply andb_prop in E. destruct E as [E1 E2]. destruct (kind_dec k k'); [|discriminate]. apply Nat.eqb_eq in E2. subst. eauto.
  - intros (n & H). eexists. split; [exact H|]. cbn. destruct (kind_dec k k); [|congruence]. apply Nat.eqb_refl.
Qed.

Section Write.
  Variable K : Num.
  Variable pr : K -> K.
  Local Notation toks := (list (vtok K)).
  Definition el_weak (nn : nat) (e : vel K) : Prop :=
    ve_shape K e < 14 /\ List.length (ve_nodes K e) = nth (ve_shape K e) shape_nnodes 0 /\
    Forall (fun n => (1 <= n <= N.of_nat nn)%N) (ve_nodes K e).
  Lemma el_ok_weak n e : el_ok K n e -> el_weak n e.
  Proof. intros (A & B). split; auto. lia. Qed.
  Lemma nnodes_ok n e : el_weak n e -> nnodes K e = Ok (List.length (ve_nodes K e)).
  Proof. intros (A & B & _). unfold nnodes. rewrite B. apply aget_ok. cbn. lia. Qed.
  Lemma pred32_ok n : (1 <= n < word32)%N -> pred32 n = (n - 1)%N.
  Proof.
    intros H. unfold pred32, word32 in *. replace (n + (2 ^ 32 - 1))%N with ((n - 1) + 1 * 2 ^ 32)%N by lia.
    rewrite N.mod_add by lia. apply N.mod_small. lia.
  Qed.
  Lemma cell_line_ok n e : el_weak n e -> (N.of_nat n < word32)%N -> cell_line K e = Ok (enc_cell K (map (fun i => i - 1)%N (ve_nodes K e))).
  Proof.
    intros E S. unfold cell_line. rewrite (nnodes_ok n e E). cbn [obind]. destruct E as (_ & _ & F). rewrite Forall_forall in F.
    rewrite (omap_ok _ (fun j => I K (nth j (ve_nodes K e) 0%N - 1))).
    - cbn [obind]. unfold enc_cell. rewrite map_length, map_map. do 2 f_equal.
      rewrite <- (map_nth_seq (ve_nodes K e) 0%N) at 2. now rewrite map_map.
    - intros j Hj. apply in_seq in Hj. unfold asserting. replace (j <? _)%nat with true by (symmetry; apply Nat.ltb_lt; lia).
      rewrite (aget_ok _ _ 0%N) by lia. cbn [obind]. rewrite pred32_ok; auto.
      pose proof (F (nth j (ve_nodes K e) 0%N)) as H. specialize (H ltac:(apply nth_In; lia)). lia.
  Qed.
  Lemma size_ok n els : Forall (el_weak n) els -> forall a, (a + total_size K els < word32)%N ->
    ofold (fun a e => k <- nnodes K e ;; Ok ((a + N.of_nat (k + 1)) mod word32)%N) els a = Ok (a + total_size K els)%N.
  Proof.
    induction 1 as [|e els E F IH]; intros a S; cbn [ofold].
    - unfold total_size, cells_size. cbn. f_equal. lia.
    - rewrite (nnodes_ok n e E). cbn [obind]. unfold total_size, cells_size in *. cbn [map fold_right] in *.
      rewrite N.mod_small by lia. rewrite IH by lia. f_equal. lia.
  Qed.
  Definition codes (els : list (vel K)) : list N := flat_map (fun e => match cell_code (ve_shape K e) with Some c => [c] | None => [] end) els.
  Lemma geometry_ok s : Forall (el_weak (nn K s)) (vs_elems K s) -> (N.of_nat (nn K s) < word32)%N -> (total_size K (vs_elems K s) < word32)%N ->
    write_geometry K pr s = Ok
      ([W K "POINTS"; I K (N.of_nat (List.length (want_points K pr s))); W K "float"] ++ flat_map (enc3 K) (want_points K pr s) ++
       [W K "CELLS"; I K (N.of_nat (List.length (want_cells K s))); I K (cells_size (want_cells K s))] ++ flat_map (enc_cell K) (want_cells K s) ++
       [W K "CELL_TYPES"; I K (N.of_nat (List.length (want_cells K s)))] ++ map (I K) (codes (vs_elems K s))).
  Proof.
    intros E S T. unfold write_geometry.
    rewrite (omap_ok _ (fun i => pr3 K pr (nth (i - 1) (vs_pos K s) (zero3 K)))).
    2:{ intros i Hi. apply in_seq in Hi. unfold asserting. replace (_ && _) with true.
        2:{ symmetry. apply andb_true_intro. split; [apply Nat.ltb_lt|apply Nat.leb_le]; lia. }
        rewrite (aget_ok _ _ (zero3 K)) by (unfold nn in *; lia). reflexivity. }
    cbn [obind]. unfold data_size. rewrite (size_ok (nn K s)) by (auto; lia). cbn [obind].
    rewrite (omap_ok _ (fun e => enc_cell K (map (fun i => i - 1)%N (ve_nodes K e)))).
    2:{ intros e He. rewrite Forall_forall in E. eapply cell_line_ok; eauto. }
    cbn [obind]. unfold want_points, want_cells. rewrite !map_length. unfold nn, ne. f_equal. f_equal. f_equal.
    { rewrite <- (map_map (fun i => nth (i - 1) (vs_pos K s) (zero3 K)) (pr3 K pr)), map_nth_seq1, concat_map_flat.
      induction (vs_pos K s) as [|[[a b] c] l IH]; cbn; [reflexivity|]. now rewrite IH. }
    f_equal.
    { do 3 f_equal. f_equal. unfold total_size, cells_size. clear. induction (vs_elems K s) as [|e l IH]; cbn [map fold_right]; [reflexivity|].
      rewrite map_length. lia. }
    f_equal.
    { rewrite concat_map_flat. clear. induction (vs_elems K s) as [|e l IH]; cbn; [reflexivity|]. now rewrite IH. }
    f_equal. rewrite concat_map_flat. unfold codes, type_line. clear. induction (vs_elems K s) as [|e l IH]; cbn [flat_map map]; [reflexivity|].
    rewrite map_app, <- IH. destruct (cell_code _); reflexivity.
  Qed.
  Lemma codes_ok n els : Forall (el_ok K n) els -> codes els = map (fun e => nth (ve_shape K e) [1; 2; 3; 5; 9; 10; 12; 13]%N 0%N) els.
  Proof.
    induction 1 as [|e els (A & _) F IH]; cbn [codes flat_map map]; [reflexivity|]. fold (codes els). rewrite IH.
    destruct (ve_shape K e) as [|[|[|[|[|[|[|[|q]]]]]]]]; try reflexivity. lia.
  Qed.

  Lemma enc_scal name l : write_scalar K pr name l = enc_arr K (Scal K name (map pr l)).
  Proof. unfold write_scalar, enc_arr. now rewrite map_map. Qed.
  Lemma enc_vecs name l : write_vector K pr name l = enc_arr K (Vecs K name (map (map3 K pr) l)).
  Proof. unfold write_vector, enc_arr. f_equal. induction l as [|[[a b] c] l IH]; cbn; [reflexivity|]. now rewrite IH. Qed.
  Definition tens (name : string) (l : list (t6 K)) : list (arr K) :=
    map (fun j => Scal K (name ++ "_" ++ nth j comp_labels "")%string (map pr (map (tcomp K j) l))) (seq 0 6).
  Lemma enc_tens name l : write_tensor K pr name l = flat_map (enc_arr K) (tens name l).
  Proof. unfold write_tensor, tens. cbn [combine seq comp_labels flat_map map fst snd nth]. now rewrite !enc_scal. Qed.

  Section Data.
    Context {m : list nat} {regs : list reg} {newm : list nat} {fixes : list key}.
    Variable s : vstore K.
    Hypothesis RD : ready (nn K s) (ne K s) m regs newm fixes (vs_num K s).
    Hypothesis HU : ns_ndofs (vs_num K s) <= List.length (vs_U K s).
    Hypothesis HR : ns_ndofs (vs_num K s) <= List.length (vs_R K s).
    Lemma value_ok k n t : 1 <= n <= entities (nn K s) (ne K s) k -> value_or_0 K s k n t = Ok (val K regs s (vs_U K s) k t n).
    Proof.
      intros Hn. unfold value_or_0, val.
      assert (E : (match k with KNode => node_used K s n t | KEl => el_used K s n t end) = Ok (if in_dec key_dec (k, n, t) (reg_keys regs) then true else false)).
      { rewrite <- (used_k RD k n t Hn). pose proof (entities_k RD k) as Q. destruct k; unfold node_used, el_used, asserting; cbn [table] in *;
          rewrite Q; (replace (0 <? _)%nat with true by (symmetry; apply Nat.ltb_lt; lia)); reflexivity. }
      rewrite E. cbn [obind]. destruct (in_dec _ _ _) as [i|i]; auto. destruct (eq_k RD k n t Hn i) as (e & E1 & E2 & E3).
      unfold solution, asserting. replace (0 <? _)%nat with true by (symmetry; apply Nat.ltb_lt; lia). rewrite E1. cbn [obind].
      replace (e =? 0) with false by (symmetry; apply Nat.eqb_neq; lia). rewrite (aget_ok _ _ r0) by lia. unfold vget. now rewrite E2.
    Qed.
    Lemma scal_ok k t : omap (fun j => value_or_0 K s k j t) (seq 1 (entities (nn K s) (ne K s) k)) =
      Ok (map (fun n => val K regs s (vs_U K s) k t n) (seq 1 (entities (nn K s) (ne K s) k))).
    Proof. apply omap_ok. intros n Hn. apply in_seq in Hn. apply value_ok. lia. Qed.
    Lemma label_ok t : t < n_dof_types -> dof_label t = Ok (nth t dof_labels ""%string).
    Proof. unfold n_dof_types, dof_label, asserting. intros H. replace (t <? 8) with true by (symmetry; now apply Nat.ltb_lt). apply aget_ok. cbn. lia. Qed.
    Definition vp_dofs (p : vproc) : Prop :=
      vp_disp p = existsb displacement (types_of regs KNode) /\ vp_nd p = filter (fun t => negb (displacement t)) (types_of regs KNode) /\ vp_ed p = types_of regs KEl.
    Lemma types_lt k t : In t (types_of regs k) -> t < n_dof_types.
    Proof. intros H. apply filter_In in H. destruct H as [H _]. apply in_seq in H. lia. Qed.
    Lemma point_data_ok p : vp_dofs p ->
      write_point_data K pr s p = Ok ([W K "POINT_DATA"; I K (N.of_nat (List.length (want_points K pr s)))] ++ flat_map (enc_arr K) (want_pdata K pr regs s)).
    Proof.
      intros (D & ND & _). unfold write_point_data, want_pdata. rewrite D, ND.
      assert (L : omap (fun t => x <- omap (fun j => value_or_0 K s KNode j t) (seq 1 (nn K s)) ;; n <- dof_label t ;; Ok (write_scalar K pr n x))
          (filter (fun t => negb (displacement t)) (types_of regs KNode)) =
        Ok (map (fun t => enc_arr K (Scal K (nth t dof_labels ""%string) (map (fun n => pr (val K regs s (vs_U K s) KNode t n)) (seq 1 (nn K s)))))
          (filter (fun t => negb (displacement t)) (types_of regs KNode)))).
      { apply omap_ok. intros t Ht. apply filter_In in Ht. destruct Ht as [Ht _]. apply types_lt in Ht.
        rewrite (scal_ok KNode). cbn [obind entities]. rewrite label_ok by auto. cbn [obind]. now rewrite enc_scal, map_map. }
      replace (List.length (want_points K pr s)) with (nn K s) by (unfold want_points; now rewrite map_length).
      destruct (existsb displacement _).
      - rewrite (omap_ok _ (fun n => disp_of K regs s (vs_U K s) n)).
        2:{ intros n Hn. apply in_seq in Hn. rewrite !value_ok by (cbn; lia). reflexivity. }
        cbn [obind]. rewrite (omap_ok _ (fun n => disp_of K regs s (vs_R K s) n)).
        2:{ intros n Hn. apply in_seq in Hn. rewrite !(getReaction_spec RD) by (auto; lia). reflexivity. }
        cbn [obind]. rewrite L. cbn [obind]. rewrite concat_map_flat, !enc_vecs, !map_map.
        rewrite flat_map_app, <- app_assoc. cbn [flat_map]. rewrite app_nil_r, <- !app_assoc, !flat_map_concat_map, map_map. reflexivity.
      - cbn [obind]. rewrite L. cbn [obind]. rewrite !flat_map_concat_map, !concat_map_flat. cbn [app]. rewrite !flat_map_concat_map, map_map. reflexivity.
    Qed.
    Lemma cell_data_ok p : vp_dofs p -> Forall (fun q => q < s_last) (vp_sq p) -> Forall (fun q => q < v_last) (vp_vq p) -> Forall (fun q => q < t_last) (vp_tq p) ->
      write_cell_data K pr s p = Ok (if no_cell_data p then [] else
        [W K "CELL_DATA"; I K (N.of_nat (List.length (want_cells K s)))] ++ flat_map (enc_arr K) (want_cdata K pr regs (vp_sq p) (vp_vq p) (vp_tq p) s)).
    Proof.
      intros (_ & _ & ED) QS QV QT. unfold write_cell_data. destruct (no_cell_data p); [reflexivity|]. rewrite ED.
      replace (List.length (want_cells K s)) with (ne K s) by (unfold want_cells; now rewrite map_length).
      rewrite (omap_ok _ (fun t => enc_arr K (Scal K (nth t dof_labels ""%string) (map (fun n => pr (val K regs s (vs_U K s) KEl t n)) (seq 1 (ne K s)))))).
      2:{ intros t Ht. apply types_lt in Ht. rewrite (scal_ok KEl). cbn [obind entities]. rewrite label_ok by auto. cbn [obind]. now rewrite enc_scal, map_map. }
      cbn [obind]. rewrite Forall_forall in QS, QV, QT.
      rewrite (omap_ok _ (fun q => enc_arr K (Scal K (nth q s_labels ""%string) (map (fun e => pr (fst (ve_scalar K e q r0))) (vs_elems K s))))).
      2:{ intros q Hq. apply QS in Hq. unfold query_label, asserting. rewrite (proj2 (Nat.ltb_lt _ _) Hq).
          rewrite (aget_ok _ _ ""%string) by (unfold s_last in Hq; cbn; lia). cbn [obind]. now rewrite enc_scal, map_map. }
      cbn [obind].
      rewrite (omap_ok _ (fun q => enc_arr K (Vecs K (nth q v_labels ""%string) (map (fun e => map3 K pr (fst (ve_vector K e q (zero3 K)))) (vs_elems K s))))).
      2:{ intros q Hq. apply QV in Hq. unfold query_label, asserting. rewrite (proj2 (Nat.ltb_lt _ _) Hq).
          rewrite (aget_ok _ _ ""%string) by (unfold v_last in Hq; cbn; lia). cbn [obind]. now rewrite enc_vecs, map_map. }
      cbn [obind].
      rewrite (omap_ok _ (fun q => flat_map (enc_arr K) (map (fun j => Scal K (nth q t_labels "" ++ "_" ++ nth j comp_labels "")%string
                                       (map (fun e => pr (tcomp K j (fst (ve_tensor K e q (zero6 K))))) (vs_elems K s))) (seq 0 6)))).
      2:{ intros q Hq. apply QT in Hq. unfold query_label, asserting. rewrite (proj2 (Nat.ltb_lt _ _) Hq).
          rewrite (aget_ok _ _ ""%string) by (unfold t_last in Hq; cbn; lia). cbn [obind]. rewrite enc_tens. unfold tens.
          do 2 f_equal. apply map_ext. intros j. now rewrite !map_map. }
      cbn [obind]. unfold want_cdata. now rewrite !flat_map_app, !concat_map_flat, !flat_map_map, flat_map_flat.
    Qed.

    (* the whole file *)
    Hypothesis EW : Forall (el_weak (nn K s)) (vs_elems K s).
    Hypothesis S1 : (N.of_nat (nn K s) < word32)%N.
    Hypothesis S2 : (total_size K (vs_elems K s) < word32)%N.
    Lemma write_ok p : vp_dofs p -> Forall (fun q => q < s_last) (vp_sq p) -> Forall (fun q => q < v_last) (vp_vq p) -> Forall (fun q => q < t_last) (vp_tq p) ->
      write_file K pr s p = Ok (enc_file K (mkVfile K (want_points K pr s) (want_cells K s) (codes (vs_elems K s)) (want_pdata K pr regs s)
                                 (want_cdata K pr regs (vp_sq p) (vp_vq p) (vp_tq p) s)) (cells_size (want_cells K s)) (negb (no_cell_data p))).
    Proof.
      intros VD QS QV QT. unfold write_file. rewrite geometry_ok by auto. cbn [obind]. rewrite point_data_ok by auto. cbn [obind].
      rewrite cell_data_ok by auto. cbn [obind]. unfold enc_file. cbn [f_points f_cells f_types f_pdata f_cdata].
      rewrite <- !app_assoc. destruct (no_cell_data p); reflexivity.
    Qed.
    Lemma sound_ok qs qv qt : Forall (el_ok K (nn K s)) (vs_elems K s) ->
      sound K (mkVfile K (want_points K pr s) (want_cells K s) (want_types K s) (want_pdata K pr regs s) (want_cdata K pr regs qs qv qt s)).
    Proof.
      intros EO. unfold sound. cbn [f_points f_cells f_types f_pdata f_cdata]. unfold want_points, want_cells, want_types. rewrite !map_length. split; [reflexivity|].
      rewrite Forall_forall in EO. split; [|split; [|split]].
      - apply Forall_forall. intros c Hc. apply in_map_iff in Hc. destruct Hc as (e & <- & He). apply EO in He. destruct He as (_ & _ & He).
        apply Forall_forall. intros i Hi. apply in_map_iff in Hi. destruct Hi as (n & <- & Hi). rewrite Forall_forall in He. apply He in Hi. unfold nn in Hi. lia.
      - clear EW S2. apply Forall_forall. intros ct. revert EO. generalize (vs_elems K s). intros l EO. induction l as [|e l IH]; cbn [map combine]; [easy|].
        intros [<-|H]; [|apply IH; auto; intros x Hx; apply EO; now right]. cbn [fst snd]. rewrite map_length.
        destruct (EO e (or_introl eq_refl)) as (A & B & _). rewrite B. clear -A. destruct (ve_shape K e) as [|[|[|[|[|[|[|[|q]]]]]]]]; try reflexivity. lia.
      - unfold want_pdata. apply Forall_app. split.
        + destruct (existsb _ _); repeat constructor; cbn; now rewrite map_length, seq_length.
        + apply Forall_forall. intros a Ha. apply in_map_iff in Ha. destruct Ha as (t & <- & _). cbn. now rewrite map_length, seq_length.
      - unfold want_cdata. rewrite !Forall_app. repeat split; apply Forall_forall; intros a Ha.
        + apply in_map_iff in Ha. destruct Ha as (t & <- & _). cbn. now rewrite map_length, seq_length.
        + apply in_map_iff in Ha. destruct Ha as (t & <- & _). cbn. now rewrite map_length.
        + apply in_map_iff in Ha. destruct Ha as (t & <- & _). cbn. now rewrite map_length.
        + apply in_flat_map in Ha. destruct Ha as (q & _ & Ha). apply in_map_iff in Ha. destruct Ha as (t & <- & _). cbn. now rewrite map_length.
    Qed.
    Lemma no_cd_ok p : vp_dofs p -> negb (no_cell_data p) = false -> want_cdata K pr regs (vp_sq p) (vp_vq p) (vp_tq p) s = [].
    Proof.
      intros (_ & _ & E) H. unfold no_cell_data in H. rewrite E in H. unfold want_cdata. 
      destruct (vp_sq p), (vp_vq p), (vp_tq p), (types_of regs KEl); try discriminate. reflexivity.
    Qed.
  End Data.
End Write.
