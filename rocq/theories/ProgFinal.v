(* Proofs about the program: the problem handed to the solver, the report, the status *)
From Coq Require Import String Ascii Reals Lra.
From Verif Require Import Base ReaderModel SpecReader ReaderProofs ReaderNum ReaderMesh DofModel ReactModel ProgModel SpecProg ProgProofs ProgCurve.
Local Open Scope list_scope.
Local Open Scope nat_scope.

Lemma pbind_go {A B} (x : run A) (f : A -> run B) b : pbind x f = go b -> exists a, x = go a /\ f a = go b.
Proof. destruct x as [[a|st]| | |]; cbn; intros H; try discriminate. exists a. auto. Qed.
Lemma lift_go {A} (x : outcome A) a : lift x = go a -> x = Ok a.
Proof. destruct x; cbn; intros H; try discriminate. injection H as ->. reflexivity. Qed.

Lemma same_types {T} (g1 g2 : cell -> T) f : forall a b, map (fun c => (g1 c, ce_type c, g2 c)) b = map (fun c => (g1 c, ce_type c, g2 c)) a ->
  map ce_nodes b = map (map f) (map ce_nodes a) ->
  map ce_nodes (filter (fun c => Z.eqb (ce_type c) 1) b) = map (map f) (map ce_nodes (filter (fun c => Z.eqb (ce_type c) 1) a)).
Proof.
  induction a as [|x a IH]; intros [|y b] E F; try discriminate; [reflexivity|].
  cbn [map] in *. injection E as _ E2 _ E4. injection F as F1 F2. cbn [filter]. rewrite E2.
  destruct (Z.eqb (ce_type x) 1); cbn [map]; [rewrite F1|]; rewrite (IH b E4 F2); reflexivity.
Qed.
Lemma same_comp f name : forall a b : list (str * comp),
  map (fun p => (fst p, cp_type (snd p), length (cp_list (snd p)), if cp_type (snd p) =? comp_NODES then [] else cp_list (snd p))) b =
  map (fun p => (fst p, cp_type (snd p), length (cp_list (snd p)), if cp_type (snd p) =? comp_NODES then [] else cp_list (snd p))) a ->
  map (fun p => cp_list (snd p)) (filter (fun p => cp_type (snd p) =? comp_NODES) b) =
  map (map f) (map (fun p => cp_list (snd p)) (filter (fun p => cp_type (snd p) =? comp_NODES) a)) ->
  cp_type (find_comp b name) = cp_type (find_comp a name) /\
  (cp_type (find_comp a name) = comp_NODES -> cp_list (find_comp b name) = map f (cp_list (find_comp a name))).
Proof.
  induction a as [|[n c] a IH]; intros [|[m d] b] E F; try discriminate; [split; [reflexivity|discriminate]|].
  cbn [map fst snd] in E. injection E as E1 E2 E3 E4 E5. subst m. cbn [filter snd] in F. rewrite E2 in F. cbn [find_comp].
  destruct (cp_type c =? comp_NODES) eqn:T.
  - cbn [map snd] in F. injection F as F1 F2. destruct (str_eqb n name); [auto|]. apply IH; assumption.
  - destruct (str_eqb n name); [|apply IH; assumption]. split; [exact E2|]. intros X. rewrite X in T. discriminate.
Qed.

Section F.
  Variable D : Dbl.
  (* the cells that become elements; the nodes of a component *)
  Definition cells1 (m : mesh D) : list (list Z) := map ce_nodes (filter (fun c => Z.eqb (ce_type c) 1) (md_cells D m)).
  Definition comp_nodes (m : mesh D) (name : str) : list Z := cp_list (find_comp (md_comps D m) name).

  Lemma cells_fold t l : forall acc r, ofold (fun l c => asserting (length (ce_nodes c) =? elem_nodes t) (Ok (l ++ [ce_nodes c]))) l acc = Ok r ->
    r = acc ++ map ce_nodes l /\ Forall (fun c => length (ce_nodes c) = elem_nodes t) l.
  Proof.
    induction l as [|c l IH]; intros acc r; cbn [ofold map].
    - intros H. injection H as <-. rewrite app_nil_r. auto.
    - unfold asserting at 1. destruct (Nat.eqb_spec (length (ce_nodes c)) (elem_nodes t)) as [E|]; [|discriminate]. cbn [obind].
      intros H. destruct (IH _ _ H) as [-> F]. rewrite <- app_assoc. auto.
  Qed.
  Lemma consts_fold (cs : list D) l : forall acc r, ofold (fun vs i => v <- aget cs i ;; Ok (vs ++ [v])) l acc = Ok r ->
    exists q, r = acc ++ q /\ map Some q = map (nth_error cs) l.
  Proof.
    induction l as [|i l IH]; intros acc r; cbn [ofold map].
    - intros H. injection H as <-. exists []. rewrite app_nil_r. auto.
    - unfold aget. destruct (nth_error cs i) as [v|] eqn:E; [|discriminate]. cbn [obind]. intros H.
      destruct (IH _ _ H) as (q & -> & F). exists (v :: q). rewrite <- app_assoc. cbn [map]. rewrite F. auto.
  Qed.
  Lemma nth_seq {A} (cs : list A) n : n <= length cs -> map Some (firstn n cs) = map (nth_error cs) (seq 0 n).
  Proof.
    revert n. induction cs as [|c cs IH]; intros [|n] H; try reflexivity; [cbn in H; lia|].
    cbn [firstn map seq nth_error]. f_equal. rewrite IH by (cbn in H; lia). rewrite <- seq_shift, map_map. reflexivity.
  Qed.
  Lemma map_Some_inj {A} (l q : list A) : map Some l = map Some q -> l = q.
  Proof. revert q; induction l as [|x l IH]; intros [|y q] H; try discriminate; [reflexivity|]. injection H as -> H. f_equal. auto. Qed.
  Lemma consts_enough (cs : list D) n : n <= length cs ->
    ofold (fun vs i => v <- aget cs i ;; Ok (vs ++ [v])) (seq 0 n) [] = Ok (firstn n cs).
  Proof.
    intros H.
    assert (G : forall l acc, (forall i, In i l -> i < length cs) -> exists r, ofold (fun vs i => v <- aget cs i ;; Ok (vs ++ [v])) l acc = Ok r).
    { induction l as [|i l IH]; intros acc B; [eexists; reflexivity|]. cbn [ofold]. unfold aget at 1.
      destruct (nth_error cs i) as [v|] eqn:E; [|apply nth_error_None in E; specialize (B i (or_introl eq_refl)); lia].
      cbn [obind]. apply IH. intros j J. apply B. right. exact J. }
    destruct (G (seq 0 n) []) as [r E]; [intros i I; apply in_seq in I; lia|]. rewrite E. f_equal.
    destruct (consts_fold _ _ _ _ E) as (q & -> & F). apply map_Some_inj. cbn [app]. rewrite F, nth_seq by exact H. reflexivity.
  Qed.
  Lemma consts_few (cs : list D) n : length cs < n -> ofold (fun vs i => v <- aget cs i ;; Ok (vs ++ [v])) (seq 0 n) [] = UB.
  Proof.
    intros H. replace n with (length cs + S (n - length cs - 1)) by lia. rewrite seq_app.
    assert (G : forall l l2 acc, (forall i, In i l -> i < length cs) ->
      exists a2, ofold (fun vs i => v <- aget cs i ;; Ok (vs ++ [v])) (l ++ l2) acc = ofold (fun vs i => v <- aget cs i ;; Ok (vs ++ [v])) l2 a2).
    { induction l as [|i l IH]; intros l2 acc B; [eexists; reflexivity|]. cbn [app ofold]. unfold aget at 1.
      destruct (nth_error cs i) as [v|] eqn:E; [|apply nth_error_None in E; specialize (B i (or_introl eq_refl)); lia].
      cbn [obind]. apply IH. intros j J. apply B. right. exact J. }
    destruct (G (seq 0 (length cs)) (seq (0 + length cs) (S (n - length cs - 1))) []) as [a2 E]; [intros i I; apply in_seq in I; lia|].
    rewrite E. change (0 + length cs) with (length cs). cbn [seq ofold]. unfold aget at 1. destruct (nth_error cs (length cs)) as [v|] eqn:X; [|reflexivity].
    assert (nth_error cs (length cs) = None) as Y by (apply nth_error_None; lia). congruence.
  Qed.

  Lemma setup_go o m pb : setup D o m = go pb -> exists md, compressNumbers D m = Ok md /\
    setup_material D (o_mat D o) (o_consts D o) = Ok (pb_mat D pb, pb_consts D pb) /\
    pb_pos D pb = md_pos D md /\ pb_elem D pb = o_elem D o /\ pb_cells D pb = cells1 md /\
    Forall (fun ns => length ns = elem_nodes (o_elem D o)) (pb_cells D pb) /\
    pb_mpcs D pb = md_mpcs D md /\ pb_loads D pb = md_load D md /\ pb_fixes D pb = md_fix D md /\
    pb_iter D pb = o_iter D o /\ pb_steps D pb = o_steps D o /\
    pb_react D pb = (if nonempty (o_comp D o) then Some (comp_nodes md (o_comp D o), o_rdofs D o) else None) /\
    (o_comp D o <> [] -> cp_type (find_comp (md_comps D md) (o_comp D o)) = comp_NODES) /\
    pb_rigid D pb = (if (0 <? o_master D o)%Z && nonempty (o_slaves D o)
                     then Some (o_master D o, comp_nodes md (o_slaves D o), o_bdofs D o) else None) /\
    ((0 < o_master D o)%Z -> o_slaves D o <> [] -> cp_type (find_comp (md_comps D md) (o_slaves D o)) = comp_NODES).
  Proof.
    unfold setup. intros H.
    apply pbind_go in H as (md & E & H). apply lift_go in E. exists md. split; [exact E|]. clear E.
    apply pbind_go in H as ([id vs] & E & H). apply lift_go in E.
    apply pbind_go in H as (cells & C & H). apply lift_go in C.
    apply pbind_go in H as (re & R & H). apply pbind_go in H as (rb & B & H). injection H as <-.
    cbn [pb_pos pb_elem pb_cells pb_mat pb_consts pb_mpcs pb_loads pb_fixes pb_iter pb_steps pb_react pb_rigid fst snd].
    unfold setup_cells in C. destruct (createElements _ _ _) as [u| | |]; [|discriminate..]. cbn [obind] in C.
    apply cells_fold in C as [-> F]. cbn [app].
    split; [exact E|]. do 2 (split; [reflexivity|]). split; [reflexivity|]. split; [apply Forall_map; exact F|].
    do 5 (split; [reflexivity|]).
    assert (NC : forall name ns, node_comp D md name = go ns -> ns = comp_nodes md name /\ cp_type (find_comp (md_comps D md) name) = comp_NODES).
    { intros name ns. unfold node_comp. cbv zeta. destruct (Nat.eqb_spec (cp_type (find_comp (md_comps D md) name)) comp_NODES) as [T|]; [|discriminate].
      intros X. injection X as <-. auto. }
    split; [|split; [|split]].
    - destruct (nonempty (o_comp D o)); [|injection R as <-; reflexivity]. apply pbind_go in R as (ns & N & R). injection R as <-.
      destruct (NC _ _ N) as [-> _]. reflexivity.
    - intros X. destruct (o_comp D o) as [|c l] eqn:Q; [contradiction|]. cbn [nonempty] in R. apply pbind_go in R as (ns & N & R).
      apply (NC _ _ N).
    - destruct (_ && _)%bool; [|injection B as <-; reflexivity]. apply pbind_go in B as (ns & N & B). apply pbind_go in B as (u2 & _ & B). injection B as <-.
      destruct (NC _ _ N) as [-> _]. reflexivity.
    - intros X Y. apply Z.ltb_lt in X. rewrite X in B. destruct (o_slaves D o) as [|c l] eqn:Q; [contradiction|]. cbn [nonempty andb] in B.
      apply pbind_go in B as (ns & N & B). apply (NC _ _ N).
  Qed.

  (* everything but the master node of the rigid body refers to the nodes of the file *)
  Definition numbered (m : mesh D) : Prop :=
    NoDup (md_nodes D m) /\ length (md_nodes D m) = length (md_pos D m) /\ md_nodes D m <> [] /\
    (Z.of_nat (length (md_nodes D m)) <> zmax (md_nodes D m) \/ md_nodes D m = map Z.of_nat (seq 1 (length (md_nodes D m)))).
  Lemma setup_refers o m pb : numbered m -> setup D o m = go pb -> exists f,
    (forall n, In n (md_nodes D m) -> stored_pos D (pb_pos D pb) (f n) = pos_of D (md_nodes D m) (md_pos D m) n) /\
    (forall n n', In n (md_nodes D m) -> In n' (md_nodes D m) -> f n = f n' -> n = n') /\
    pb_cells D pb = map (map f) (cells1 m) /\
    map (bc_node D) (pb_loads D pb) = map f (map (bc_node D) (md_load D m)) /\
    map (fun b => (bc_dof D b, bc_value D b)) (pb_loads D pb) = map (fun b => (bc_dof D b, bc_value D b)) (md_load D m) /\
    map (bc_node D) (pb_fixes D pb) = map f (map (bc_node D) (md_fix D m)) /\
    map (fun b => (bc_dof D b, bc_value D b)) (pb_fixes D pb) = map (fun b => (bc_dof D b, bc_value D b)) (md_fix D m) /\
    map (fun p => map (tm_node D) (mp_eq D p)) (pb_mpcs D pb) = map (map f) (map (fun p => map (tm_node D) (mp_eq D p)) (md_mpcs D m)) /\
    map (fun p => (mp_b D p, map (fun t => (tm_dof D t, tm_coef D t)) (mp_eq D p))) (pb_mpcs D pb) =
    map (fun p => (mp_b D p, map (fun t => (tm_dof D t, tm_coef D t)) (mp_eq D p))) (md_mpcs D m) /\
    (o_comp D o <> [] -> pb_react D pb = Some (map f (comp_nodes m (o_comp D o)), o_rdofs D o)) /\
    ((0 < o_master D o)%Z -> o_slaves D o <> [] ->
       pb_rigid D pb = Some (o_master D o, map f (comp_nodes m (o_slaves D o)), o_bdofs D o)).
  Proof.
    intros (N1 & N2 & N3 & N4) H. destruct (setup_go _ _ _ H) as (md & E & _ & P & _ & C & _ & MP & L & X & _ & _ & R & RT & B & BT).
    destruct (compress_ok D m N1 N2 N3 N4) as (m' & f & E' & MR & (R1 & R2 & R3 & R4 & R5) & _ & Q1 & _ & Q2).
    rewrite E in E'. injection E' as <-. exists f. unfold mesh_rest in MR. injection MR as M1 M2 M3 M4 M5 M6.
    rewrite P, L, X. split; [exact Q1|]. split; [exact Q2|].
    split.
    { rewrite C. unfold cells1, cell_refs in *.
      apply (same_types (fun c => (ce_num c, length (ce_nodes c))) (fun c => (ce_num c, length (ce_nodes c))) f); [|exact R1].
      clear - M2. revert M2. generalize (md_cells D md) (md_cells D m). induction l as [|x l IH]; intros [|y k] M; try discriminate; [reflexivity|].
      cbn [map] in *. injection M as A1 A2 A3 _ _ _ _ _ A9. rewrite A1, A2, A3, (IH _ A9). reflexivity. }
    split; [exact R3|]. split; [exact M4|]. split; [exact R2|]. split; [exact M3|].
    rewrite MP. split; [exact R4|]. split; [exact M5|].
    unfold comp_refs in R5.
    split.
    - intros K. rewrite R. destruct (o_comp D o) as [|c l] eqn:Q; [contradiction|]. rewrite <- Q in *. replace (nonempty (o_comp D o)) with true by (rewrite Q; reflexivity).
      destruct (same_comp f (o_comp D o) _ _ M6 R5) as [S1 S2]. unfold comp_nodes. rewrite S2; [reflexivity|]. rewrite <- S1. apply RT. rewrite Q. discriminate.
    - intros K1 K2. rewrite B. apply Z.ltb_lt in K1 as K3. rewrite K3. destruct (o_slaves D o) as [|c l] eqn:Q; [contradiction|]. rewrite <- Q in *.
      replace (nonempty (o_slaves D o)) with true by (rewrite Q; reflexivity). cbn [andb].
      destruct (same_comp f (o_slaves D o) _ _ M6 R5) as [S1 S2]. unfold comp_nodes. rewrite S2; [reflexivity|]. rewrite <- S1. apply BT; [exact K1|]. rewrite Q. discriminate.
  Qed.

  Lemma compress_runs m : md_nodes D m <> [] -> exists md, compressNumbers D m = Ok md.
  Proof.
    intros N. unfold compressNumbers. destruct (md_nodes D m); [contradiction|]. destruct (Z.eqb _ _); eexists; reflexivity.
  Qed.
  Lemma unknown_material o m : md_nodes D m <> [] -> createMaterial (o_mat D o) = None -> setup D o m = UB.
  Proof.
    intros N C. destruct (compress_runs m N) as (md & E). unfold setup. rewrite E. cbn [lift obind pbind go].
    unfold setup_material. rewrite C. reflexivity.
  Qed.
  Lemma few_constants o m id : md_nodes D m <> [] -> createMaterial (o_mat D o) = Some id -> length (o_consts D o) < mat_numC id -> setup D o m = UB.
  Proof.
    intros N C L. destruct (compress_runs m N) as (md & E). unfold setup. rewrite E. cbn [lift obind pbind go].
    unfold setup_material. rewrite C, consts_few by exact L. reflexivity.
  Qed.
  Lemma given_constants name cs id : createMaterial name = Some id -> mat_numC id <= length cs ->
    setup_material D name cs = Ok (id, firstn (mat_numC id) cs).
  Proof. intros C L. unfold setup_material. rewrite C, consts_enough by exact L. reflexivity. Qed.
  Lemma main_ub fuel w argv o m : parse_args D argv = go o -> o_ref D o = [] -> w_mesh D w (o_model D o) = Ok (Some m) ->
    setup D o m = UB -> main D fuel w argv = UB.
  Proof. intros P R M S. unfold main. rewrite P. cbn [pbind go obind]. rewrite R. cbn [nonempty pbind go obind]. rewrite M. cbn [lift obind go pbind]. rewrite S. reflexivity. Qed.

  (* ---- report *)
  Definition recorded (p : rproc D) (n : nat) : Prop :=
    forall t, In t (rp_dofs p) -> exists l, getReactions p t = Ok (Some l) /\ length l = n.
  Lemma rows_read p n ls : recorded p n -> ls < n ->
    ofold (fun _ t => c <- getReactions p t ;; _ <- aget (match c with Some l => l | None => [] end) ls ;; Ok tt) (rp_dofs p) tt = Ok tt.
  Proof.
    intros R L. unfold recorded in R. induction (rp_dofs p) as [|t l IH]; [reflexivity|].
    cbn [ofold]. destruct (R t (or_introl eq_refl)) as (c & E & Lc). rewrite E. cbn [obind]. unfold aget.
    destruct (nth_error c ls) eqn:X; [|apply nth_error_None in X; lia]. cbn [obind]. apply IH. intros u U. apply R. right. exact U.
  Qed.
  Lemma all_read p n l : recorded p n -> (forall ls, In ls l -> ls < n) ->
    ofold (fun _ ls => ofold (fun _ t => c <- getReactions p t ;; _ <- aget (match c with Some l => l | None => [] end) ls ;; Ok tt) (rp_dofs p) tt) l tt = Ok tt.
  Proof.
    intros R. induction l as [|x l IH]; intros H; [reflexivity|]. cbn [ofold]. rewrite (rows_read p n x R) by (apply H; left; reflexivity).
    cbn [obind]. apply IH. intros y Y. apply H. right. exact Y.
  Qed.
  Lemma report_ok o ref p t ds cur : recorded p (S (Z.to_nat (o_steps D o))) -> rp_dofs p = t :: ds -> getReactions p t = Ok (Some cur) -> ref <> [] ->
    report D o ref p = (e <~ compareCurves D ref cur ;;; if dlt r0 (o_thr D o) then if dlt (o_thr D o) e then stop 1 else go tt else go tt).
  Proof.
    intros R E C N. unfold report. rewrite (all_read p _ _ R) by (intros ls I; apply in_seq in I; lia).
    cbn [lift obind pbind go]. destruct ref as [|v ref]; [contradiction|]. rewrite E. cbn [aget nth_error obind lift pbind go]. rewrite C. cbn [obind lift pbind go]. reflexivity.
  Qed.
  Lemma report_none o p : recorded p (S (Z.to_nat (o_steps D o))) -> report D o [] p = go tt.
  Proof. intros R. unfold report. rewrite (all_read p _ _ R) by (intros ls I; apply in_seq in I; lia). reflexivity. Qed.
End F.

Section V.
  Variables (atof : str -> ext) (get : str -> option ext * str).
  Notation X := (XDbl atof get).
  Definition gtb (a b : R) : bool := if Rlt_dec b a then true else false.
  Lemma verdict_fin o ref p t ds cur thr : recorded X p (S (Z.to_nat (o_steps X o))) -> rp_dofs p = t :: ds ->
    getReactions p t = Ok (Some (map Fin cur)) -> ref <> [] -> o_thr X o = Fin thr ->
    report X o (map Fin ref) p =
      if (length ref =? length cur) && negb (gtb thr 0 && gtb (mean_diff ref cur) thr) then go tt else stop 1.
  Proof.
    intros R E C N T. rewrite (report_ok X o (map Fin ref) p t ds (map Fin cur) R E C) by (destruct ref; [contradiction|discriminate]).
    destruct (Nat.eqb_spec (length ref) (length cur)) as [L|L].
    - rewrite compare_fin by exact L. cbn [pbind go obind]. rewrite T. change (@dlt X) with xlt. change (@r0 X) with (Fin 0). cbn [xlt].
      unfold gtb. destruct (Rlt_dec 0 thr); [|reflexivity]. destruct (Rlt_dec thr (mean_diff ref cur)); reflexivity.
    - unfold compareCurves. rewrite !map_length. destruct (Nat.eqb_spec (length ref) (length cur)); [contradiction|]. reflexivity.
  Qed.
  Lemma verdict_nan o ref p t ds cur : recorded X p (S (Z.to_nat (o_steps X o))) -> rp_dofs p = t :: ds ->
    getReactions p t = Ok (Some cur) -> ref <> [] -> length ref = length cur -> In NaN cur -> report X o ref p = go tt.
  Proof.
    intros R E C N L I. rewrite (report_ok X o ref p t ds cur R E C N). rewrite (compare_nan atof get ref cur L I). cbn [pbind go obind].
    change (@dlt X) with xlt. change (@r0 X) with (Fin 0). destruct (o_thr X o) as [r|[]|]; cbn [xlt]; try reflexivity. destruct (Rlt_dec 0 r); reflexivity.
  Qed.
End V.

(* ---- job names *)
Lemma last_dot_app e b : ~ In "."%char e -> after_last_dot (rev (b ++ "."%char :: e)) = Some (rev b).
Proof.
  intros H. rewrite rev_app_distr. cbn [rev]. rewrite <- app_assoc. cbn [app].
  assert (G : forall l t, ~ In "."%char l -> after_last_dot (l ++ "."%char :: t) = Some t).
  { induction l as [|c l IH]; intros t K; [reflexivity|]. cbn [app after_last_dot].
    destruct (Ascii.eqb_spec c "."%char) as [->|_]; [exfalso; apply K; left; reflexivity|]. apply IH. intros I. apply K. right. exact I. }
  apply G. rewrite <- in_rev. exact H.
Qed.
Lemma job_dot b e : ~ In "."%char e -> getFileNameFromPath (b ++ "."%char :: e) = b.
Proof. intros H. unfold getFileNameFromPath. rewrite last_dot_app by exact H. apply rev_involutive. Qed.
Lemma job_plain f : ~ In "."%char f -> getFileNameFromPath f = f.
Proof.
  intros H. unfold getFileNameFromPath.
  assert (G : forall l, ~ In "."%char l -> after_last_dot l = None).
  { induction l as [|c l IH]; intros K; [reflexivity|]. cbn [after_last_dot].
    destruct (Ascii.eqb_spec c "."%char) as [->|_]; [exfalso; apply K; left; reflexivity|]. apply IH. intros I. apply K. right. exact I. }
  rewrite G; [reflexivity|]. rewrite <- in_rev. exact H.
Qed.

(* ---- main *)
Section M.
  Variable D : Dbl.
  Lemma main_report fuel w argv o m pb ref p :
    parse_args D argv = go o -> o_ref D o <> [] -> o_comp D o <> [] ->
    readRefCurveData D fuel (w_ref D w (o_ref D o)) = go ref ->
    w_mesh D w (o_model D o) = Ok (Some m) -> setup D o m = go pb -> w_solve D w pb = Ok (Some p) ->
    main D fuel w argv = (r <- report D o ref p ;; Ok (match r with inl _ => 0 | inr st => st end)).
  Proof.
    intros P R C F M S W. unfold main. rewrite P. cbn [pbind go obind].
    destruct (o_ref D o) as [|c l] eqn:Q; [contradiction|]. destruct (o_comp D o) as [|c2 l2] eqn:Q2; [contradiction|]. cbn [nonempty].
    rewrite F. cbn [pbind go obind]. rewrite M. cbn [lift obind pbind go]. rewrite S. cbn [pbind go obind]. rewrite W. cbn [lift obind pbind go]. reflexivity.
  Qed.
  Lemma main_no_reference fuel w argv o : parse_args D argv = go o -> o_ref D o <> [] -> w_ref D w (o_ref D o) = None -> main D fuel w argv = Ok 1.
  Proof.
    intros P R F. unfold main. rewrite P. cbn [pbind go obind]. destruct (o_ref D o) as [|c l] eqn:Q; [contradiction|]. rewrite F. cbn [nonempty].
    destruct (nonempty (o_comp D o)); reflexivity.
  Qed.
  (* what is refused with a status *)
  Lemma refused_empty fuel w : main D fuel w [] = Ok 1.
  Proof. reflexivity. Qed.
  Lemma refused_material fuel w model args it ls : opt_num args (s_ "-iterations") 15 = Ok it -> opt_num args (s_ "-loadsteps") 10 = Ok ls ->
    getCmdManyOptions args (s_ "-material") = [] -> main D fuel w (model :: args) = Ok 1.
  Proof. intros A B C. unfold main, parse_args. rewrite A. cbn [lift obind pbind go]. rewrite B. cbn [lift obind pbind go]. unfold opt_material. rewrite C. reflexivity. Qed.
  Lemma refused_rigid fuel w model args it ls x m : opt_num args (s_ "-iterations") 15 = Ok it -> opt_num args (s_ "-loadsteps") 10 = Ok ls ->
    opt_material D args = go m -> getCmdManyOptions args (s_ "-rigidbody") = [x] -> main D fuel w (model :: args) = Ok 1.
  Proof.
    intros A B M C. unfold main, parse_args. rewrite A. cbn [lift obind pbind go]. rewrite B. cbn [lift obind pbind go]. rewrite M. cbn [pbind obind go].
    unfold opt_rigid. rewrite C. reflexivity.
  Qed.
  Lemma refused_no_reaction fuel w argv o : parse_args D argv = go o -> o_ref D o <> [] -> o_comp D o = [] -> main D fuel w argv = Ok 1.
  Proof.
    intros P R C. unfold main. rewrite P. cbn [pbind go obind]. rewrite C. destruct (o_ref D o); [contradiction|]. reflexivity.
  Qed.
  Lemma refused_mesh fuel w argv o : parse_args D argv = go o -> o_ref D o = [] -> w_mesh D w (o_model D o) = Ok None -> main D fuel w argv = Fatal.
  Proof. intros P R M. unfold main. rewrite P. cbn [pbind go obind]. rewrite R. cbn [nonempty pbind go obind]. rewrite M. reflexivity. Qed.
  Lemma refused_component o m md mat cells name : compressNumbers D m = Ok md -> setup_material D (o_mat D o) (o_consts D o) = Ok mat ->
    setup_cells D (o_elem D o) md = Ok cells -> name <> [] -> cp_type (find_comp (md_comps D md) name) <> comp_NODES ->
    o_comp D o = name \/ o_comp D o = [] /\ (0 < o_master D o)%Z /\ o_slaves D o = name -> setup D o m = stop 1.
  Proof.
    intros E M C N T H. unfold setup. rewrite E. cbn [lift obind pbind go]. rewrite M. cbn [lift obind pbind go]. rewrite C. cbn [lift obind pbind go].
    assert (X : node_comp D md name = stop 1) by (unfold node_comp; destruct (Nat.eqb_spec (cp_type (find_comp (md_comps D md) name)) comp_NODES); [contradiction|reflexivity]).
    destruct H as [->|(-> & B & ->)].
    - destruct name as [|c l]; [contradiction|]. cbn [nonempty]. rewrite X. reflexivity.
    - apply Z.ltb_lt in B. rewrite B. destruct name as [|c l]; [contradiction|]. cbn [nonempty andb pbind go obind]. rewrite X. reflexivity.
  Qed.
  Lemma numbered_same o m pb : md_nodes D m = map Z.of_nat (seq 1 (length (md_nodes D m))) -> md_nodes D m <> [] ->
    length (md_nodes D m) = length (md_pos D m) -> setup D o m = go pb ->
    forall n, In n (md_nodes D m) -> stored_pos D (pb_pos D pb) n = pos_of D (md_nodes D m) (md_pos D m) n.
  Proof.
    intros N NE L H n I. destruct (setup_go D _ _ _ H) as (md & E & _ & P & _). rewrite P.
    assert (Z : Z.of_nat (length (md_nodes D m)) = zmax (md_nodes D m)).
    { rewrite N at 2. clear. generalize (length (md_nodes D m)) as k. assert (G : forall k s, 0 < k -> zmax (map Z.of_nat (seq s k)) = Z.of_nat (s + k - 1)).
      { induction k as [|k IH]; intros s L; [lia|]. cbn [seq map zmax]. destruct k as [|k]; [cbn [seq map zmax]; lia|]. rewrite IH by lia. lia. }
      intros [|k]; [reflexivity|]. rewrite G; lia. }
    rewrite (compress_same D m NE Z) in E. injection E as <-.
    assert (G : forall (ps : list (D * D * D)) k s n, length ps = k -> (Z.of_nat s <= n)%Z ->
       pos_of D (map Z.of_nat (seq s k)) ps n = nth_error ps (Z.to_nat n - s)).
    { induction ps as [|p ps IH]; intros k s n0 Lk B; [cbn in Lk; subst k; cbn; destruct (Z.to_nat n0 - s); reflexivity|].
      destruct k as [|k]; [discriminate|]. cbn [seq map pos_of]. destruct (Z.eqb_spec (Z.of_nat s) n0) as [<-|X].
      - rewrite Nat2Z.id, Nat.sub_diag. reflexivity.
      - rewrite IH by (cbn in Lk; lia). replace (Z.to_nat n0 - s) with (S (Z.to_nat n0 - S s)) by lia. reflexivity. }
    assert (1 <= n)%Z as B by (rewrite N in I; apply in_map_iff in I; destruct I as (x & <- & I2); apply in_seq in I2; lia).
    rewrite N, G by (try symmetry; try exact L; lia). unfold stored_pos. destruct (Z.leb_spec n 0); [lia|]. reflexivity.
  Qed.
  Lemma labels_out : forall l acc, (exists i, In i l /\ 9 <= i) -> ofold (fun _ i => _ <- aget dofLabels i ;; Ok tt) l acc = UB.
  Proof.
    induction l as [|i l IH]; intros acc (j & J & B); [destruct J|]. cbn [ofold]. unfold aget.
    destruct (nth_error dofLabels i) as [x|] eqn:E; [|reflexivity]. cbn [obind].
    destruct J as [->|J]; [|apply IH; exists j; auto]. assert (nth_error dofLabels j = None) as K by (apply nth_error_None; exact B). congruence.
  Qed.
  Lemma many_dofs o m md : compressNumbers D m = Ok md -> (0 < o_master D o)%Z -> o_slaves D o <> [] -> 9 < length (o_bdofs D o) ->
    forall pb, setup D o m <> go pb.
  Proof.
    intros E B S L pb H. unfold setup in H. rewrite E in H. cbn [lift obind pbind go] in H.
    apply pbind_go in H as (mat & _ & H). apply pbind_go in H as (cells & _ & H). apply pbind_go in H as (re & _ & H). apply pbind_go in H as (rb & R & H).
    apply Z.ltb_lt in B. rewrite B in R. destruct (o_slaves D o) as [|c l]; [contradiction|]. cbn [nonempty andb] in R.
    apply pbind_go in R as (ns & _ & R). rewrite labels_out in R; [discriminate|]. exists 9. split; [apply in_seq; lia|lia].
  Qed.
End M.
Section MX.
  Variables (atof : str -> ext) (get : str -> option ext * str).
  Notation X := (XDbl atof get).
  Lemma main_status fuel w argv o m pb ref p t ds cur thr :
    parse_args X argv = go o -> o_ref X o <> [] -> o_comp X o <> [] ->
    readRefCurveData X fuel (w_ref X w (o_ref X o)) = go (map Fin ref) -> ref <> [] ->
    w_mesh X w (o_model X o) = Ok (Some m) -> setup X o m = go pb -> w_solve X w pb = Ok (Some p) ->
    recorded X p (S (Z.to_nat (o_steps X o))) -> rp_dofs p = t :: ds -> getReactions p t = Ok (Some (map Fin cur)) -> o_thr X o = Fin thr ->
    main X fuel w argv = Ok (if (length ref =? length cur) && negb (gtb thr 0 && gtb (mean_diff ref cur) thr) then 0 else 1).
  Proof.
    intros P R C F N M S W Rc Dd G T. rewrite (main_report X fuel w argv o m pb _ p P R C F M S W).
    rewrite (verdict_fin atof get o ref p t ds cur thr Rc Dd G N T). destruct (_ && _)%bool; reflexivity.
  Qed.
  Lemma main_nan fuel w argv o m pb ref p t ds cur :
    parse_args X argv = go o -> o_ref X o <> [] -> o_comp X o <> [] ->
    readRefCurveData X fuel (w_ref X w (o_ref X o)) = go ref -> ref <> [] ->
    w_mesh X w (o_model X o) = Ok (Some m) -> setup X o m = go pb -> w_solve X w pb = Ok (Some p) ->
    recorded X p (S (Z.to_nat (o_steps X o))) -> rp_dofs p = t :: ds -> getReactions p t = Ok (Some cur) ->
    length ref = length cur -> In NaN cur -> main X fuel w argv = Ok 0.
  Proof.
    intros P R C F N M S W Rc Dd G L I. rewrite (main_report X fuel w argv o m pb _ p P R C F M S W).
    rewrite (verdict_nan atof get o ref p t ds cur Rc Dd G N L I). reflexivity.
  Qed.
End MX.
