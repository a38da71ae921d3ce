(* Heat conduction: elements and solver together *)
From Coq Require Import Reals Lra Lia.
From Verif Require Import Base BaseProofs RealBase MatModel SparseModel BlockModel DofModel SpecDof NumberingProofs AsmModel SpecAsm AsmLists AsmProofs AsmRun AsmFinal
  SolveModel SpecSolve GaussModel SpecGauss GaussProofs IsoModel SpecIso IsoProofs ElemModel SpecElem ElemBase ElemProofs ElemMore ThermModel SpecTherm ThermProofs ThermMore
  SpecBal BalProofs BalMore StructModel SpecStruct StructProofs StructFinal StructMore HeatModel SpecHeat PartProofs.
Local Open Scope R_scope.

Lemma temps_nd : NoDup temps.
Proof. repeat constructor. intros []. Qed.
Lemma temps_in : Forall (fun t => (t < n_dof_types)%nat) temps.
Proof. repeat constructor. Qed.
Lemma tkey nodes q : (q < length nodes)%nat -> nth q (node_keys nodes temps) dkey = (KNode, nth q nodes 0%nat, TEMP).
Proof.
  intros H. replace q with (q * length temps + 0)%nat at 1 by (cbn; lia). rewrite node_keys_nth by (auto; cbn; lia). reflexivity.
Qed.
Lemma tkeys_length nodes : length (node_keys nodes temps) = length nodes.
Proof. rewrite node_keys_length. cbn. lia. Qed.

Record told (nn : nat) (pos : nat -> nat -> R) (m : hmember) (c : contrib RNum) (Ke Fe : list R) : Prop := {
  to_part : part_ok temps nn (h_nodes m, c);
  to_stiff : forall v q, (q < length (h_nodes m))%nat -> elem_stiff (K := RNum) v (pform 0 (h_nodes m, c)) q = kmul (length (h_nodes m)) Ke (h_values v m) q;
  to_load : forall q, (q < length (h_nodes m))%nat -> SpecAsm.cvec (K := RNum) (cdim (h_nodes m) c) c q = nth q Fe 0;
  to_who : let p := at_nodes pos (h_nodes m) in
    match m with
    | HTet k _ _ _ _ => tet1_buildK p k = Ok Ke /\ Fe = []
    | HQuad ord k vf _ _ _ _ => quadth_K ord k vf p = Ok (Ke, Fe)
    | HLine ord flux htc e _ _ => lineth_K ord flux htc (line_pre e) p = Ok (Ke, Fe)
    end }.
Lemma values_nth v m q : (q < length (h_nodes m))%nat -> nth q (h_values v m) 0 = v (KNode, nth q (h_nodes m) 0%nat, TEMP).
Proof.
  intros H. unfold h_values. rewrite (nth_indep _ 0 (v (KNode, 0%nat, TEMP))) by (now rewrite map_length).
  exact (map_nth (fun n => v (KNode, n, TEMP)) (h_nodes m) 0%nat q).
Qed.
Lemma stiff_packed v m c Ke : (forall en, ckeys en (h_nodes m) c = node_keys (h_nodes m) temps) ->
  (forall p q, (p < length (h_nodes m))%nat -> (q < length (h_nodes m))%nat -> SpecAsm.cmat (K := RNum) (cdim (h_nodes m) c) c p q = nth (sym_comp (length (h_nodes m)) p q) Ke 0) ->
  forall p, (p < length (h_nodes m))%nat -> elem_stiff (K := RNum) v (pform 0 (h_nodes m, c)) p = kmul (length (h_nodes m)) Ke (h_values v m) p.
Proof.
  intros HK HM p Hp. cbn [pform elem_stiff fst snd]. rewrite HK, tkeys_length. unfold kmul, rsumn, rsuml. apply sumR_ext. intros q Hq. apply in_seq in Hq.
  rewrite tkey by apply Hq. rewrite HM by (try exact Hp; apply Hq). rewrite values_nth by apply Hq. reflexivity.
Qed.
Lemma h_build_ok nn pos m : h_ok nn pos m -> exists c Ke Fe, h_build pos m = Ok c /\ told nn pos m c Ke Fe.
Proof.
  intros (ND & RN & D). destruct m as [k a b c d|ord k vf a b c d|ord flux htc e a b]; cbn [h_build h_nodes] in *.
  - destruct (btdb_R 3 4 (tet1_B (at_nodes pos [a; b; c; d]) (tet_vol (at_nodes pos [a; b; c; d]))) (tet1_C k) (tet_vol (at_nodes pos [a; b; c; d]))) as (Ke & E & L & W); [reflexivity|reflexivity|].
    change (tet1_buildK (at_nodes pos [a; b; c; d]) k = Ok Ke) in E. rewrite E. cbn [obind].
    exists (CK (K := RNum) temps Ke), Ke, []. split; [reflexivity|]. split.
    + split; [exact ND|exact RN|reflexivity|reflexivity|reflexivity|]. cbn [good_sizes cdim fst snd ctypes temps length Nat.mul Nat.add]. exact L.
    + intros v. apply stiff_packed; intros; reflexivity.
    + intros q _. cbn. destruct q; reflexivity.
    + cbn [h_nodes]. auto.
  - destruct (quadth_ok ord k vf (at_nodes pos [a; b; c; d])) as (Ke & Fe & E & LK & LF & _). rewrite E. cbn [obind fst snd].
    exists (CKF (K := RNum) temps Ke Fe), Ke, Fe. split; [reflexivity|]. split.
    + split; [exact ND|exact RN|reflexivity|reflexivity|reflexivity|]. cbn [good_sizes cdim fst snd ctypes temps length Nat.mul Nat.add]. split; [exact LK|exact LF].
    + intros v. apply stiff_packed; intros; reflexivity.
    + intros q _. reflexivity.
    + exact E.
  - destruct (lineth_ok ord flux htc (line_pre e) (at_nodes pos [a; b]) D) as (Ke & Fe & E & LK & LF & _). rewrite E. cbn [obind fst snd].
    exists (CKF (K := RNum) temps Ke Fe), Ke, Fe. split; [reflexivity|]. split.
    + split; [exact ND|exact RN|reflexivity|reflexivity|reflexivity|]. cbn [good_sizes cdim fst snd ctypes temps length Nat.mul Nat.add]. split; [exact LK|exact LF].
    + intros v. apply stiff_packed; intros; reflexivity.
    + intros q _. reflexivity.
    + exact E.
Qed.
Lemma told_force nn pos m c Ke Fe v q : told nn pos m c Ke Fe -> (q < length (h_nodes m))%nat ->
  elem_force (K := RNum) v (pform 0 (h_nodes m, c)) q = kmul (length (h_nodes m)) Ke (h_values v m) q - nth q Fe 0.
Proof. intros T Hq. rewrite <- (to_stiff _ _ _ _ _ _ T v q Hq), <- (to_load _ _ _ _ _ _ T q Hq). reflexivity. Qed.
Lemma told_keys nn pos m c Ke Fe : told nn pos m c Ke Fe -> x_keys (pform 0 (h_nodes m, c)) = node_keys (h_nodes m) temps.
Proof. intros T. exact (p_keys _ _ _ (to_part _ _ _ _ _ _ T) 0%nat). Qed.

(* ---- the parts of a body *)
Definition h_built (pos : nat -> nat -> R) (ms : list hmember) (cs : list (contrib RNum)) : Prop := Forall2 (fun m c => h_build pos m = Ok c) ms cs.
Definition h_parts (ms : list hmember) (cs : list (contrib RNum)) : list part := combine (map h_nodes ms) cs.
Lemma h_mesh ms cs : length ms = length cs -> p_mesh (h_parts ms cs) = map h_nodes ms.
Proof.
  revert cs. induction ms as [|m ms IH]; intros [|c cs] H; try discriminate; [reflexivity|]. cbn. f_equal. apply IH. now injection H.
Qed.
Lemma h_ks ms cs : length ms = length cs -> p_ks (h_parts ms cs) = map (fun c => [c]) cs.
Proof.
  revert cs. induction ms as [|m ms IH]; intros [|c cs] H; try discriminate; [reflexivity|]. cbn. f_equal. apply IH. now injection H.
Qed.
Lemma h_pregs ms cs : length ms = length cs -> p_regs temps (h_parts ms cs) = flat_map h_regs ms.
Proof.
  revert cs. induction ms as [|m ms IH]; intros [|c cs] H; try discriminate; [reflexivity|]. cbn [h_parts map combine p_regs flat_map fst]. apply (f_equal (app (h_regs m))). apply IH. now injection H.
Qed.
Lemma h_in pos ms cs p : h_built pos ms cs -> In p (h_parts ms cs) -> exists m c, In m ms /\ h_build pos m = Ok c /\ p = (h_nodes m, c).
Proof.
  intros B. induction B as [|m c ms cs E B IH]; [intros []|]. intros [<-|H]; [exists m, c; cbn; auto|].
  destruct (IH H) as (m' & c' & A1 & A2 & A3). exists m', c'. cbn. auto.
Qed.
Lemma h_sum pos ms cs (f : part -> R) (g : hmember -> R) : h_built pos ms cs ->
  (forall m c, In m ms -> h_build pos m = Ok c -> f (h_nodes m, c) = g m) -> @sumof RNum _ f (h_parts ms cs) = @sumof RNum _ g ms.
Proof.
  intros B. induction B as [|m c ms cs E B IH]; intros H; [reflexivity|]. cbn [h_parts map combine]. rewrite !(sumof_cons RRng). f_equal.
  - apply H; [now left|exact E].
  - apply IH. intros; apply H; [now right|assumption].
Qed.
Lemma h_has pos ms cs m : h_built pos ms cs -> In m ms -> exists c, In (h_nodes m, c) (h_parts ms cs) /\ h_build pos m = Ok c.
Proof.
  intros B. induction B as [|m' c ms cs E B IH]; [intros []|]. intros [<-|H]; [exists c; cbn; auto|].
  destruct (IH H) as (c' & A1 & A2). exists c'. cbn. auto.
Qed.
Lemma h_pkey pos ms cs k : h_built pos ms cs -> p_key temps (h_parts ms cs) k <-> h_key ms k.
Proof.
  intros B. destruct k as [[[|] n] t]; cbn [p_key h_key]; [tauto|]. split.
  - intros [(p & Hp & Hn) Ht]. destruct (h_in _ _ _ _ B Hp) as (m & c & Hm & _ & ->). split; [exists m; auto|]. destruct Ht as [<-|[]]. reflexivity.
  - intros [(m & Hm & Hn) ->]. destruct (h_has _ _ _ _ B Hm) as (c & Hp & _). split; [eauto|now left].
Qed.
Lemma h_parts_ok nn pos ms loads fixes cs : heat_ok nn pos ms loads fixes -> h_built pos ms cs -> parts_ok temps nn (h_parts ms cs) loads fixes.
Proof.
  intros [M LO FI FR CA] B. pose proof (Forall2_len _ _ _ B) as LB. split.
  - apply Forall_forall. intros p Hp. destruct (h_in _ _ _ _ B Hp) as (m & c & Hm & E & ->). rewrite Forall_forall in M.
    destruct (h_build_ok nn pos m (M m Hm)) as (c' & Ke & Fe & E' & T). rewrite E in E'. injection E' as <-. exact (to_part _ _ _ _ _ _ T).
  - eapply Forall_impl; [|exact LO]. intros l H. now apply (h_pkey pos ms cs _ B).
  - eapply Forall_impl; [|exact FI]. intros l H. now apply (h_pkey pos ms cs _ B).
  - destruct FR as (k & Hk & Nk). exists k. split; [now apply (h_pkey pos ms cs _ B)|exact Nk].
  - rewrite h_mesh, h_pregs by exact LB. exact CA.
Qed.
Lemma h_each nn pos ms : Forall (h_ok nn pos) ms -> exists cs, each (h_build pos) ms = Ok cs /\ h_built pos ms cs.
Proof.
  intros M. destruct (each_total (h_build pos) ms) as [cs E].
  - intros m Hm. rewrite Forall_forall in M. destruct (h_build_ok nn pos m (M m Hm)) as (c & Ke & Fe & E & _). eauto.
  - exists cs. split; [exact E|]. now apply each_ok.
Qed.
Lemma h_solved big slv nn pos ms loads fixes st rs : heat_solve big slv nn pos ms loads fixes = Ok (st, rs) -> exists cs, h_built pos ms cs /\
  linear_solve (K := RNum) big slv nn (p_mesh (h_parts ms cs)) (p_regs temps (h_parts ms cs)) (p_ks (h_parts ms cs)) [] loads fixes = Ok st /\
  Forall2 (fun m r => h_update pos (disp st) m = Ok r) ms rs.
Proof.
  unfold heat_solve. intros H. apply obind_ok in H as (cs & E1 & H). apply obind_ok in H as (s & E2 & H). apply obind_ok in H as (r & E3 & H).
  injection H as <- <-. exists cs. apply each_ok in E1. split; [exact E1|]. pose proof (Forall2_len _ _ _ E1) as LB.
  rewrite h_mesh, h_ks, h_pregs by exact LB. split; [exact E2|]. apply each_ok. exact E3.
Qed.

(* ---- keys and nodes *)
Lemma nodup_map_inj {A B} (da : forall x y : A, {x = y} + {x <> y}) (db : forall x y : B, {x = y} + {x <> y}) (f : A -> B) l :
  (forall x y, f x = f y -> x = y) -> nodup db (map f l) = map f (nodup da l).
Proof.
  intros I. induction l as [|x l IH]; [reflexivity|]. cbn [map nodup]. destruct (in_dec db (f x) (map f l)) as [H|H], (in_dec da x l) as [H'|H']; auto.
  - exfalso. apply H'. apply in_map_iff in H as (y & E & Hy). now rewrite <- (I _ _ E).
  - exfalso. apply H. now apply in_map.
  - cbn [map]. now f_equal.
Qed.
Lemma heat_keys ms : reg_keys (flat_map h_regs ms) = map (fun n => (KNode, n, TEMP)) (temp_nodes ms).
Proof.
  unfold reg_keys, temp_nodes. rewrite <- (nodup_map_inj Nat.eq_dec key_dec) by congruence. f_equal.
  induction ms as [|m ms IH]; [reflexivity|]. cbn [flat_map]. rewrite flat_map_app, map_app. apply f_equal2; [|exact IH].
  unfold h_regs. generalize (h_nodes m). induction l as [|n l IL]; [reflexivity|]. cbn [map flat_map app temps]. apply f_equal. exact IL.
Qed.
Lemma sum_map {A B} (f : B -> R) (g : A -> B) l : @sumof RNum _ f (map g l) = @sumof RNum _ (fun x => f (g x)) l.
Proof. induction l as [|x l IH]; [reflexivity|]. cbn [map]. rewrite !(sumof_cons RRng). now f_equal. Qed.
Lemma sum_add {A} (f g : A -> R) l : @sumof RNum _ f l + @sumof RNum _ g l = @sumof RNum _ (fun x => f x + g x) l.
Proof. exact (eq_sym (sumof_add RRng f g l)). Qed.

(* ---- one element and constant temperature *)
Lemma const_values t m : h_values (fun _ => t) m = repeat t (length (h_nodes m)).
Proof. unfold h_values. generalize (h_nodes m). induction l; cbn; f_equal; auto. Qed.
Lemma tet1_const pos k Ke t : tetra_volume pos <> 0 -> tet1_buildK pos k = Ok Ke -> forall i, (i < 4)%nat -> kmul 4 Ke (repeat t 4) i = 0.
Proof.
  intros V E i Hi. unfold tet1_buildK in E. rewrite tet_vol_eq in E.
  destruct (btdb_R 3 4 (tet1_B pos (tetra_volume pos)) (tet1_C k) (tetra_volume pos)) as (Ke' & E' & L & W); [reflexivity|reflexivity|].
  change (repeat 0 (tri 4)) with (repeat 0 10) in E'. assert (Q : Ok Ke = Ok Ke') by (etransitivity; [symmetry; exact E|exact E']). injection Q as ->.
  apply (kmul_zero 3 4 _ _ _ Ke' _ W); [|exact Hi]. intros l Hl.
  replace (repeat t 4) with (nodal1 4 (lin1 t (fun _ => 0)) pos).
  - pose proof (tet1_BU pos t (fun _ => 0) l V Hl) as Q. unfold row in Q. rewrite Q. ring.
  - unfold nodal1, lin1. cbn [map seq repeat]. rewrite !rs3. f_equal; [ring|]. f_equal; [ring|]. f_equal; [ring|]. f_equal. ring.
Qed.
Lemma row_sum n (f : nat -> R) : @sumof RNum _ f (seq 0 n) = rsumn n f.
Proof. reflexivity. Qed.
(* columns of a packed symmetric matrix *)
Lemma kmul_swap n Ke U V : rsumn n (fun q => kmul n Ke U q * nth q V 0) = rsumn n (fun q => kmul n Ke V q * nth q U 0).
Proof.
  unfold kmul. transitivity (rsumn n (fun q => rsumn n (fun j => nth (sym_comp n q j) Ke 0 * nth j U 0 * nth q V 0))).
  { apply rsumn_ext. intros q _. now rewrite rsumn_mulr. }
  rewrite rsumn_swap. apply rsumn_ext. intros q _. rewrite <- rsumn_mulr. apply rsumn_ext. intros j _. rewrite sym_comp_sym. ring.
Qed.
Lemma closed_rows n Ke : (forall i, (i < n)%nat -> kmul n Ke (repeat 1 n) i = 0) -> forall U, rsumn n (kmul n Ke U) = 0.
Proof.
  intros H U. transitivity (rsumn n (fun q => kmul n Ke U q * nth q (repeat 1 n) 0)).
  - apply rsumn_ext. intros q Hq. assert (E : nth q (repeat 1 n) 0 = 1) by (rewrite (nth_indep _ 0 1) by (now rewrite repeat_length); apply nth_repeat). rewrite E. ring.
  - rewrite kmul_swap. apply rsumn_zero. intros q Hq. rewrite H by exact Hq. ring.
Qed.

Lemma rsumn_minus n f g : rsumn n (fun i => f i - g i) = rsumn n f - rsumn n g.
Proof.
  transitivity (rsumn n (fun i => f i + -1 * g i)); [apply rsumn_ext; intros; ring|]. rewrite rsumn_plus, rsumn_mul. ring.
Qed.
(* ---- balance of heat *)
Lemma member_heat nn pos m c Ke Fe st : h_ok nn pos m -> told nn pos m c Ke Fe ->
  rsumn (length (h_nodes m)) (fun q => elem_force (K := RNum) (disp st) (pform 0 (h_nodes m, c)) q) = - source pos st m.
Proof.
  intros (_ & _ & D) T.
  transitivity (rsumn (length (h_nodes m)) (kmul (length (h_nodes m)) Ke (h_values (disp st) m)) - total (length (h_nodes m)) Fe).
  { unfold total. rewrite <- rsumn_minus. apply rsumn_ext. intros q Hq. exact (told_force _ _ _ _ _ _ _ _ T Hq). }
  pose proof (to_who _ _ _ _ _ _ T) as W. cbn zeta in W, D.
  destruct m as [k a b c0 d|ord k vf a b c0 d|ord flux htc e a b]; cbn [h_nodes length source] in *.
  - destruct W as [W ->]. rewrite (closed_rows 4) by (intros; eapply tet1_const; eauto). unfold total. rewrite rsumn_zero; [ring|]. intros [|i]; reflexivity.
  - rewrite (closed_rows 4) by (intros; eapply quadth_const; eauto). rewrite (quadth_total _ _ _ _ _ _ W). ring.
  - pose proof (lineth_balance ord flux htc (line_pre e) (at_nodes pos [a; b]) Ke Fe (h_values (disp st) (HLine ord flux htc e a b)) D W) as Q.
    apply Ropp_eq_compat in Q. etransitivity; [etransitivity; [|exact Q]; ring|]. unfold temp. reflexivity.
Qed.
Section Solved.
  Variable big : R -> bool.
  Variables (nn : nat) (pos : nat -> nat -> R) (ms : list hmember) (loads fixes : list (bc RNum)).
  Hypothesis OK : heat_ok nn pos ms loads fixes.
  Hypothesis PF : plain_fixes big fixes.
  Section Any.
  Variable slv : eqsolver RNum.
  Hypothesis EX : exact_solver slv.
  Variable st : sol RNum.
  Variable rs : list (list R).
  Hypothesis HS : heat_solve big slv nn pos ms loads fixes = Ok (st, rs).
  Lemma heat_work w : exists cs, h_built pos ms cs /\
    @sumof RNum _ (fun n => supply st n * w n) (temp_nodes ms) =
    @sumof RNum _ (fun p => rsumn (length (x_keys (pform 0 p))) (fun q => elem_force (K := RNum) (disp st) (pform 0 p) q * w (nth q (fst p) 0%nat))) (h_parts ms cs).
  Proof.
    destruct (h_solved big slv nn pos ms loads fixes st rs HS) as (cs & B & HL & _). exists cs. split; [exact B|].
    pose proof (h_parts_ok nn pos ms loads fixes cs OK B) as PO. pose proof (Forall2_len _ _ _ B) as LB.
    pose proof (parts_work temps temps_nd temps_in nn (h_parts ms cs) loads fixes PO big slv EX PF st HL (fun k => w (snd (fst k)))) as W.
    rewrite h_pregs in W by exact LB. rewrite heat_keys, sum_map in W. etransitivity; [exact W|]. apply sumR_ext. intros p Hp.
    unfold rsumn, rsuml. apply sumR_ext. intros q Hq. apply in_seq in Hq. destruct Hq as [_ Hq]. cbn [Nat.add] in Hq.
    pose proof (pk_parts _ _ _ _ _ PO) as PP. rewrite Forall_forall in PP. pose proof (p_keys _ _ _ (PP p Hp)) as PK.
    cbn [x_keys pform] in *. rewrite PK in *. rewrite tkeys_length in Hq. rewrite tkey by exact Hq. reflexivity.
  Qed.
  Lemma heat_balance : @sumof RNum _ (supply st) (temp_nodes ms) + @sumof RNum _ (source pos st) ms = 0.
  Proof.
    destruct (heat_work (fun _ => 1)) as (cs & B & W). 
    assert (E : @sumof RNum _ (supply st) (temp_nodes ms) = @sumof RNum _ (fun n => supply st n * 1) (temp_nodes ms)) by (apply sumR_ext; intros; req; ring).
    rewrite E, W. rewrite (h_sum pos ms cs _ (fun m => - source pos st m) B).
    - rewrite sum_add. apply (sumof_zero RRng). intros m _. apply Rplus_opp_l.
    - intros m c Hm Em. pose proof (hk_members _ _ _ _ _ OK) as M. rewrite Forall_forall in M.
      destruct (h_build_ok nn pos m (M m Hm)) as (c' & Ke & Fe & E' & T). rewrite Em in E'. injection E' as <-.
      rewrite <- (member_heat nn pos m c Ke Fe st (M m Hm) T). rewrite (told_keys _ _ _ _ _ _ T), tkeys_length. apply rsumn_ext. intros q _. ring.
  Qed.
  End Any.
End Solved.
