(* Heat conduction in time *)
From Coq Require Import Reals Lra Lia.
From Verif Require Import Base BaseProofs RealBase MatModel SparseModel BlockModel DofModel SpecDof NumberingProofs AsmModel SpecAsm AsmLists AsmProofs AsmRun AsmFinal
  SolveModel SpecSolve GaussModel SpecGauss GaussProofs IsoModel SpecIso IsoProofs ElemModel SpecElem ElemBase ElemProofs ElemMore ThermModel SpecTherm ThermProofs ThermMore
  SpecBal BalProofs BalMore StructModel SpecStruct StructProofs StructFinal StructMore HeatModel SpecHeat PartProofs HeatProofs HeatFinal HeatMore
  TransModel SpecTrans TransProofs SpecTransKeys TransKeys HeatTransModel SpecHeatTrans.
Local Open Scope R_scope.

(* ---- the states of a run *)
Section Loop.
  Variable K : GNum.
  Variable step : TransModel.motion K -> outcome (TransModel.motion K).
  Variables (I : TransModel.motion K -> Prop) (P : TransModel.motion K -> TransModel.motion K -> Prop).
  Hypothesis HS : forall s s', I s -> step s = Ok s' -> I s' /\ P s s'.
  Lemma loop_runs fuel : forall cur dt t1 s log log', I s -> time_loop fuel step cur dt t1 s log = Ok log' ->
    exists new, log' = log ++ new /\ each_step P s new /\ Forall I new.
  Proof.
    induction fuel as [|fuel IH]; intros cur dt t1 s log log' Hs H; cbn [time_loop] in H.
    - destruct (glt t1 cur); [|discriminate]. injection H as <-. exists []. rewrite app_nil_r. cbn. auto.
    - destruct (glt t1 cur).
      + injection H as <-. exists []. rewrite app_nil_r. cbn. auto.
      + apply obind_ok in H as (s' & E & H). destruct (HS _ _ Hs E) as [Hs' HP].
        destruct (IH _ _ _ _ _ _ Hs' H) as (new & -> & Q1 & Q2). exists (s' :: new). rewrite <- app_assoc. cbn. auto.
  Qed.
  (* nothing but the solver can stop it *)
  Hypothesis HT : forall s, I s -> step s = Fatal \/ exists s', step s = Ok s'.
  Lemma loop_ends fuel : forall cur dt t1 s log, I s ->
    time_loop fuel step cur dt t1 s log = Fatal \/ time_loop fuel step cur dt t1 s log = Loop \/ exists log', time_loop fuel step cur dt t1 s log = Ok log'.
  Proof.
    induction fuel as [|fuel IH]; intros cur dt t1 s log Hs; cbn [time_loop].
    - destruct (glt t1 cur); eauto.
    - destruct (glt t1 cur); [eauto|]. destruct (HT s Hs) as [-> | [s' E]]; [cbn; auto|]. rewrite E. cbn [obind]. apply IH. apply (HS _ _ Hs E).
  Qed.
End Loop.

(* ---- sums over the elements *)
Lemma contribs_sum (mesh : list (list nat)) (cc : list (list (contrib RNum))) (f : nat * list nat * contrib RNum -> R) (h : list nat -> contrib RNum -> R) :
  length cc = length mesh -> (forall en nodes c, In (en, nodes, c) (contribs mesh cc) -> f (en, nodes, c) = h nodes c) ->
  @sumof RNum _ f (contribs mesh cc) = @sumof RNum _ (fun x => @sumof RNum _ (h (fst x)) (snd x)) (combine mesh cc).
Proof.
  intros L H. unfold contribs in *. rewrite sum_flat. rewrite <- L.
  assert (G : forall m c st, length c = length m -> (forall i, (i < length m)%nat -> nth (st + i) mesh [] = nth i m []) ->
    (forall en nodes x, In (en, nodes, x) (flat_map (fun x : nat * list (contrib RNum) => map (fun c => (fst x, nth (fst x - 1) mesh [], c)) (snd x)) (combine (seq (S st) (length m)) c)) -> f (en, nodes, x) = h nodes x) ->
    @sumof RNum _ (fun x => @sumof RNum _ f (map (fun c => (fst x, nth (fst x - 1) mesh [], c)) (snd x))) (combine (seq (S st) (length c)) c) =
    @sumof RNum _ (fun x => @sumof RNum _ (h (fst x)) (snd x)) (combine m c)).
  { induction m as [|nodes m IH]; intros [|c cc'] st Lc N HH; try discriminate; [reflexivity|].
    cbn [length seq combine]. rewrite !sum_cons. cbn [fst snd]. f_equal.
    - assert (E0 : nth (S st - 1) mesh [] = nodes) by (pose proof (N 0%nat ltac:(cbn; lia)) as Q; cbn [nth] in Q; rewrite Nat.add_0_r in Q; replace (S st - 1)%nat with st by lia; exact Q).
      rewrite E0, sum_map. apply sumR_ext. intros x Hx. apply HH. cbn [length seq combine flat_map fst snd]. apply in_or_app. left. rewrite E0. apply in_map_iff. eauto.
    - apply IH.
      + now injection Lc.
      + intros i Hi. specialize (N (S i) ltac:(cbn; lia)). cbn [nth] in N. rewrite <- N. f_equal. lia.
      + intros en n2 x Hx. apply HH. cbn [length seq combine flat_map]. apply in_or_app. right. exact Hx. }
  apply (G mesh cc 0%nat L); [reflexivity|exact H].
Qed.
(* work of the element matrices *)
Lemma stiff_total mesh regs (cc : list (list (contrib RNum))) (v w : key -> R) : good_contribs mesh regs cc ->
  @sumof RNum _ (fun k => @sumof RNum _ (stiff_on (K := RNum) v k) (contribs mesh cc) * w k) (reg_keys regs) = @sumof RNum _ (stiff_work (K := RNum) v w) (contribs mesh cc).
Proof.
  intros [_ G]. assert (ND : NoDup (reg_keys regs)) by apply NoDup_nodup.
  transitivity (@sumof RNum _ (fun k => @sumof RNum _ (fun x => stiff_on (K := RNum) v k x * w k) (contribs mesh cc)) (reg_keys regs)).
  { apply sumR_ext. intros k _. symmetry. apply (sumof_scal_r RRng). }
  rewrite (sumof_swap RRng). apply sumR_ext. intros [[en nodes] c] Hx. unfold stiff_on.
  transitivity (@sumof RNum _ (fun k => @sumof RNum _ (fun p => if key_dec (nth p (x_keys (en, nodes, c)) dkey) k then elem_stiff (K := RNum) v (en, nodes, c) p * w k else 0) (seq 0 (length (x_keys (en, nodes, c))))) (reg_keys regs)).
  { apply sumR_ext. intros k _. etransitivity; [symmetry; apply (sumof_scal_r RRng)|]. apply sumR_ext. intros p _. destruct (key_dec _ k); [reflexivity|apply Rmult_0_l]. }
  rewrite (sumof_swap RRng). unfold stiff_work. apply sumR_ext. intros p P. apply in_seq in P.
  apply (key_delta RRng _ (fun k => elem_stiff (K := RNum) v (en, nodes, c) p * w k)); [exact ND|].
  destruct (G _ _ _ Hx) as [_ GK]. rewrite Forall_forall in GK. apply GK. apply nth_In. cbn [x_keys] in P |- *. lia.
Qed.
Definition force_work (v w : key -> R) (x : nat * list nat * contrib RNum) : R :=
  @sumof RNum _ (fun p => elem_force (K := RNum) v x p * w (nth p (x_keys x) dkey)) (seq 0 (length (x_keys x))).
Lemma force_total mesh regs (cc : list (list (contrib RNum))) (v w : key -> R) : good_contribs mesh regs cc ->
  @sumof RNum _ (fun k => @sumof RNum _ (force_on (K := RNum) v k) (contribs mesh cc) * w k) (reg_keys regs) = @sumof RNum _ (force_work v w) (contribs mesh cc).
Proof.
  intros [_ G]. assert (ND : NoDup (reg_keys regs)) by apply NoDup_nodup.
  transitivity (@sumof RNum _ (fun k => @sumof RNum _ (fun x => force_on (K := RNum) v k x * w k) (contribs mesh cc)) (reg_keys regs)).
  { apply sumR_ext. intros k _. symmetry. apply (sumof_scal_r RRng). }
  rewrite (sumof_swap RRng). apply sumR_ext. intros [[en nodes] c] Hx. unfold force_on.
  transitivity (@sumof RNum _ (fun k => @sumof RNum _ (fun p => if key_dec (nth p (x_keys (en, nodes, c)) dkey) k then elem_force (K := RNum) v (en, nodes, c) p * w k else 0) (seq 0 (length (x_keys (en, nodes, c))))) (reg_keys regs)).
  { apply sumR_ext. intros k _. etransitivity; [symmetry; apply (sumof_scal_r RRng)|]. apply sumR_ext. intros p _. destruct (key_dec _ k); [reflexivity|apply Rmult_0_l]. }
  rewrite (sumof_swap RRng). unfold force_work. apply sumR_ext. intros p P. apply in_seq in P.
  apply (key_delta RRng _ (fun k => elem_force (K := RNum) v (en, nodes, c) p * w k)); [exact ND|].
  destruct (G _ _ _ Hx) as [_ GK]. rewrite Forall_forall in GK. apply GK. apply nth_In. cbn [x_keys] in P |- *. lia.
Qed.

(* ---- the capacity matrices *)
Lemma quad_sum_plus k f g : quad_sum k (fun r s => f r s + g r s) = quad_sum k f + quad_sum k g.
Proof. unfold quad_sum. rewrite <- rsuml_plus. apply rsuml_ext. intros [[r s] w] _. ring. Qed.
Definition cap_work (pos : nat -> nat -> R) (v w : key -> R) (x : thermal) : R :=
  match th_m x with
  | HQuad ord _ _ _ _ _ _ => th_rho x * th_c x * quad_sum (i_int ord) (fun r s => quad_det (at_nodes pos (h_nodes (th_m x))) r s * (field (h_values v (th_m x)) r s * field (h_values w (th_m x)) r s))
  | _ => 0
  end.
Lemma field_one m r s : length (h_nodes m) = 4%nat -> field (h_values (fun _ => 1) m) r s = 1.
Proof.
  intros L. rewrite const_values, L. unfold field. rewrite (rsumn_ext 4 _ (quad_N r s)); [apply quad_pou|].
  intros n Hn. replace (nth n (repeat 1 4) 0) with 1 by (do 4 (destruct n as [|n]; [reflexivity|]); lia). ring.
Qed.
Lemma cap_content pos v x : cap_work pos v (fun _ => 1) x = content pos v x.
Proof.
  unfold cap_work, content. destruct (th_m x) as [k a b c d|ord k vf a b c d|ord flux htc e a b] eqn:E; try reflexivity.
  f_equal. apply quad_sum_ext. intros r s. rewrite field_one by reflexivity. ring.
Qed.
Lemma cap_squares pos v x : cap_work pos v v x = squares pos v x.
Proof. reflexivity. Qed.
Lemma cap_sym pos v w x : cap_work pos v w x = cap_work pos w v x.
Proof. unfold cap_work. destruct (th_m x); try reflexivity. f_equal. apply quad_sum_ext. intros; ring. Qed.
Lemma values_lin a b v w m : h_values (fun k => a * v k + b * w k) m = map (fun n => a * v (KNode, n, TEMP) + b * w (KNode, n, TEMP)) (h_nodes m).
Proof. reflexivity. Qed.
Lemma field_lin a b v w m r s : length (h_nodes m) = 4%nat -> field (h_values (fun k => a * v k + b * w k) m) r s = a * field (h_values v m) r s + b * field (h_values w m) r s.
Proof.
  intros L. unfold field. rewrite <- !rsumn_mul, <- rsumn_plus. apply rsumn_ext. intros n Hn. rewrite !values_nth by lia. ring.
Qed.
Lemma cap_lin a b pos v w z x : cap_work pos (fun k => a * v k + b * w k) z x = a * cap_work pos v z x + b * cap_work pos w z x.
Proof.
  unfold cap_work. destruct (th_m x) as [k n1 n2 n3 n4|ord k vf n1 n2 n3 n4|ord flux htc e n1 n2] eqn:E; try ring.
  transitivity (th_rho x * th_c x * (a * quad_sum (i_int ord) (fun r s => quad_det (at_nodes pos (h_nodes (HQuad ord k vf n1 n2 n3 n4))) r s * (field (h_values v (HQuad ord k vf n1 n2 n3 n4)) r s * field (h_values z (HQuad ord k vf n1 n2 n3 n4)) r s)) +
    b * quad_sum (i_int ord) (fun r s => quad_det (at_nodes pos (h_nodes (HQuad ord k vf n1 n2 n3 n4))) r s * (field (h_values w (HQuad ord k vf n1 n2 n3 n4)) r s * field (h_values z (HQuad ord k vf n1 n2 n3 n4)) r s)))); [|ring].
  f_equal. rewrite <- !quad_sum_mul, <- quad_sum_plus. apply quad_sum_ext. intros r s. rewrite field_lin by reflexivity. ring.
Qed.
Definition capacity (pos : nat -> nat -> R) (xs : list thermal) (v w : key -> R) : R := @sumof RNum _ (cap_work pos v w) xs.
Lemma capacity_lin pos xs a b v w z : capacity pos xs (fun k => a * v k + b * w k) z = a * capacity pos xs v z + b * capacity pos xs w z.
Proof.
  unfold capacity. rewrite <- !sum_scale, sum_add. apply sumR_ext. intros x _. apply cap_lin.
Qed.
Lemma capacity_sym pos xs v w : capacity pos xs v w = capacity pos xs w v.
Proof. apply sumR_ext. intros x _. apply cap_sym. Qed.
Lemma capacity_stored pos xs v : capacity pos xs v (fun _ => 1) = stored pos xs v.
Proof. apply sumR_ext. intros x _. apply cap_content. Qed.
Lemma capacity_ext pos xs v v' w : (forall k, h_key (map th_m xs) k -> v k = v' k) -> capacity pos xs v w = capacity pos xs v' w.
Proof.
  intros H. apply sumR_ext. intros x Hx. unfold cap_work.
  replace (h_values v' (th_m x)) with (h_values v (th_m x)); [reflexivity|]. apply map_ext_in. intros n Hn. apply H. split; [|reflexivity].
  exists (th_m x). split; [now apply in_map|exact Hn].
Qed.

(* what buildC hands over *)
Definition h_damped (pos : nat -> nat -> R) (xs : list thermal) (cs : list (list (contrib RNum))) : Prop := Forall2 (fun x l => h_damp pos x = Ok l) xs cs.
Lemma h_damp_ok pos x l : h_damp pos x = Ok l -> plane (th_m x) /\
  forall c, In c l -> (forall en, ckeys en (h_nodes (th_m x)) c = node_keys (h_nodes (th_m x)) temps) /\ ctarget c = TC /\ ctypes c = temps /\ good_sizes (h_nodes (th_m x)) c.
Proof.
  unfold h_damp. destruct (th_m x) as [k n1 n2 n3 n4|ord k vf n1 n2 n3 n4|ord flux htc e n1 n2] eqn:E; [discriminate| |]; intros H; injection H as <-; split; [exact I| |exact I|].
  - intros c [<-|[]]. split; [reflexivity|]. split; [reflexivity|]. split; [reflexivity|]. cbn [good_sizes cdim h_nodes temps ctypes length Nat.mul Nat.add]. apply quadth_C_ok.
  - intros c [].
Qed.
Lemma h_damp_each pos xs : Forall (fun x => plane (th_m x)) xs -> exists cs, each (h_damp pos) xs = Ok cs /\ h_damped pos xs cs.
Proof.
  intros M. destruct (each_total (h_damp pos) xs) as [cs E].
  - intros x Hx. rewrite Forall_forall in M. specialize (M x Hx). unfold h_damp. destruct (th_m x); [destruct M|eauto|eauto].
  - exists cs. split; [exact E|]. now apply each_ok.
Qed.
Lemma h_damp_work pos x l v w : h_damp pos x = Ok l -> @sumof RNum _ (fun c => stiff_work (K := RNum) v w (0%nat, h_nodes (th_m x), c)) l = cap_work pos v w x.
Proof.
  unfold h_damp, cap_work. destruct (th_m x) as [k n1 n2 n3 n4|ord k vf n1 n2 n3 n4|ord flux htc e n1 n2] eqn:E; [discriminate| |]; intros H; injection H as <-; [|reflexivity].
  set (m := HQuad ord k vf n1 n2 n3 n4) in *. set (C := quadth_C ord (th_rho x) (th_c x) (at_nodes pos (h_nodes m))).
  rewrite sum_cons. change (@sumof RNum _ (fun c => stiff_work (K := RNum) v w (0%nat, h_nodes m, c)) []) with 0. rewrite Rplus_0_r.
  rewrite <- quadth_C_work. fold C. unfold stiff_work, dot, rsumn, rsuml. cbn [x_keys ckeys]. rewrite tkeys_length. change (length (h_nodes m)) with 4%nat. apply sumR_ext. intros p Hp. apply in_seq in Hp.
  rewrite tkey by apply Hp. rewrite values_nth by apply Hp. refine (f_equal2 Rmult _ eq_refl).
  refine (stiff_packed v m (CC (K := RNum) temps C) C _ _ p (proj2 Hp)); intros; reflexivity.
Qed.
