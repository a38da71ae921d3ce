From Coq Require Import Ascii String Reals.
From Verif Require Import Base BaseProofs ReaderModel ReaderProofs ReaderMesh HyperModel ProgModel ToolsModel SpecTools.
Local Open Scope nat_scope.

Lemma index_first x l : forall i k, ReaderModel.index_of x l i = Some k <->
  i <= k /\ nth_error l (k - i) = Some x /\ forall j, j < k - i -> nth_error l j <> Some x.
Proof.
  induction l as [|y l IH]; intros i k; cbn [ReaderModel.index_of].
  - split; [discriminate|]. intros (_ & H & _). destruct (k - i); discriminate H.
  - destruct (str_eqb x y) eqn:E.
    + apply str_eqb_eq in E. subst y. split.
      * intros H. injection H as <-. rewrite Nat.sub_diag. split; [lia|]. split; [reflexivity|]. intros j Hj. lia.
      * intros (H1 & H2 & H3). destruct (Nat.eq_dec k i) as [->|N]; [reflexivity|].
        exfalso. apply (H3 0); [lia|reflexivity].
    + assert (N : y <> x) by (intros ->; rewrite str_eqb_refl in E; discriminate E).
      rewrite IH. split.
      * intros (H1 & H2 & H3). split; [lia|]. replace (k - i) with (S (k - S i)) by lia. split; [exact H2|].
        intros [|j] Hj; cbn [nth_error]; [congruence|]. apply H3. lia.
      * intros (H1 & H2 & H3). destruct (Nat.eq_dec k i) as [->|Ne].
        -- rewrite Nat.sub_diag in H2. cbn in H2. congruence.
        -- split; [lia|]. replace (k - i) with (S (k - S i)) in * by lia. split; [exact H2|].
           intros j Hj. apply (H3 (S j)). lia.
Qed.
Lemma means_fun names k i j : means names k i -> means names k j -> i = j.
Proof.
  destruct k as [n|x]; cbn [means].
  - intros [-> _] [-> _]. reflexivity.
  - intros [H1 H2] [H3 H4]. destruct (Nat.lt_total i j) as [L|[L|L]]; [|exact L|].
    + contradiction (H4 i L).
    + contradiction (H2 j L).
Qed.
Lemma means_lt names k i : means names k i -> i < length names.
Proof. destruct k; cbn [means]; [intros [_ H]; exact H|]. intros [H _]. apply nth_error_Some. congruence. Qed.
Lemma ref_means m k i : ref_Ci m k = Ok i <-> means (mo_names m) k i.
Proof.
  destruct k as [n|x]; cbn [ref_Ci means]; unfold getNumC, asserting.
  - destruct (n <? length (mo_names m)) eqn:E.
    + apply Nat.ltb_lt in E. split; [intros H; injection H as <-; auto|]. intros [-> _]. reflexivity.
    + apply Nat.ltb_ge in E. split; [discriminate|]. intros [-> H]. lia.
  - pose proof (index_first x (mo_names m) 0) as F. destruct (ReaderModel.index_of x (mo_names m) 0) as [k|] eqn:E.
    + pose proof (proj1 (F k) eq_refl) as (_ & F1 & F2). rewrite Nat.sub_0_r in *. split.
      * intros H. injection H as <-. auto.
      * intros [H1 H2]. f_equal. destruct (Nat.lt_total i k) as [L|[L|L]]; [contradiction (F2 i L)|symmetry; exact L|contradiction (H2 k L)].
    + split; [discriminate|]. intros [H1 H2]. assert (D : None = Some i); [|discriminate D].
      apply F. rewrite Nat.sub_0_r. repeat split; [lia|exact H1|exact H2].
Qed.
Lemma ref_cases m k : (exists i, ref_Ci m k = Ok i) \/ ref_Ci m k = UB.
Proof.
  destruct k; cbn [ref_Ci]; unfold asserting.
  - destruct (_ <? _); [left; eauto|right; reflexivity].
  - destruct (ReaderModel.index_of _ _ _); [left; eauto|right; reflexivity].
Qed.
Lemma ref_unknown m k : ~ known (mo_names m) k -> ref_Ci m k = UB.
Proof.
  intros H. destruct (ref_cases m k) as [[i E]|E]; [|exact E]. contradiction H. exists i. apply ref_means. exact E.
Qed.

(* the state after the assignments l *)
Definition mstate (m : matobj) (names : list str) (l : list (ckey * R)) : Prop :=
  mo_names m = names /\ length (mo_MC m) = length names /\
  forall i, i < length names ->
    (never names l i /\ nth_error (mo_MC m) i = Some None) \/
    exists v, last_value names l i v /\ nth_error (mo_MC m) i = Some (Some v).

Lemma fresh_state m : mo_MC m = repeat None (length (mo_names m)) -> mstate m (mo_names m) [].
Proof.
  intros H. split; [reflexivity|]. rewrite H. split; [apply repeat_length|].
  intros i Hi. left. split; [constructor|]. rewrite nth_error_repeat by exact Hi. reflexivity.
Qed.
Lemma state_step m names l k v :
  mstate m names l -> known names k -> exists m', set_Ci m k v = Ok m' /\ mstate m' names (l ++ [(k, v)]) /\
    mo_code m' = mo_code m /\ mo_name m' = mo_name m.
Proof.
  intros (Hn & Hl & Hs) (i & Hi). pose proof (means_lt _ _ _ Hi) as Li.
  assert (E : ref_Ci m k = Ok i) by (apply ref_means; rewrite Hn; exact Hi).
  unfold set_Ci. rewrite E. cbn [obind]. rewrite aset_ok by lia. cbn [obind].
  eexists. split; [reflexivity|]. split; [|split; reflexivity]. split; [exact Hn|]. cbn [mo_MC]. rewrite upd_length. split; [exact Hl|].
  intros j Hj. destruct (Nat.eq_dec i j) as [<-|N].
  - right. exists v. rewrite nth_error_upd_same by lia. split; [|reflexivity]. exists l, k, []. auto.
  - rewrite nth_error_upd_diff by exact N. destruct (Hs j Hj) as [[H1 H2]|(u & (l1 & k' & l2 & -> & H1 & H2) & H3)].
    + left. split; [|exact H2]. unfold never. apply Forall_app. split; [exact H1|]. constructor; [|constructor].
      intros M. apply N. exact (means_fun _ _ _ _ Hi M).
    + right. exists u. split; [|exact H3]. exists l1, k', (l2 ++ [(k, v)]). rewrite <- app_assoc. split; [reflexivity|]. split; [exact H1|].
      apply Forall_app. split; [exact H2|]. constructor; [|constructor]. intros M. apply N. exact (means_fun _ _ _ _ Hi M).
Qed.
Lemma state_unknown m names l k v : mstate m names l -> ~ known names k -> set_Ci m k v = UB.
Proof. intros (Hn & _) H. unfold set_Ci. rewrite ref_unknown by (rewrite Hn; exact H). reflexivity. Qed.

Lemma state_all m names l0 l :
  mstate m names l0 -> Forall (fun kv => known names (fst kv)) l ->
  exists m', set_all m l = Ok m' /\ mstate m' names (l0 ++ l) /\ mo_code m' = mo_code m /\ mo_name m' = mo_name m.
Proof.
  revert m l0. induction l as [|[k v] l IH]; intros m l0 Hm H.
  - exists m. rewrite app_nil_r. auto.
  - inversion H as [|? ? Hk Hr]; subst. cbn [fst] in Hk. destruct (state_step m names l0 k v Hm Hk) as (m1 & E & H1 & C1 & N1).
    destruct (IH m1 (l0 ++ [(k, v)]) H1 Hr) as (m2 & E2 & H2 & C2 & N2).
    exists m2. unfold set_all. cbn [ofold fst snd]. rewrite E. cbn [obind]. split; [exact E2|].
    rewrite <- app_assoc in H2. split; [exact H2|]. split; congruence.
Qed.
Lemma state_all_bad m names l0 l :
  mstate m names l0 -> ~ Forall (fun kv => known names (fst kv)) l -> set_all m l = UB.
Proof.
  revert m l0. induction l as [|[k v] l IH]; intros m l0 Hm H; [contradiction H; constructor|].
  destruct (ref_cases m k) as [[i E]|E].
  - assert (Hk : known names k) by (exists i; destruct Hm as [<- _]; apply ref_means; exact E).
    destruct (state_step m names l0 k v Hm Hk) as (m1 & E1 & H1 & _).
    unfold set_all. cbn [ofold fst snd]. rewrite E1. cbn [obind]. apply (IH m1 _ H1).
    intros F. apply H. constructor; assumption.
  - unfold set_all. cbn [ofold fst snd]. unfold set_Ci. rewrite E. reflexivity.
Qed.
Lemma state_get m names l k i v : mstate m names l -> means names k i -> last_value names l i v -> get_Ci m k = Ok v.
Proof.
  intros (Hn & Hl & Hs) Hi Hv. unfold get_Ci. rewrite (proj2 (ref_means m k i)) by (rewrite Hn; exact Hi). cbn [obind].
  destruct (Hs i (means_lt _ _ _ Hi)) as [[H1 H2]|(u & Hu & H3)].
  - exfalso. destruct Hv as (l1 & k' & l2 & -> & M & _). apply Forall_app in H1. destruct H1 as [_ H1]. inversion H1 as [|? ? H4 _]; subst. exact (H4 M).
  - unfold read_MC. rewrite (aget_nth_error _ _ _ H3). cbn [obind]. f_equal.
    destruct Hu as (a1 & ka & a2 & E1 & Ma & Fa), Hv as (b1 & kb & b2 & E2 & Mb & Fb). rewrite E1 in E2. clear - E2 Ma Fa Mb Fb.
    revert b1 E2. induction a1 as [|x a1 IH]; intros [|y b1] E2; cbn [app] in E2.
    + injection E2 as _ -> _. reflexivity.
    + injection E2 as <- E2. subst a2. apply Forall_app in Fa. destruct Fa as [_ Fa]. inversion Fa as [|? ? F _]; subst. contradiction.
    + injection E2 as -> E2. rewrite <- E2 in Fb. apply Forall_app in Fb. destruct Fb as [_ Fb]. inversion Fb as [|? ? F _]; subst. contradiction.
    + injection E2 as _ E2. apply (IH b1 E2).
Qed.
Lemma state_get_never m names l k i : mstate m names l -> means names k i -> never names l i -> get_Ci m k = UB.
Proof.
  intros (Hn & Hl & Hs) Hi Hv. unfold get_Ci. rewrite (proj2 (ref_means m k i)) by (rewrite Hn; exact Hi). cbn [obind].
  destruct (Hs i (means_lt _ _ _ Hi)) as [[H1 H2]|(u & (l1 & k' & l2 & -> & M & _) & H3)].
  - unfold read_MC. rewrite (aget_nth_error _ _ _ H2). reflexivity.
  - exfalso. apply Forall_app in Hv. destruct Hv as [_ Hv]. inversion Hv as [|? ? H4 _]; subst. exact (H4 M).
Qed.
Lemma get_unknown m k : ~ known (mo_names m) k -> get_Ci m k = UB.
Proof. intros H. unfold get_Ci. rewrite ref_unknown by exact H. reflexivity. Qed.

(* statement for a registered material *)
Lemma constants name names l : Forall (fun kv => known names (fst kv)) l ->
  exists m, set_all (register_mat_const name names) l = Ok m /\
    (forall k i v, means names k i -> last_value names l i v -> get_Ci m k = Ok v) /\
    (forall k i, means names k i -> never names l i -> get_Ci m k = UB) /\
    (forall k, ~ known names k -> get_Ci m k = UB).
Proof.
  intros H. destruct (state_all (register_mat_const name names) names [] l) as (m & E & Hm & _); [|exact H|].
  - apply (fresh_state (register_mat_const name names)). reflexivity.
  - exists m. split; [exact E|]. cbn [app] in Hm. split; [|split].
    + intros k i v. apply state_get. exact Hm.
    + intros k i. apply state_get_never. exact Hm.
    + intros k Hk. apply get_unknown. destruct Hm as [-> _]. exact Hk.
Qed.
Lemma constants_unknown name names l : ~ Forall (fun kv => known names (fst kv)) l ->
  set_all (register_mat_const name names) l = UB.
Proof. apply (state_all_bad _ names []). apply (fresh_state (register_mat_const name names)). reflexivity. Qed.
Lemma same_constant names i x : NoDup names -> nth_error names i = Some x ->
  forall j, means names (By_name x) j <-> means names (By_number i) j.
Proof.
  intros D H j. cbn [means]. split.
  - intros [H1 H2]. assert (i = j) as ->; [|split; [reflexivity|apply nth_error_Some; congruence]].
    apply (proj1 (NoDup_nth_error names) D); [apply nth_error_Some; congruence|congruence].
  - intros [<- H1]. split; [exact H|]. intros k Hk Hx.
    assert (k = i) by (apply (proj1 (NoDup_nth_error names) D); [apply nth_error_Some; congruence|congruence]). lia.
Qed.
Lemma hidden_constant names i j x : nth_error names i = Some x -> nth_error names j = Some x -> i < j ->
  forall y, ~ means names (By_name y) j.
Proof. intros Hi Hj L y [H1 H2]. apply (H2 i L). congruence. Qed.

(* toString *)
Lemma ofold_read m n : forall l0, 
  (forall i, i < n -> exists v, read_MC m i = Ok v) -> n <= getNumC m ->
  forall k, k <= n -> exists l, ofold (fun l i => x <- aget (mo_names m) i ;; v <- read_MC m i ;; Ok (l ++ [(x, v)])) (seq (n - k) k) l0 = Ok (l0 ++ l)
    /\ map fst l = firstn k (skipn (n - k) (mo_names m)) /\ forall i y, nth_error l i = Some y -> read_MC m (n - k + i) = Ok (snd y).
Proof.
  intros l0 H Hn k. revert l0. induction k as [|k IH]; intros l0 Hk.
  - exists []. cbn [seq ofold]. rewrite app_nil_r. repeat split. intros [|i] y Hy; discriminate Hy.
  - cbn [seq ofold]. destruct (nth_error (mo_names m) (n - S k)) as [x|] eqn:Ex; [|apply nth_error_None in Ex; unfold getNumC in Hn; lia].
    rewrite (aget_nth_error _ _ _ Ex). cbn [obind]. destruct (H (n - S k) ltac:(lia)) as [v Hv]. rewrite Hv. cbn [obind].
    replace (S (n - S k)) with (n - k) by lia.
    destruct (IH (l0 ++ [(x, v)]) ltac:(lia)) as (l & E & Ef & Er). exists ((x, v) :: l). split; [rewrite E, <- app_assoc; reflexivity|]. split.
    + cbn [map fst]. rewrite Ef.
      assert (Sx : skipn (n - S k) (mo_names m) = x :: skipn (n - k) (mo_names m)).
      { destruct (nth_error_split _ _ Ex) as (a & b & -> & La). rewrite <- La. rewrite skipn_app, skipn_all2, Nat.sub_diag by lia.
        cbn [app skipn]. f_equal. replace (n - k) with (length (a ++ [x])) by (rewrite app_length; cbn [length]; lia).
        rewrite <- (app_nil_l b) at 1. change (x :: b) with ([x] ++ b). rewrite app_assoc, skipn_app, skipn_all, Nat.sub_diag. reflexivity. }
      rewrite Sx. reflexivity.
    + intros [|i] y Hy.
      * cbn in Hy. injection Hy as <-. rewrite Nat.add_0_r. exact Hv.
      * cbn [nth_error] in Hy. replace (n - S k + S i) with (n - k + i) by lia. apply Er. exact Hy.
Qed.
Lemma shown m : (forall i, i < getNumC m -> exists v, read_MC m i = Ok v) ->
  exists l, mat_toString m = Ok (mo_name m, l) /\ map fst l = mo_names m /\
            forall i y, nth_error l i = Some y -> read_MC m i = Ok (snd y).
Proof.
  intros H. destruct (ofold_read m (getNumC m) [] H ltac:(lia) (getNumC m) ltac:(lia)) as (l & E & Ef & Er).
  rewrite Nat.sub_diag in *. exists l. unfold mat_toString. rewrite E. cbn [obind app]. split; [reflexivity|]. split; [|exact Er].
  rewrite Ef. cbn [skipn]. apply firstn_all.
Qed.

(* ---------------- the laws *)
Definition made (x : str) (l : list (ckey * R)) (m : matobj) : Prop :=
  exists m0, new_material x = Some m0 /\ set_all m0 l = Ok m.
Definition const (m : matobj) (x : string) (v : R) : Prop := get_Ci m (By_name (s_ x)) = Ok v.

Lemma set_all_keeps l : forall m m', set_all m l = Ok m' -> mo_names m' = mo_names m /\ mo_code m' = mo_code m.
Proof.
  induction l as [|[k v] l IH]; intros m m' H.
  - injection H as <-. auto.
  - unfold set_all in H. cbn [ofold fst snd] in H. unfold set_Ci in H at 1.
    destruct (ref_cases m k) as [[i E]|E]; rewrite E in H; cbn [obind] in H; [|discriminate H].
    unfold aset in H. destruct (i <? length (mo_MC m)); cbn [obind] in H; [|discriminate H].
    apply IH in H. exact H.
Qed.
Lemma made_facts x l m : made x l m -> exists m0, new_material x = Some m0 /\ mo_names m = mo_names m0 /\ mo_code m = mo_code m0.
Proof. intros (m0 & H0 & H). exists m0. apply set_all_keeps in H. tauto. Qed.
Lemma const_read m x v i : const m x v -> ReaderModel.index_of (s_ x) (mo_names m) 0 = Some i -> read_MC m i = Ok v.
Proof. unfold const, get_Ci. cbn [ref_Ci]. intros H E. rewrite E in H. exact H. Qed.

Ltac lawful H Hm :=
  let m0 := fresh "m0" in let Hn := fresh "Hn" in let Hc := fresh "Hc" in
  destruct (made_facts _ _ _ Hm) as (m0 & H & Hn & Hc); injection H as <-; cbn in Hn, Hc.

Lemma law_neo l m G K : made (s_ "Neo-Hookean") l m -> const m "G" G -> const m "K" K -> follows m (neo_hookean G K).
Proof.
  intros Hm HG HK. lawful H Hm.
  pose proof (const_read _ _ _ 0 HG ltac:(rewrite Hn; reflexivity)) as RG. pose proof (const_read _ _ _ 1 HK ltac:(rewrite Hn; reflexivity)) as RK.
  repeat split; intros; unfold mat_first, mat_second, mat_W, mat_getK; rewrite Hc, ?RG, ?RK; reflexivity.
Qed.
Lemma law_biderman l m a b c d K : made (s_ "Biderman") l m ->
  const m "C10" a -> const m "C20" b -> const m "C30" c -> const m "C01" d -> const m "K" K -> follows m (biderman a b c d K).
Proof.
  intros Hm Ha Hb Hc0 Hd HK. lawful H Hm.
  pose proof (const_read _ _ _ 0 Ha ltac:(rewrite Hn; reflexivity)) as Ra. pose proof (const_read _ _ _ 1 Hb ltac:(rewrite Hn; reflexivity)) as Rb.
  pose proof (const_read _ _ _ 2 Hc0 ltac:(rewrite Hn; reflexivity)) as Rc. pose proof (const_read _ _ _ 3 Hd ltac:(rewrite Hn; reflexivity)) as Rd.
  pose proof (const_read _ _ _ 4 HK ltac:(rewrite Hn; reflexivity)) as RK.
  repeat split; intros; unfold mat_first, mat_second, mat_W, mat_getK; rewrite Hc, ?RK, ?Ra; cbn [obind]; rewrite ?Rb; cbn [obind]; rewrite ?Rc; cbn [obind]; rewrite ?Rd; reflexivity.
Qed.
Lemma law_mooney l m a d K : made (s_ "Mooney-Rivlin") l m ->
  const m "C10" a -> const m "C01" d -> const m "K" K -> follows m (mooney_rivlin a d K).
Proof.
  intros Hm Ha Hd HK. lawful H Hm.
  pose proof (const_read _ _ _ 0 Ha ltac:(rewrite Hn; reflexivity)) as Ra. pose proof (const_read _ _ _ 1 Hd ltac:(rewrite Hn; reflexivity)) as Rd.
  pose proof (const_read _ _ _ 2 HK ltac:(rewrite Hn; reflexivity)) as RK.
  repeat split; intros; unfold mat_first, mat_second, mat_W, mat_getK; rewrite Hc, ?RK, ?Ra; cbn [obind]; rewrite ?Rd; reflexivity.
Qed.
(* the constants in the order of the command line, main.cpp:177-179 *)
Definition in_order (l : list R) : list (ckey * R) := combine (map By_number (seq 0 (length l))) l.
Lemma order_neo G K : exists m, made (s_ "Neo-Hookean") (in_order [G; K]) m /\ const m "G" G /\ const m "K" K.
Proof. eexists. split; [eexists; split; reflexivity|]. split; reflexivity. Qed.
Lemma order_biderman a b c d K : exists m, made (s_ "Biderman") (in_order [a; b; c; d; K]) m /\
  const m "C10" a /\ const m "C20" b /\ const m "C30" c /\ const m "C01" d /\ const m "K" K.
Proof. eexists. split; [eexists; split; reflexivity|]. repeat split; reflexivity. Qed.
Lemma order_mooney a d K : exists m, made (s_ "Mooney-Rivlin") (in_order [a; d; K]) m /\
  const m "C10" a /\ const m "C01" d /\ const m "K" K.
Proof. eexists. split; [eexists; split; reflexivity|]. repeat split; reflexivity. Qed.
Lemma unset_law x l m I1 I2 I3 : made x l m -> ~ (exists v, read_MC m 0 = Ok v) ->
  mat_first m I1 I2 I3 = UB /\ mat_second m I1 I2 I3 = UB /\ mat_W m I1 I2 I3 = UB.
Proof.
  intros Hm H.
  assert (E : read_MC m 0 = UB).
  { unfold read_MC, aget in *. destruct (nth_error (mo_MC m) 0) as [[v|]|]; try reflexivity. contradiction H. exists v. reflexivity. }
  unfold mat_first, mat_second, mat_W. rewrite E.
  destruct (mo_code m) as [|[|[|[|]]]]; repeat split; reflexivity.
Qed.
Lemma factory_code x : option_map mo_code (new_material x) = createMaterial x.
Proof.
  unfold new_material, createMaterial.
  assert (L : matName2matId x < 4).
  { unfold matName2matId. destruct (ReaderModel.index_of x (firstn matLAST matModelLabels) 0) eqn:E; [|lia].
    apply index_first in E. destruct E as (_ & E & _). rewrite Nat.sub_0_r in E. assert (n < length (firstn matLAST matModelLabels)) by (apply nth_error_Some; congruence). exact H. }
  destruct (matName2matId x) as [|[|[|[|]]]]; reflexivity.
Qed.
Lemma factory_count x m : new_material x = Some m -> getNumC m = mat_numC (mo_code m) /\ NoDup (mo_names m) /\
  mo_MC m = repeat None (getNumC m).
Proof.
  unfold new_material. destruct (matName2matId x) as [|[|[|[|]]]]; try discriminate; intros H; injection H as <-;
  (split; [reflexivity|]); (split; [|reflexivity]); cbn; repeat (constructor; [cbn; intuition discriminate|]); constructor.
Qed.
