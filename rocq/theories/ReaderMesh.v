(* Proofs about compressNumbers and the labels *)
From Coq Require Import Ascii String.
From Verif Require Import Base ReaderModel SpecReader ReaderProofs.
Local Open Scope nat_scope.
Local Open Scope list_scope.

Section Compress.
  Variable D : Type.
  Notation mesh := (mesh D).

  Lemma nm_get_app a b k : nm_get (a ++ b) k =
    if existsb (fun p => Z.eqb (fst p) k) a then nm_get a k else nm_get b k.
  Proof.
    unfold nm_get. induction a as [|p a IH]; [reflexivity|]. cbn [app find existsb].
    destruct (Z.eqb (fst p) k); [reflexivity|]. exact IH.
  Qed.
  Lemma old2new_keys l : forall n k, existsb (fun p => Z.eqb (fst p) k) (old2new l n) = existsb (Z.eqb k) l.
  Proof.
    induction l as [|x l IH]; intros n k; [reflexivity|]. cbn [old2new existsb]. rewrite existsb_app, IH.
    cbn [existsb fst]. rewrite orb_false_r, Z.eqb_sym. apply orb_comm.
  Qed.
  Lemma existsb_in k l : existsb (Z.eqb k) l = true <-> In k l.
  Proof.
    rewrite existsb_exists. split.
    - intros (x & I & E). apply Z.eqb_eq in E. subst. exact I.
    - intros I. exists k. split; [exact I|apply Z.eqb_refl].
  Qed.
  (* the new number is the place in the list *)
  Lemma old2new_get l : forall n i k, NoDup l -> nth_error l i = Some k ->
    nm_get (old2new l n) k = (n + Z.of_nat i)%Z.
  Proof.
    induction l as [|x l IH]; intros n i k N E; [destruct i; discriminate|].
    inversion N as [|? ? N1 N2]; subst. cbn [old2new]. rewrite nm_get_app, old2new_keys.
    destruct i as [|i]; cbn [nth_error] in E.
    - injection E as ->. destruct (existsb (Z.eqb k) l) eqn:B.
      + apply existsb_in in B. exfalso. auto.
      + unfold nm_get. cbn [find fst snd]. rewrite Z.eqb_refl. cbn [snd]. lia.
    - assert (I : In k l) by (eapply nth_error_In; exact E).
      assert (B : existsb (Z.eqb k) l = true) by (apply existsb_in; exact I). rewrite B.
      rewrite (IH _ i k N2 E). lia.
  Qed.
  Lemma old2new_missing l n k : ~ In k l -> nm_get (old2new l n) k = 0%Z.
  Proof.
    intros H. unfold nm_get. destruct (find _ _) as [p|] eqn:E; [|reflexivity].
    exfalso. apply H. apply existsb_in. rewrite <- (old2new_keys l n). apply existsb_exists.
    apply List.find_some in E. exists p. exact E.
  Qed.
  Lemma pos_of_nth (nodes : list Z) : forall (pos : list (D * D * D)) i k, NoDup nodes -> length nodes = length pos ->
    nth_error nodes i = Some k -> pos_of D nodes pos k = nth_error pos i.
  Proof.
    induction nodes as [|x nodes IH]; intros pos i k N L E; [destruct i; discriminate|].
    destruct pos as [|p pos]; [discriminate|]. inversion N as [|? ? N1 N2]; subst. cbn [pos_of].
    destruct i as [|i]; cbn [nth_error] in *.
    - injection E as ->. rewrite Z.eqb_refl. reflexivity.
    - destruct (Z.eqb_spec x k) as [->|_].
      + exfalso. apply N1. eapply nth_error_In. exact E.
      + apply IH; auto.
  Qed.

  Definition refs_map (f : Z -> Z) (m m' : mesh) : Prop :=
    cell_refs D m' = map (map f) (cell_refs D m) /\ bc_refs D (md_fix D m') = map f (bc_refs D (md_fix D m)) /\
    bc_refs D (md_load D m') = map f (bc_refs D (md_load D m)) /\ mpc_refs D m' = map (map f) (mpc_refs D m) /\
    comp_refs D m' = map (map f) (comp_refs D m).

  Lemma filter_map_comm {A B} (g : A -> B) (p : B -> bool) l : filter p (map g l) = map g (filter (fun x => p (g x)) l).
  Proof. induction l as [|x l IH]; [reflexivity|]. cbn. destruct (p (g x)); cbn; rewrite IH; reflexivity. Qed.

  Lemma compress_ok m : NoDup (md_nodes D m) -> length (md_nodes D m) = length (md_pos D m) -> md_nodes D m <> [] ->
    Z.of_nat (length (md_nodes D m)) <> zmax (md_nodes D m) \/
    md_nodes D m = map Z.of_nat (seq 1 (length (md_nodes D m))) ->
    exists m' f, compressNumbers D m = Ok m' /\ mesh_rest D m' = mesh_rest D m /\ refs_map f m m' /\
      md_nodes D m' = map Z.of_nat (seq 1 (length (md_nodes D m))) /\
      (forall n, In n (md_nodes D m) -> stored_pos D (md_pos D m') (f n) = pos_of D (md_nodes D m) (md_pos D m) n) /\
      (forall n, In n (md_nodes D m) -> In (f n) (md_nodes D m')) /\
      (forall n n', In n (md_nodes D m) -> In n' (md_nodes D m) -> f n = f n' -> n = n').
  Proof.
    intros N L NE C. unfold compressNumbers.
    destruct (md_nodes D m) as [|x0 l0] eqn:En; [exfalso; auto|]. rewrite <- En in *. clear En x0 l0 NE.
    destruct (Z.eqb_spec (Z.of_nat (length (md_nodes D m))) (zmax (md_nodes D m))) as [E|E].
    - destruct C as [C|C]; [exfalso; auto|]. exists m, (fun n => n). split; [reflexivity|]. split; [reflexivity|].
      split.
      { unfold refs_map. rewrite !map_id. rewrite !(map_ext (map (fun n : Z => n)) (fun l => l)) by (intros; apply map_id).
        rewrite !map_id. repeat split. }
      split; [exact C|]. split; [|split; auto].
      intros n I. apply In_nth_error in I. destruct I as [i Hi].
      rewrite (pos_of_nth _ _ i n N L Hi). rewrite C in Hi. rewrite nth_error_map in Hi.
      destruct (nth_error (seq 1 (length (md_nodes D m))) i) as [j|] eqn:Ej; [|discriminate]. injection Hi as <-.
      assert (Hi2 : i < length (seq 1 (length (md_nodes D m)))) by (apply nth_error_Some; congruence).
      apply (nth_error_nth _ _ 0) in Ej. rewrite seq_length in Hi2. rewrite seq_nth in Ej by exact Hi2. subst j.
      unfold stored_pos. destruct (Z.leb_spec (Z.of_nat (1 + i)) 0); [lia|]. f_equal. lia.
    - exists (mkMesh D (map Z.of_nat (seq 1 (length (md_nodes D m)))) (md_pos D m)
                     (map (map_cell (nm_get (old2new (md_nodes D m) 1))) (md_cells D m))
                     (map (map_bc D (nm_get (old2new (md_nodes D m) 1))) (md_fix D m))
                     (map (map_bc D (nm_get (old2new (md_nodes D m) 1))) (md_load D m))
                     (map (map_mpc D (nm_get (old2new (md_nodes D m) 1))) (md_mpcs D m))
                     (map (fun p => (fst p, map_comp (nm_get (old2new (md_nodes D m) 1)) (snd p))) (md_comps D m))),
             (nm_get (old2new (md_nodes D m) 1)).
      set (f := nm_get (old2new (md_nodes D m) 1)).
      assert (F : forall i k, nth_error (md_nodes D m) i = Some k -> f k = (1 + Z.of_nat i)%Z)
        by (intros; apply old2new_get; assumption).
      split; [reflexivity|]. split.
      { unfold mesh_rest. cbn [md_pos md_cells md_fix md_load md_mpcs md_comps]. rewrite !map_map.
        cbn [map_bc map_mpc map_cell fst snd bc_dof bc_value mp_b mp_eq ce_num ce_nodes ce_type ce_mat ce_real ce_sect ce_cs ce_shape].
        repeat match goal with |- (_, _) = (_, _) => apply (f_equal2 pair) end; try reflexivity.
        - apply map_ext. intros c. rewrite map_length. reflexivity.
        - apply map_ext. intros p. rewrite map_map. reflexivity.
        - apply map_ext. intros p. unfold map_comp. destruct (cp_type (snd p) =? comp_NODES) eqn:T; cbn [cp_type cp_list];
            rewrite ?T; [rewrite map_length|]; reflexivity. }
      split.
      { unfold refs_map, cell_refs, bc_refs, mpc_refs, comp_refs. cbn [md_cells md_fix md_load md_mpcs md_comps].
        rewrite !map_map. split; [reflexivity|]. split; [reflexivity|]. split; [reflexivity|]. split.
        - apply map_ext. intros p. cbn [map_mpc mp_eq]. rewrite !map_map. reflexivity.
        - rewrite filter_map_comm, map_map. cbn [snd].
          rewrite (filter_ext _ (fun p : str * comp => cp_type (snd p) =? comp_NODES)).
          + apply map_ext_in. intros p I. apply filter_In in I. destruct I as [_ T]. unfold map_comp. rewrite T. reflexivity.
          + intros p. unfold map_comp. destruct (cp_type (snd p) =? comp_NODES) eqn:T; cbn [cp_type]; exact T. }
      cbn [md_nodes md_pos]. split; [reflexivity|]. split; [|split].
      + intros n I. apply In_nth_error in I. destruct I as [i Hi].
        rewrite (pos_of_nth _ _ i n N L Hi), (F _ _ Hi). unfold stored_pos.
        destruct (Z.leb_spec (1 + Z.of_nat i) 0); [lia|]. f_equal. lia.
      + intros n I. apply In_nth_error in I. destruct I as [i Hi]. rewrite (F _ _ Hi). apply in_map_iff.
        exists (S i). split; [lia|]. apply in_seq.
        assert (i < length (md_nodes D m)) by (apply nth_error_Some; congruence). lia.
      + intros n n' I I'. apply In_nth_error in I, I'. destruct I as [i Hi], I' as [i' Hi'].
        rewrite (F _ _ Hi), (F _ _ Hi'). intros E2. assert (i = i') by lia. subst. congruence.
  Qed.

  (* numbers 1..n in another order are left as they are *)
  Lemma compress_same m : md_nodes D m <> [] -> Z.of_nat (length (md_nodes D m)) = zmax (md_nodes D m) ->
    compressNumbers D m = Ok m.
  Proof.
    intros NE E. unfold compressNumbers. destruct (md_nodes D m) eqn:En; [exfalso; auto|]. rewrite <- En in *.
    rewrite <- E, Z.eqb_refl. reflexivity.
  Qed.
End Compress.

(* ---- labels *)
Lemma index_of_some x l : forall i k, index_of x l i = Some k -> i <= k /\ nth_error l (k - i) = Some x.
Proof.
  induction l as [|y l IH]; intros i k E; [discriminate|]. cbn [index_of] in E.
  destruct (str_eqb x y) eqn:B.
  - injection E as <-. apply str_eqb_eq in B. subst. rewrite Nat.sub_diag. split; [lia|reflexivity].
  - destruct (IH _ _ E) as [H1 H2]. split; [lia|]. replace (k - i) with (S (k - S i)) by lia. exact H2.
Qed.
Lemma index_of_none x l : forall i, index_of x l i = None <-> ~ In x l.
Proof.
  induction l as [|y l IH]; intros i; cbn [index_of In]; [tauto|].
  destruct (str_eqb x y) eqn:B.
  - apply str_eqb_eq in B. subst. split; [discriminate|]. intros H. exfalso. apply H. left. reflexivity.
  - rewrite IH. split; [|tauto]. intros H [H1|H1]; [|auto]. subst. rewrite str_eqb_refl in B. discriminate.
Qed.
Lemma index_of_nth l : NoDup l -> forall i k x, nth_error l k = Some x -> index_of x l i = Some (i + k).
Proof.
  intros N i k x E. destruct (index_of x l i) as [j|] eqn:J.
  - apply index_of_some in J. destruct J as [J1 J2]. f_equal.
    rewrite NoDup_nth_error in N. assert (k = j - i); [|lia]. apply N; [apply nth_error_Some; congruence|congruence].
  - apply index_of_none in J. exfalso. apply J. eapply nth_error_In. exact E.
Qed.
Fixpoint nodupb (l : list str) : bool :=
  match l with [] => true | x :: t => negb (existsb (str_eqb x) t) && nodupb t end.
Lemma nodupb_ok l : nodupb l = true -> NoDup l.
Proof.
  induction l as [|x l IH]; [constructor|]. cbn [nodupb]. intros H. apply andb_prop in H. destruct H as [H1 H2].
  constructor; [|auto]. intros I. apply negb_true_iff in H1.
  assert (existsb (str_eqb x) l = true); [|congruence]. apply existsb_exists. exists x. split; [exact I|apply str_eqb_refl].
Qed.

Lemma dof_code x : label2dofType x < 8 -> dofType2label (label2dofType x) = Ok x.
Proof.
  unfold label2dofType. destruct (index_of x _ 0) as [k|] eqn:E; [|unfold numberOfDofTypes; lia]. intros L.
  apply index_of_some in E. destruct E as [_ E]. rewrite Nat.sub_0_r in E. unfold dofType2label, aget.
  assert (B : (k <? numberOfDofTypes) = true) by (apply Nat.ltb_lt; exact L). rewrite B. cbn [asserting].
  rewrite <- (firstn_skipn numberOfDofTypes dofLabels). rewrite nth_error_app1 by (apply nth_error_Some; congruence).
  rewrite E. reflexivity.
Qed.
Lemma dof_label_code d : d < 8 -> exists x, dofType2label d = Ok x /\ label2dofType x = d.
Proof.
  intros L. do 8 (destruct d as [|d]; [eexists; split; reflexivity|]). lia.
Qed.
Lemma dof_unknown x : label2dofType x = 8 <-> forall d, d < 8 -> dofType2label d <> Ok x.
Proof.
  split.
  - intros E d L H. destruct (dof_label_code d L) as (y & H1 & H2). rewrite H in H1. injection H1 as <-. lia.
  - intros H. unfold label2dofType. destruct (index_of x _ 0) as [k|] eqn:E; [|reflexivity].
    exfalso. pose proof E as E2. apply index_of_some in E. destruct E as [_ E].
    assert (L : k < 8).
    { rewrite Nat.sub_0_r in E. assert (k < length (firstn numberOfDofTypes dofLabels)) by (apply nth_error_Some; congruence).
      exact H0. }
    apply (H k L). replace k with (label2dofType x) at 1 by (unfold label2dofType; rewrite E2; reflexivity).
    apply dof_code. unfold label2dofType. rewrite E2. exact L.
Qed.

(* the name of the class that is created *)
Definition class_name (c : elclass) : str :=
  match c with
  | CTRUSS3 => s_ "TRUSS3" | CPLANE41 => s_ "PLANE41" | CSOLID81 => s_ "SOLID81" | CTETRA0 => s_ "TETRA0"
  | CTETRA1 => s_ "TETRA1" | CQUADTH => s_ "QUADTH" | CSurfaceLINETH => s_ "SurfaceLINETH"
  | CTRIANGLE4 => s_ "TRIANGLE4" | CINTER0 => s_ "INTER0" | CINTER3 => s_ "INTER3"
  end.
Lemma element_created c n ptr : n <> 0 ->
  createElements (elName2elType (class_name c)) n ptr = Ok (ptr ++ repeat c n).
Proof.
  intros N. destruct n as [|n]; [exfalso; auto|]. destruct c; reflexivity.
Qed.
Lemma element_unknown x n ptr : (forall c, x <> class_name c) -> createElements (elName2elType x) n ptr = Fatal.
Proof.
  intros H. unfold elName2elType. destruct (index_of x _ 0) as [k|] eqn:E; [|reflexivity].
  exfalso. apply index_of_some in E. destruct E as [_ E]. rewrite Nat.sub_0_r in E. apply nth_error_In in E.
  assert (I : In x (map class_name [CTRUSS3; CPLANE41; CSOLID81; CTETRA0; CTETRA1; CQUADTH; CSurfaceLINETH; CTRIANGLE4; CINTER0; CINTER3]))
    by exact E.
  apply in_map_iff in I. destruct I as (c & E2 & _). apply (H c). auto.
Qed.
Definition mat_names : list str := map s_ ["Neo-Hookean"; "Biderman"; "Mooney-Rivlin"]%string.
Lemma material_created k x : nth_error mat_names k = Some x -> createMaterial x = Some (S k).
Proof.
  intros E. do 3 (destruct k as [|k]; [cbn in E; injection E as <-; reflexivity|]). destruct k; discriminate.
Qed.
Lemma material_unknown x : ~ In x mat_names <-> createMaterial x = None.
Proof.
  split.
  - intros H. unfold createMaterial, matName2matId. destruct (index_of x _ 0) as [k|] eqn:E; [|reflexivity].
    apply index_of_some in E. destruct E as [_ E]. rewrite Nat.sub_0_r in E.
    destruct k as [|k]; [reflexivity|]. exfalso. apply H. eapply nth_error_In. exact E.
  - intros E I. apply In_nth_error in I. destruct I as [k Hk]. rewrite (material_created _ _ Hk) in E. discriminate.
Qed.
Lemma component_type x : typeFromString x = match (str_eqb x (s_ "ELEM"), str_eqb x (s_ "NODE")) with
  | (true, _) => comp_ELEMENTS | (false, true) => comp_NODES | _ => 0 end.
Proof. unfold typeFromString. cbn [skipn firstn labelsOfComponent map index_of]. destruct (str_eqb x (s_ "ELEM")), (str_eqb x (s_ "NODE")); reflexivity. Qed.
(* the labels of query codes are defined and different *)
Lemma query_injective ls : In ls [scalarLabels; vectorLabels; tensorLabels] ->
  forall q q', q < length ls - 1 -> q' < length ls - 1 ->
  exists x, query2label ls q = Ok x /\ (query2label ls q' = Ok x -> q' = q).
Proof.
  intros I q q' L L'.
  assert (N : NoDup ls) by (cbn [In] in I; repeat destruct I as [<-|I]; try tauto; apply nodupb_ok; reflexivity).
  destruct (nth_error ls q) as [x|] eqn:E; [|apply nth_error_None in E; lia].
  exists x. unfold query2label, aget. apply Nat.ltb_lt in L as B. apply Nat.ltb_lt in L' as B'. rewrite B, B', E.
  cbn [asserting]. split; [reflexivity|]. destruct (nth_error ls q') as [x'|] eqn:E'; [|discriminate].
  intros X. injection X as ->. rewrite NoDup_nth_error in N. apply N; [lia|congruence].
Qed.
