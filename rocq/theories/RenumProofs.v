From Coq Require Import Lia ZArith.
From Verif Require Import Base BaseProofs ReaderModel ReaderMesh SpecRenum ProgModel.

Fixpoint index (n : Z) (l : list Z) : nat := match l with [] => 0 | x :: t => if Z.eqb x n then 0 else S (index n t) end.
Lemma index_nth n l : In n l -> nth_error l (index n l) = Some n.
Proof.
  induction l as [|x l IH]; intros H; [destruct H|]. cbn [index]. destruct (Z.eqb_spec x n) as [->|N]; [reflexivity|]. cbn [nth_error].
  apply IH. destruct H; [contradiction|assumption].
Qed.
Lemma index_map f n l : (forall a b, In a l -> In b l -> f a = f b -> a = b) -> In n l -> index (f n) (map f l) = index n l.
Proof.
  induction l as [|x l IH]; intros HI H; [destruct H|]. cbn [map index]. destruct (Z.eqb_spec x n) as [->|N].
  - rewrite Z.eqb_refl. reflexivity.
  - destruct H as [H|H]; [contradiction|]. destruct (Z.eqb_spec (f x) (f n)) as [E|_]; [exfalso; apply N; apply HI; [now left|now right|exact E]|].
    f_equal. apply IH; [|exact H]. intros a b Ha Hb. apply HI; now right.
Qed.
Lemma index_seq k : forall s n, (Z.of_nat s <= n < Z.of_nat (s + k))%Z -> Z.of_nat (s + index n (map Z.of_nat (seq s k))) = n.
Proof.
  induction k as [|k IH]; intros s n H; [lia|]. cbn [seq map index]. destruct (Z.eqb_spec (Z.of_nat s) n) as [<-|N]; [f_equal; lia|].
  rewrite <- (IH (S s) n) at 2 by lia. f_equal. lia.
Qed.
Lemma zmax_le l b : (0 <= b)%Z -> (forall n, In n l -> (n <= b)%Z) -> (zmax l <= b)%Z.
Proof. induction l as [|x l IH]; intros B H; cbn [zmax]; [exact B|]. apply Z.max_lub; [apply H; now left|apply IH; auto; intros; apply H; now right]. Qed.

Section R.
  Variable D : Type.
  Definition rank (m : mesh D) (n : Z) : Z := Z.of_nat (1 + index n (md_nodes D m)).
  Lemma le_zmax n l : In n l -> (n <= zmax l)%Z.
  Proof. induction l as [|x l IH]; intros []; cbn [zmax]; subst; [|specialize (IH H)]; lia. Qed.

  Lemma map_same {A B} (f g : A -> B) l : (forall x, In x l -> f x = g x) -> map f l = map g l.
  Proof. intros H. apply map_ext_in. exact H. Qed.
  (* renumberings that agree on the nodes that are mentioned *)
  Lemma rn_ext f g (m : mesh D) : (forall n, In n (md_nodes D m) -> f n = g n) -> (forall n, In n (mentioned D m) -> f n = g n) -> rn_mesh D f m = rn_mesh D g m.
  Proof.
    intros H0 H. unfold mentioned in H. unfold rn_mesh. f_equal.
    - apply map_ext_in. exact H0.
    - apply map_ext_in. intros c Hc. unfold rn_cell. f_equal. apply map_ext_in. intros n Hn. apply H. apply in_or_app. left. apply in_flat_map. eauto.
    - apply map_ext_in. intros b Hb. unfold rn_bc. f_equal. apply H. rewrite !in_app_iff. right. left. apply in_map_iff. eauto.
    - apply map_ext_in. intros b Hb. unfold rn_bc. f_equal. apply H. rewrite !in_app_iff. right. right. left. apply in_map_iff. eauto.
    - apply map_ext_in. intros p Hp. unfold rn_mpc. f_equal. apply map_ext_in. intros t Ht. f_equal. apply H. rewrite !in_app_iff. do 3 right. left. apply in_flat_map. exists p. split; [exact Hp|].
      apply in_map_iff. eauto.
    - apply map_ext_in. intros p Hp. f_equal. unfold rn_comp. destruct (cp_type (snd p) =? comp_NODES)%nat eqn:E; [|reflexivity]. f_equal. apply map_ext_in. intros n Hn. apply H.
      rewrite !in_app_iff. do 4 right. apply in_flat_map. exists p. split; [exact Hp|]. rewrite E. exact Hn.
  Qed.
  Lemma rn_id (m : mesh D) : rn_mesh D (fun n => n) m = m.
  Proof.
    destruct m as [ns ps cs fs ls ms ks]. unfold rn_mesh. cbn [md_nodes md_pos md_cells md_fix md_load md_mpcs md_comps]. f_equal.
    - apply map_id.
    - rewrite <- (map_id cs) at 2. apply map_ext. intros []. unfold rn_cell. cbn. f_equal. apply map_id.
    - rewrite <- (map_id fs) at 2. apply map_ext. intros []. reflexivity.
    - rewrite <- (map_id ls) at 2. apply map_ext. intros []. reflexivity.
    - rewrite <- (map_id ms) at 2. apply map_ext. intros [b e]. unfold rn_mpc. cbn. f_equal. rewrite <- (map_id e) at 2. apply map_ext. intros []. reflexivity.
    - rewrite <- (map_id ks) at 2. apply map_ext. intros [n [t l]]. cbn [fst snd]. f_equal. unfold rn_comp. cbn. destruct (t =? comp_NODES)%nat; [|reflexivity]. f_equal. apply map_id.
  Qed.
  Lemma rn_comp_ok f g (m : mesh D) : rn_mesh D g (rn_mesh D f m) = rn_mesh D (fun n => g (f n)) m.
  Proof.
    unfold rn_mesh. cbn [md_nodes md_pos md_cells md_fix md_load md_mpcs md_comps]. rewrite !map_map. f_equal; apply map_ext.
    - intros []. unfold rn_cell. cbn. f_equal. apply map_map.
    - intros [b e]. unfold rn_mpc. cbn. f_equal. rewrite map_map. reflexivity.
    - intros [n [t l]]. cbn [fst snd]. f_equal. unfold rn_comp. cbn [cp_type cp_list]. destruct (t =? comp_NODES)%nat eqn:E; cbn [cp_type cp_list]; rewrite E; [|reflexivity]. f_equal. apply map_map.
  Qed.
  Lemma mentioned_rn f (m : mesh D) : mentioned D (rn_mesh D f m) = map f (mentioned D m).
  Proof.
    unfold mentioned, rn_mesh. cbn [md_nodes md_pos md_cells md_fix md_load md_mpcs md_comps]. rewrite !map_app, !map_map. f_equal; [|f_equal; f_equal; f_equal].
    - induction (md_cells D m) as [|c l IH]; [reflexivity|]. cbn [map flat_map]. rewrite map_app, IH. reflexivity.
    - induction (md_mpcs D m) as [|c l IH]; [reflexivity|]. cbn [map flat_map]. rewrite map_app, IH. f_equal. unfold rn_mpc. cbn [mp_eq]. rewrite !map_map. reflexivity.
    - induction (md_comps D m) as [|[n [t l0]] l IH]; [reflexivity|]. cbn [map flat_map fst snd]. rewrite map_app, IH. f_equal. unfold rn_comp. cbn [cp_type cp_list].
      destruct (t =? comp_NODES)%nat eqn:E; cbn [cp_type cp_list]; rewrite E; reflexivity.
  Qed.

  (* what compressNumbers does: the position in the table becomes the number *)
  Lemma compress_rank (m : mesh D) : well_numbered D m -> compressNumbers D m = Ok (rn_mesh D (rank m) m).
  Proof.
    intros (N1 & N2 & N3 & N4).
    assert (RK : forall n, In n (md_nodes D m) -> nm_get (old2new (md_nodes D m) 1) n = rank m n).
    { intros n Hn. rewrite (old2new_get _ 1%Z (index n (md_nodes D m)) n N1 (index_nth _ _ Hn)). unfold rank. lia. }
    destruct N3 as [N3|N3].
    - assert (EQ : rn_mesh D (rank m) m = m).
      { rewrite <- (rn_id m) at 3. assert (Q : forall n, In n (md_nodes D m) -> rank m n = n).
        { intros n Hn. unfold rank. rewrite N3 at 1. apply index_seq. rewrite N3 in Hn. apply in_map_iff in Hn as (i & <- & Hi). apply in_seq in Hi. lia. }
        apply rn_ext; [exact Q|]. intros n Hn. apply Q, N4, Hn. }
      rewrite EQ. apply compress_same; [exact N2|]. apply Z.le_antisymm.
      + apply le_zmax. rewrite N3 at 2. apply in_map. apply in_seq. destruct (md_nodes D m); [contradiction|cbn [length]; lia].
      + apply zmax_le; [lia|]. intros n Hn. rewrite N3 in Hn. apply in_map_iff in Hn as (i & <- & Hi). apply in_seq in Hi. lia.
    - assert (NE : Z.of_nat (length (md_nodes D m)) <> zmax (md_nodes D m)).
      { intros E. apply N3. intros n Hn. rewrite E. apply le_zmax, Hn. }
      unfold compressNumbers. destruct (md_nodes D m) as [|a l] eqn:EN; [contradiction|]. rewrite <- EN in *.
      destruct (Z.eqb_spec (Z.of_nat (length (md_nodes D m))) (zmax (md_nodes D m))) as [|_]; [contradiction|]. f_equal.
      rewrite <- (rn_ext (nm_get (old2new (md_nodes D m) 1)) (rank m) m RK) by (intros n Hn; apply RK, N4, Hn).
      unfold rn_mesh. f_equal.
      assert (G : forall l s, NoDup l -> map (nm_get (old2new l s)) l = map (fun i => (s + Z.of_nat i)%Z) (seq 0 (length l))).
      { intros k s0 Nk. apply nth_ext with (d := 0%Z) (d' := 0%Z); [rewrite !map_length, seq_length; reflexivity|]. intros i Hi. rewrite map_length in Hi.
        assert (X : nth_error (map (nm_get (old2new k s0)) k) i = Some (s0 + Z.of_nat i)%Z).
        { destruct (nth_error k i) as [v|] eqn:E; [|apply nth_error_None in E; lia]. rewrite (map_nth_error _ _ _ E). f_equal. exact (old2new_get k s0 i v Nk E). }
        rewrite (nth_error_nth _ _ _ X). symmetry. apply nth_error_nth.
        assert (Y : nth_error (seq 0 (length k)) i = Some i) by (rewrite nth_error_nth' with (d := 0) by (rewrite seq_length; lia); rewrite seq_nth by lia; reflexivity).
        rewrite (map_nth_error _ _ _ Y). reflexivity. }
      rewrite (G _ 1%Z N1). rewrite <- seq_shift, map_map. apply map_ext. intros i. lia.
  Qed.

  Lemma compress_renumber f (m : mesh D) : (forall a b, In a (md_nodes D m) -> In b (md_nodes D m) -> f a = f b -> a = b) ->
    well_numbered D m -> well_numbered D (rn_mesh D f m) -> compressNumbers D (rn_mesh D f m) = compressNumbers D m.
  Proof.
    intros HI W W'. rewrite (compress_rank m W), (compress_rank _ W'). f_equal. rewrite rn_comp_ok. destruct W as (_ & _ & _ & N4).
    assert (Q : forall n, In n (md_nodes D m) -> rank (rn_mesh D f m) (f n) = rank m n).
    { intros n Hn. unfold rank. cbn [rn_mesh md_nodes]. rewrite index_map by assumption. reflexivity. }
    apply rn_ext; [exact Q|]. intros n Hn. apply Q, N4, Hn.
  Qed.
End R.

Lemma setup_renumber (D : Dbl) o f (m : mesh D) : (forall a b, In a (md_nodes D m) -> In b (md_nodes D m) -> f a = f b -> a = b) ->
  well_numbered D m -> well_numbered D (rn_mesh D f m) -> setup D o (rn_mesh D f m) = setup D o m.
Proof. intros HI W W'. unfold setup. rewrite (compress_renumber D f m HI W W'). reflexivity. Qed.
Lemma main_renumber (D : Dbl) fuel (w : world D) (mesh' : str -> outcome (option (mesh D))) argv :
  (forall name, mesh' name = w_mesh D w name \/ exists f m, (forall a b, In a (md_nodes D m) -> In b (md_nodes D m) -> f a = f b -> a = b) /\
     well_numbered D m /\ well_numbered D (rn_mesh D f m) /\ w_mesh D w name = Ok (Some m) /\ mesh' name = Ok (Some (rn_mesh D f m))) ->
  main D fuel (mkW D (w_ref D w) mesh' (w_solve D w)) argv = main D fuel w argv.
Proof.
  intros H. unfold main. cbn [w_ref w_mesh w_solve]. destruct (parse_args D argv) as [[o|st]| | |]; try reflexivity. cbn [pbind go obind].
  match goal with |- obind (pbind ?a _) _ = _ => destruct a as [[ref|st]| | |]; try reflexivity end. cbn [pbind go obind].
  destruct (H (o_model D o)) as [->|(f & m & HI & W & W' & -> & ->)]; [reflexivity|]. cbn [lift obind pbind go].
  rewrite (setup_renumber D o f m HI W W'). reflexivity.
Qed.
