(* Proofs about the recorder of reaction curves. *)
From Verif Require Import Base BaseProofs SparseModel SparseProofs BlockModel SpecBlock DofModel SpecDof DofProofs NumberingProofs AsmModel SpecAsm AsmFinal SolveModel SpecSolve
  LinearProofs ReactModel SpecReact.

Section Ready.
  Context {nn ne : nat} {m : list nat} {regs : list reg} {newm : list nat} {fixes : list key} {s : numst}.
  Hypothesis RD : ready nn ne m regs newm fixes s.

  Lemma ready_numbered : exists E N, numbered nn ne regs fixes s E N.
  Proof.
    destruct RD as [G K FREE M RUN].
    assert (K' : Forall (kregistered regs) fixes).
    { rewrite Forall_forall in *. intros x Hx. apply reg_keys_in. auto. }
    destruct (init_sequence_ok nn ne m regs newm fixes (fresh_storage nn ne m)) as (s' & E & N & X & I & MP); auto.
    { cbn. rewrite map_map. apply map_id. }
    { destruct FREE as (x & Ix & NF).
      assert (incl (x :: fix_keys fixes) (reg_keys regs)) as IC.
      { intros y [<-|Hy]; auto. unfold fix_keys in Hy. apply nodup_In in Hy.
        rewrite Forall_forall in K. now apply K. }
      apply NoDup_incl_length in IC; [cbn in IC; lia|].
      constructor; [|apply NoDup_nodup]. unfold fix_keys. now rewrite nodup_In. }
    exists E, N. congruence.
  Qed.

  Lemma used_spec n t : 1 <= n <= nn ->
    isDofUsed (ns_node s) n t = Ok (if in_dec key_dec (KNode, n, t) (reg_keys regs) then true else false).
  Proof.
    intros Hn. destruct ready_numbered as (E & N & I). destruct I as [[Re [R [Le L]]] Hnn _ _ _ _ RG _ _ _].
    assert (Hl : 1 <= n <= length N) by lia.
    unfold isDofUsed. rewrite (segment_ok _ N n R) by lia. cbn [obind fst snd].
    pose proof (RG KNode n t Hn) as GG. cbn [klook segs_of] in GG. unfold look in GG. rewrite <- reg_keys_in in GG.
    pose proof (find_pos_find t (DofProofs.seg N n)) as F.
    destruct R as (_ & Hd & _). rewrite Hd, (search_spec N n t) by lia. cbn [obind].
    destruct (psum N (n - 1) =? psum N n) eqn:Z.
    - apply Nat.eqb_eq in Z. rewrite (psum_seg N n) in Z by lia. assert (length (DofProofs.seg N n) = 0) by lia.
      destruct (DofProofs.seg N n); [|discriminate]. destruct (in_dec _ _ _) as [i|i]; auto. apply GG in i. now cbn in i.
    - destruct (find_pos t (DofProofs.seg N n)) as [k|]; cbn [option_map].
      + destruct F as (d & A & _). destruct (in_dec _ _ _) as [i|i]; auto. destruct i. apply GG. congruence.
      + destruct (in_dec _ _ _) as [i|i]; auto. apply GG in i. congruence.
  Qed.

  Lemma get_none n t : 1 <= n <= nn -> ~ In (KNode, n, t) (reg_keys regs) -> getDof (ns_node s) n t = Ok None.
  Proof.
    intros Hn H. destruct ready_numbered as (E & N & I). destruct I as [[Re [R [Le L]]] Hnn _ _ _ _ RG _ _ _].
    assert (Hl : 1 <= n <= length N) by lia. rewrite (getDof_spec _ N n t R Hl).
    pose proof (RG KNode n t Hn) as GG. cbn [klook segs_of] in GG. unfold look in GG. rewrite <- reg_keys_in in GG.
    pose proof (find_pos_find t (DofProofs.seg N n)) as F. destruct (find_pos t (DofProofs.seg N n)); auto.
    destruct F as (d & A & _). destruct H. apply GG. congruence.
  Qed.

  Lemma con_spec n t : 1 <= n <= nn ->
    dof_con s n t = if in_dec key_dec (KNode, n, t) (reg_keys regs)
                    then Ok (if in_dec key_dec (KNode, n, t) fixes then true else false) else UB.
  Proof.
    intros Hn. destruct (in_dec key_dec (KNode, n, t) (reg_keys regs)) as [i|i].
    - destruct ready_numbered as (E & N & I). destruct I as [[Re [R [Le L]]] Hnn _ _ _ _ RG CN _ _].
      apply reg_keys_in, (RG KNode n t Hn) in i.
      destruct (klook E N (KNode, n, t)) as [d|] eqn:Q; [|congruence].
      destruct (CN KNode n t d Hn Q) as (CF & _). cbn [klook segs_of] in Q.
      destruct (put_ok _ _ n t d R) as (j & A & B & _); [lia|exact Q|].
      unfold dof_con. rewrite A. cbn [obind]. rewrite B. cbn [obind].
      destruct (in_dec _ _ _) as [f|f]; [apply CF in f; now rewrite f|].
      destruct (d_con d); auto. destruct f. now apply CF.
    - unfold dof_con. rewrite get_none by auto. reflexivity.
  Qed.

  Lemma eq_spec n t : 1 <= n <= nn -> In (KNode, n, t) (reg_keys regs) ->
    exists e, dof_eq s KNode n t = Ok e /\ eqn s (KNode, n, t) = e /\ 1 <= e <= ns_ndofs s.
  Proof.
    intros Hn i. destruct ready_numbered as (E & N & I). pose proof I as I0. destruct I as [R Hnn Hne ND _ _ RG CN _ _].
    apply reg_keys_in, (RG KNode n t Hn) in i.
    destruct (klook E N (KNode, n, t)) as [d|] eqn:Q; [|congruence].
    destruct (CN KNode n t d Hn Q) as (_ & CF & _). rewrite <- ND in CF.
    exists (d_eq d). assert (X : dof_eq s KNode n t = Ok (d_eq d)).
    { apply (dof_eq_look s E N); auto. lia. }
    split; auto. split; auto. unfold eqn. cbn [key_eq]. now rewrite X.
  Qed.

  Section Num.
  Variable K : Num.
  Lemma getReaction_spec (R : list K) n t : 1 <= n <= nn -> ns_ndofs s <= length R ->
    getReaction s R n t = Ok (node_reaction regs s R t n).
  Proof.
    intros Hn HR. unfold getReaction, node_reaction. rewrite used_spec by auto. cbn [obind].
    destruct (in_dec _ _ _) as [i|i]; auto. destruct (eq_spec n t Hn i) as (e & A & B & C).
    rewrite A. cbn [obind]. unfold asserting. replace (0 <? e) with true by (symmetry; apply Nat.ltb_lt; lia).
    replace (e <=? length R) with true by (symmetry; apply Nat.leb_le; lia). cbn [andb].
    unfold aget, vget. rewrite B. destruct (nth_error R (e - 1)) as [v|] eqn:Q.
    - f_equal. symmetry. now apply nth_error_nth.
    - apply nth_error_None in Q. lia.
  Qed.

  (* ---- choice of the DoFs ---- *)
  Lemma auto_ok n l ds : 1 <= n <= nn ->
    ofold (auto_step s n) l ds = Ok (ds ++ filter (fun t => if in_dec key_dec (KNode, n, t) fixes then true else false) l).
  Proof.
    intros Hn. revert ds. induction l as [|t l IH]; intros ds; cbn [ofold filter]; [now rewrite app_nil_r|].
    unfold auto_step at 1. rewrite used_spec by auto. cbn [obind].
    destruct (in_dec key_dec (KNode, n, t) (reg_keys regs)) as [i|i].
    - rewrite con_spec by auto. destruct (in_dec key_dec (KNode, n, t) (reg_keys regs)); [|contradiction]. cbn [obind].
      rewrite IH. destruct (in_dec _ _ fixes); rewrite <- ?app_assoc; reflexivity.
    - cbn [obind]. rewrite IH. destruct (in_dec _ _ fixes) as [f|f]; auto. destruct i.
      pose proof (rd_fixes _ _ _ _ _ _ _ RD) as PF. rewrite Forall_forall in PF. now apply PF.
  Qed.
  Lemma check_ok n t : 1 <= n <= nn -> In (KNode, n, t) (reg_keys regs) -> auto_check s n t = Ok tt.
  Proof. intros Hn i. unfold auto_check. rewrite used_spec by auto. cbn [obind]. destruct (in_dec _ _ _); [auto|contradiction]. Qed.
  Lemma check_ub n t : 1 <= n <= nn -> ~ In (KNode, n, t) (reg_keys regs) -> auto_check s n t = UB.
  Proof.
    intros Hn i. unfold auto_check. rewrite used_spec by auto. cbn [obind]. destruct (in_dec _ _ _); [contradiction|].
    rewrite con_spec by auto. destruct (in_dec _ _ _); [contradiction|auto].
  Qed.
  Lemma checks_node n ds : 1 <= n <= nn ->
    ((forall t, In t ds -> In (KNode, n, t) (reg_keys regs)) -> ofold (fun _ t => auto_check s n t) ds tt = Ok tt) /\
    (~ (forall t, In t ds -> In (KNode, n, t) (reg_keys regs)) -> ofold (fun _ t => auto_check s n t) ds tt = UB).
  Proof.
    intros Hn. induction ds as [|t ds [IH1 IH2]]; cbn [ofold].
    { split; auto. intros H. destruct H. intros ? []. }
    destruct (in_dec key_dec (KNode, n, t) (reg_keys regs)) as [i|i].
    - rewrite check_ok by auto. cbn [obind]. split.
      + intros H. apply IH1. intros u Hu. apply H. now right.
      + intros H. apply IH2. intros H'. apply H. intros u [<-|Hu]; auto.
    - rewrite check_ub by auto. split; auto. intros H. destruct i. apply H. now left.
  Qed.
  Lemma checks_all nodes ds : nodes_ok nn nodes ->
    (has_dofs regs nodes ds -> ofold (fun _ n => ofold (fun _ t => auto_check s n t) ds tt) nodes tt = Ok tt) /\
    (~ has_dofs regs nodes ds -> ofold (fun _ n => ofold (fun _ t => auto_check s n t) ds tt) nodes tt = UB).
  Proof.
    intros G. induction G as [|n nodes Hn G [IH1 IH2]]; cbn [ofold].
    { split; auto. intros H. destruct H. intros ? ? []. }
    destruct (checks_node n ds Hn) as [C1 C2].
    destruct (Forall_dec (fun t => In (KNode, n, t) (reg_keys regs)) (fun t => in_dec key_dec _ _) ds) as [D|D]; rewrite Forall_forall in D.
    - rewrite C1 by auto. cbn [obind]. split.
      + intros H. apply IH1. intros a b Ha. apply H. now right.
      + intros H. apply IH2. intros H'. apply H. intros a b [<-|Ha]; auto.
    - rewrite C2 by auto. split; auto. intros H. destruct D. intros t Ht. apply H; auto. now left.
  Qed.
  Lemma user_check_ok n ds : 1 <= n <= nn -> exists b, user_check s n ds = Ok b.
  Proof.
    intros Hn. induction ds as [|t ds [b IH]]; cbn [user_check]; eauto. rewrite used_spec by auto. cbn [obind].
    destruct (in_dec _ _ _); eauto.
  Qed.
  Lemma user_checks_ok nodes ds : nodes_ok nn nodes -> user_checks s ds nodes = Ok tt.
  Proof.
    intros G. induction G as [|n nodes Hn G IH]; cbn [user_checks]; auto.
    destruct (user_check_ok n ds Hn) as [b ->]. cbn [obind]. destruct b; auto.
  Qed.

  (* result of pre() on a node set that is not empty *)
  Definition pre_result (can : bool) (p : rproc K) (file : list (rline K)) : rproc K * list (rline K) :=
    let ds := chosen fixes (rp_nodes p) (rp_dofs p) in
    if rp_named p && negb can then (mkRP (rp_nodes p) ds (rp_named p) (rp_sums p), file) else
    (mkRP (rp_nodes p) ds (rp_named p) (map (fun _ => [r0]) ds),
     if rp_named p then [Head ds; Row 0 (map (fun _ => r0) ds)] else file).

  Lemma pre_ok can (p : rproc K) file : nodes_ok nn (rp_nodes p) -> rp_nodes p <> [] ->
    (rp_dofs p = [] -> has_dofs regs (rp_nodes p) (chosen fixes (rp_nodes p) [])) ->
    rp_pre s can p file = Ok (pre_result can p file).
  Proof.
    destruct p as [nodes dofs named sums]. unfold pre_result. cbn [rp_nodes rp_dofs rp_named rp_sums].
    intros G NE H. unfold rp_pre. cbn [rp_nodes rp_dofs rp_named rp_sums].
    destruct nodes as [|n0 ns]; [congruence|]. destruct dofs as [|d ds].
    - rewrite (auto_ok n0) by (inversion G; auto). cbn [obind app].
      change (filter _ _) with (chosen fixes (n0 :: ns) []). set (C := chosen fixes (n0 :: ns) []) in *.
      rewrite (proj1 (checks_all (n0 :: ns) C G)) by auto. cbn [obind]. destruct (named && negb can); reflexivity.
    - rewrite user_checks_ok by auto. cbn [obind chosen]. destruct (named && negb can); reflexivity.
  Qed.
  Lemma pre_ub can (p : rproc K) file : nodes_ok nn (rp_nodes p) -> rp_nodes p <> [] ->
    rp_dofs p = [] -> ~ has_dofs regs (rp_nodes p) (chosen fixes (rp_nodes p) []) ->
    rp_pre s can p file = UB.
  Proof.
    destruct p as [nodes dofs named sums]. cbn [rp_nodes rp_dofs rp_named rp_sums].
    intros G NE -> H. unfold rp_pre. cbn [rp_nodes rp_dofs rp_named rp_sums].
    destruct nodes as [|n0 ns]; [congruence|].
    rewrite (auto_ok n0) by (inversion G; auto). cbn [obind app].
    change (filter _ _) with (chosen fixes (n0 :: ns) []). set (C := chosen fixes (n0 :: ns) []) in *.
    rewrite (proj2 (checks_all (n0 :: ns) C G)) by auto. reflexivity.
  Qed.
  End Num.

  (* ---- sums ---- *)
  Variable K : Rng.
  Add Ring kring : (rth K).
  Local Open Scope rng_scope.
  Lemma add_ok (R : list K) n ds (f : nat -> K) : (1 <= n <= nn)%nat -> (ns_ndofs s <= length R)%nat ->
    add_reactions s R n ds (map f ds) = Ok (map (fun t => f t + node_reaction regs s R t n) ds).
  Proof.
    intros Hn HR. induction ds as [|t ds IH]; cbn [map add_reactions]; auto.
    rewrite (getReaction_spec _ R n t Hn HR). cbn [obind]. rewrite IH. reflexivity.
  Qed.
  Lemma sums_ok (R : list K) nodes ds : nodes_ok nn nodes -> (ns_ndofs s <= length R)%nat -> forall f,
    ofold (fun acc n => add_reactions s R n ds acc) nodes (map f ds) = Ok (map (fun t => f t + set_reaction regs s nodes t R) ds).
  Proof.
    intros G HR. induction G as [|n nodes Hn G IH]; intros f; cbn [ofold].
    - f_equal. apply map_ext. intros t. unfold set_reaction. rewrite sumof_nil. ring.
    - rewrite add_ok by auto. cbn [obind]. rewrite IH. f_equal. apply map_ext. intros t.
      unfold set_reaction. rewrite sumof_cons. ring.
  Qed.
  Lemma push_ok (ds : list nat) (c : nat -> list K) (v : nat -> K) :
    push_all (map c ds) (map v ds) = Ok (map (fun t => c t ++ [v t]) ds).
  Proof. induction ds as [|t ds IH]; cbn [map push_all]; auto. rewrite IH. reflexivity. Qed.

  Definition vals (p : rproc K) (R : list K) : list K := map (fun t => set_reaction regs s (rp_nodes p) t R) (rp_dofs p).
  Lemma process_ok (R : list K) can k (p : rproc K) file c : nodes_ok nn (rp_nodes p) -> (ns_ndofs s <= length R)%nat ->
    rp_sums p = map c (rp_dofs p) ->
    rp_process s R can k p file =
      Ok (if rp_named p && negb can then (p, file) else
          (mkRP (rp_nodes p) (rp_dofs p) (rp_named p) (map (fun t => c t ++ [set_reaction regs s (rp_nodes p) t R]) (rp_dofs p)),
           if rp_named p then file ++ [Row k (vals p R)] else file)).
  Proof.
    intros G HR HS. unfold rp_process. rewrite sums_ok by auto. cbn [obind].
    replace (map (fun t => 0 + set_reaction regs s (rp_nodes p) t R) (rp_dofs p)) with (vals p R)
      by (apply map_ext; intros t; ring).
    destruct (rp_named p && negb can); auto. unfold vals. rewrite HS, push_ok. cbn [obind]. reflexivity.
  Qed.
  (* without a curve for each DoF *)
  Lemma process_ub (R : list K) can k (p : rproc K) file : nodes_ok nn (rp_nodes p) -> (ns_ndofs s <= length R)%nat ->
    rp_sums p = [] -> rp_dofs p <> [] -> rp_named p && negb can = false ->
    rp_process s R can k p file = UB.
  Proof.
    intros G HR HS ND HC. unfold rp_process. rewrite sums_ok by auto. cbn [obind]. rewrite HC, HS.
    destruct (rp_dofs p); [congruence|]. reflexivity.
  Qed.

  Lemma steps_ok steps : Forall (fun x => (ns_ndofs s <= length (st_R x))%nat) steps ->
    forall (p : rproc K) file c, nodes_ok nn (rp_nodes p) -> rp_sums p = map c (rp_dofs p) ->
    ofold (fun pf x => rp_process s (st_R x) (st_can x) (st_num x) (fst pf) (snd pf)) steps (p, file) =
      Ok (mkRP (rp_nodes p) (rp_dofs p) (rp_named p)
            (map (fun t => c t ++ map (fun x => set_reaction regs s (rp_nodes p) t (st_R x)) (recorded (rp_named p) steps)) (rp_dofs p)),
          if rp_named p then file ++ map (fun x => Row (st_num x) (vals p (st_R x))) (recorded (rp_named p) steps) else file).
  Proof.
    intros H. induction H as [|x steps HR H IH]; intros p file c G HS; cbn [ofold recorded filter map].
    - f_equal. destruct p as [nodes dofs named sums]. cbn [rp_nodes rp_dofs rp_named rp_sums] in *. subst. f_equal.
      + f_equal. apply map_ext. intros t. now rewrite app_nil_r.
      + rewrite app_nil_r. now destruct named.
    - cbn [fst snd]. rewrite (process_ok _ _ _ _ _ c G HR HS). cbn [obind].
      destruct p as [nodes dofs named sums]. cbn [rp_nodes rp_dofs rp_named rp_sums] in *.
      destruct named; cbn [andb negb orb]; [destruct (st_can x) eqn:CX; cbn [negb]|].
      + rewrite (IH _ _ (fun t => c t ++ [set_reaction regs s nodes t (st_R x)])); auto.
        cbn [rp_nodes rp_dofs rp_named rp_sums recorded negb orb map]. f_equal. f_equal.
        * f_equal. apply map_ext. intros t. now rewrite <- app_assoc.
        * now rewrite <- app_assoc.
      + rewrite (IH _ _ c); auto.
      + rewrite (IH _ _ (fun t => c t ++ [set_reaction regs s nodes t (st_R x)])); auto.
        cbn [rp_nodes rp_dofs rp_named rp_sums recorded negb orb map]. f_equal. f_equal. f_equal.
        apply map_ext. intros t. now rewrite <- app_assoc.
  Qed.

  Lemma find_curve_ok ds (c : nat -> list K) t : forall pre i, i = length pre ->
    find_curve ds (pre ++ map c ds) i t = Ok (if in_dec Nat.eq_dec t ds then Some (c t) else None).
  Proof.
    induction ds as [|d ds IH]; intros pre i Hi; cbn [find_curve]; auto.
    destruct (d =? t)%nat eqn:Q.
    - apply Nat.eqb_eq in Q. subst d. unfold aget. rewrite nth_error_app2 by lia. subst i. rewrite Nat.sub_diag. cbn [map nth_error obind].
      destruct (in_dec Nat.eq_dec t (t :: ds)) as [_|X]; auto. destruct X. now left.
    - apply Nat.eqb_neq in Q. cbn [map].
      replace (pre ++ c d :: map c ds) with ((pre ++ [c d]) ++ map c ds) by now rewrite <- app_assoc.
      rewrite (IH (pre ++ [c d])) by (rewrite app_length; cbn; lia).
      destruct (in_dec Nat.eq_dec t ds) as [X|X], (in_dec Nat.eq_dec t (d :: ds)) as [Y|Y]; auto.
      + destruct Y. now right.
      + destruct Y as [Y|Y]; [congruence|contradiction].
  Qed.

  Definition curve_of (p : rproc K) (steps : list (step K)) (t : nat) : list K :=
    0 :: map (fun x => set_reaction regs s (rp_nodes p) t (st_R x)) steps.
  Definition rows_of (p : rproc K) (ds : list nat) (steps : list (step K)) : list (rline K) :=
    Head ds :: Row 0 (map (fun _ => 0) ds) ::
    map (fun x => Row (st_num x) (map (fun t => set_reaction regs s (rp_nodes p) t (st_R x)) ds)) steps.

  Lemma run_ok can steps (p : rproc K) file : nodes_ok nn (rp_nodes p) -> rp_nodes p <> [] ->
    (rp_dofs p = [] -> has_dofs regs (rp_nodes p) (chosen fixes (rp_nodes p) [])) ->
    (rp_named p = true -> can = true) ->
    Forall (fun x => (ns_ndofs s <= length (st_R x))%nat) steps ->
    let ds := chosen fixes (rp_nodes p) (rp_dofs p) in
    exists p' file', rp_run s can steps p file = Ok (p', file') /\ rp_dofs p' = ds /\ rp_nodes p' = rp_nodes p /\
      (forall t, getReactions p' t = Ok (if in_dec Nat.eq_dec t ds then Some (curve_of p (recorded (rp_named p) steps) t) else None)) /\
      file' = if rp_named p then rows_of p ds (recorded true steps) else file.
  Proof.
    intros G NE H HC HS ds. unfold rp_run. rewrite (pre_ok _ can p file G NE H). unfold pre_result. fold ds. cbn [obind].
    replace (rp_named p && negb can) with false by (destruct (rp_named p); auto; now rewrite HC).
    rewrite (steps_ok steps HS _ _ (fun _ => [0])) by auto. cbn [rp_nodes rp_dofs rp_named rp_sums].
    eexists. eexists. split; [reflexivity|]. cbn [rp_nodes rp_dofs rp_named rp_sums]. split; auto. split; auto. split.
    - intros t. unfold getReactions. cbn [rp_nodes rp_dofs rp_named rp_sums]. apply (find_curve_ok ds _ t []). reflexivity.
    - destruct (rp_named p); auto.
  Qed.
End Ready.
Arguments curve_of {regs s K} _ _ _.
Arguments rows_of {regs s K} _ _ _.
