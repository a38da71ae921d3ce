(* Proofs about the equation numbering (C16-C18). *)
From Verif Require Import Base BaseProofs SparseProofs DofModel SpecDof DofProofs.
From Coq Require Import Permutation.

(* ---- consecutive numbering of a list of keys, two counters ---- *)
Section Num.
  Context {A : Type} (dec : forall x y : A, {x = y} + {x <> y}).
  Variable st : A -> option bool.

  Definition is_st (b : bool) (x : A) : bool :=
    match st x with Some b' => Bool.eqb b b' | None => false end.
  Definition cnt (b : bool) (L : list A) : nat := length (filter (is_st b) L).

  Fixpoint num (L : list A) (nc ns : nat) (k : A) : option nat :=
    match L with
    | [] => None
    | x :: r =>
        match st x with
        | None => num r nc ns k
        | Some b =>
            if dec x k then Some (if b then nc else ns)
            else if b then num r (nc + 1) ns k else num r nc (ns + 1) k
        end
    end.

  Lemma cnt_cons b x L : cnt b (x :: L) = (if is_st b x then 1 else 0) + cnt b L.
  Proof. unfold cnt; cbn. destruct (is_st b x); reflexivity. Qed.

  Lemma cnt_app b L1 L2 : cnt b (L1 ++ L2) = cnt b L1 + cnt b L2.
  Proof. unfold cnt. now rewrite filter_app, app_length. Qed.

  Lemma num_some L nc ns k e :
    num L nc ns k = Some e -> In k L /\ exists b, st k = Some b /\
      if b then nc <= e < nc + cnt true L else ns <= e < ns + cnt false L.
  Proof.
    revert nc ns; induction L as [|x L IH]; intros nc ns; cbn [num]; [discriminate|].
    rewrite !cnt_cons. unfold is_st. destruct (st x) as [b|] eqn:S.
    - destruct (dec x k) as [->|N].
      + intros E; inversion E; subst. split; [left; auto|]. exists b. split; auto.
        destruct b; cbn; lia.
      + destruct b; intros E; apply IH in E; destruct E as (I & b' & S' & R);
          (split; [right; auto|]; exists b'; split; [auto|]; destruct b'; cbn; lia).
    - intros E; apply IH in E. destruct E as (I & b' & S' & R).
      split; [right; auto|]. exists b'; split; [auto|]. destruct b'; cbn; lia.
  Qed.

  Lemma num_in L nc ns k : In k L -> st k <> None -> exists e, num L nc ns k = Some e.
  Proof.
    revert nc ns; induction L as [|x L IH]; intros nc ns I S; [destruct I|]. cbn [num].
    destruct (dec x k) as [->|N].
    - destruct (st k); [eauto|congruence].
    - destruct I as [->|I]; [congruence|]. destruct (st x) as [[|]|]; auto.
  Qed.

  Lemma num_notin L nc ns k : ~ In k L -> num L nc ns k = None.
  Proof.
    revert nc ns; induction L as [|x L IH]; intros nc ns I; auto. cbn [num].
    destruct (dec x k) as [->|N]; [exfalso; apply I; left; auto|].
    assert (~ In k L) by (intros ?; apply I; right; auto).
    destruct (st x) as [[|]|]; auto.
  Qed.

  Lemma num_st_none L nc ns k : st k = None -> num L nc ns k = None.
  Proof.
    intros H. destruct (num L nc ns k) eqn:E; auto. apply num_some in E.
    destruct E as (_ & b & E & _). congruence.
  Qed.

  Lemma num_app L1 L2 nc ns k :
    num (L1 ++ L2) nc ns k =
      match num L1 nc ns k with
      | Some e => Some e
      | None => num L2 (nc + cnt true L1) (ns + cnt false L1) k
      end.
  Proof.
    revert nc ns; induction L1 as [|x L1 IH]; intros nc ns; cbn [num app].
    - unfold cnt; cbn. now rewrite !Nat.add_0_r.
    - rewrite !cnt_cons. unfold is_st. destruct (st x) as [[|]|]; cbn [Bool.eqb].
      + destruct (dec x k); auto. rewrite IH. destruct (num L1 (nc + 1) ns k); auto.
        f_equal; lia.
      + destruct (dec x k); auto. rewrite IH. destruct (num L1 nc (ns + 1) k); auto.
        f_equal; lia.
      + rewrite IH. destruct (num L1 nc ns k); auto.
  Qed.

  Lemma num_inj L nc ns k k' e b :
    st k = Some b -> st k' = Some b -> num L nc ns k = Some e -> num L nc ns k' = Some e -> k = k'.
  Proof.
    intros S S'. revert nc ns; induction L as [|x L IH]; intros nc ns; cbn [num]; [discriminate|].
    destruct (st x) as [bx|] eqn:X; [|apply IH].
    destruct (dec x k) as [E1|N], (dec x k') as [E2|N']; [congruence| | |].
    - subst x. rewrite S in X. inversion X; subst. intros E. inversion E; subst. clear E.
      destruct bx; intros E; apply num_some in E; destruct E as (_ & b & Sb & R);
        rewrite S' in Sb; inversion Sb; subst; lia.
    - subst x. rewrite S' in X. inversion X; subst. intros E E'. inversion E'; subst. clear E'.
      destruct bx; apply num_some in E; destruct E as (_ & b & Sb & R);
        rewrite S in Sb; inversion Sb; subst; lia.
    - destruct bx; apply IH.
  Qed.

  Lemma num_surj L nc ns e (b : bool) :
    NoDup L ->
    (if b then nc <= e < nc + cnt true L else ns <= e < ns + cnt false L) ->
    exists k, In k L /\ st k = Some b /\ num L nc ns k = Some e.
  Proof.
    revert nc ns; induction L as [|x L IH]; intros nc ns N.
    - unfold cnt; cbn. destruct b; lia.
    - inversion N as [|? ? NI ND]; subst. rewrite !cnt_cons. unfold is_st.
      assert (W : forall nc' ns', 
        (exists k, In k L /\ st k = Some b /\ num L nc' ns' k = Some e) ->
        (forall k, x <> k -> num (x :: L) nc ns k = num L nc' ns' k) ->
        exists k, In k (x :: L) /\ st k = Some b /\ num (x :: L) nc ns k = Some e).
      { intros nc' ns' (k & I & S & E) H. exists k. split; [right; auto|]. split; auto.
        rewrite H; auto. intros ->; tauto. }
      destruct (st x) as [bx|] eqn:X; cbn [Bool.eqb].
      + destruct bx, b; cbn [Bool.eqb]; intros H.
        * destruct (Nat.eq_dec e nc) as [->|Ne].
          -- exists x. split; [left; auto|]. split; auto. cbn. rewrite X.
             destruct (dec x x); congruence.
          -- apply (W (nc + 1) ns); [apply IH; auto; cbn; lia|].
             intros k K. cbn. rewrite X. destruct (dec x k); congruence.
        * apply (W (nc + 1) ns); [apply IH; auto; cbn; lia|].
          intros k K. cbn. rewrite X. destruct (dec x k); congruence.
        * apply (W nc (ns + 1)); [apply IH; auto; cbn; lia|].
          intros k K. cbn. rewrite X. destruct (dec x k); congruence.
        * destruct (Nat.eq_dec e ns) as [->|Ne].
          -- exists x. split; [left; auto|]. split; auto. cbn. rewrite X.
             destruct (dec x x); congruence.
          -- apply (W nc (ns + 1)); [apply IH; auto; cbn; lia|].
             intros k K. cbn. rewrite X. destruct (dec x k); congruence.
      + intros H. apply (W nc ns); [apply IH; auto|].
        intros k K. cbn. rewrite X. auto.
  Qed.
End Num.

Lemma cnt_map {A B} (f : A -> B) (st : B -> option bool) b L :
  cnt st b (map f L) = cnt (fun x => st (f x)) b L.
Proof.
  unfold cnt. induction L as [|x L IH]; cbn; auto. unfold is_st in *.
  destruct (match st (f x) with Some b' => Bool.eqb b b' | None => false end); cbn; auto.
Qed.

Lemma num_map {A B} decA decB (f : A -> B) (st : B -> option bool) L nc ns k :
  (forall x y, f x = f y -> x = y) ->
  num decB st (map f L) nc ns (f k) = num decA (fun x => st (f x)) L nc ns k.
Proof.
  intros F. revert nc ns; induction L as [|x L IH]; intros nc ns; cbn [num map]; auto.
  destruct (st (f x)) as [[|]|]; auto.
  - destruct (decB (f x) (f k)) as [E|N], (decA x k) as [E'|N']; auto; try congruence.
    apply F in E; congruence.
  - destruct (decB (f x) (f k)) as [E|N], (decA x k) as [E'|N']; auto; try congruence.
    apply F in E; congruence.
Qed.

Lemma num_ext {A} dec (st st' : A -> option bool) L nc ns k :
  (forall x, In x L -> st x = st' x) -> num dec st L nc ns k = num dec st' L nc ns k.
Proof.
  revert nc ns; induction L as [|x L IH]; intros nc ns H; cbn [num]; auto.
  rewrite (H x) by (left; auto).
  assert (forall y, In y L -> st y = st' y) by (intros; apply H; right; auto).
  destruct (st' x) as [[|]|]; rewrite ?IH by auto; auto.
Qed.

Lemma cnt_ext {A} (st st' : A -> option bool) b L :
  (forall x, In x L -> st x = st' x) -> cnt st b L = cnt st' b L.
Proof.
  induction L as [|x L IH]; intros H; auto. rewrite !cnt_cons. unfold is_st.
  rewrite (H x) by (left; auto). rewrite IH; auto. intros; apply H; right; auto.
Qed.

(* ---- writing one DoF ---- *)
Lemma find_upd_same l k d d0 :
  nth_error l k = Some d0 -> d_type d0 = d_type d -> NoDup (map d_type l) ->
  find (fun x => d_type x =? d_type d) (upd l k d) = Some d.
Proof.
  revert k; induction l as [|x l IH]; intros [|k] E T N; cbn in *; try discriminate.
  - now rewrite Nat.eqb_refl.
  - inversion N; subst. destruct (d_type x =? d_type d) eqn:F; auto.
    apply Nat.eqb_eq in F. exfalso. apply H1. rewrite F, <- T. apply in_map.
    eapply nth_error_In; eauto.
Qed.

Lemma find_upd_diff l k d d0 t :
  nth_error l k = Some d0 -> d_type d0 = d_type d -> t <> d_type d ->
  find (fun x => d_type x =? t) (upd l k d) = find (fun x => d_type x =? t) l.
Proof.
  revert k; induction l as [|x l IH]; intros [|k] E T N; cbn in *; try discriminate; auto.
  - inversion E; subst. rewrite T.
    replace (d_type d =? t) with false by (symmetry; apply Nat.eqb_neq; lia). reflexivity.
  - destruct (d_type x =? t); eauto.
Qed.

Lemma map_type_upd l k d d0 :
  nth_error l k = Some d0 -> d_type d0 = d_type d ->
  map d_type (upd l k d) = map d_type l.
Proof.
  revert k; induction l as [|x l IH]; intros [|k] E T; cbn in *; try discriminate.
  - inversion E; subst. now rewrite T.
  - f_equal; eauto.
Qed.

Definition types (segs : list (list dof)) : list (list nat) := map (map d_type) segs.

Lemma map_type_upd_segs segs i s :
  i < length segs -> map d_type s = map d_type (nth i segs []) ->
  types (upd segs i s) = types segs.
Proof.
  intros Hi H. unfold types. rewrite map_upd, H. apply list_ext_nth with (d := []).
  - now rewrite upd_length.
  - intros j _. destruct (Nat.eq_dec i j) as [<-|N].
    + rewrite nth_upd_same by now rewrite map_length.
      now rewrite (nth_map_lt _ _ _ [] []).
    + now rewrite nth_upd_diff.
Qed.

Lemma put_ok c segs n t d0 :
  rep c segs -> 1 <= n <= length segs -> look segs n t = Some d0 ->
  exists i, getDof c n t = Ok (Some i) /\ aget (dc_dofs c) i = Ok d0 /\
    forall d, d_type d = t ->
    exists c' segs', put_dof c i d = Ok c' /\ rep c' segs' /\ types segs' = types segs /\
      (forall n' t', 1 <= n' -> look segs' n' t' =
         if pair_dec (n', t') (n, t) then Some d else look segs n' t').
Proof.
  intros R Hn L. pose proof R as R0. rewrite (getDof_spec c segs n t R Hn).
  unfold look in L. pose proof (find_pos_find t (seg segs n)) as F.
  destruct (find_pos t (seg segs n)) as [k|]; [|congruence].
  destruct F as (d1 & A & B & C & D). rewrite A in L. inversion L; subst d1. clear L.
  cbn [option_map]. exists (psum segs (n - 1) + k). split; [reflexivity|].
  destruct R as (Hnn & Hd & Hp & Hu & Hnd).
  assert (Hx : nth_error (dc_dofs c) (psum segs (n - 1) + k) = Some d0).
  { rewrite Hd, nth_error_concat; auto. lia. }
  split; [now apply aget_nth_error|].
  intros d Td. unfold put_dof. rewrite aset_ok by (apply nth_error_Some; congruence). cbn [obind].
  eexists. exists (upd segs (n - 1) (upd (seg segs n) k d)).
  split; [reflexivity|].
  assert (TT : types (upd segs (n - 1) (upd (seg segs n) k d)) = types segs).
  { apply map_type_upd_segs; [lia|]. eapply map_type_upd; eauto. congruence. }
  assert (Ln : length (upd segs (n - 1) (upd (seg segs n) k d)) = length segs) by apply upd_length.
  assert (Lc : map (@length dof) (upd segs (n - 1) (upd (seg segs n) k d)) = map (@length dof) segs).
  { assert (forall l, map (@length dof) l = map (@length nat) (types l)) as X.
    { intros l. unfold types. rewrite map_map. apply map_ext. intros; now rewrite map_length. }
    rewrite !X, TT. reflexivity. }
  split; [|split; [exact TT|]].
  - unfold rep. cbn [dc_n dc_dofs dc_pos dc_used]. rewrite Ln. split; [auto|]. split.
    + rewrite Hd. unfold seg. rewrite concat_upd_cell; auto. lia.
    + split.
      * rewrite Hp. apply map_ext. intros i. apply psum_len. auto.
      * split.
        -- rewrite Hu. rewrite <- !psum_all, Ln. apply psum_len. auto.
        -- intros s Hs. apply in_upd in Hs. destruct Hs as [->|Hs]; auto.
           erewrite map_type_upd; [|eauto|congruence]. apply Hnd, nth_In. lia.
  - intros n' t' Hn'. unfold look, seg at 1.
    destruct (Nat.eq_dec n' n) as [->|N].
    + rewrite nth_upd_same by lia. destruct (pair_dec (n, t') (n, t)) as [E|N].
      * replace t' with (d_type d) by congruence. eapply find_upd_same; [eauto|congruence|].
        apply Hnd, nth_In. lia.
      * eapply find_upd_diff; [eauto|congruence|]. intros ->. apply N. now rewrite Td.
    + rewrite nth_upd_diff by lia. destruct (pair_dec (n', t') (n, t)) as [E|N']; [inversion E; lia|].
      reflexivity.
Qed.

Lemma look_none_get c segs n t :
  rep c segs -> 1 <= n <= length segs -> look segs n t = None -> getDof c n t = Ok None.
Proof.
  intros R Hn L. rewrite (getDof_spec c segs n t R Hn). unfold look in L.
  pose proof (find_pos_find t (seg segs n)) as F. destruct (find_pos t (seg segs n)); auto.
  destruct F as (d & A & _). congruence.
Qed.

(* ---- the numbering loop over one table ---- *)
Definition stat (segs : list (list dof)) (x : nat * nat) : option bool :=
  option_map d_con (look segs (fst x) (snd x)).

Lemma types_length (segs segs' : list (list dof)) : types segs' = types segs -> length segs' = length segs.
Proof. intros H. apply (f_equal (@length _)) in H. unfold types in H. now rewrite !map_length in H. Qed.

Lemma assign_ok L : forall c segs nc ns,
  rep c segs -> NoDup L -> (forall x, In x L -> 1 <= fst x <= length segs) ->
  exists c' segs',
    ofold assign_step L (c, (nc, ns)) =
      Ok (c', (nc + cnt (stat segs) true L, ns + cnt (stat segs) false L)) /\
    rep c' segs' /\ types segs' = types segs /\
    (forall n t, 1 <= n -> look segs' n t =
       option_map (fun d => mkDof (d_type d)
           (match num pair_dec (stat segs) L nc ns (n, t) with Some e => e | None => d_eq d end)
           (d_con d)) (look segs n t)).
Proof.
  induction L as [|[n t] L IH]; intros c segs nc ns R ND B; cbn [ofold num].
  - exists c, segs. unfold cnt; cbn [filter length]. rewrite !Nat.add_0_r. split; [reflexivity|].
    split; [auto|]. split; [auto|]. intros n t _. destruct (look segs n t) as [[]|]; reflexivity.
  - inversion ND as [|? ? NI ND']; subst.
    assert (Hn : 1 <= n <= length segs) by (apply (B (n, t)); left; auto).
    assert (B' : forall x, In x L -> 1 <= fst x <= length segs) by (intros; apply B; right; auto).
    assert (ST : stat segs (n, t) = option_map d_con (look segs n t)) by reflexivity.
    rewrite !cnt_cons. unfold is_st. rewrite ST.
    unfold assign_step at 1. cbn [fst snd].
    destruct (look segs n t) as [d|] eqn:Lk; cbn [option_map].
    + destruct (put_ok c segs n t d R Hn Lk) as (i & G & A & P).
      rewrite G. cbn [obind]. rewrite A. cbn [obind].
      assert (Td : d_type d = t) by (eapply look_type; eauto).
      assert (REC : forall e nc' ns', exists c' segs',
        (c'0 <- put_dof c i (mkDof (d_type d) e (d_con d)) ;;
         ofold assign_step L (c'0, (nc', ns'))) =
           Ok (c', (nc' + cnt (stat segs) true L, ns' + cnt (stat segs) false L)) /\
        rep c' segs' /\ types segs' = types segs /\
        (forall n' t', 1 <= n' -> look segs' n' t' =
          option_map (fun d' => mkDof (d_type d')
             (if pair_dec (n, t) (n', t') then e else
              match num pair_dec (stat segs) L nc' ns' (n', t') with Some e => e | None => d_eq d' end)
             (d_con d')) (look segs n' t'))).
      { intros e nc' ns'. destruct (P (mkDof (d_type d) e (d_con d)) Td) as (c1 & s1 & E1 & R1 & T1 & K1).
        rewrite E1. cbn [obind].
        assert (S1 : forall x, In x L -> stat s1 x = stat segs x).
        { intros [m u] Hx. unfold stat; cbn [fst snd]. rewrite K1 by (apply B' in Hx; cbn in Hx; lia).
          destruct (pair_dec (m, u) (n, t)) as [E|N]; [inversion E; subst; tauto|reflexivity]. }
        destruct (IH c1 s1 nc' ns' R1 ND') as (c2 & s2 & E2 & R2 & T2 & K2).
        { rewrite (types_length _ _ T1). auto. }
        rewrite (cnt_ext (stat s1) (stat segs) true L S1) in E2.
        rewrite (cnt_ext (stat s1) (stat segs) false L S1) in E2.
        exists c2, s2. split; [exact E2|]. split; [auto|]. split; [congruence|].
        intros n' t' Hn'. rewrite K2, K1 by auto.
        rewrite (num_ext pair_dec (stat s1) (stat segs) L _ _ _ S1).
        destruct (pair_dec (n', t') (n, t)) as [E|N].
        - inversion E; subst n' t'. rewrite Lk. cbn [option_map d_type d_eq d_con].
          destruct (pair_dec (n, t) (n, t)); [|congruence].
          rewrite num_notin by auto. reflexivity.
        - destruct (pair_dec (n, t) (n', t')); [congruence|]. reflexivity. }
      assert (FIN : forall e nc' ns' (X : outcome (dofc * (nat * nat))) a b,
        X = (c'0 <- put_dof c i (mkDof (d_type d) e (d_con d)) ;; Ok (c'0, (nc', ns'))) ->
        a = nc' + cnt (stat segs) true L -> b = ns' + cnt (stat segs) false L ->
        (forall n' t', num pair_dec (stat segs) ((n, t) :: L) nc ns (n', t') =
           if pair_dec (n, t) (n', t') then Some e else num pair_dec (stat segs) L nc' ns' (n', t')) ->
        exists c' segs',
          (s <- X ;; ofold assign_step L s) = Ok (c', (a, b)) /\
          rep c' segs' /\ types segs' = types segs /\
          (forall n' t', 1 <= n' -> look segs' n' t' =
            option_map (fun d' => mkDof (d_type d')
             (match num pair_dec (stat segs) ((n, t) :: L) nc ns (n', t') with Some e => e | None => d_eq d' end)
             (d_con d')) (look segs n' t'))).
      { intros e nc' ns' X a b -> -> -> HN. destruct (REC e nc' ns') as (c2 & s2 & E2 & R2 & T2 & K2).
        exists c2, s2. split.
        - rewrite <- E2. destruct (put_dof c i _); reflexivity.
        - split; [auto|]. split; [auto|]. intros n' t' Hn'. rewrite K2 by auto. rewrite HN.
          destruct (pair_dec (n, t) (n', t')); reflexivity. }
      cbn [num] in FIN. rewrite ST in FIN. cbn [option_map] in FIN.
      destruct (d_con d) eqn:Cd; cbn [Bool.eqb].
      * apply (FIN nc (nc + 1) ns); auto; lia.
      * apply (FIN ns nc (ns + 1)); auto; lia.
    + rewrite (look_none_get c segs n t R Hn Lk). cbn [obind].
      destruct (IH c segs nc ns R ND' B') as (c2 & s2 & E2 & R2 & T2 & K2).
      exists c2, s2. rewrite E2. split; [f_equal; f_equal; f_equal; lia|]. auto.
Qed.

(* ---- dof_loop ---- *)
Lemma dof_loop_in n x : In x (dof_loop n) <-> 1 <= fst x <= n /\ snd x < n_dof_types.
Proof.
  unfold dof_loop. rewrite in_flat_map. destruct x as [i t]. cbn [fst snd]. split.
  - intros (j & Hj & H). apply in_seq in Hj. apply in_map_iff in H. destruct H as (u & E & U).
    apply in_seq in U. inversion E; subst. lia.
  - intros [H1 H2]. exists i. rewrite in_seq. split; [lia|]. apply in_map_iff. exists t.
    rewrite in_seq. split; auto. lia.
Qed.

Lemma dof_loop_NoDup n : NoDup (dof_loop n).
Proof.
  apply NoDup_flat_map.
  - apply seq_NoDup.
  - intros a _. apply FinFun.Injective_map_NoDup; [|apply seq_NoDup].
    intros x y E. now inversion E.
  - intros a b x _ _ Ha Hb. apply in_map_iff in Ha. apply in_map_iff in Hb.
    destruct Ha as (u & E & _), Hb as (v & E' & _). subst. now inversion E'.
Qed.

(* ---- the storage ---- *)
Definition segs_of (E N : list (list dof)) (k : kind) := match k with KEl => E | KNode => N end.
Definition klook (E N : list (list dof)) (x : key) : option dof :=
  match x with (k, n, t) => look (segs_of E N k) n t end.
Definition kstat E N (x : key) : option bool := option_map d_con (klook E N x).

Definition srep (s : numst) (E N : list (list dof)) : Prop :=
  rep (ns_el s) E /\ rep (ns_node s) N /\ length E = ns_els s /\ length N = ns_nodes s.

Definition all_keys (nn ne : nat) : list key :=
  map (fun x => (KEl, fst x, snd x)) (dof_loop ne) ++
  map (fun x => (KNode, fst x, snd x)) (dof_loop nn).

Lemma all_keys_in nn ne k n t :
  In (k, n, t) (all_keys nn ne) <-> 1 <= n <= entities nn ne k /\ t < n_dof_types.
Proof.
  unfold all_keys. rewrite in_app_iff, !in_map_iff. split.
  - intros [([a b] & E & I)|([a b] & E & I)]; inversion E; subst; apply dof_loop_in in I; exact I.
  - intros H. destruct k; [left|right]; exists (n, t); split; auto; now apply dof_loop_in.
Qed.

Lemma all_keys_NoDup nn ne : NoDup (all_keys nn ne).
Proof.
  unfold all_keys. apply NoDup_app_intro.
  - apply FinFun.Injective_map_NoDup; [|apply dof_loop_NoDup].
    intros [a b] [c d] E. now inversion E.
  - apply FinFun.Injective_map_NoDup; [|apply dof_loop_NoDup].
    intros [a b] [c d] E. now inversion E.
  - intros x H1 H2. apply in_map_iff in H1. apply in_map_iff in H2.
    destruct H1 as (a & <- & _), H2 as (b & E & _). discriminate.
Qed.

(* registration *)
Definition kregistered (regs : list reg) (x : key) : Prop :=
  exists ts, In (fst x, ts) regs /\ In (snd x) ts.

Lemma reg_keys_in regs x : In x (reg_keys regs) <-> kregistered regs x.
Proof.
  unfold reg_keys, kregistered. rewrite nodup_In, in_flat_map. destruct x as [[k n] t]. cbn [fst snd]. split.
  - intros ([[k' n'] ts] & I & J). apply in_map_iff in J. destruct J as (u & E & J).
    inversion E; subst. eauto.
  - intros (ts & I & J). exists (k, n, ts). split; auto. now apply in_map.
Qed.

Definition calls_of (k : kind) (regs : list reg) : list (nat * list nat) :=
  flat_map (fun r => match r with (k', n, ts) => if kind_dec k k' then [(n, ts)] else [] end) regs.

Lemma calls_of_in k regs n ts : In (n, ts) (calls_of k regs) <-> In (k, n, ts) regs.
Proof.
  unfold calls_of. rewrite in_flat_map. split.
  - intros ([[k' n'] ts'] & I & J). destruct (kind_dec k k'); [|destruct J].
    destruct J as [J|[]]. inversion J; subst. auto.
  - intros I. exists (k, n, ts). split; auto. destruct (kind_dec k k); [left; auto|congruence].
Qed.

Lemma calls_of_registered k regs n t :
  registered (calls_of k regs) n t <-> kregistered regs (k, n, t).
Proof.
  unfold registered, kregistered. cbn [fst snd]. split; intros (ts & I & J); exists ts; split; auto;
    now apply calls_of_in.
Qed.

Lemma register_fold regs : forall s,
  ofold register regs s =
    (e <- ofold (fun c x => addDof c (fst x) (snd x)) (calls_of KEl regs) (ns_el s) ;;
     n <- ofold (fun c x => addDof c (fst x) (snd x)) (calls_of KNode regs) (ns_node s) ;;
     Ok (mkNumst (ns_nodes s) (ns_els s) n e (ns_ndofs s) (ns_ncon s) (ns_nunk s) (ns_mpc s)))
  \/ exists e, ofold register regs s = e /\ (forall x, e <> Ok x).
Proof.
  induction regs as [|[[k n] ts] regs IH]; intros s.
  - left. destruct s; reflexivity.
  - cbn [ofold]. unfold register at 1 3. destruct k; cbn [table calls_of flat_map kind_dec].
    + destruct (addDof (ns_el s) n ts) as [c| | |] eqn:A;
        try (right; eexists; split; [reflexivity|]; intros; discriminate).
      cbn [obind with_table]. 
      destruct (IH (mkNumst (ns_nodes s) (ns_els s) (ns_node s) c (ns_ndofs s) (ns_ncon s) (ns_nunk s) (ns_mpc s)))
        as [I|I]; [left|right].
      * rewrite I. cbn. rewrite A. reflexivity.
      * exact I.
    + destruct (addDof (ns_node s) n ts) as [c| | |] eqn:A;
        try (right; eexists; split; [reflexivity|]; intros; discriminate).
      cbn [obind with_table].
      destruct (IH (mkNumst (ns_nodes s) (ns_els s) c (ns_el s) (ns_ndofs s) (ns_ncon s) (ns_nunk s) (ns_mpc s)))
        as [I|I]; [left|right].
      * rewrite I. cbn. rewrite A. reflexivity.
      * exact I.
Qed.

Lemma register_ok regs nn ne s :
  ns_nodes s = nn -> ns_els s = ne -> Forall (good_reg nn ne) regs ->
  ns_el s = initDofTable ne -> ns_node s = initDofTable nn ->
  exists e n E N,
    ofold register regs s = Ok (mkNumst nn ne n e (ns_ndofs s) (ns_ncon s) (ns_nunk s) (ns_mpc s)) /\
    rep e E /\ rep n N /\ length E = ne /\ length N = nn /\
    reg_ok E (calls_of KEl regs) /\ reg_ok N (calls_of KNode regs) /\
    dc_used e + dc_used n = length (reg_keys regs) /\
    (forall x, klook E N x <> None -> exists d, klook E N x = Some d /\ d_con d = false).
Proof.
  intros Hn He G Ie In'.
  assert (Be : forall x, In x (calls_of KEl regs) -> 1 <= fst x <= ne).
  { intros [n ts] H. apply calls_of_in in H. rewrite Forall_forall in G. apply G in H. apply H. }
  assert (Bn : forall x, In x (calls_of KNode regs) -> 1 <= fst x <= nn).
  { intros [n ts] H. apply calls_of_in in H. rewrite Forall_forall in G. apply G in H. apply H. }
  (* every DoF of a freshly filled table is free *)
  assert (FREE : forall M calls c segs, fill_table M calls = Ok c -> rep c segs ->
     forall sg d, In sg segs -> In d sg -> d_con d = false).
  { intros M calls c segs F R sg d Hs Hd.
    assert (INV : forall d, In d (dc_dofs c) -> d_con d = false).
    { unfold fill_table in F.
      apply (ofold_inv_ok _ (fun c => forall d, In d (dc_dofs c) -> d_con d = false) _ _ _ F).
      { intros d' []. }
      - intros s1 a s2 _ HI HS d' Hd'. unfold addDof in HS.
        destruct (segment s1 (fst a)) as [[p q]| | |]; cbn in HS; try discriminate.
        destruct (new_types (dc_dofs s1) p q (set_of (snd a))) as [l| | |]; cbn in HS; try discriminate.
        destruct l as [|x l]; inversion HS; subst; auto.
        cbn [dc_dofs] in Hd'. apply in_app_iff in Hd'. destruct Hd' as [Hd'|Hd'].
        + apply HI. rewrite <- (firstn_skipn q (dc_dofs s1)). apply in_app_iff. auto.
        + cbn in Hd'. destruct Hd' as [<-|Hd']; auto.
          apply in_app_iff in Hd'. destruct Hd' as [Hd'|Hd'].
          * apply in_map_iff in Hd'. destruct Hd' as (u & <- & _). reflexivity.
          * apply HI. rewrite <- (firstn_skipn q (dc_dofs s1)). apply in_app_iff. auto. }
    apply INV. destruct R as (_ & -> & _). apply in_concat. eauto. }
  destruct (fill_ok' ne _ Be) as (e & E & Fe & Re & Le & Ge & _).
  destruct (fill_ok' nn _ Bn) as (n & N & Fn & Rn & Ln & Gn & _).
  exists e, n, E, N.
  destruct (register_fold regs s) as [H|(x & H & X)].
  2:{ exfalso. revert Fe Fn H X. clear -Ie In' Hn He. unfold fill_table. rewrite <- Ie, <- In'.
      intros Fe Fn H X.
      assert (exists y, ofold register regs s = Ok y) as [y Y].
      { clear H X Ie In' Hn He. revert s Fe Fn. induction regs as [|[[k m] ts] regs IH]; intros s Fe Fn.
        - exists s. reflexivity.
        - cbn [ofold]. unfold register at 1. destruct k; cbn [table].
          + change (calls_of KEl ((KEl, m, ts) :: regs)) with ((m, ts) :: calls_of KEl regs) in Fe.
            change (calls_of KNode ((KEl, m, ts) :: regs)) with (calls_of KNode regs) in Fn.
            cbn [ofold fst snd] in Fe. destruct (addDof (ns_el s) m ts) as [c| | |]; cbn [obind] in Fe; try discriminate.
            cbn [obind]. apply IH; [exact Fe|exact Fn].
          + change (calls_of KEl ((KNode, m, ts) :: regs)) with (calls_of KEl regs) in Fe.
            change (calls_of KNode ((KNode, m, ts) :: regs)) with ((m, ts) :: calls_of KNode regs) in Fn.
            cbn [ofold fst snd] in Fn. destruct (addDof (ns_node s) m ts) as [c| | |]; cbn [obind] in Fn; try discriminate.
            cbn [obind]. apply IH; [exact Fe|exact Fn]. }
      rewrite Y in H. subst x. exact (X y eq_refl). }
  split.
  { rewrite H, Ie, In'. unfold fill_table in Fe, Fn. rewrite Fe. cbn [obind]. rewrite Fn. cbn [obind].
    now rewrite Hn, He. }
  repeat (split; [solve [auto]|]). split.
  - rewrite (used_count e E _ ne Re Le Ge Be), (used_count n N _ nn Rn Ln Gn Bn).
    rewrite <- (map_length (fun x => (KEl, fst x, snd x)) (reg_pairs (calls_of KEl regs))).
    rewrite <- (map_length (fun x => (KNode, fst x, snd x)) (reg_pairs (calls_of KNode regs))).
    rewrite <- app_length. apply Permutation_length. apply NoDup_Permutation.
    + apply NoDup_app_intro.
      * apply FinFun.Injective_map_NoDup; [|apply NoDup_nodup]. intros [a b] [c d] X. now inversion X.
      * apply FinFun.Injective_map_NoDup; [|apply NoDup_nodup]. intros [a b] [c d] X. now inversion X.
      * intros x H1 H2. apply in_map_iff in H1. apply in_map_iff in H2.
        destruct H1 as (a & <- & _), H2 as (b & X & _). discriminate.
    + apply NoDup_nodup.
    + intros [[k m] t]. rewrite reg_keys_in, in_app_iff, !in_map_iff. split.
      * intros [([a b] & X & I)|([a b] & X & I)]; inversion X; subst;
          apply reg_pairs_in in I; now apply calls_of_registered.
      * intros I. destruct k; [left|right]; exists (m, t); (split; [reflexivity|]);
          apply reg_pairs_in; now apply calls_of_registered.
  - intros [[k m] t] NN. cbn [klook] in *. destruct (look (segs_of E N k) m t) as [d|] eqn:L; [|congruence].
    exists d. split; auto. unfold look in L. apply find_some in L. destruct L as [L _].
    assert (In (seg (segs_of E N k) m) (segs_of E N k)) as X.
    { unfold seg in *. destruct (nth_in_or_default (m - 1) (segs_of E N k) []) as [X|X]; auto.
      rewrite X in L. destruct L. }
    destruct k; [eapply (FREE ne); eauto|eapply (FREE nn); eauto].
Qed.

(* ---- fixing DoFs ---- *)
Record ninv (nn ne : nat) (regs : list reg) (F : list key) (m : list (nat * nat))
    (s : numst) (E N : list (list dof)) : Prop := {
  ni_rep : srep s E N;
  ni_nn : ns_nodes s = nn;
  ni_ne : ns_els s = ne;
  ni_reg : forall k n t, 1 <= n <= entities nn ne k ->
             (klook E N (k, n, t) <> None <-> kregistered regs (k, n, t));
  ni_con : forall k n t d, 1 <= n -> klook E N (k, n, t) = Some d ->
             (d_con d = true <-> In (k, n, t) F);
  ni_ncon : ns_ncon s = length (fix_keys F);
  ni_ndofs : ns_ndofs s = length (reg_keys regs);
  ni_mpc : ns_mpc s = m }.

Lemma initDofs_ok nn ne regs newm s :
  ns_nodes s = nn -> ns_els s = ne -> ns_ncon s = 0 ->
  Forall (good_reg nn ne) regs -> reg_keys regs <> [] ->
  exists s' E N, initDofs s regs newm = Ok s' /\
    ninv nn ne regs [] (ns_mpc s ++ map (fun k => (k, 0)) newm) s' E N.
Proof.
  intros Hn He Hc G NE. unfold initDofs.
  assert (Z : (ns_nodes s <? 1) && (ns_els s <? 1) = false).
  { destruct (reg_keys regs) as [|[[k n] t] r] eqn:R; [congruence|].
    assert (K : kregistered regs (k, n, t)) by (apply reg_keys_in; rewrite R; left; auto).
    destruct K as (ts & I & _). cbn [fst] in I. rewrite Forall_forall in G. apply G in I.
    destruct I as [I _]. rewrite Hn, He. destruct k; cbn in I.
    - replace (ne <? 1) with false by (symmetry; apply Nat.ltb_ge; lia). apply andb_false_r.
    - replace (nn <? 1) with false by (symmetry; apply Nat.ltb_ge; lia). reflexivity. }
  rewrite Z.
  match goal with |- context [ofold register regs ?s0] =>
    destruct (register_ok regs nn ne s0) as (e & n & E & N & X & Re & Rn & Le & Ln & Ge & Gn & U & FR) end; auto.
  { cbn. now rewrite He. } { cbn. now rewrite Hn. }
  cbn [ns_ndofs ns_ncon ns_nunk ns_mpc] in X. rewrite X. cbn [obind ns_el ns_node].
  rewrite U. unfold checking.
  replace (length (reg_keys regs) =? 0) with false.
  2:{ symmetry. apply Nat.eqb_neq. destruct (reg_keys regs); [congruence|discriminate]. }
  cbn [negb]. eexists. exists E, N. split; [reflexivity|].
  constructor; cbn [ns_nodes ns_els ns_ncon ns_ndofs ns_mpc]; auto.
  - unfold srep. cbn [ns_nodes ns_els ns_el ns_node]. auto.
  - intros k m t Hm. rewrite <- calls_of_registered. cbn [klook].
    assert (Q : look (segs_of E N k) m t <> None <-> In t (map d_type (seg (segs_of E N k) m))).
    { rewrite <- look_some_iff. destruct (look (segs_of E N k) m t) as [d|]; split.
      - intros _. eauto.
      - intros _. discriminate.
      - congruence.
      - intros [d D]. discriminate. }
    rewrite Q. destruct k; cbn [segs_of entities] in *; [apply Ge|apply Gn]; lia.
  - intros k m t d _ L. split; [|intros []]. intros C.
    destruct (FR (k, m, t)) as (d' & L' & C'); [congruence|]. congruence.
Qed.

Lemma with_table_fields s k c :
  ns_nodes (with_table s k c) = ns_nodes s /\ ns_els (with_table s k c) = ns_els s /\
  ns_ndofs (with_table s k c) = ns_ndofs s /\ ns_ncon (with_table s k c) = ns_ncon s /\
  ns_mpc (with_table s k c) = ns_mpc s.
Proof. destruct k; repeat split; reflexivity. Qed.

Lemma setConstrained_ok nn ne regs F m s E N k n t :
  ninv nn ne regs F m s E N -> Forall (good_reg nn ne) regs -> kregistered regs (k, n, t) ->
  exists s' E' N', setConstrained s k n t = Ok s' /\ ninv nn ne regs ((k, n, t) :: F) m s' E' N'.
Proof.
  intros I G K.
  assert (Hn : 1 <= n <= entities nn ne k).
  { destruct K as (ts & J & _). cbn [fst] in J. rewrite Forall_forall in G. apply G in J. apply J. }
  destruct I as [[Re [Rn [Le Ln]]] Hnn Hne Hreg Hcon Hncon Hnd Hm].
  assert (R : rep (table s k) (segs_of E N k)) by (destruct k; auto).
  assert (L : length (segs_of E N k) = entities nn ne k) by (destruct k; cbn; congruence).
  assert (LK : klook E N (k, n, t) <> None) by (apply Hreg; auto).
  cbn [klook] in LK. destruct (look (segs_of E N k) n t) as [d|] eqn:D; [|congruence].
  destruct (put_ok _ _ n t d R) as (i & GD & A & P); [rewrite L; auto|auto|].
  unfold setConstrained. rewrite GD. cbn [obind]. rewrite A. cbn [obind].
  destruct (d_con d) eqn:C.
  - exists s, E, N. split; [reflexivity|]. constructor; auto.
    + repeat split; auto; apply Re || apply Rn.
    + intros k' n' t' d' Hn' D'. rewrite (Hcon k' n' t' d' Hn' D'). split; [right; auto|].
      intros [X|X]; auto. inversion X; subst. cbn [klook] in D'. rewrite D in D'. inversion D'; subst.
      apply (Hcon k' n' t' d'); auto.
    + rewrite Hncon. unfold fix_keys. cbn [nodup].
      destruct (in_dec key_dec (k, n, t) F); auto. exfalso. apply n0.
      apply (Hcon k n t d); auto. lia.
  - destruct (P (mkDof (d_type d) (d_eq d) true)) as (c' & segs' & PE & R' & T' & K').
    { cbn. eapply look_type; eauto. }
    rewrite PE. cbn [obind].
    exists (let s' := with_table s k c' in
            mkNumst (ns_nodes s') (ns_els s') (ns_node s') (ns_el s') (ns_ndofs s')
              (ns_ncon s' + 1) (ns_nunk s') (ns_mpc s')).
    exists (match k with KEl => segs' | KNode => E end), (match k with KEl => N | KNode => segs' end).
    split; [reflexivity|].
    pose proof (types_length _ _ T') as TL.
    assert (KL : forall k' n' t', 1 <= n' ->
       klook (match k with KEl => segs' | KNode => E end) (match k with KEl => N | KNode => segs' end) (k', n', t')
       = if key_dec (k', n', t') (k, n, t) then Some (mkDof (d_type d) (d_eq d) true) else klook E N (k', n', t')).
    { intros k' n' t' Hn'. cbn [klook].
      destruct (kind_dec k' k) as [->|NK].
      - replace (segs_of (match k with KEl => segs' | KNode => E end) (match k with KEl => N | KNode => segs' end) k)
          with segs' by (destruct k; reflexivity).
        rewrite K' by auto.
        destruct (pair_dec (n', t') (n, t)), (key_dec (k, n', t') (k, n, t)); auto; congruence.
      - replace (segs_of (match k with KEl => segs' | KNode => E end) (match k with KEl => N | KNode => segs' end) k')
          with (segs_of E N k') by (destruct k, k'; reflexivity || congruence).
        destruct (key_dec (k', n', t') (k, n, t)); auto; congruence. }
    destruct (with_table_fields s k c') as (W1 & W2 & W3 & W4 & W5).
    constructor; cbn [ns_nodes ns_els ns_ncon ns_ndofs ns_mpc ns_el ns_node]; try congruence.
    + unfold srep. cbn [ns_nodes ns_els ns_ncon ns_ndofs ns_mpc ns_el ns_node].
      destruct k; cbn in *; repeat split; try apply Re; try apply Rn; try apply R'; try congruence.
    + intros k' n' t' Hn'. rewrite KL by lia.
      destruct (key_dec (k', n', t') (k, n, t)) as [X|X]; [|apply Hreg; auto].
      inversion X; subst. split; auto. discriminate.
    + intros k' n' t' d' Hn'. rewrite KL by lia.
      destruct (key_dec (k', n', t') (k, n, t)) as [X|X].
      * intros Y. inversion Y; subst. cbn. split; auto.
      * intros Y. rewrite (Hcon k' n' t' d' Hn' Y). cbn. intuition congruence.
    + rewrite W4, Hncon. unfold fix_keys. cbn [nodup].
      destruct (in_dec key_dec (k, n, t) F) as [Y|Y]; [|cbn; lia].
      apply (Hcon k n t d) in Y; [congruence|lia|exact D].
Qed.

Lemma run_fixes_ok nn ne regs m fixes : forall F s E N,
  ninv nn ne regs F m s E N -> Forall (good_reg nn ne) regs ->
  Forall (kregistered regs) fixes ->
  exists s' E' N', run_fixes s fixes = Ok s' /\ ninv nn ne regs (rev fixes ++ F) m s' E' N'.
Proof.
  unfold run_fixes. induction fixes as [|[[k n] t] fixes IH]; intros F s E N I G K; cbn [ofold rev app].
  - exists s, E, N. auto.
  - inversion K; subst. destruct (setConstrained_ok _ _ _ _ _ _ _ _ k n t I G H1) as (s1 & E1 & N1 & X & I1).
    rewrite X. cbn [obind]. rewrite <- app_assoc. cbn [app]. eapply IH; eauto.
Qed.

(* ---- numbering ---- *)
Lemma number_mpcs_ok m : forall next, Forall (fun x => 0 < fst x) m ->
  number_mpcs m next = Ok (combine (map fst m) (seq next (length m)), next + length m).
Proof.
  induction m as [|[k e] m IH]; intros next F; cbn [number_mpcs length map seq combine fst].
  - now rewrite Nat.add_0_r.
  - inversion F; subst. cbn [fst] in *. replace (0 <? k) with true by (symmetry; apply Nat.ltb_lt; auto).
    cbn [asserting]. rewrite IH by auto. cbn [obind fst snd]. replace (next + 1) with (S next) by lia.
    replace (next + S (length m)) with (S next + length m) by lia. reflexivity.
Qed.

Lemma perm_count {A} (p : A -> bool) L M :
  NoDup L -> NoDup M -> (forall x, In x M <-> In x L /\ p x = true) -> length (filter p L) = length M.
Proof.
  intros NL NM H. apply Permutation_length, NoDup_Permutation; auto.
  - now apply NoDup_filter.
  - intros x. rewrite filter_In. symmetry. apply H.
Qed.

Lemma kreg_in nn ne regs x :
  Forall (good_reg nn ne) regs -> kregistered regs x -> In x (all_keys nn ne).
Proof.
  intros G (ts & I & J). rewrite Forall_forall in G. apply G in I. destruct x as [[k n] t].
  cbn [fst snd good_reg] in *. destruct I as [I T]. rewrite Forall_forall in T.
  apply all_keys_in. split; auto.
Qed.

Lemma in_all_keys_range nn ne k n t : In (k, n, t) (all_keys nn ne) -> 1 <= n <= entities nn ne k.
Proof. intros H. apply all_keys_in in H. tauto. Qed.

Lemma counts nn ne regs F m s E N :
  ninv nn ne regs F m s E N -> Forall (good_reg nn ne) regs -> Forall (kregistered regs) F ->
  cnt (kstat E N) true (all_keys nn ne) = length (fix_keys F) /\
  cnt (kstat E N) false (all_keys nn ne) + length (fix_keys F) = length (reg_keys regs).
Proof.
  intros I G K. destruct I as [R Hnn Hne Hreg Hcon Hncon Hnd Hm].
  assert (ST : forall x, In x (all_keys nn ne) ->
     match kstat E N x with
     | Some b => kregistered regs x /\ (b = true <-> In x F)
     | None => ~ kregistered regs x end).
  { intros [[k n] t] Hx. apply in_all_keys_range in Hx. unfold kstat.
    specialize (Hreg k n t Hx). destruct (klook E N (k, n, t)) as [d|] eqn:D; cbn [option_map].
    - split; [apply Hreg; congruence|]. apply Hcon; auto. lia.
    - intros X. apply Hreg in X. congruence. }
  assert (T : cnt (kstat E N) true (all_keys nn ne) = length (fix_keys F)).
  { unfold cnt. apply perm_count.
    - apply all_keys_NoDup.
    - apply NoDup_nodup.
    - intros x. unfold fix_keys. rewrite nodup_In. split.
      + intros X. rewrite Forall_forall in K. pose proof (K x X) as Kx.
        pose proof (kreg_in nn ne regs x G Kx) as A. split; auto. specialize (ST x A).
        unfold is_st. destruct (kstat E N x) as [b|]; [|tauto].
        destruct ST as [_ ST]. apply ST in X. subst. reflexivity.
      + intros [A S]. specialize (ST x A). unfold is_st in S.
        destruct (kstat E N x) as [b|]; [|discriminate]. destruct b; [|discriminate]. apply ST. reflexivity. }
  split; [exact T|].
  assert (S : length (filter (fun x => match kstat E N x with Some _ => true | None => false end) (all_keys nn ne))
              = length (reg_keys regs)).
  { apply perm_count.
    - apply all_keys_NoDup.
    - apply NoDup_nodup.
    - intros x. rewrite reg_keys_in. split.
      + intros X. pose proof (kreg_in nn ne regs x G X) as A. split; auto. specialize (ST x A).
        destruct (kstat E N x); tauto.
      + intros [A S]. specialize (ST x A). destruct (kstat E N x); [tauto|discriminate]. }
  rewrite <- S, <- T. clear. induction (all_keys nn ne) as [|x l IH]; [reflexivity|].
  rewrite !cnt_cons. cbn [filter]. unfold is_st.
  destruct (kstat E N x) as [[|]|]; cbn [Bool.eqb length]; lia.
Qed.

Lemma assign_all nn ne regs F m s E N :
  ninv nn ne regs F m s E N -> Forall (good_reg nn ne) regs -> Forall (kregistered regs) F ->
  length (fix_keys F) < length (reg_keys regs) -> Forall (fun x => 0 < fst x) m ->
  exists s', assignEquationNumbers s = Ok s' /\
    ns_ndofs s' = length (reg_keys regs) /\ ns_ncon s' = length (fix_keys F) /\
    ns_nunk s' = length (reg_keys regs) - length (fix_keys F) /\
    ns_mpc s' = combine (map fst m) (seq (length (reg_keys regs) + 1) (length m)) /\
    ns_nodes s' = nn /\ ns_els s' = ne /\
    exists E' N', srep s' E' N' /\ types E' = types E /\ types N' = types N /\
    forall k n t, 1 <= n <= entities nn ne k ->
      klook E' N' (k, n, t) =
        option_map (fun d => mkDof (d_type d)
          (match num key_dec (kstat E N) (all_keys nn ne) 1 (length (fix_keys F) + 1) (k, n, t) with
           | Some e => e | None => d_eq d end) (d_con d)) (klook E N (k, n, t)).
Proof.
  intros I G K LT M. pose proof I as I0. destruct (counts _ _ _ _ _ _ _ _ I G K) as [CT CF].
  destruct I as [[Re [Rn [Le Ln]]] Hnn Hne Hreg Hcon Hncon Hnd Hm].
  unfold assignEquationNumbers, checking. rewrite Hnd, Hncon, Hnn, Hne.
  replace (length (reg_keys regs) =? length (fix_keys F)) with false by (symmetry; apply Nat.eqb_neq; lia).
  cbn [negb].
  destruct (assign_ok (dof_loop ne) (ns_el s) E 1 (length (fix_keys F) + 1) Re (dof_loop_NoDup _))
    as (ce & E' & XE & RE' & TE & KE).
  { intros x Hx. apply dof_loop_in in Hx. lia. }
  rewrite XE. cbn [obind snd fst].
  match type of XE with _ = Ok (_, (?a, ?b)) => 
  destruct (assign_ok (dof_loop nn) (ns_node s) N a b Rn (dof_loop_NoDup _))
    as (cn & N' & XN & RN' & TN & KN) end.
  { intros x Hx. apply dof_loop_in in Hx. lia. }
  rewrite XN. cbn [obind snd fst].
  assert (CC : forall b, cnt (kstat E N) b (all_keys nn ne) = cnt (stat E) b (dof_loop ne) + cnt (stat N) b (dof_loop nn)).
  { intros b. unfold all_keys. rewrite cnt_app, !cnt_map. f_equal; apply cnt_ext; intros [a c] _; reflexivity. }
  rewrite CC in CT, CF. unfold asserting.
  match goal with |- context [if ?a =? ?b then _ else UB] => 
    replace (a =? b) with true by (symmetry; apply Nat.eqb_eq; lia) end.
  match goal with |- context [if ?a =? ?b then _ else UB] => 
    replace (a =? b) with true by (symmetry; apply Nat.eqb_eq; lia) end.
  rewrite Hm, number_mpcs_ok by auto. cbn [obind snd fst].
  match goal with |- context [if ?a =? ?b then _ else UB] => 
    replace (a =? b) with true by (symmetry; apply Nat.eqb_eq; lia) end.
  eexists. split; [reflexivity|]. cbn [ns_ndofs ns_ncon ns_nunk ns_mpc ns_nodes ns_els].
  repeat (split; [solve [auto]|]). split.
  { f_equal. f_equal. lia. }
  repeat (split; [solve [auto]|]).
  exists E', N'. split.
  { unfold srep. cbn. repeat split; try apply RE'; try apply RN';
      [rewrite (types_length _ _ TE); congruence|rewrite (types_length _ _ TN); congruence]. }
  split; [auto|]. split; [auto|].
  intros k n t Hn. unfold all_keys. rewrite num_app.
  rewrite !cnt_map.
  rewrite (cnt_ext (fun x => kstat E N (KEl, fst x, snd x)) (stat E) true) by (intros [a c] _; reflexivity).
  rewrite (cnt_ext (fun x => kstat E N (KEl, fst x, snd x)) (stat E) false) by (intros [a c] _; reflexivity).
  destruct k; cbn [klook segs_of].
  - rewrite KE by lia.
    rewrite (num_notin key_dec _ (map (fun x => (KNode, fst x, snd x)) (dof_loop nn))).
    2:{ rewrite in_map_iff. intros (x & X & _). discriminate. }
    match goal with |- context [num key_dec (kstat E N) (map ?f (dof_loop ne)) ?a ?b (KEl, n, t)] =>
      replace (num key_dec (kstat E N) (map f (dof_loop ne)) a b (KEl, n, t))
        with (num pair_dec (fun x : nat * nat => kstat E N (KEl, fst x, snd x)) (dof_loop ne) a b (n, t))
        by (symmetry; apply (num_map (B := key) pair_dec key_dec (fun x : nat * nat => (KEl, fst x, snd x)) (kstat E N)
                    (dof_loop ne) a b (n, t)); intros [u v] [w z] X; now inversion X) end.
    change (fun x : nat * nat => kstat E N (KEl, fst x, snd x)) with (stat E).
    destruct (num pair_dec (stat E) (dof_loop ne) 1 (length (fix_keys F) + 1) (n, t)); reflexivity.
  - rewrite KN by lia.
    rewrite (num_notin key_dec _ (map (fun x => (KEl, fst x, snd x)) (dof_loop ne))).
    2:{ rewrite in_map_iff. intros (x & X & _). discriminate. }
    match goal with |- context [num key_dec (kstat E N) (map ?f (dof_loop nn)) ?a ?b (KNode, n, t)] =>
      replace (num key_dec (kstat E N) (map f (dof_loop nn)) a b (KNode, n, t))
        with (num pair_dec (fun x : nat * nat => kstat E N (KNode, fst x, snd x)) (dof_loop nn) a b (n, t))
        by (symmetry; apply (num_map (B := key) pair_dec key_dec (fun x : nat * nat => (KNode, fst x, snd x)) (kstat E N)
                    (dof_loop nn) a b (n, t)); intros [u v] [w z] X; now inversion X) end.
    change (fun x : nat * nat => kstat E N (KNode, fst x, snd x)) with (stat N).
    reflexivity.
Qed.

Lemma fix_keys_rev F : length (fix_keys (rev F ++ [])) = length (fix_keys F).
Proof.
  rewrite app_nil_r. apply Permutation_length. unfold fix_keys. apply NoDup_Permutation; try apply NoDup_nodup.
  intros x. rewrite !nodup_In. symmetry. apply in_rev.
Qed.

(* the state reached by the initialisation sequence *)
Record numbered (nn ne : nat) (regs : list reg) (fixes : list key) (s : numst) (E N : list (list dof)) : Prop := {
  nd_rep : srep s E N;
  nd_nn : ns_nodes s = nn;
  nd_ne : ns_els s = ne;
  nd_ndofs : ns_ndofs s = length (reg_keys regs);
  nd_ncon : ns_ncon s = length (fix_keys fixes);
  nd_nunk : ns_nunk s = length (reg_keys regs) - length (fix_keys fixes);
  nd_reg : forall k n t, 1 <= n <= entities nn ne k ->
             (klook E N (k, n, t) <> None <-> kregistered regs (k, n, t));
  nd_con : forall k n t d, 1 <= n <= entities nn ne k -> klook E N (k, n, t) = Some d ->
             (d_con d = true <-> In (k, n, t) fixes) /\
             1 <= d_eq d <= length (reg_keys regs) /\
             (d_eq d <= length (fix_keys fixes) <-> In (k, n, t) fixes);
  nd_inj : forall k n t d k' n' t' d',
             1 <= n <= entities nn ne k -> 1 <= n' <= entities nn ne k' ->
             klook E N (k, n, t) = Some d -> klook E N (k', n', t') = Some d' -> d_eq d = d_eq d' ->
             (k, n, t) = (k', n', t');
  nd_surj : forall e, 1 <= e <= length (reg_keys regs) ->
             exists k n t d, 1 <= n <= entities nn ne k /\ klook E N (k, n, t) = Some d /\ d_eq d = e }.

Lemma init_sequence_ok nn ne m regs newm fixes s :
  ns_nodes s = nn -> ns_els s = ne -> ns_ncon s = 0 -> map fst (ns_mpc s) = m ->
  Forall (good_reg nn ne) regs -> Forall (kregistered regs) fixes ->
  length (fix_keys fixes) < length (reg_keys regs) ->
  Forall (fun k => 0 < k) (m ++ newm) ->
  exists s' E N, init_sequence s regs newm fixes = Ok s' /\
    numbered nn ne regs fixes s' E N /\
    ns_mpc s' = combine (m ++ newm) (seq (length (reg_keys regs) + 1) (length m + length newm)).
Proof.
  intros Hn He Hc Hm G K LT M. unfold init_sequence.
  destruct (initDofs_ok nn ne regs newm s Hn He Hc G) as (s1 & E1 & N1 & X1 & I1).
  { intros Z. rewrite Z in LT. cbn in LT. lia. }
  rewrite X1. cbn [obind].
  destruct (run_fixes_ok nn ne regs _ fixes [] s1 E1 N1 I1 G K) as (s2 & E2 & N2 & X2 & I2).
  unfold run_fixes in X2. rewrite X2. cbn [obind].
  assert (K2 : Forall (kregistered regs) (rev fixes ++ [])).
  { rewrite app_nil_r. rewrite Forall_forall in *. intros x Hx. apply K. now apply in_rev. }
  pose proof (fix_keys_rev fixes) as FR.
  destruct (assign_all _ _ _ _ _ _ _ _ I2 G K2) as (s3 & X3 & D1 & D2 & D3 & D4 & D5 & D6 & E3 & N3 & R3 & T1 & T2 & L3).
  { lia. }
  { clear -M Hm. rewrite <- Hm in M. rewrite Forall_forall in *. intros x Hx. apply M.
    apply in_app_iff in Hx. apply in_app_iff. destruct Hx as [Hx|Hx].
    - left. now apply in_map.
    - right. apply in_map_iff in Hx. destruct Hx as (y & <- & Hy). exact Hy. }
  exists s3, E3, N3. split; [exact X3|].
  destruct (counts _ _ _ _ _ _ _ _ I2 G K2) as [CT CF]. rewrite FR in *.
  destruct I2 as [R2 Hnn Hne Hreg Hcon Hncon Hnd Hmm].
  assert (INF : forall x, In x (rev fixes ++ []) <-> In x fixes).
  { intros x. rewrite app_nil_r. symmetry. apply in_rev. }
  (* characterisation of the final DoFs *)
  assert (CH : forall k n t d, 1 <= n <= entities nn ne k -> klook E3 N3 (k, n, t) = Some d ->
     num key_dec (kstat E2 N2) (all_keys nn ne) 1 (length (fix_keys fixes) + 1) (k, n, t) = Some (d_eq d) /\
     kstat E2 N2 (k, n, t) = Some (d_con d) /\ (d_con d = true <-> In (k, n, t) fixes)).
  { intros k n t d Hr Hk. rewrite L3 in Hk by auto. unfold kstat.
    destruct (klook E2 N2 (k, n, t)) as [d2|] eqn:Q; cbn [option_map] in *; [|discriminate].
    inversion Hk; subst d; clear Hk. cbn [d_eq d_con].
    assert (KR : kregistered regs (k, n, t)) by (apply Hreg; [auto|congruence]).
    destruct (num_in key_dec (kstat E2 N2) (all_keys nn ne) 1 (length (fix_keys fixes) + 1) (k, n, t)) as [e Ee].
    - now apply kreg_in with (regs := regs).
    - unfold kstat. rewrite Q. discriminate.
    - rewrite Ee. split; auto. split; auto. rewrite <- INF. apply Hcon; [lia|auto]. }
  split.
  2:{ rewrite D4, map_app, Hm. rewrite map_map. cbn [fst]. rewrite map_id.
      rewrite app_length, map_length, <- (map_length fst (ns_mpc s)), Hm. reflexivity. }
  constructor; auto.
  - intros k n t Hr. rewrite <- (Hreg k n t Hr). rewrite L3 by auto.
    destruct (klook E2 N2 (k, n, t)); cbn; split; congruence.
  - intros k n t d Hr Hk. destruct (CH _ _ _ _ Hr Hk) as (A & B & C). split; [exact C|].
    apply num_some in A. destruct A as (_ & b & B' & RG). rewrite B in B'. inversion B'; subst b.
    destruct (d_con d) eqn:Q.
    + split; [lia|]. split; [tauto|]. intros _. lia.
    + split; [lia|]. split; [lia|]. intros X. apply C in X. discriminate.
  - intros k n t d k' n' t' d' Hr Hr' Hk Hk' EQ.
    destruct (CH _ _ _ _ Hr Hk) as (A & B & C). destruct (CH _ _ _ _ Hr' Hk') as (A' & B' & C').
    rewrite EQ in A.
    assert (d_con d = d_con d') as CD.
    { apply num_some in A. apply num_some in A'. destruct A as (_ & b & Sb & RG), A' as (_ & b' & Sb' & RG').
      rewrite B in Sb. rewrite B' in Sb'. inversion Sb; inversion Sb'; subst.
      destruct (d_con d), (d_con d'); auto; lia. }
    rewrite CD in B. eapply num_inj; eauto.
  - intros e Re.
    destruct (num_surj key_dec (kstat E2 N2) (all_keys nn ne) 1 (length (fix_keys fixes) + 1) e
               (e <=? length (fix_keys fixes)) (all_keys_NoDup _ _)) as ([[k n] t] & Ik & Sk & Nk).
    { destruct (e <=? length (fix_keys fixes)) eqn:Q; [apply Nat.leb_le in Q|apply Nat.leb_gt in Q]; lia. }
    apply in_all_keys_range in Ik. unfold kstat in Sk.
    destruct (klook E2 N2 (k, n, t)) as [d2|] eqn:Q; [|discriminate].
    exists k, n, t. eexists. split; [auto|]. rewrite (L3 k n t Ik), Q. cbn [option_map].
    split; [reflexivity|]. rewrite Nk. reflexivity.
Qed.

Lemma dof_eq_look s E N k n t d :
  srep s E N -> 1 <= n <= (match k with KEl => ns_els s | KNode => ns_nodes s end) ->
  klook E N (k, n, t) = Some d -> dof_eq s k n t = Ok (d_eq d).
Proof.
  intros (Re & Rn & Le & Ln) Hn L. unfold dof_eq.
  assert (R : rep (table s k) (segs_of E N k)) by (destruct k; auto).
  destruct (put_ok _ _ n t d R) as (i & G & A & _); [destruct k; cbn; lia|exact L|].
  rewrite G. cbn [obind]. rewrite A. reflexivity.
Qed.

Lemma map_snd_combine {A B} (l : list A) (b : list B) :
  length l = length b -> map snd (combine l b) = b.
Proof.
  revert b; induction l as [|y l IH]; intros [|z b] H; cbn in *; try discriminate; auto.
  f_equal. apply IH. lia.
Qed.

(* C16 in terms of the interface *)
Theorem numbering nn ne m regs newm fixes :
  Forall (good_reg nn ne) regs ->
  Forall (fun x => In x (reg_keys regs)) fixes ->
  (exists x, In x (reg_keys regs) /\ ~ In x fixes) ->
  Forall (fun k => 0 < k) (m ++ newm) ->
  exists s, init_sequence (fresh_storage nn ne m) regs newm fixes = Ok s /\
    ns_ndofs s = length (reg_keys regs) /\
    ns_ncon s = length (fix_keys fixes) /\
    ns_nunk s = ns_ndofs s - ns_ncon s /\
    (forall x, In x (reg_keys regs) -> exists e, key_eq s x = Ok e /\ 1 <= e <= ns_ndofs s /\
        (e <= ns_ncon s <-> In x fixes)) /\
    (forall x y e, In x (reg_keys regs) -> In y (reg_keys regs) ->
        key_eq s x = Ok e -> key_eq s y = Ok e -> x = y) /\
    (forall e, 1 <= e <= ns_ndofs s -> exists x, In x (reg_keys regs) /\ key_eq s x = Ok e) /\
    map snd (ns_mpc s) = seq (ns_ndofs s + 1) (length m + length newm).
Proof.
  intros G K FREE M.
  assert (K' : Forall (kregistered regs) fixes).
  { rewrite Forall_forall in *. intros x Hx. apply reg_keys_in. auto. }
  destruct (init_sequence_ok nn ne m regs newm fixes (fresh_storage nn ne m)) as (s & E & N & X & I & MP); auto.
  { cbn. rewrite map_map. apply map_id. }
  { destruct FREE as (x & Ix & NF).
    assert (incl (x :: fix_keys fixes) (reg_keys regs)) as IC.
    { intros y [<-|Hy]; auto. unfold fix_keys in Hy. apply nodup_In in Hy.
      rewrite Forall_forall in K. now apply K. }
    apply NoDup_incl_length in IC; [cbn in IC; lia|].
    constructor; [|apply NoDup_nodup]. unfold fix_keys. now rewrite nodup_In. }
  destruct I as [R Hnn Hne ND NC NU RG CN IJ SJ].
  assert (RNG : forall k n t, In (k, n, t) (reg_keys regs) -> 1 <= n <= entities nn ne k).
  { intros k n t Hx. apply reg_keys_in in Hx. destruct Hx as (ts & J & _). cbn [fst] in J.
    rewrite Forall_forall in G. apply G in J. apply J. }
  assert (KQ : forall k n t, In (k, n, t) (reg_keys regs) -> exists d,
     klook E N (k, n, t) = Some d /\ key_eq s (k, n, t) = Ok (d_eq d)).
  { intros k n t Hx. pose proof (RNG _ _ _ Hx) as Hr. apply reg_keys_in in Hx. apply (RG k n t Hr) in Hx.
    destruct (klook E N (k, n, t)) as [d|] eqn:Q; [|congruence]. exists d. split; auto.
    cbn [key_eq]. apply (dof_eq_look s E N); auto. destruct k; cbn in Hr; congruence || lia. }
  exists s. split; [exact X|]. rewrite ND, NC, NU.
  repeat (split; [solve [auto]|]). split; [|split; [|split]].
  - intros [[k n] t] Hx. destruct (KQ _ _ _ Hx) as (d & L & Q). exists (d_eq d). split; auto.
    destruct (CN k n t d) as (_ & A & B); eauto.
  - intros [[k n] t] [[k' n'] t'] e Hx Hy Q Q'.
    destruct (KQ _ _ _ Hx) as (d & L & Qd). destruct (KQ _ _ _ Hy) as (d' & L' & Qd').
    apply (IJ k n t d k' n' t' d'); eauto. congruence.
  - intros e He. destruct (SJ e He) as (k & n & t & d & Hr & L & <-). exists (k, n, t).
    assert (Hx : In (k, n, t) (reg_keys regs)) by (apply reg_keys_in, RG; [auto|congruence]).
    split; auto. destruct (KQ _ _ _ Hx) as (d' & L' & Qd'). congruence.
  - rewrite MP, <- app_length. apply map_snd_combine. now rewrite seq_length.
Qed.

(* C17 *)
Theorem fix_count nn ne m regs newm fixes :
  Forall (good_reg nn ne) regs -> reg_keys regs <> [] ->
  Forall (fun x => In x (reg_keys regs)) fixes ->
  exists s1 s2, initDofs (fresh_storage nn ne m) regs newm = Ok s1 /\ run_fixes s1 fixes = Ok s2 /\
    ns_ncon s2 = length (fix_keys fixes).
Proof.
  intros G NE K.
  destruct (initDofs_ok nn ne regs newm (fresh_storage nn ne m)) as (s1 & E1 & N1 & X1 & I1); auto.
  destruct (run_fixes_ok nn ne regs _ fixes [] s1 E1 N1 I1 G) as (s2 & E2 & N2 & X2 & I2).
  { rewrite Forall_forall in *. intros x Hx. apply reg_keys_in. auto. }
  exists s1, s2. split; auto. split; auto. rewrite (ni_ncon _ _ _ _ _ _ _ _ I2). apply fix_keys_rev.
Qed.

(* ---- C18: running the sequence again ---- *)
(* states that differ only in fields overwritten by initDofs/assign *)
Definition sim (a b : numst) : Prop :=
  ns_nodes a = ns_nodes b /\ ns_els a = ns_els b /\ ns_node a = ns_node b /\ ns_el a = ns_el b /\
  ns_ncon a = ns_ncon b /\ map fst (ns_mpc a) = map fst (ns_mpc b).

Definition osim (R : numst -> numst -> Prop) (x y : outcome numst) : Prop :=
  match x, y with
  | Ok a, Ok b => R a b
  | Fatal, Fatal => True
  | UB, UB => True
  | Loop, Loop => True
  | _, _ => False
  end.

Lemma osim_bind (R S : numst -> numst -> Prop) x y f g :
  osim R x y -> (forall a b, R a b -> osim S (f a) (g b)) -> osim S (obind x f) (obind y g).
Proof. destruct x, y; cbn; auto; tauto. Qed.

Lemma osim_fold {X} (R : numst -> numst -> Prop) (f : numst -> X -> outcome numst) l a b :
  R a b -> (forall a b x, R a b -> osim R (f a x) (f b x)) -> osim R (ofold f l a) (ofold f l b).
Proof.
  intros H F. revert a b H; induction l as [|x l IH]; intros a b H; cbn [ofold]; auto.
  eapply osim_bind; [apply F; eauto|]. intros; auto.
Qed.

Lemma sim_table a b k : sim a b -> table a k = table b k.
Proof. intros (H1 & H2 & H3 & H4 & _). destruct k; cbn; auto. Qed.

Lemma sim_with a b k c : sim a b -> sim (with_table a k c) (with_table b k c).
Proof. intros (H1 & H2 & H3 & H4 & H5 & H6). destruct k; repeat split; cbn; auto. Qed.

Definition sim2 (a b : numst) : Prop := sim a b /\ ns_ndofs a = ns_ndofs b.

Lemma with_ndofs s k c : ns_ndofs (with_table s k c) = ns_ndofs s.
Proof. destruct k; reflexivity. Qed.

Lemma init_sim a b regs newm :
  sim (mkNumst (ns_nodes a) (ns_els a) cleared cleared 0 (ns_ncon a) 0 (ns_mpc a))
      (mkNumst (ns_nodes b) (ns_els b) cleared cleared 0 (ns_ncon b) 0 (ns_mpc b)) ->
  osim sim2 (initDofs a regs newm) (initDofs b regs newm).
Proof.
  intros (H1 & H2 & _ & _ & H5 & H6). cbn in *. unfold initDofs. rewrite H1, H2.
  destruct (_ && _); [exact I|].
  eapply osim_bind.
  - apply osim_fold with (R := sim).
    + repeat split; cbn; auto.
    + intros x y [[k n] ts] S. unfold register. rewrite (sim_table x y k S).
      destruct (addDof (table y k) n ts); cbn; auto. now apply sim_with.
  - intros x y (S1 & S2 & S3 & S4 & S5 & S6). rewrite S3, S4. unfold checking.
    destruct (negb _); cbn; auto.
    unfold sim2, sim; cbn. rewrite !map_app, S6. repeat split; auto.
Qed.

Lemma number_mpcs_sim m m' next : map fst m = map fst m' -> number_mpcs m next = number_mpcs m' next.
Proof.
  revert m' next; induction m as [|[k e] m IH]; intros [|[k' e'] m'] next H; cbn in *; try discriminate; auto.
  inversion H; subst. now rewrite (IH m' (next + 1)).
Qed.

Lemma seq_sim a b regs newm fixes :
  ns_nodes a = ns_nodes b -> ns_els a = ns_els b -> ns_ncon a = ns_ncon b ->
  map fst (ns_mpc a) = map fst (ns_mpc b) ->
  osim eq (init_sequence a regs newm fixes) (init_sequence b regs newm fixes).
Proof.
  intros H1 H2 H3 H4. unfold init_sequence. eapply osim_bind.
  { apply init_sim. repeat split; cbn; auto. }
  intros x y S. eapply osim_bind.
  { apply osim_fold with (R := sim2); [exact S|].
    clear. intros x y [[k n] t] [S ND]. unfold setConstrained. rewrite (sim_table x y k S).
    destruct (getDof (table y k) n t) as [[i|]| | |]; cbn; auto.
    destruct (aget (dc_dofs (table y k)) i) as [d| | |]; cbn; auto.
    destruct (d_con d); [split; auto|].
    destruct (put_dof (table y k) i _) as [c| | |]; cbn; auto.
    destruct (sim_with x y k c S) as (S1 & S2 & S3 & S4 & S5 & S6).
    split.
    - repeat split; cbn; auto.
    - cbn. rewrite !with_ndofs. auto. }
  clear. intros x y [(S1 & S2 & S3 & S4 & S5 & S6) ND].
  unfold assignEquationNumbers. rewrite S1, S2, S3, S4, S5, ND. unfold checking.
  assert (LM : length (ns_mpc x) = length (ns_mpc y)).
  { rewrite <- (map_length fst (ns_mpc x)), S6, map_length. reflexivity. }
  destruct (negb _); [|exact I].
  destruct (ofold assign_step (dof_loop (ns_els y)) _) as [r1| | |]; cbn [obind osim]; auto.
  destruct (ofold assign_step (dof_loop (ns_nodes y)) _) as [r2| | |]; cbn [obind osim]; auto.
  rewrite LM. rewrite (number_mpcs_sim _ _ _ S6). unfold asserting.
  destruct (_ =? _); [|exact I]. destruct (_ =? _); [|exact I].
  destruct (number_mpcs (ns_mpc y) _) as [mm| | |]; cbn [obind osim]; auto.
  destruct (_ =? _); [|exact I]. reflexivity.
Qed.

Lemma init_keeps s regs newm fixes s' :
  init_sequence s regs newm fixes = Ok s' ->
  ns_nodes s' = ns_nodes s /\ ns_els s' = ns_els s /\
  map fst (ns_mpc s') = map fst (ns_mpc s) ++ newm.
Proof.
  unfold init_sequence. intros H. apply obind_ok in H as (s1 & H1 & H).
  apply obind_ok in H as (s2 & H2 & H).
  assert (K1 : ns_nodes s1 = ns_nodes s /\ ns_els s1 = ns_els s /\ map fst (ns_mpc s1) = map fst (ns_mpc s) ++ newm).
  { unfold initDofs in H1. destruct (_ && _); [discriminate|]. apply obind_ok in H1 as (t & T & H1).
    unfold checking in H1. destruct (negb _); [|discriminate]. inversion H1; subst; clear H1. cbn.
    apply (ofold_inv_ok _ (fun u => ns_nodes u = ns_nodes s /\ ns_els u = ns_els s /\ ns_mpc u = ns_mpc s) _ _ _) in T.
    - destruct T as (A & B & C). rewrite A, B, C, map_app, map_map. cbn. now rewrite map_id.
    - cbn; auto.
    - intros u [[k n] ts] u' _ (A & B & C) E. unfold register in E. apply obind_ok in E as (c & _ & E).
      inversion E; subst. destruct (with_table_fields u k c) as (W1 & W2 & _ & _ & W5). rewrite W1, W2, W5. auto. }
  assert (K2 : ns_nodes s2 = ns_nodes s1 /\ ns_els s2 = ns_els s1 /\ ns_mpc s2 = ns_mpc s1).
  { apply (ofold_inv_ok _ (fun u => ns_nodes u = ns_nodes s1 /\ ns_els u = ns_els s1 /\ ns_mpc u = ns_mpc s1) _ _ _ H2); auto.
    intros u [[k n] t] u' _ (A & B & C) E. unfold setConstrained in E. apply obind_ok in E as (o & _ & E).
    destruct o as [i|]; [|discriminate]. apply obind_ok in E as (d & _ & E).
    destruct (d_con d); [inversion E; subst; auto|]. apply obind_ok in E as (c & _ & E).
    inversion E; subst. destruct (with_table_fields u k c) as (W1 & W2 & _ & _ & W5).
    cbn. rewrite W1, W2, W5. auto. }
  unfold assignEquationNumbers, checking, asserting in H.
  destruct (negb _); [|discriminate].
  apply obind_ok in H as (r1 & _ & H). apply obind_ok in H as (r2 & _ & H).
  destruct (_ =? _); [|discriminate]. destruct (_ =? _); [|discriminate].
  apply obind_ok in H as (mm & HM & H). destruct (_ =? _); [|discriminate].
  inversion H; subst; clear H. cbn.
  destruct K1 as (A & B & C), K2 as (A' & B' & C'). rewrite A', B'. split; auto. split; auto.
  rewrite <- C, <- C'. clear -HM.
  revert HM. generalize (snd (snd r2)). revert mm. generalize (ns_mpc s2). intros l.
  induction l as [|[k e] l IH]; intros mm nx H; cbn in H.
  - inversion H; reflexivity.
  - destruct (0 <? k); [|discriminate]. cbn in H. apply obind_ok in H as (x & X & H).
    inversion H; subst. cbn. f_equal. eauto.
Qed.

(* after deleteSolutionData, and when no MPC collection registers equations
   again, the sequence reproduces the same state *)
Theorem second_run nn ne m regs fixes s :
  init_sequence (fresh_storage nn ne m) regs [] fixes = Ok s ->
  init_sequence (deleteSolutionData s) regs [] fixes = Ok s.
Proof.
  intros H. destruct (init_keeps _ _ _ _ _ H) as (A & B & C).
  pose proof (seq_sim (deleteSolutionData s) (fresh_storage nn ne m) regs [] fixes) as S.
  rewrite H in S. cbn [deleteSolutionData ns_nodes ns_els ns_ncon ns_mpc] in S.
  specialize (S A B eq_refl). rewrite C, app_nil_r in S. specialize (S eq_refl).
  destruct (init_sequence (deleteSolutionData s) regs [] fixes); cbn in S; try tauto. now subst.
Qed.

(* without any fixed DoF no clean-up is needed *)
Theorem second_run_free nn ne m regs s :
  init_sequence (fresh_storage nn ne m) regs [] [] = Ok s ->
  init_sequence s regs [] [] = Ok s.
Proof.
  intros H. destruct (init_keeps _ _ _ _ _ H) as (A & B & C).
  assert (Z : ns_ncon s = 0).
  { unfold init_sequence in H. apply obind_ok in H as (s1 & H1 & H). cbn [ofold obind] in H.
    assert (ns_ncon s1 = 0).
    { unfold initDofs in H1. destruct (_ && _); [discriminate|]. apply obind_ok in H1 as (t & T & H1).
      unfold checking in H1. destruct (negb _); [|discriminate]. inversion H1; subst; clear H1. cbn.
      apply (ofold_inv_ok _ (fun u => ns_ncon u = 0) _ _ _ T); auto.
      intros u [[k n] ts] u' _ A' E. unfold register in E. apply obind_ok in E as (c & _ & E).
      inversion E; subst. destruct (with_table_fields u k c) as (_ & _ & _ & W & _). congruence. }
    unfold assignEquationNumbers, checking, asserting in H.
    destruct (negb _); [|discriminate].
    apply obind_ok in H as (r1 & _ & H). apply obind_ok in H as (r2 & _ & H).
    destruct (_ =? _); [|discriminate]. destruct (_ =? _); [|discriminate].
    apply obind_ok in H as (mm & HM & H). destruct (_ =? _); [|discriminate].
    inversion H; subst. auto. }
  pose proof (seq_sim s (fresh_storage nn ne m) regs [] [] A B) as S.
  rewrite H, C, app_nil_r in S. cbn [fresh_storage ns_ncon] in S. specialize (S Z eq_refl).
  destruct (init_sequence s regs [] []); cbn in S; try tauto. now subst.
Qed.
