(* The VTK files of a whole solution. *)
From Coq Require Import String NArith DecimalString DecimalN.
From Verif Require Import Base BaseProofs SparseModel SparseProofs DofModel SpecDof DofProofs NumberingProofs AsmModel SpecAsm SolveModel SpecSolve ReactModel SpecReact ReactProofs VtkModel SpecVtk VtkProofs VtkWrite.
Local Open Scope nat_scope.
Local Open Scope list_scope.

(* ---- sublists ---- *)
Inductive sub {A} : list A -> list A -> Prop :=
| sub_nil : sub [] []
| sub_skip x l m : sub l m -> sub l (x :: m)
| sub_keep x l m : sub l m -> sub (x :: l) (x :: m).
Lemma sub_refl {A} (l : list A) : sub l l.
Proof. induction l; [constructor|apply sub_keep; auto]. Qed.
Lemma sub_none {A} (l : list A) : sub [] l.
Proof. induction l; [constructor|apply sub_skip; auto]. Qed.
Lemma sub_app {A} (a b c d : list A) : sub a b -> sub c d -> sub (a ++ c) (b ++ d).
Proof. induction 1; cbn; auto; intros; [apply sub_skip|apply sub_keep]; auto. Qed.
Lemma sub_in {A} (l m : list A) x : sub l m -> In x l -> In x m.
Proof. induction 1; cbn; intuition. Qed.
Lemma sub_nodup {A} (l m : list A) : sub l m -> NoDup m -> NoDup l.
Proof. induction 1 as [|x l m H IH|x l m H IH]; intros N; auto; inversion N; subst; auto. constructor; auto. intros I. apply H2. eapply sub_in; eauto. Qed.
Lemma sub_flat {A B} (f : A -> list B) p l : sub (flat_map f (filter p l)) (flat_map f l).
Proof.
  induction l as [|a l IH]; cbn [filter flat_map]; [constructor|]. destruct (p a); cbn [flat_map].
  - apply sub_app; auto. apply sub_refl.
  - apply (sub_app [] (f a)); auto. apply sub_none.
Qed.
Lemma sub_map {A B} (f : A -> B) p l : sub (map f (filter p l)) (map f l).
Proof. induction l as [|a l IH]; cbn [filter map]; [constructor|]. destruct (p a); cbn [map]; [apply sub_keep|apply sub_skip]; auto. Qed.
Lemma sub_trans {A} (b c : list A) : sub b c -> forall a, sub a b -> sub a c.
Proof.
  induction 1 as [|x b c H IH|x b c H IH]; intros a S; auto.
  - apply sub_skip; auto.
  - inversion S; subst; [apply sub_skip|apply sub_keep]; auto.
Qed.

(* ---- names of the files ---- *)
Lemma sapp_cancel_l a b c : (a ++ b)%string = (a ++ c)%string -> b = c.
Proof. induction a as [|x a IH]; cbn; intros H; auto. injection H as H. auto. Qed.
Lemma sapp_cancel_r c : forall a b, (a ++ c)%string = (b ++ c)%string -> a = b.
Proof.
  assert (L : forall a, String.length (a ++ c) = String.length a + String.length c) by (induction a; cbn; auto).
  induction a as [|x a IH]; intros b H; destruct b as [|y b]; auto; cbn in H.
  - exfalso. apply (f_equal String.length) in H. cbn in H. rewrite L in H. lia.
  - exfalso. apply (f_equal String.length) in H. cbn in H. rewrite L in H. lia.
  - injection H as <- H. f_equal. auto.
Qed.
Lemma decimal_inj a b : decimal a = decimal b -> a = b.
Proof.
  unfold decimal. intros H. apply (f_equal NilZero.uint_of_string) in H.
  assert (Q : forall n, N.to_uint n <> Decimal.Nil) by (intros [|p]; [discriminate|apply DecimalPos.Unsigned.to_uint_nonnil]).
  rewrite !NilZero.usu in H by auto. injection H as H. now apply DecimalN.Unsigned.to_uint_inj.
Qed.
Lemma file_of_inj base a b : file_of base a = file_of base b -> a = b.
Proof. unfold file_of. intros H. apply sapp_cancel_l, sapp_cancel_r in H. now apply decimal_inj. Qed.

Section Final.
  Variable K : Num.
  Variable pr : K -> K.
  Notation toks := (list (vtok K)).

  (* ---- choice of the queries ---- *)
  Fixpoint reveal_q (ans : vel K -> nat -> bool) (last : nat) (els : list (vel K)) (seen l : list nat) : list nat :=
    match els with
    | [] => l
    | e :: r => if existsb (Nat.eqb (ve_type K e)) seen then reveal_q ans last r seen l
                else reveal_q ans last r (ve_type K e :: seen) (insert_all (filter (ans e) (seq 1 (last - 1))) l)
    end.
  Lemma reveal_split els : forall seen p,
    reveal K els seen p = mkVproc (vp_all p) (vp_disp p) (vp_nd p) (vp_ed p)
      (reveal_q (fun e q => snd (ve_scalar K e q r0)) s_last els seen (vp_sq p))
      (reveal_q (fun e q => snd (ve_vector K e q (zero3 K))) v_last els seen (vp_vq p))
      (reveal_q (fun e q => snd (ve_tensor K e q (zero6 K))) t_last els seen (vp_tq p)).
  Proof.
    induction els as [|e els IH]; intros seen p; cbn [reveal reveal_q]; [now destruct p|].
    destruct (existsb _ seen); rewrite IH; reflexivity.
  Qed.
  Lemma reveal_q_incr ans last els : forall seen l, incr l -> incr (reveal_q ans last els seen l).
  Proof. induction els as [|e els IH]; intros seen l I; cbn [reveal_q]; auto. destruct (existsb _ seen); apply IH; auto. now apply insert_incr. Qed.
  Lemma reveal_q_in ans last els : (forall e e', In e els -> In e' els -> ve_type K e = ve_type K e' -> forall q, ans e q = ans e' q) ->
    forall seen l q, In q (reveal_q ans last els seen l) <->
      In q l \/ (In q (seq 1 (last - 1)) /\ exists e, In e els /\ ~ In (ve_type K e) seen /\ ans e q = true).
  Proof.
    induction els as [|e els IH]; intros U seen l q; cbn [reveal_q].
    - split; auto. intros [|(_ & e & [] & _)]; auto.
    - assert (U' : forall e e', In e els -> In e' els -> ve_type K e = ve_type K e' -> forall q, ans e q = ans e' q) by (intros; apply U; auto; now right).
      destruct (existsb _ seen) eqn:X.
      + apply existsb_exists in X. destruct X as (t & Ht & E). apply Nat.eqb_eq in E. subst t. rewrite IH by auto.
        split; intros [|(A & e' & B & C & D)]; auto; right; split; auto; exists e'; split; auto; [now right|]. destruct B as [<-|B]; auto. tauto.
      + assert (NS : ~ In (ve_type K e) seen).
        { intros H. rewrite <- not_true_iff_false in X. apply X. apply existsb_exists. exists (ve_type K e). split; auto. apply Nat.eqb_refl. }
        rewrite IH by auto. rewrite insert_in, filter_In. split.
        * intros [[[A B]|A]|(A & e' & B & C & D)]; auto; right; split; auto.
          -- exists e. split; [now left|auto].
          -- exists e'. split; [now right|]. split; auto. intros H. apply C. now right.
        * intros [A|(A & e' & B & C & D)]; auto. destruct (Nat.eq_dec (ve_type K e) (ve_type K e')) as [E|E].
          -- left. left. split; auto. rewrite (U e e'); auto. now left.
          -- destruct B as [->|B]; [congruence|]. right. split; auto. exists e'. split; auto. split; auto. intros [H|H]; auto.
  Qed.
  Lemma wanted_eq all user last ans els l : Forall (fun q => 0 < q < last) user -> incr l ->
    (forall q, In q l <-> In q user \/ (all = true /\ In q (seq 1 (last - 1)) /\ exists e, In e els /\ ans e q = true)) ->
    l = wanted all user last (fun q => existsb (fun e : vel K => ans e q) els).
  Proof.
    intros F I H. apply incr_ext; auto. { apply filter_incr, seq_incr. }
    intros q. rewrite H. unfold wanted. rewrite filter_In, orb_true_iff, existsb_exists, andb_true_iff, existsb_exists. split.
    - intros [A|(A & B & e & C & D)]; split; auto.
      + rewrite Forall_forall in F. apply F in A. apply in_seq. lia.
      + left. exists q. split; auto. apply Nat.eqb_refl.
      + right. split; auto. exists e. auto.
    - intros (A & [(u & B & C)|(B & e & C & D)]).
      + apply Nat.eqb_eq in C. subst. auto.
      + right. split; auto. split; auto. exists e. auto.
  Qed.
  Lemma configured w : wish_ok w -> exists p, configure w = Ok p /\ vp_all p = w_all w /\
    vp_sq p = insert_all (w_s w) [] /\ vp_vq p = insert_all (w_v w) [] /\ vp_tq p = insert_all (w_t w) [].
  Proof.
    intros (A & B & C). unfold configure, register_scalars, register_vectors, register_tensors, asserting.
    assert (Q : forall last l, Forall (fun q => 0 < q < last) l -> forallb (valid_query last) l = true).
    { intros last l H. apply forallb_forall. rewrite Forall_forall in H. intros q Hq. apply H in Hq. unfold valid_query.
      apply andb_true_intro. split; apply Nat.ltb_lt; lia. }
    rewrite (Q _ _ A). cbn [obind]. rewrite (Q _ _ B). cbn [obind]. rewrite (Q _ _ C). eexists. split; [reflexivity|]. cbn. auto.
  Qed.
  Lemma wanted_lt all user last ans q : In q (wanted all user last ans) -> q < last.
  Proof. intros H. apply filter_In in H. destruct H as [H _]. apply in_seq in H. lia. Qed.

  Context {m : list nat} {regs : list reg} {newm : list nat} {fixes : list key}.
  Local Notation fine := (store_ok K m regs newm fixes).
  Lemma prepared w s0 : ready (nn K s0) (ne K s0) m regs newm fixes (vs_num K s0) -> uniform K s0 -> wish_ok w ->
    exists p, configure w = Ok p /\ @vp_dofs regs (prepare K s0 p) /\
      vp_sq (prepare K s0 p) = want_s K w s0 /\ vp_vq (prepare K s0 p) = want_v K w s0 /\ vp_tq (prepare K s0 p) = want_t K w s0.
  Proof.
    intros R0 U W. destruct (configured w W) as (p & C & PA & PS & PV & PT). exists p. split; [exact C|]. destruct W as (W1 & W2 & W3).
    assert (TN : dc_unique (ns_node (vs_num K s0)) = types_of regs KNode /\ dc_unique (ns_el (vs_num K s0)) = types_of regs KEl).
    { assert (Q : forall k, dc_unique (table (vs_num K s0) k) = types_of regs k).
      { intros k. destruct (unique_k R0 k) as [I M]. apply incr_ext; auto. { apply filter_incr, seq_incr. }
        intros t. rewrite M. unfold types_of. rewrite filter_In, uses_spec. split; [|tauto]. intros H. split; auto.
        destruct H as (n & H). apply (types_range R0) in H. apply in_seq. lia. }
      exact (conj (Q KNode) (Q KEl)). }
    destruct TN as [TN TE].
    assert (X : forall f l, insert_all (filter f (filter l (seq 0 n_dof_types))) [] = filter f (filter l (seq 0 n_dof_types))).
    { intros f l. apply incr_ext. { apply insert_incr. constructor. } { apply filter_incr, filter_incr, seq_incr. } intros x. rewrite insert_in. cbn. tauto. }
    assert (X' : forall l, insert_all (filter l (seq 0 n_dof_types)) [] = filter l (seq 0 n_dof_types)).
    { intros l. apply incr_ext. { apply insert_incr. constructor. } { apply filter_incr, seq_incr. } intros x. rewrite insert_in. cbn. tauto. }
    set (p' := mkVproc (vp_all p) (existsb is_disp (dc_unique (ns_node (vs_num K s0)))) (insert_all (filter (fun t => negb (is_disp t)) (dc_unique (ns_node (vs_num K s0)))) [])
                (insert_all (dc_unique (ns_el (vs_num K s0))) []) (vp_sq p) (vp_vq p) (vp_tq p)).
    assert (E : prepare K s0 p = if vp_all p then reveal K (vs_elems K s0) [] p' else p') by reflexivity.
    assert (VD : @vp_dofs regs p').
    { unfold vp_dofs, p'. cbn [vp_disp vp_nd vp_ed]. rewrite TN, TE.
      assert (DD : forall t, is_disp t = displacement t) by (intros [|[|[|t]]]; reflexivity).
      rewrite (filter_ext _ (fun t => negb (displacement t))) by (intros; now rewrite DD).
      assert (EX : forall l, existsb is_disp l = existsb displacement l) by (induction l as [|t l IH]; cbn [existsb]; [reflexivity|rewrite DD, IH; reflexivity]).
      rewrite EX.
      unfold types_of. now rewrite X, X'. }
    assert (Q : forall (ans : vel K -> nat -> bool) last user, Forall (fun q => 0 < q < last) user ->
       (forall e e', In e (vs_elems K s0) -> In e' (vs_elems K s0) -> ve_type K e = ve_type K e' -> forall q, ans e q = ans e' q) ->
       (if w_all w then reveal_q ans last (vs_elems K s0) [] (insert_all user []) else insert_all user []) =
       wanted (w_all w) user last (fun q => existsb (fun e => ans e q) (vs_elems K s0))).
    { intros ans last user F UU. apply wanted_eq; auto.
      - destruct (w_all w); [apply reveal_q_incr|]; apply insert_incr; constructor.
      - intros q. destruct (w_all w).
        + rewrite reveal_q_in by exact UU. rewrite insert_in. split.
          * intros [[A|[]]|(A & e & B & _ & D)]; auto. right. split; auto. split; auto. exists e. auto.
          * intros [A|(_ & A & e & B & D)]; auto. right. split; auto. exists e. auto.
        + rewrite insert_in. split; [intros [A|[]]; auto|intros [A|(A & _)]; [auto|discriminate]]. }
    rewrite PA in E. rewrite reveal_split in E. rewrite E. unfold want_s, want_v, want_t.
    rewrite <- (Q (fun e q => snd (ve_scalar K e q r0)) s_last (w_s w) W1) by (intros e e' A B D q; apply (U e e' A B D)).
    rewrite <- (Q (fun e q => snd (ve_vector K e q (zero3 K))) v_last (w_v w) W2) by (intros e e' A B D q; apply (U e e' A B D)).
    rewrite <- (Q (fun e q => snd (ve_tensor K e q (zero6 K))) t_last (w_t w) W3) by (intros e e' A B D q; apply (U e e' A B D)).
    destruct (w_all w); cbn [vp_sq vp_vq vp_tq p']; rewrite ?PS, ?PV, ?PT; auto.
  Qed.

  (* one file *)
  Lemma one_file w p s0 s : @vp_dofs regs p -> vp_sq p = want_s K w s0 -> vp_vq p = want_v K w s0 -> vp_tq p = want_t K w s0 -> fine s ->
    exists t, write_file K pr s p = Ok t /\ read_vtk K t = Some (want_file K pr regs w s0 s).
  Proof.
    intros VD Q1 Q2 Q3 [R E [S1 S2] HU HR]. eexists. split.
    - apply (write_ok K pr s R HU HR); auto.
      + eapply Forall_impl; [|exact E]. intros e. apply el_ok_weak.
      + rewrite Q1. apply Forall_forall. intros q. apply wanted_lt.
      + rewrite Q2. apply Forall_forall. intros q. apply wanted_lt.
      + rewrite Q3. apply Forall_forall. intros q. apply wanted_lt.
    - rewrite (codes_ok K (nn K s)) by exact E. fold (want_types K s). unfold want_file. rewrite <- Q1, <- Q2, <- Q3.
      apply (read_ok K (mkVfile K _ _ _ _ _)).
      + now apply sound_ok.
      + cbn [f_cdata]. now apply no_cd_ok.
  Qed.
  Lemma get_put d n c x : get_file K (put_file K d n c) x = if (n =? x)%string then Some c else get_file K d x.
  Proof.
    unfold get_file, put_file. cbn [find fst]. destruct (n =? x)%string eqn:E; [reflexivity|].
    f_equal. induction d as [|[y f] d IH]; cbn [filter find fst]; [reflexivity|].
    destruct (y =? n)%string eqn:Y; cbn [negb find fst].
    - apply String.eqb_eq in Y. subst y. now rewrite E.
    - destruct (y =? x)%string; auto.
  Qed.
  Lemma run_ok base w p s0 : @vp_dofs regs p -> vp_sq p = want_s K w s0 -> vp_vq p = want_v K w s0 -> vp_tq p = want_t K w s0 ->
    forall steps d, Forall (fun x => fine (snd x)) steps -> Forall (fun x => (fst x < 65536)%N) steps -> NoDup (map fst steps) ->
    exists d', ofold (fun d x => vtk_process K pr base (snd x) p (fst x) d) steps d = Ok d' /\
      (forall k s, In (k, s) steps -> exists t, get_file K d' (file_of base k) = Some t /\ read_vtk K t = Some (want_file K pr regs w s0 s)) /\
      (forall n, (forall k, In k (map fst steps) -> n <> file_of base k) -> get_file K d' n = get_file K d n).
  Proof.
    intros VD Q1 Q2 Q3. induction steps as [|[k s] steps IH]; intros d F S ND; cbn [ofold].
    - exists d. split; [reflexivity|]. split; [easy|auto].
    - inversion F as [|? ? F1 F2]; subst. inversion S as [|? ? L1 L2]; subst. cbn [map] in ND. inversion ND as [|? ? N1 N2]; subst.
      cbn [fst snd] in *. destruct (one_file w p s0 s VD Q1 Q2 Q3 F1) as (t & T1 & T2).
      unfold vtk_process at 1. rewrite T1. cbn [obind]. rewrite N.mod_small by auto.
      destruct (IH (put_file K d (file_of base k) t) F2 L2 N2) as (d' & D & P & O). exists d'. split; [exact D|]. split.
      + intros k' s' [E|H]; [|now apply P]. injection E as <- <-. exists t. split; auto. rewrite O, get_put, String.eqb_refl; auto.
        intros k2 H2 E2. apply file_of_inj in E2. now subst.
      + intros n Hn. rewrite O, get_put by (intros k2 H2; apply Hn; now right).
        destruct (_ =? _)%string eqn:E; auto. apply String.eqb_eq in E. exfalso. apply (Hn k); auto. now left.
  Qed.
  Theorem files base w s0 steps d : fine s0 -> uniform K s0 -> wish_ok w ->
    Forall (fun x => fine (snd x)) steps -> Forall (fun x => (0 < fst x < 65536)%N) steps -> NoDup (map fst steps) ->
    exists p d' p', configure w = Ok p /\ vtk_run K pr base s0 p steps d = Ok (p', d') /\
      (exists t, get_file K d' (file_of base 0) = Some t /\ read_vtk K t = Some (want_file K pr regs w s0 s0)) /\
      (forall k s, In (k, s) steps -> exists t, get_file K d' (file_of base k) = Some t /\ read_vtk K t = Some (want_file K pr regs w s0 s)) /\
      (forall n, (forall k, k = 0%N \/ In k (map fst steps) -> n <> file_of base k) -> get_file K d' n = get_file K d n).
  Proof.
    intros F0 U W F S ND. destruct (prepared w s0 (so_ready _ _ _ _ _ _ F0) U W) as (p & C & VD & Q1 & Q2 & Q3).
    destruct (one_file w _ s0 s0 VD Q1 Q2 Q3 F0) as (t0 & T1 & T2).
    assert (L : Forall (fun x => (fst x < 65536)%N) steps) by (eapply Forall_impl; [|exact S]; cbn; lia).
    destruct (run_ok base w _ s0 VD Q1 Q2 Q3 steps (put_file K d (file_of base 0) t0) F L ND) as (d' & D & P & O).
    exists p, d', (prepare K s0 p). split; [exact C|]. split.
    { unfold vtk_run, vtk_pre. rewrite T1. cbn [obind fst snd]. rewrite D. reflexivity. }
    split; [|split; [exact P|]].
    - exists t0. split; auto. rewrite O, get_put, String.eqb_refl; auto. intros k Hk E. apply file_of_inj in E. subst k.
      apply in_map_iff in Hk. destruct Hk as (x & E & Hx). rewrite Forall_forall in S. apply S in Hx. lia.
    - intros n Hn. rewrite O, get_put by (intros k Hk; apply Hn; auto). destruct (_ =? _)%string eqn:E; auto. apply String.eqb_eq in E.
      exfalso. now apply (Hn 0%N (or_introl eq_refl)).
  Qed.

  (* ---- names of the arrays ---- *)
  Lemma names_ok w s0 s : NoDup (map (arr_name K) (f_pdata K (want_file K pr regs w s0 s))) /\ NoDup (map (arr_name K) (f_cdata K (want_file K pr regs w s0 s))).
  Proof.
    unfold want_file. cbn [f_pdata f_cdata]. split.
    - apply (sub_nodup _ (["disp"; "reaction"]%string ++ map (fun t => nth t dof_labels ""%string) (seq 0 n_dof_types))).
      + unfold want_pdata. rewrite map_app, map_map. cbn [arr_name]. apply sub_app.
        * destruct (existsb _ _); [apply (sub_refl [_; _])|apply sub_none].
        * eapply sub_trans; [|apply sub_map]. apply sub_map.
      + vm_compute. repeat constructor; cbn; intuition discriminate.
    - apply (sub_nodup _ (map (fun t => nth t dof_labels ""%string) (seq 0 n_dof_types) ++ map (fun q => nth q s_labels ""%string) (seq 1 (s_last - 1)) ++
        map (fun q => nth q v_labels ""%string) (seq 1 (v_last - 1)) ++
        flat_map (fun q => map (fun j => (nth q t_labels "" ++ "_" ++ nth j comp_labels "")%string) (seq 0 6)) (seq 1 (t_last - 1)))).
      + unfold want_cdata. rewrite !map_app, !map_map. cbn [arr_name]. repeat apply sub_app; try apply sub_map.
        replace (map (arr_name K) (flat_map _ _)) with (flat_map (fun q => map (fun j => (nth q t_labels "" ++ "_" ++ nth j comp_labels "")%string) (seq 0 6)) (want_t K w s0)).
        * apply sub_flat.
        * induction (want_t K w s0) as [|q l IH]; cbn [flat_map]; [reflexivity|]. rewrite map_app, <- IH, map_map. reflexivity.
      + vm_compute. repeat constructor; cbn; intuition discriminate.
  Qed.

  (* ---- wrong files ---- *)
  (* an element of another shape of the library's table: the file is written, a reader rejects it *)
  Lemma unknown_shape w s0 s e : ready (nn K s0) (ne K s0) m regs newm fixes (vs_num K s0) -> uniform K s0 -> wish_ok w ->
    ready (nn K s) (ne K s) m regs newm fixes (vs_num K s) -> Forall (el_weak K (nn K s)) (vs_elems K s) ->
    (N.of_nat (nn K s) < word32)%N -> (total_size K (vs_elems K s) < word32)%N ->
    ns_ndofs (vs_num K s) <= List.length (vs_U K s) -> ns_ndofs (vs_num K s) <= List.length (vs_R K s) ->
    In e (vs_elems K s) -> 8 <= ve_shape K e ->
    exists p t, configure w = Ok p /\ write_file K pr s (prepare K s0 p) = Ok t /\ read_vtk K t = None.
  Proof.
    intros R0 U W R EW S1 S2 HU HR HE SH. destruct (prepared w s0 R0 U W) as (p & C & VD & Q1 & Q2 & Q3). exists p. eexists. split; [exact C|]. split.
    - apply (write_ok K pr s R HU HR); auto.
      + rewrite Q1. apply Forall_forall. intros q. apply wanted_lt.
      + rewrite Q2. apply Forall_forall. intros q. apply wanted_lt.
      + rewrite Q3. apply Forall_forall. intros q. apply wanted_lt.
    - apply read_short. cbn [f_types f_cells]. unfold want_cells. rewrite map_length.
      assert (LE : forall l, List.length (codes K l) <= List.length l).
      { induction l as [|x l IH]; cbn [codes flat_map List.length]; [lia|]. fold (codes K l). rewrite app_length. destruct (cell_code _); cbn; lia. }
      revert HE. generalize (vs_elems K s). induction l as [|x l IH]; [easy|]. cbn [codes flat_map List.length In]. fold (codes K l). rewrite app_length.
      intros [->|H].
      + replace (cell_code (ve_shape K e)) with (@None N). { cbn. pose proof (LE l). lia. }
        clear -SH. destruct (ve_shape K e) as [|[|[|[|[|[|[|[|q]]]]]]]]; try lia. reflexivity.
      + apply IH in H. destruct (cell_code _); cbn; lia.
  Qed.
  (* step numbers equal modulo 65536: the later file replaces the earlier one *)
  Lemma step_wrap base s s' p k k' d d1 d2 : (k mod 65536 = k' mod 65536)%N ->
    vtk_process K pr base s p k d = Ok d1 -> vtk_process K pr base s' p k' d1 = Ok d2 ->
    exists t, write_file K pr s' p = Ok t /\ get_file K d2 (file_of base (k mod 65536)) = Some t.
  Proof.
    intros E H1 H2. unfold vtk_process in *. destruct (write_file K pr s' p) as [t| | |]; cbn in H2; try discriminate. injection H2 as <-.
    exists t. split; auto. rewrite get_put, E, String.eqb_refl. reflexivity.
  Qed.
  Lemma lost_step base w s0 s s' k d : store_ok K m regs newm fixes s0 -> uniform K s0 -> wish_ok w -> fine s -> fine s' -> (0 < k < 65536)%N ->
    exists p d' p', configure w = Ok p /\ vtk_run K pr base s0 p [(k, s); (k + 65536, s')%N] d = Ok (p', d') /\
      (exists t, get_file K d' (file_of base k) = Some t /\ read_vtk K t = Some (want_file K pr regs w s0 s')) /\
      get_file K d' (file_of base (k + 65536)) = get_file K d (file_of base (k + 65536)).
  Proof.
    intros F0 U W F F' Hk. destruct (prepared w s0 (so_ready _ _ _ _ _ _ F0) U W) as (p & C & VD & Q1 & Q2 & Q3).
    destruct (one_file w _ s0 s0 VD Q1 Q2 Q3 F0) as (t0 & T0 & _). destruct (one_file w _ s0 s VD Q1 Q2 Q3 F) as (t1 & T1 & _).
    destruct (one_file w _ s0 s' VD Q1 Q2 Q3 F') as (t2 & T2 & V2).
    exists p. eexists. eexists. split; [exact C|]. unfold vtk_run, vtk_pre. rewrite T0. cbn [obind fst snd ofold]. unfold vtk_process. rewrite T1. cbn [obind].
    rewrite T2. cbn [obind]. split; [reflexivity|]. replace ((k + 65536) mod 65536)%N with k. rewrite (N.mod_small k) by lia.
    2:{ replace (k + 65536)%N with (k + 1 * 65536)%N by lia. rewrite N.mod_add by lia. symmetry. apply N.mod_small. lia. }
    split.
    - exists t2. split; auto. now rewrite get_put, String.eqb_refl.
    - assert (Q : forall j, (j < 65536)%N -> (file_of base j =? file_of base (k + 65536))%string = false).
      { intros j Hj. apply String.eqb_neq. intros E. apply file_of_inj in E. lia. }
      rewrite !get_put, !Q by lia. reflexivity.
  Qed.
End Final.
