(* Effect of one dVec operation *)
From Coq Require Import NArith.
From Verif Require Import Base BaseProofs VecModel SpecVec VecProofs.
Local Open Scope nat_scope.

Section Ops.
  Variable K : Num.
  Notation heap := (list (option (list K))).
  Implicit Types (h : heap) (s : vst K) (o : vop K).

  Definition dead h (p : option (nat * nat)) : Prop := exists b i, p = Some (b, i) /\ nth_error h b = Some None.
  Definition inheap h (p : option (nat * nat)) : Prop := forall b i, p = Some (b, i) -> b < length h.

  Lemma dangling_dead s v : dangling s v <-> dead (vs_heap s) (dv_data (var s v)).
  Proof. reflexivity. Qed.
  Lemma read_same_block h h' b i n : nth_error h' b = nth_error h b -> read_mem h' (Some (b, i)) n = read_mem h (Some (b, i)) n.
  Proof. unfold read_mem. intros ->. reflexivity. Qed.
  Lemma read_none h h' n : read_mem h' None n = read_mem h None n.
  Proof. reflexivity. Qed.

  Lemma clear_read h d h' p n : cleared h d h' -> inheap h p -> ~ dead h' p -> read_mem h' p n = read_mem h p n.
  Proof.
    intros [L C] I D. destruct p as [[b i]|]; [|apply read_none]. apply read_same_block. rewrite C.
    destruct (dv_own d); auto. destruct (dv_data d) as [[c j]|] eqn:E; auto. destruct (Nat.eqb_spec c b) as [->|]; auto.
    exfalso. apply D. exists b, i. split; auto. rewrite C, Nat.eqb_refl. auto.
  Qed.
  Lemma new_read h l p n : inheap h p -> read_mem (fst (new_dv h l)) p n = read_mem h p n.
  Proof.
    intros I. destruct p as [[b i]|]; [|apply read_none]. apply read_same_block. cbn. apply nth_error_app1. eapply I; eauto.
  Qed.
  Lemma new_dead h l p : inheap h p -> dead h p -> dead (fst (new_dv h l)) p.
  Proof. intros I [b [i [E D]]]. exists b, i. split; auto. cbn. rewrite nth_error_app1; auto. eapply I; eauto. Qed.
  Lemma write_dead h p xs h' q : write_mem h p xs = Ok h' -> dead h q -> dead h' q.
  Proof.
    intros E [b [i [-> D]]]. exists b, i. split; auto. apply (shape_dead K h h' b); auto. apply (write_shape K h p xs h' E).
  Qed.
  Lemma wff_inheap h f x : wff h f -> inheap h (dv_data (f x)).
  Proof. intros W b i E. eapply f_in; eauto. Qed.

  Lemma var_upd h h' vars v d x : v < length vars -> var (mkVst (K := K) h' (upd vars v d)) x = fset (var (mkVst h vars)) v d x.
  Proof. intros L. unfold var, fset. cbn. now apply nth_upd. Qed.
  Lemma aget_var s v d : aget (vs_vars s) v = Ok d -> v < length (vs_vars s) /\ d = var s v.
  Proof.
    unfold aget, var. destruct (nth_error (vs_vars s) v) eqn:E; [|discriminate]. intros H. injection H as <-.
    split; [apply nth_error_Some; congruence|]. symmetry. now apply nth_error_nth.
  Qed.
  Lemma aget_ok s v : v < length (vs_vars s) -> aget (vs_vars s) v = Ok (var s v).
  Proof. intros H. now apply aget_nth. Qed.
  Lemma var_new h s d x : var (mkVst h (vs_vars s ++ [d])) x = fset (var s) (length (vs_vars s)) d x.
  Proof.
    unfold var, fset. cbn. destruct (Nat.eqb_spec (length (vs_vars s)) x) as [<-|N].
    - rewrite app_nth2, Nat.sub_diag; auto.
    - destruct (Nat.lt_ge_cases x (length (vs_vars s))); [now apply app_nth1|].
      rewrite !nth_overflow; auto. rewrite app_length. cbn. lia.
  Qed.
  Lemma var_none s x : length (vs_vars s) <= x -> var s x = dv_empty.
  Proof. apply nth_overflow. Qed.

  (* the common start of the assignments *)
  Definition retarget s v n : outcome (heap * dv) :=
    if dv_size (var s v) =? n then Ok (vs_heap s, var s v)
    else hc <- clear_dv (vs_heap s) (var s v) ;; Ok (new_dv (fst hc) (repeat r0 n)).
  Lemma retarget_spec s v n : wf s ->
    exists h1 d1, retarget s v n = Ok (h1, d1) /\ wff h1 (fset (var s) v d1) /\ dv_size d1 = n /\ (dv_data d1 = None -> n = 0) /\
      (forall p m, inheap (vs_heap s) p -> ~ dead h1 p -> read_mem h1 p m = read_mem (vs_heap s) p m) /\
      ((d1 = var s v /\ h1 = vs_heap s /\ dv_size (var s v) = n) \/ (dv_data d1 = Some (length (vs_heap s), 0) /\ dv_size (var s v) <> n)).
  Proof.
    intros W. apply wf_wff in W. unfold retarget. destruct (Nat.eqb_spec (dv_size (var s v)) n) as [E|N].
    - exists (vs_heap s), (var s v). split; auto. split.
      { eapply wff_ext; [|exact W]. intros x. unfold fset. now destruct (Nat.eqb_spec v x) as [->|]. }
      split; auto. split; [intros D; apply (f_null _ _ _ W) in D; lia|]. split; [auto|]. left. auto.
    - destruct (clear_wff K _ _ v W) as [h1 [E1 [C1 W1]]]. rewrite E1. cbn [obind fst].
      eexists _, _. split; [reflexivity|]. split.
      { eapply wff_ext; [|apply (new_wff K h1 _ v (repeat r0 n) W1)]; [|unfold fset; now rewrite Nat.eqb_refl].
        intros x. unfold fset. now destruct (v =? x). }
      split; [cbn; apply repeat_length|]. split; [discriminate|]. split.
      { intros p m I D. assert (I1 : inheap h1 p) by (intros b i E; rewrite (proj1 C1); eauto).
        change (h1 ++ [Some (repeat r0 n)]) with (fst (new_dv h1 (repeat r0 n))). rewrite new_read by auto.
        apply (clear_read _ _ _ _ _ C1); auto. intros D1. apply D. change (h1 ++ [Some (repeat r0 n)]) with (fst (new_dv h1 (repeat r0 n))). now apply new_dead. }
      right. split; auto. cbn. now rewrite (proj1 C1).
  Qed.

  (* what every operation leaves alone *)
  Definition framed s s' (v : nat) (re : bool) : Prop :=
    forall x, x <> v -> var s' x = var s x /\
      (shared s v x = false \/ re = true -> ~ dangling s' x -> contents s' x = contents s x).

  Lemma after_retarget s v l h1 d1 h' : wf s -> v < length (vs_vars s) ->
    retarget s v (length l) = Ok (h1, d1) -> write_mem h1 (dv_data d1) l = Ok h' ->
    let s' := mkVst h' (upd (vs_vars s) v d1) in
    wf s' /\ framed s s' v (negb (dv_size (var s v) =? length l)) /\ contents s' v = Ok l.
  Proof.
    intros W L R E s'. destruct (retarget_spec s v (length l) W) as [h2 [d2 [R' [W2 [Sz [Nz [Rd Alt]]]]]]].
    rewrite R in R'. injection R' as <- <-. apply wf_wff in W.
    assert (V : forall x, var s' x = fset (var s) v d1 x) by (intros x; unfold s'; now apply (var_upd (vs_heap s))).
    destruct (write_shape K _ _ _ _ E) as [Sh Lh]. split; [|split].
    - apply wf_wff. eapply wff_ext; [intros x; symmetry; apply V|]. eapply wff_shape; eauto.
    - intros x N. assert (Vx : var s' x = var s x) by (rewrite V; unfold fset; destruct (Nat.eqb_spec v x); congruence).
      split; [exact Vx|]. intros H D. rewrite dangling_dead, Vx in D. unfold contents, read_dv. rewrite Vx. cbn [s' vs_heap] in *.
      assert (Ix := wff_inheap _ _ x W). rewrite <- Rd.
      + eapply write_frame; [exact E|]. destruct Alt as [[A1 [A2 A3]]|[A1 A2]].
        * destruct H as [H|H]; [|rewrite A3, Nat.eqb_refl in H; discriminate].
          unfold shared, overlap in *. cbn. rewrite A1, <- Sz, A1. exact H.
        * cbn. rewrite A1. destruct (dv_data (var s x)) as [[b i]|] eqn:Ex; auto.
          assert (b < length (vs_heap s)) by (eapply Ix; eauto). unfold overlap; cbn; destruct (Nat.eqb_spec (length (vs_heap s)) b); [lia|auto].
      + auto.
      + intros D1. apply D. eapply write_dead; eauto.
    - unfold contents, read_dv. rewrite V. unfold fset. rewrite Nat.eqb_refl, Sz. cbn [s' vs_heap].
      destruct (dv_data d1) as [[b i]|]; [eapply write_read; eauto|].
      rewrite (Nz eq_refl). destruct l; [auto|]. cbn in Nz. specialize (Nz eq_refl). discriminate.
  Qed.

  (* clear and possibly point elsewhere *)
  Lemma after_clear s v h' d : wf s -> v < length (vs_vars s) -> clear_dv (vs_heap s) (var s v) = Ok (h', dv_empty) ->
    (forall x, x <> v -> var (mkVst h' (upd (vs_vars s) v d)) x = var s x) /\
    (forall x, x <> v -> ~ dead h' (dv_data (var s x)) -> read_dv h' (var s x) = contents s x) /\
    (forall p n, inheap (vs_heap s) p -> ~ dead h' p -> read_mem h' p n = read_mem (vs_heap s) p n) /\
    wff h' (fset (var s) v dv_empty) /\ length h' = length (vs_heap s).
  Proof.
    intros W L E. apply wf_wff in W. destruct (clear_wff K _ _ v W) as [h1 [E1 [C1 W1]]]. rewrite E in E1. injection E1 as <-.
    split; [|split; [|split; [|split]]]; auto.
    - intros x N. rewrite (var_upd (vs_heap s)) by auto. unfold fset. destruct (Nat.eqb_spec v x); [congruence|destruct s; auto].
    - intros x N D. unfold contents, read_dv. eapply clear_read; eauto. now apply (wff_inheap _ (var s)).
    - intros p n I D. eapply clear_read; eauto.
    - apply C1.
  Qed.

  (* v += r: element by element *)
  Lemma addto_spec (f : K -> K -> K) b i c j n : forall h h',
    ofold (fun h k => x <- read_mem h (Some (b, i + k)) 1 ;; y <- read_mem h (Some (c, j + k)) 1 ;;
             write_mem h (Some (b, i + k)) [f (nth 0 x r0) (nth 0 y r0)]) (seq 0 n) h = Ok h' ->
    (b <> c \/ i + n <= j \/ j + n <= i \/ i = j) ->
    (forall q, shape h' q = shape h q) /\ length h' = length h /\
    (forall q t, ~ (q = b /\ i <= t < i + n) -> cell h' q t = cell h q t) /\
    (forall k, k < n -> exists x y, cell h b (i + k) = Some x /\ cell h c (j + k) = Some y /\ cell h' b (i + k) = Some (f x y)).
  Proof.
    induction n as [|n IH]; intros h h' E O.
    - cbn in E. injection E as <-. repeat split; auto. intros k Hk. lia.
    - rewrite seq_S, ofold_app in E. apply obind_ok in E. destruct E as [h1 [E1 E2]]. cbn [ofold plus] in E2.
      apply obind_ok in E2. destruct E2 as [h2 [E2 E3]]. injection E3 as <-.
      destruct (IH h h1 E1 ltac:(lia)) as [S1 [L1 [F1 C1]]]. clear IH.
      apply obind_ok in E2. destruct E2 as [xs [Ex E2]]. apply obind_ok in E2. destruct E2 as [ys [Ey E2]].
      apply read_cells in Ex. apply read_cells in Ey. destruct Ex as [Lx Cx]. destruct Ey as [Ly Cy].
      destruct xs as [|x [|]]; try discriminate. destruct ys as [|y [|]]; try discriminate.
      specialize (Cx 0 ltac:(lia)). specialize (Cy 0 ltac:(lia)). rewrite Nat.add_0_r in Cx, Cy. cbn [nth_error nth] in *.
      destruct (write_cells K _ _ _ _ _ E2) as [S2 [L2 C2]]. cbn [length] in C2.
      assert (C2o : forall q t, ~ (q = b /\ t = i + n) -> cell h2 q t = cell h1 q t).
      { intros q t H. rewrite C2. destruct (Nat.eqb_spec q b) as [->|]; cbn [andb]; auto.
        destruct (Nat.leb_spec (i + n) t); cbn [andb]; auto. destruct (Nat.ltb_spec t (i + n + 1)); auto. exfalso. apply H. split; auto. lia. }
      split; [intros q; now rewrite S2|]. split; [lia|]. split.
      + intros q t H. rewrite C2o by (intros [-> ->]; apply H; lia). apply F1. intros [-> G]. apply H. lia.
      + intros k Hk. destruct (Nat.eq_dec k n) as [->|N].
        * exists x, y. rewrite F1 in Cx by lia. rewrite F1 in Cy by lia. repeat split; auto.
          rewrite C2, Nat.eqb_refl. destruct (Nat.leb_spec (i + n) (i + n)); [|lia]. destruct (Nat.ltb_spec (i + n) (i + n + 1)); [|lia].
          cbn. now rewrite Nat.sub_diag.
        * destruct (C1 k ltac:(lia)) as [x' [y' [G1 [G2 G3]]]]. exists x', y'. repeat split; auto. rewrite C2o; auto. lia.
  Qed.
  Lemma addto_shape (f : K -> K -> K) b i c j ks : forall h h',
    ofold (fun h k => x <- read_mem h (Some (b, i + k)) 1 ;; y <- read_mem h (Some (c, j + k)) 1 ;;
             write_mem h (Some (b, i + k)) [f (nth 0 x r0) (nth 0 y r0)]) ks h = Ok h' ->
    (forall q, shape h' q = shape h q) /\ length h' = length h /\
    (forall q t, ~ (q = b /\ exists k, In k ks /\ t = i + k) -> cell h' q t = cell h q t).
  Proof.
    induction ks as [|k ks IH]; intros h h' E.
    - cbn in E. injection E as <-. auto.
    - cbn [ofold] in E. apply obind_ok in E. destruct E as [h1 [E1 E2]]. apply IH in E2. destruct E2 as [S2 [L2 C2]].
      apply obind_ok in E1. destruct E1 as [xs [Ex E1]]. apply obind_ok in E1. destruct E1 as [ys [Ey E1]].
      destruct (write_cells K _ _ _ _ _ E1) as [S1 [L1 C1]]. cbn [length] in C1.
      split; [intros q; now rewrite S2|]. split; [lia|]. intros q t H. rewrite C2.
      + rewrite C1. destruct (Nat.eqb_spec q b) as [->|]; cbn [andb]; auto.
        destruct (Nat.leb_spec (i + k) t); cbn [andb]; auto. destruct (Nat.ltb_spec t (i + k + 1)); auto.
        exfalso. apply H. split; auto. exists k. split; [now left|lia].
      + intros [-> [k' [I ->]]]. apply H. split; auto. exists k'. split; auto. now right.
  Qed.

  Lemma upd_upd {A} (l : list A) i x y : upd (upd l i x) i y = upd l i y.
  Proof. revert i. induction l as [|a l IH]; intros [|i]; cbn; auto. now rewrite IH. Qed.
  Lemma nth_error_combine {A B} (l : list A) (m : list B) k x y : nth_error l k = Some x -> nth_error m k = Some y -> nth_error (combine l m) k = Some (x, y).
  Proof. revert m k. induction l as [|a l IH]; intros [|b m] [|k]; cbn; intros; try congruence. auto. Qed.
  Lemma upd_firstn {A} (l : list A) i x : i < length l -> firstn i l ++ [x] ++ skipn (i + 1) l = upd l i x.
  Proof. revert i. induction l as [|a l IH]; intros [|i] H; cbn in *; try lia; auto. f_equal. apply IH. lia. Qed.
  Definition moved o (x : nat) : Prop := match o with VMoveNew r => x = r | _ => False end.
  Definition sound s o s' : Prop :=
    wf s' /\
    (forall x, x <> target s o -> ~ moved o x -> var s' x = var s x /\
       (shared s (target s o) x = false \/ repoints s o (target s o) = true -> ~ dangling s' x -> contents s' x = contents s x)) /\
    (repoints s o (target s o) = false -> target s o < length (vs_vars s) -> var s' (target s o) = var s (target s o)) /\
    (clean o s -> forall m, expected s o = Ok m -> ~ dangling s' (target s o) -> contents s' (target s o) = Ok m).

  Lemma var_eta s : forall x, var (mkVst (vs_heap s) (vs_vars s)) x = var s x.
  Proof. reflexivity. Qed.
  Lemma length_vars_upd s h v d : length (vs_vars (mkVst h (upd (vs_vars s) v d))) = length (vs_vars s).
  Proof. apply upd_length. Qed.
  Lemma empty_dead h : ~ dead h (dv_data dv_empty).
  Proof. intros [b [i [E _]]]. discriminate. Qed.

  Ltac step E x H := apply obind_ok in E; destruct E as [x [H E]].

  Lemma sound_new s : wf s -> sound s VNew (mkVst (vs_heap s) (vs_vars s ++ [dv_empty])).
  Proof.
    intros W. assert (V : forall x, var (mkVst (vs_heap s) (vs_vars s ++ [dv_empty])) x = var s x).
    { intros x. rewrite var_new. unfold fset. destruct (Nat.eqb_spec (length (vs_vars s)) x) as [<-|]; auto. now rewrite var_none. }
    split; [|split; [|split]].
    - apply wf_wff. eapply wff_ext; [intros x; symmetry; apply V|]. now apply wf_wff in W.
    - intros x N _. split; auto. intros _ _. unfold contents. now rewrite V.
    - cbn. lia.
    - cbn. intros _ m E _. injection E as <-. unfold contents. now rewrite V, var_none.
  Qed.

  Lemma sound_reinit s v n x s' : wf s -> run_vop s (VReinit v n x) = Ok s' -> sound s (VReinit v n x) s'.
  Proof.
    intros W E. cbn [run_vop] in E. step E d Ed. apply aget_var in Ed. destruct Ed as [L ->]. step E hc Ec.
    assert (W' := W). apply wf_wff in W'. destruct (clear_wff K _ _ v W') as [h1 [E1 [C1 W1]]]. rewrite E1 in Ec. injection Ec as <-.
    cbn [fst] in E. injection E as <-.
    destruct (after_clear s v h1 (snd (new_dv h1 (repeat x n))) W L E1) as [A1 [A2 [A2' [A3 A4]]]].
    assert (V : forall y, var (mkVst (fst (new_dv h1 (repeat x n))) (upd (vs_vars s) v (snd (new_dv h1 (repeat x n))))) y = fset (var s) v (snd (new_dv h1 (repeat x n))) y)
      by (intros y; now apply (var_upd (vs_heap s))).
    split; [|split; [|split]].
    - apply wf_wff. eapply wff_ext; [intros y; symmetry; apply V|].
      eapply wff_ext; [|apply (new_wff K h1 _ v (repeat x n) W1)]; [|unfold fset; now rewrite Nat.eqb_refl].
      intros y. unfold fset. now destruct (v =? y).
    - cbn [target]. intros y N _. assert (Vy := A1 y N). split; [exact Vy|]. intros _ D.
      rewrite dangling_dead in D. unfold contents. unfold var in Vy, D |- * at 1. cbn [vs_vars vs_heap new_dv fst snd] in *. rewrite Vy in *.
      fold (var s y) in *. unfold read_dv. change (h1 ++ [Some (repeat x n)]) with (fst (new_dv h1 (repeat x n))) in *.
      assert (I : inheap h1 (dv_data (var s y))).
      { intros b i G. rewrite A4. eapply (wff_inheap _ (var s)); eauto. }
      rewrite new_read by auto. apply A2; auto. intros D1. apply D. now apply new_dead.
    - cbn. now rewrite Nat.eqb_refl.
    - intros _ m Em _. cbn in Em. injection Em as <-. unfold contents, target. rewrite V. unfold fset. rewrite Nat.eqb_refl.
      unfold read_dv. cbn [new_dv fst snd vs_heap dv_data dv_size].
      rewrite (read_live K _ _ _ _ (repeat x n)); [|rewrite nth_error_app2, Nat.sub_diag; auto|lia].
      cbn [skipn]. f_equal. apply firstn_all.
  Qed.

  Lemma sound_clear s v s' : wf s -> run_vop s (VClear v) = Ok s' -> sound s (VClear v) s'.
  Proof.
    intros W E. cbn [run_vop] in E. step E d Ed. apply aget_var in Ed. destruct Ed as [L ->]. step E hc Ec.
    assert (W' := W). apply wf_wff in W'. destruct (clear_wff K _ _ v W') as [h1 [E1 [C1 W1]]]. rewrite E1 in Ec. injection Ec as <-.
    cbn [fst snd] in E. injection E as <-. destruct (after_clear s v h1 dv_empty W L E1) as [A1 [A2 [A2' [A3 A4]]]].
    split; [|split; [|split]].
    - apply wf_wff. eapply wff_ext; [|exact A3]. intros x. symmetry. now apply (var_upd (vs_heap s)).
    - cbn [target]. intros x N _. split; [now apply A1|]. intros _ D. rewrite dangling_dead, A1 in D by auto. unfold contents at 1. rewrite A1 by auto. now apply A2.
    - cbn. now rewrite Nat.eqb_refl.
    - intros _ m Em _. cbn in Em. injection Em as <-. unfold contents, target. rewrite (var_upd (vs_heap s)) by auto. unfold fset. now rewrite Nat.eqb_refl.
  Qed.

  Lemma sound_copy s r s' : wf s -> run_vop s (VCopyNew r) = Ok s' -> sound s (VCopyNew r) s'.
  Proof.
    intros W E. cbn [run_vop] in E. step E d Ed. apply aget_var in Ed. destruct Ed as [L ->].
    destruct (is_init (var s r)) eqn:In.
    - step E l El. match type of E with Ok ?t = _ => assert (Es : s' = t) by congruence; clear E; subst s' end. assert (W' := W). apply wf_wff in W'.
      assert (V : forall y, var (mkVst (fst (new_dv (vs_heap s) l)) (vs_vars s ++ [snd (new_dv (vs_heap s) l)])) y = fset (var s) (length (vs_vars s)) (snd (new_dv (vs_heap s) l)) y).
      { intros y. now rewrite var_new. }
      split; [|split; [|split]].
      + apply wf_wff. eapply wff_ext; [intros y; symmetry; apply V|]. apply new_wff; auto. now rewrite var_none.
      + cbn [target]. intros y N _.
        assert (Vy : var (mkVst (fst (new_dv (vs_heap s) l)) (vs_vars s ++ [snd (new_dv (vs_heap s) l)])) y = var s y).
        { rewrite V. unfold fset. destruct (Nat.eqb_spec (length (vs_vars s)) y); congruence. }
        split; [exact Vy|]. intros _ _. unfold contents, read_dv. rewrite Vy. apply new_read. now apply (wff_inheap _ (var s)).
      + cbn. lia.
      + intros _ m Em _. cbn in Em. unfold contents in Em. rewrite El in Em. injection Em as <-.
        unfold contents, target. rewrite V. unfold fset. rewrite Nat.eqb_refl. unfold read_dv. cbn [new_dv fst snd vs_heap dv_data dv_size].
        rewrite (read_live K _ _ _ _ l); [|rewrite nth_error_app2, Nat.sub_diag; auto|lia]. cbn [skipn]. f_equal. apply firstn_all.
    - injection E as <-. destruct (sound_new s W) as [A [B [C D]]]. split; auto. split; [intros x; apply (B x)|]. split; [cbn; lia|].
      intros _ m Em Dg. apply (D I m); [|exact Dg]. cbn in Em |- *. unfold contents, read_dv in Em.
      unfold is_init in In. destruct (dv_data (var s r)) eqn:G; [discriminate|]. apply wf_wff in W. destruct (f_null _ _ _ W r G) as [Z _]. now rewrite Z in Em.
  Qed.

  Lemma sound_move s r s' : wf s -> run_vop s (VMoveNew r) = Ok s' -> sound s (VMoveNew r) s'.
  Proof.
    intros W E. cbn [run_vop] in E. step E d Ed. apply aget_var in Ed. destruct Ed as [L ->]. injection E as <-. assert (W' := W). apply wf_wff in W'.
    assert (V : forall y, var (mkVst (vs_heap s) (upd (vs_vars s) r dv_empty ++ [var s r])) y = fset (fset (var s) r dv_empty) (length (vs_vars s)) (var s r) y).
    { intros y. rewrite (var_new _ (mkVst (vs_heap s) (upd (vs_vars s) r dv_empty))). cbn [vs_vars]. rewrite upd_length. unfold fset at 1 2.
      destruct (_ =? y); auto. now apply (var_upd (vs_heap s)). }
    split; [|split; [|split]].
    - apply wf_wff. eapply wff_ext; [intros y; symmetry; apply V|]. apply move_wff; auto; [now rewrite var_none|lia].
    - cbn [target moved]. intros y N M.
      assert (Vy : var (mkVst (vs_heap s) (upd (vs_vars s) r dv_empty ++ [var s r])) y = var s y).
      { rewrite V. unfold fset. destruct (Nat.eqb_spec (length (vs_vars s)) y); [congruence|]. destruct (Nat.eqb_spec r y); congruence. }
      split; [exact Vy|]. intros _ _. unfold contents. now rewrite Vy.
    - cbn. lia.
    - intros _ m Em _. cbn in Em. unfold contents, target. rewrite V. unfold fset. rewrite Nat.eqb_refl. exact Em.
  Qed.

  Lemma sound_view s v r start n s' : wf s -> no_wrap (VView (K := K) v r start n) -> run_vop s (VView v r start n) = Ok s' -> sound s (VView v r start n) s'.
  Proof.
    intros W NW E. cbn [run_vop] in E. step E d Ed. apply aget_var in Ed. destruct Ed as [L ->]. step E hc Ec.
    assert (W' := W). apply wf_wff in W'. destruct (clear_wff K _ _ v W') as [h1 [E1 [C1 W1]]]. rewrite E1 in Ec. injection Ec as <-. cbn [fst] in E.
    step E e Ee. apply (aget_var (mkVst h1 (upd (vs_vars s) v dv_empty))) in Ee. cbn [vs_vars] in Ee. destruct Ee as [Lr ->]. rewrite upd_length in Lr.
    rewrite (var_upd (vs_heap s)) in E by auto. destruct (Nat.eq_dec v r) as [->|N].
    { unfold fset in E. rewrite Nat.eqb_refl in E. discriminate. }
    assert (Fr : fset (var (mkVst (vs_heap s) (vs_vars s))) v dv_empty r = var s r) by (unfold fset; destruct (Nat.eqb_spec v r); [congruence|reflexivity]).
    rewrite Fr in E. destruct (dv_data (var s r)) as [[b off]|] eqn:Dr; [|discriminate].
    apply asserting_ok in E. destruct E as [A E]. injection E as <-.
    assert (Sz : start + n <= dv_size (var s r)).
    { cbn in NW. unfold wrap32 in A. rewrite N.mod_small in A by exact NW. apply N.leb_le in A. lia. }
    rewrite upd_upd. set (nd := mkDv false (Some (b, off + start)) n).
    destruct (after_clear s v h1 nd W L E1) as [A1 [A2 [A2' [A3 A4]]]].
    assert (Vv : var (mkVst h1 (upd (vs_vars s) v nd)) v = nd) by (rewrite (var_upd (vs_heap s)) by auto; unfold fset; now rewrite Nat.eqb_refl).
    split; [|split; [|split]].
    - apply wf_wff. eapply wff_ext; [|apply (view_wff K h1 _ v r b off start n A3)].
      + intros x. rewrite (var_upd (vs_heap s)) by auto. unfold fset. now destruct (v =? x).
      + unfold fset. now rewrite Nat.eqb_refl.
      + unfold fset. destruct (Nat.eqb_spec v r); [congruence|auto].
      + unfold fset. destruct (Nat.eqb_spec v r); [congruence|auto].
    - cbn [target]. intros x Nx _. split; [now apply A1|]. intros _ D. rewrite dangling_dead, A1 in D by auto. unfold contents at 1. rewrite A1 by auto. now apply A2.
    - cbn. now rewrite Nat.eqb_refl.
    - intros _ m Em D. cbn [expected] in Em. step Em l El. injection Em as <-. unfold target in *. rewrite dangling_dead, Vv in D. unfold contents, read_dv. rewrite Vv. cbn [vs_heap nd dv_data dv_size] in *.
      unfold contents, read_dv in El. rewrite Dr in El. rewrite <- A2' in El.
      + apply read_cells in El. destruct El as [Ll El]. apply read_cells. split; [rewrite firstn_length, skipn_length; lia|].
        intros i Hi. rewrite <- Nat.add_assoc, El by lia. symmetry. now apply nth_error_firstn_skipn.
      + rewrite <- Dr. now apply (wff_inheap _ (var s)).
      + intros [b' [i' [G1 G2]]]. apply D. injection G1 as <- <-. exists b, (off + start). auto.
  Qed.

  Lemma write_sound s v p xs h' re : wf s -> write_mem (vs_heap s) p xs = Ok h' ->
    (forall x, overlap (var s v) (var s x) = false -> overlap (mkDv false p (length xs)) (var s x) = false) ->
    let s' := mkVst h' (vs_vars s) in
    wf s' /\ (forall x, x <> v -> var s' x = var s x /\ (shared s v x = false \/ re = true /\ False -> ~ dangling s' x -> contents s' x = contents s x)).
  Proof.
    intros W E O s'. destruct (write_shape K _ _ _ _ E) as [Sh Lh]. split.
    - apply wf_wff. apply wf_wff in W. eapply wff_shape; eauto.
    - intros x N. split; auto. intros [H|[_ []]] _. unfold contents, read_dv. change (var s' x) with (var s x). cbn [s' vs_heap].
      eapply write_frame; [exact E|]. specialize (O x H). unfold overlap in *. cbn [dv_data dv_size] in *. exact O.
  Qed.

  Lemma sound_fill s v x s' : wf s -> run_vop s (VFill v x) = Ok s' -> sound s (VFill v x) s'.
  Proof.
    intros W E. cbn [run_vop] in E. step E d Ed. apply aget_var in Ed. destruct Ed as [L ->]. apply asserting_ok in E. destruct E as [In E].
    step E h' Eh. injection E as <-.
    destruct (write_sound s v _ _ h' false W Eh) as [A B].
    { intros y H. unfold overlap in *. cbn [dv_data dv_size]. now rewrite repeat_length. }
    split; [exact A|]. split; [|split].
    - intros y N _. destruct (B y N) as [B1 B2]. split; auto. cbn [target repoints]. intros [H|H]; [|discriminate]. apply B2. now left.
    - auto.
    - cbn [target expected]. intros _ m Em D. injection Em as <-. unfold contents, read_dv. change (var (mkVst h' (vs_vars s)) v) with (var s v). cbn [vs_heap].
      unfold is_init in In. destruct (dv_data (var s v)) as [[b i]|]; [|discriminate]. rewrite <- (repeat_length x (dv_size (var s v))) at 1. eapply write_read; eauto.
  Qed.

  Lemma sound_set s v i x s' : wf s -> run_vop s (VSet v i x) = Ok s' -> sound s (VSet v i x) s'.
  Proof.
    intros W E. cbn [run_vop] in E. step E d Ed. apply aget_var in Ed. destruct Ed as [L ->].
    destruct (dv_data (var s v)) as [[b off]|] eqn:Dv; [|discriminate]. apply asserting_ok in E. destruct E as [Hi E]. apply Nat.ltb_lt in Hi.
    step E h' Eh. injection E as <-.
    destruct (write_sound s v _ _ h' false W Eh) as [A B].
    { intros y H. unfold overlap in *. cbn [dv_data dv_size length]. rewrite Dv in H. destruct (dv_data (var s y)) as [[c j]|]; auto.
      destruct (Nat.eqb_spec b c); auto. cbn [andb] in *.
      destruct (Nat.ltb_spec off (j + dv_size (var s y))); destruct (Nat.ltb_spec j (off + dv_size (var s v))); cbn in H; try discriminate;
      destruct (Nat.ltb_spec (off + i) (j + dv_size (var s y))); destruct (Nat.ltb_spec j (off + i + 1)); auto; lia. }
    split; [exact A|]. split; [|split].
    - intros y N _. destruct (B y N) as [B1 B2]. split; auto. cbn [target repoints]. intros [H|H]; [|discriminate]. apply B2. now left.
    - auto.
    - cbn [target expected]. intros _ m Em D. step Em l El. injection Em as <-. unfold contents, read_dv in *. change (var (mkVst h' (vs_vars s)) v) with (var s v). cbn [vs_heap].
      rewrite Dv in *. apply read_cells in El. destruct El as [Ll El]. apply write_cells in Eh. destruct Eh as [_ [_ C]]. cbn [length] in C.
      apply read_cells. split; [now rewrite upd_length|]. intros k Hk. rewrite C, Nat.eqb_refl. cbn [andb].
      destruct (Nat.eq_dec k i) as [->|Nk].
      + destruct (Nat.leb_spec (off + i) (off + i)); [|lia]. destruct (Nat.ltb_spec (off + i) (off + i + 1)); [|lia]. cbn [andb].
        rewrite Nat.sub_diag. symmetry. apply nth_error_upd_same. lia.
      + rewrite nth_error_upd_diff by auto. rewrite <- El by auto.
        destruct (Nat.leb_spec (off + i) (off + k)); cbn [andb]; auto. destruct (Nat.ltb_spec (off + k) (off + i + 1)); auto. lia.
  Qed.

  Lemma sound_addto s f v r s' : wf s -> run_vop s (VAddTo f v r) = Ok s' -> sound s (VAddTo f v r) s'.
  Proof.
    intros W E. cbn [run_vop] in E. step E d Ed. apply aget_var in Ed. destruct Ed as [L ->]. step E e Ee. apply aget_var in Ee. destruct Ee as [Lr ->].
    destruct (dv_data (var s v)) as [[b i]|] eqn:Dv; [|discriminate]. destruct (dv_data (var s r)) as [[c j]|] eqn:Dr; [|discriminate].
    apply asserting_ok in E. destruct E as [Sz E]. apply Nat.eqb_eq in Sz. step E h' Eh. injection E as <-.
    destruct (addto_shape _ _ _ _ _ _ _ _ Eh) as [Sh [Lh F]].
    split; [|split; [|split]].
    - apply wf_wff. apply wf_wff in W. eapply wff_shape; eauto.
    - cbn [target repoints]. intros y N _. split; auto. intros [H|H] _; [|discriminate]. unfold contents, read_dv. change (var (mkVst h' (vs_vars s)) y) with (var s y). cbn [vs_heap].
      destruct (dv_data (var s y)) as [[q t]|] eqn:Dy; [|auto]. apply read_ext. intros k Hk. apply F. intros [-> [k' [I G]]]. apply in_seq in I.
      unfold shared, overlap in H. rewrite Dv, Dy, Nat.eqb_refl in H. cbn [andb] in H.
      destruct (Nat.ltb_spec i (t + dv_size (var s y))); destruct (Nat.ltb_spec t (i + dv_size (var s v))); cbn in H; try discriminate; lia.
    - auto.
    - cbn [target expected]. intros Cl m Em D. step Em l El. step Em l' El'. injection Em as <-. unfold contents, read_dv in *. change (var (mkVst h' (vs_vars s)) v) with (var s v). cbn [vs_heap].
      rewrite Dv in *. rewrite Dr in *. apply read_cells in El. destruct El as [Ll El]. apply read_cells in El'. destruct El' as [Ll' El'].
      destruct (addto_spec f b i c j (dv_size (var s v)) (vs_heap s) h' Eh) as [_ [_ [_ C]]].
      { cbn [clean] in Cl. destruct Cl as [Cl|Cl]; [|rewrite Dv, Dr in Cl; injection Cl as -> ->; lia].
        unfold shared, overlap in Cl. rewrite Dv, Dr, <- Sz in Cl. destruct (Nat.eqb_spec b c); [|auto]. cbn [andb] in Cl. right.
        destruct (Nat.ltb_spec i (j + dv_size (var s v))); destruct (Nat.ltb_spec j (i + dv_size (var s v))); cbn in Cl; try discriminate; lia. }
      apply read_cells. split; [rewrite map_length, combine_length; lia|]. intros k Hk. destruct (C k Hk) as [x [y [G1 [G2 G3]]]].
      rewrite G3. rewrite nth_error_map'. rewrite El in G1 by auto. rewrite El' in G2 by lia.
      rewrite (nth_error_combine l l' k x y G1 G2). reflexivity.
  Qed.

  Lemma sound_eval s v e s' : wf s -> run_vop s (VEval v e) = Ok s' -> sound s (VEval v e) s'.
  Proof.
    intros W E. cbn [run_vop] in E. step E l El. unfold assign_list in E. step E d Ed. apply aget_var in Ed. destruct Ed as [L ->].
    step E hp Ehd. step E h' Eh. injection E as <-. destruct hp as [h1 d1]. cbn [fst snd] in *.
    destruct (after_retarget s v l h1 d1 h' W L Ehd Eh) as [A [B C]].
    split; [exact A|]. split; [|split].
    - cbn [target repoints]. rewrite El, Nat.eqb_refl. cbn [andb]. intros y N _. now apply B.
    - cbn [target repoints]. rewrite El, Nat.eqb_refl. cbn [andb]. intros R _. apply negb_false_iff in R. rewrite R in Ehd. injection Ehd as <- <-.
      rewrite (var_upd (vs_heap s)) by auto. unfold fset. now rewrite Nat.eqb_refl.
    - cbn [target expected]. intros _ m Em _. rewrite El in Em. injection Em as <-. exact C.
  Qed.

  Lemma sound_assign s v r s' : wf s -> run_vop s (VAssign v r) = Ok s' -> sound s (VAssign v r) s'.
  Proof.
    intros W E. cbn [run_vop] in E. step E d Ed. apply aget_var in Ed. destruct Ed as [L ->]. step E e Ee. apply aget_var in Ee. destruct Ee as [Lr ->].
    destruct (Nat.eqb_spec v r) as [->|N].
    { injection E as <-. split; [exact W|]. split; [intros x _ _; auto|]. split; [auto|]. intros _ m Em _. exact Em. }
    destruct (is_init (var s r)) eqn:In; cbn [negb] in E.
    - step E hp Ehd. destruct hp as [h1 d1]. cbn [fst snd] in E. destruct (overlap d1 (var s r)) eqn:O; [discriminate|].
      step E l El. step E h' Eh. injection E as <-.
      assert (Ll : length l = dv_size (var s r)).
      { unfold read_dv in El. unfold is_init in In. destruct (dv_data (var s r)) as [[b i]|]; [|discriminate]. apply read_cells in El. apply El. }
      assert (R : retarget s v (length l) = Ok (h1, d1)) by (unfold retarget; now rewrite Ll).
      destruct (after_retarget s v l h1 d1 h' W L R Eh) as [A [B C]].
      assert (Rp : repoints s (VAssign v r) v = negb (dv_size (var s v) =? length l)).
      { cbn. rewrite Nat.eqb_refl, In, Ll. destruct (Nat.eqb_spec v r); [congruence|]. reflexivity. }
      split; [exact A|]. split; [|split].
      + cbn [target]. rewrite Rp. intros y Ny _. now apply B.
      + cbn [target]. rewrite Rp. intros Rq _. apply negb_false_iff in Rq. unfold retarget in R. rewrite Rq in R. injection R as <- <-.
        rewrite (var_upd (vs_heap s)) by auto. unfold fset. now rewrite Nat.eqb_refl.
      + cbn [target expected]. intros _ m Em _. rewrite C, <- Em. unfold contents. symmetry.
        destruct (retarget_spec s v (length l) W) as [h2 [d2 [R' [W2 [_ [_ [Rd Alt]]]]]]]. rewrite R in R'. injection R' as <- <-.
        unfold read_dv in *. destruct (Nat.eq_dec (length l) 0) as [Z|Z].
        * destruct l; [|discriminate]. unfold read_mem. rewrite <- Ll. reflexivity.
        * rewrite <- Rd; auto; [apply wf_wff in W; now apply (wff_inheap _ (var s))|].
          intros [b [i [G1 G2]]]. rewrite G1 in El. unfold read_mem in El. rewrite G2 in El. rewrite Ll in Z. apply Nat.eqb_neq in Z. rewrite Z in El. discriminate.
    - assert (E' : run_vop s (VClear v) = Ok s') by (cbn [run_vop]; rewrite (aget_ok s v L); exact E).
      destruct (sound_clear s v s' W E') as [A [B [C D]]].
      assert (Rp : repoints s (VAssign v r) v = true).
      { cbn. rewrite Nat.eqb_refl, In. destruct (Nat.eqb_spec v r); [congruence|]. reflexivity. }
      split; [exact A|]. cbn [target]. rewrite Rp. split; [|split; [discriminate|]].
      + intros x Nx M. destruct (B x Nx M) as [B1 B2]. split; auto. intros _. apply B2. right. cbn. apply Nat.eqb_refl.
      + intros _ m Em Dg. apply (D I m); [|exact Dg]. cbn in Em |- *. unfold contents, read_dv in Em. unfold is_init in In.
        destruct (dv_data (var s r)) eqn:G; [discriminate|]. apply wf_wff in W. destruct (f_null _ _ _ W r G) as [Z _]. now rewrite Z in Em.
  Qed.

  Lemma vop_sound s o s' : wf s -> no_wrap o -> run_vop s o = Ok s' -> sound s o s'.
  Proof.
    intros W NW E. destruct o.
    - cbn in E. injection E as <-. now apply sound_new.
    - now apply sound_reinit.
    - now apply sound_view.
    - now apply sound_copy.
    - now apply sound_move.
    - now apply sound_assign.
    - now apply sound_eval.
    - now apply sound_addto.
    - now apply sound_fill.
    - now apply sound_set.
    - now apply sound_clear.
  Qed.
End Ops.
Arguments dead {K} _ _.
Arguments inheap {K} _ _.
Arguments retarget {K} _ _ _.
Arguments framed {K} _ _ _ _.
Arguments moved {K} _ _.
Arguments sound {K} _ _ _.
