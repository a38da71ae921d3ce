(* Lemmas about dVec *)
From Coq Require Import NArith.
From Verif Require Import Base BaseProofs VecModel SpecVec.
Local Open Scope nat_scope.

Section Mem.
  Variable K : Num.
  Notation heap := (list (option (list K))).
  Implicit Types (h : heap).

  Definition cell h (b i : nat) : option K :=
    match nth_error h b with Some (Some l) => nth_error l i | _ => None end.
  Definition shape h (b : nat) : option (option nat) := option_map (option_map (@length K)) (nth_error h b).

  Lemma nth_error_firstn_skipn {A} (l : list A) off n i : i < n -> nth_error (firstn n (skipn off l)) i = nth_error l (off + i).
  Proof.
    intros H. revert l i n H. induction off as [|off IH]; intros l i n H; cbn [skipn plus].
    - revert i n H. induction l as [|a l IH]; intros [|i] [|n] H; cbn; auto; try lia. apply IH. lia.
    - destruct l as [|a l]; [rewrite firstn_nil; now destruct i|]. cbn. now apply IH.
  Qed.

  Lemma read_cells h b off n l :
    read_mem h (Some (b, off)) n = Ok l <-> length l = n /\ forall i, i < n -> cell h b (off + i) = nth_error l i.
  Proof.
    unfold read_mem, cell. destruct (Nat.eqb_spec n 0) as [->|Hn].
    - split; [intros E; injection E as <-; split; [auto|lia]|]. intros [L _]. destruct l; [auto|discriminate].
    - split.
      + destruct (nth_error h b) as [[m|]|] eqn:E; try discriminate.
        destruct (Nat.leb_spec (off + n) (length m)); [|discriminate].
        intros EE. injection EE as <-. split; [rewrite firstn_length, skipn_length; lia|].
        intros i Hi. now rewrite nth_error_firstn_skipn by auto.
      + intros [L C]. assert (C1 := C (n - 1) ltac:(lia)).
        destruct (nth_error l (n - 1)) as [x|] eqn:E1; [|apply nth_error_None in E1; lia].
        destruct (nth_error h b) as [[m|]|] eqn:E; try discriminate.
        assert (off + (n - 1) < length m) by (apply nth_error_Some; congruence).
        destruct (Nat.leb_spec (off + n) (length m)); [|lia]. f_equal.
        apply list_ext. intros i. destruct (Nat.lt_ge_cases i n).
        * rewrite nth_error_firstn_skipn by auto. now apply C.
        * rewrite (proj2 (nth_error_None _ _)), (proj2 (nth_error_None _ _)); auto; [lia|].
          rewrite firstn_length, skipn_length. lia.
  Qed.

  Lemma read_ok_ub h p n : (exists l, read_mem h p n = Ok l) \/ read_mem h p n = UB.
  Proof.
    unfold read_mem. destruct (n =? 0); [eauto|]. destruct p as [[b off]|]; [|auto].
    destruct (nth_error h b) as [[m|]|]; auto. destruct (_ <=? _); eauto.
  Qed.

  Lemma read_ext h h' b b' off off' n :
    (forall i, i < n -> cell h b (off + i) = cell h' b' (off' + i)) -> read_mem h (Some (b, off)) n = read_mem h' (Some (b', off')) n.
  Proof.
    intros C. destruct (read_ok_ub h (Some (b, off)) n) as [[l E]|E].
    - rewrite E. symmetry. apply read_cells. apply read_cells in E. destruct E as [L E]. split; auto.
      intros i Hi. rewrite <- C by auto. now apply E.
    - destruct (read_ok_ub h' (Some (b', off')) n) as [[l E']|E']; [|congruence].
      exfalso. apply read_cells in E'. destruct E' as [L E'].
      assert (read_mem h (Some (b, off)) n = Ok l); [|congruence].
      apply read_cells. split; auto. intros i Hi. rewrite C by auto. now apply E'.
  Qed.

  Lemma read_live h b off n m : nth_error h b = Some (Some m) -> off + n <= length m -> read_mem h (Some (b, off)) n = Ok (firstn n (skipn off m)).
  Proof.
    intros E L. unfold read_mem. rewrite E. destruct (Nat.eqb_spec n 0) as [->|]; [reflexivity|].
    destruct (Nat.leb_spec (off + n) (length m)); [auto|lia].
  Qed.

  Lemma nth_error_splice {A} (l xs : list A) off j : off + length xs <= length l ->
    nth_error (firstn off l ++ xs ++ skipn (off + length xs) l) j =
    if (off <=? j) && (j <? off + length xs) then nth_error xs (j - off) else nth_error l j.
  Proof.
    intros L. assert (Lf : length (firstn off l) = off) by (rewrite firstn_length; lia).
    destruct (Nat.leb_spec off j) as [H1|H1]; cbn [andb].
    - rewrite nth_error_app2 by lia. rewrite Lf. destruct (Nat.ltb_spec j (off + length xs)) as [H2|H2].
      + rewrite nth_error_app1 by lia. auto.
      + rewrite nth_error_app2 by lia.
        replace (nth_error l j) with (nth_error (skipn (off + length xs) l) (j - off - length xs)); auto.
        rewrite <- (firstn_skipn (off + length xs) l) at 2. rewrite nth_error_app2; rewrite firstn_length; [f_equal; lia|lia].
    - rewrite nth_error_app1 by lia. rewrite <- (firstn_skipn off l) at 2. rewrite nth_error_app1 by lia. auto.
  Qed.

  Lemma write_cells h b off xs h' : write_mem h (Some (b, off)) xs = Ok h' ->
    (forall c, shape h' c = shape h c) /\ length h' = length h /\
    forall c j, cell h' c j = if (c =? b) && (off <=? j) && (j <? off + length xs) then nth_error xs (j - off) else cell h c j.
  Proof.
    unfold write_mem. destruct (Nat.eqb_spec (length xs) 0) as [Z|Z].
    - intros E. injection E as <-. split; [auto|]. split; [auto|]. intros c j. rewrite Z, Nat.add_0_r.
      destruct (Nat.leb_spec off j); destruct (Nat.ltb_spec j off); try lia; rewrite ?andb_false_r; auto.
    - destruct (nth_error h b) as [[l|]|] eqn:E; try discriminate.
      destruct (Nat.leb_spec (off + length xs) (length l)) as [L|L]; [|discriminate].
      intros EE. injection EE as <-.
      assert (Hb : b < length h) by (apply nth_error_Some; congruence).
      split; [|split; [now rewrite upd_length|]].
      + intros c. unfold shape. destruct (Nat.eq_dec b c) as [<-|N].
        * rewrite nth_error_upd_same by auto. rewrite E. cbn. do 2 f_equal. rewrite !app_length, firstn_length, skipn_length. lia.
        * now rewrite nth_error_upd_diff.
      + intros c j. unfold cell. destruct (Nat.eqb_spec c b) as [->|N]; cbn [andb].
        * rewrite nth_error_upd_same by auto. rewrite E. now apply nth_error_splice.
        * now rewrite nth_error_upd_diff by auto.
  Qed.

  Lemma write_ok h b off xs m : nth_error h b = Some (Some m) -> off + length xs <= length m -> exists h', write_mem h (Some (b, off)) xs = Ok h'.
  Proof.
    intros E L. unfold write_mem. rewrite E. destruct (_ =? _); [eauto|].
    destruct (Nat.leb_spec (off + length xs) (length m)); [eauto|lia].
  Qed.

  Lemma write_read h b off xs h' : write_mem h (Some (b, off)) xs = Ok h' -> read_mem h' (Some (b, off)) (length xs) = Ok xs.
  Proof.
    intros E. apply write_cells in E. destruct E as [_ [_ C]]. apply read_cells. split; auto.
    intros i Hi. rewrite C, Nat.eqb_refl. destruct (Nat.leb_spec off (off + i)); [|lia].
    destruct (Nat.ltb_spec (off + i) (off + length xs)); [|lia]. cbn. f_equal. lia.
  Qed.

  Lemma write_frame h p xs h' q n : write_mem h p xs = Ok h' ->
    overlap (mkDv false p (length xs)) (mkDv false q n) = false -> read_mem h' q n = read_mem h q n.
  Proof.
    intros E O. destruct p as [[b off]|].
    2:{ unfold write_mem in E. destruct (_ =? _); [|discriminate]. now injection E as <-. }
    destruct q as [[c j]|]; [|unfold read_mem; now destruct (_ =? _)].
    apply write_cells in E. destruct E as [_ [_ C]]. apply read_ext. intros i Hi. rewrite C.
    cbn in O. destruct (Nat.eqb_spec c b) as [->|]; cbn [andb]; auto. rewrite Nat.eqb_refl in O. cbn [andb] in O.
    destruct (Nat.leb_spec off (j + i)); cbn [andb]; auto. destruct (Nat.ltb_spec (j + i) (off + length xs)); auto.
    exfalso. destruct (Nat.ltb_spec off (j + n)); destruct (Nat.ltb_spec j (off + length xs)); cbn in O; try discriminate; lia.
  Qed.
  Lemma write_shape h p xs h' : write_mem h p xs = Ok h' -> (forall c, shape h' c = shape h c) /\ length h' = length h.
  Proof.
    intros E. destruct p as [[b off]|].
    - apply write_cells in E. tauto.
    - unfold write_mem in E. destruct (_ =? _); [|discriminate]. now injection E as <-.
  Qed.

  Lemma shape_live h h' b l : shape h' b = shape h b -> nth_error h b = Some (Some l) ->
    exists l', nth_error h' b = Some (Some l') /\ length l' = length l.
  Proof.
    unfold shape. intros S E. rewrite E in S. cbn in S. destruct (nth_error h' b) as [[l'|]|]; cbn in S; try discriminate.
    injection S as S. eauto.
  Qed.
  Lemma shape_dead h h' b : shape h' b = shape h b -> nth_error h b = Some None -> nth_error h' b = Some None.
  Proof. unfold shape. intros S E. rewrite E in S. cbn in S. destruct (nth_error h' b) as [[l'|]|]; cbn in S; try discriminate. auto. Qed.

  (* wf as a statement about the descriptors *)
  Record wff h (f : nat -> dv) : Prop := {
    f_own : forall v, dv_own (f v) = true -> exists b l, dv_data (f v) = Some (b, 0) /\
       nth_error h b = Some (Some l) /\ length l = dv_size (f v);
    f_one : forall v w b i j, dv_own (f v) = true -> dv_own (f w) = true ->
       dv_data (f v) = Some (b, i) -> dv_data (f w) = Some (b, j) -> v = w;
    f_live : forall b l, nth_error h b = Some (Some l) -> exists v, dv_own (f v) = true /\ dv_data (f v) = Some (b, 0);
    f_null : forall v, dv_data (f v) = None -> dv_size (f v) = 0 /\ dv_own (f v) = false;
    f_in : forall v b i, dv_data (f v) = Some (b, i) -> b < length h /\
       forall l, nth_error h b = Some (Some l) -> i + dv_size (f v) <= length l }.

  Lemma wf_wff (s : vst K) : wf s <-> wff (vs_heap s) (var s).
  Proof. split; intros [A B C D E]; constructor; auto. Qed.
  Lemma wff_ext h f g : (forall v, f v = g v) -> wff h f -> wff h g.
  Proof.
    intros E [A B C D F]. constructor.
    - intros v. rewrite <- E. apply A.
    - intros v w b i j. rewrite <- !E. apply B.
    - intros b l H. destruct (C b l H) as [v Hv]. exists v. now rewrite <- E.
    - intros v. rewrite <- E. apply D.
    - intros v b i. rewrite <- E. apply F.
  Qed.

  Lemma wff_shape h h' f : (forall c, shape h' c = shape h c) -> length h' = length h -> wff h f -> wff h' f.
  Proof.
    intros S L [A B C D F]. constructor; auto.
    - intros v O. destruct (A v O) as [b [l [E1 [E2 E3]]]]. destruct (shape_live h h' b l (S b) E2) as [l' [E4 E5]].
      exists b, l'. repeat split; auto. congruence.
    - intros b l E. destruct (shape_live h' h b l (eq_sym (S b)) E) as [l' [E4 E5]]. eauto.
    - intros v b i E. destruct (F v b i E) as [F1 F2]. split; [lia|]. intros l El.
      destruct (shape_live h' h b l (eq_sym (S b)) El) as [l' [E4 E5]]. rewrite <- E5. auto.
  Qed.

  Definition fset (f : nat -> dv) (v : nat) (d : dv) (x : nat) : dv := if v =? x then d else f x.

  (* clear *)
  Definition cleared h (d : dv) (h' : heap) : Prop :=
    length h' = length h /\
    forall b, nth_error h' b = (if dv_own d then match dv_data d with Some (c, _) => if c =? b then Some None else nth_error h b | None => nth_error h b end else nth_error h b).
  Lemma clear_wff h f v : wff h f -> exists h', clear_dv h (f v) = Ok (h', dv_empty) /\ cleared h (f v) h' /\ wff h' (fset f v dv_empty).
  Proof.
    intros W. unfold clear_dv. destruct (dv_own (f v)) eqn:O.
    - destruct (f_own _ _ W v O) as [b [l [E1 [E2 E3]]]]. rewrite E1. cbn [free_mem obind]. rewrite E2, Nat.eqb_refl. cbn [obind].
      assert (Hb : b < length h) by (apply nth_error_Some; congruence).
      exists (upd h b None). split; [auto|]. split.
      { split; [apply upd_length|]. intros c. rewrite O, E1. destruct (Nat.eqb_spec b c) as [<-|N];
        [now apply nth_error_upd_same|now apply nth_error_upd_diff]. }
      destruct W as [A B C D F]. constructor.
      + intros w. unfold fset. destruct (Nat.eqb_spec v w) as [->|N]; [discriminate|]. intros Ow.
        destruct (A w Ow) as [c [m [G1 [G2 G3]]]]. exists c, m. repeat split; auto.
        rewrite nth_error_upd_diff; auto. intros <-. apply N. eapply B; eauto.
      + intros x y c i j. unfold fset. destruct (Nat.eqb_spec v x); [discriminate|]. destruct (Nat.eqb_spec v y); [discriminate|]. apply B.
      + intros c m. destruct (Nat.eq_dec b c) as [<-|N]; [rewrite nth_error_upd_same by auto; discriminate|].
        rewrite nth_error_upd_diff by auto. intros G. destruct (C c m G) as [x [X1 X2]]. exists x. unfold fset.
        destruct (Nat.eqb_spec v x) as [<-|]; [congruence|auto].
      + intros x. unfold fset. destruct (Nat.eqb_spec v x); [auto|]. apply D.
      + intros x c i. unfold fset. destruct (Nat.eqb_spec v x); [discriminate|]. intros G. rewrite upd_length.
        destruct (F x c i G) as [F1 F2]. split; auto. intros m. destruct (Nat.eq_dec b c) as [<-|N'];
        [rewrite nth_error_upd_same by auto; discriminate|]. rewrite nth_error_upd_diff by auto. auto.
    - cbn [obind]. exists h. split; [auto|]. split; [split; [auto|intros b; now rewrite O]|].
      destruct W as [A B C D F]. constructor.
      + intros w. unfold fset. destruct (Nat.eqb_spec v w) as [->|N]; [discriminate|]. apply A.
      + intros x y c i j. unfold fset. destruct (Nat.eqb_spec v x); [discriminate|]. destruct (Nat.eqb_spec v y); [discriminate|]. apply B.
      + intros c m G. destruct (C c m G) as [x [X1 X2]]. exists x. unfold fset. destruct (Nat.eqb_spec v x) as [<-|]; [congruence|auto].
      + intros x. unfold fset. destruct (Nat.eqb_spec v x); [auto|]. apply D.
      + intros x c i. unfold fset. destruct (Nat.eqb_spec v x); [discriminate|]. apply F.
  Qed.

  Lemma new_wff h f v l : wff h f -> f v = dv_empty -> wff (fst (new_dv h l)) (fset f v (snd (new_dv h l))).
  Proof.
    intros [A B C D F] E. unfold new_dv. cbn [fst snd].
    assert (Hold : forall x b i, dv_data (f x) = Some (b, i) -> nth_error (h ++ [Some l]) b = nth_error h b).
    { intros x b i G. destruct (F x b i G). now rewrite nth_error_app1. }
    constructor.
    - intros x. unfold fset. destruct (Nat.eqb_spec v x) as [<-|N].
      + intros _. exists (length h), l. repeat split. rewrite nth_error_app2, Nat.sub_diag; auto.
      + intros O. destruct (A x O) as [b [m [E1 [E2 E3]]]]. exists b, m. repeat split; auto. rewrite (Hold x b 0); auto.
    - intros x y b i j. unfold fset. destruct (Nat.eqb_spec v x) as [<-|N]; destruct (Nat.eqb_spec v y) as [<-|N'];
      cbn [dv_own dv_data]; auto.
      + intros _ _ G1 G2. injection G1 as <- <-. apply F in G2. lia.
      + intros _ _ G1 G2. injection G2 as <- <-. apply F in G1. lia.
      + apply B.
    - intros b m G. destruct (Nat.lt_ge_cases b (length h)) as [Hb|Hb].
      + rewrite nth_error_app1 in G by auto. destruct (C b m G) as [x [X1 X2]]. exists x. unfold fset.
        destruct (Nat.eqb_spec v x) as [<-|]; [rewrite E in X1; discriminate|auto].
      + exists v. unfold fset. rewrite Nat.eqb_refl. cbn. split; auto.
        assert (b < length (h ++ [Some l])) by (apply nth_error_Some; congruence). rewrite app_length in H. cbn in H. do 2 f_equal. lia.
    - intros x. unfold fset. destruct (Nat.eqb_spec v x); [discriminate|apply D].
    - intros x b i. unfold fset. rewrite app_length. cbn [length]. destruct (Nat.eqb_spec v x); cbn [dv_data dv_size].
      + intros G. injection G as <- <-. split; [lia|]. intros m. rewrite nth_error_app2, Nat.sub_diag by auto. cbn. intros G. injection G as <-. lia.
      + intros G. destruct (F x b i G) as [F1 F2]. split; [lia|]. rewrite (Hold x b i G). auto.
  Qed.

  Lemma view_wff h f v r b off start n : wff h f -> f v = dv_empty -> dv_data (f r) = Some (b, off) -> start + n <= dv_size (f r) ->
    wff h (fset f v (mkDv false (Some (b, off + start)) n)).
  Proof.
    intros [A B C D F] E G L. constructor.
    - intros x. unfold fset. destruct (Nat.eqb_spec v x); [discriminate|apply A].
    - intros x y c i j. unfold fset. destruct (Nat.eqb_spec v x); [discriminate|]. destruct (Nat.eqb_spec v y); [discriminate|apply B].
    - intros c m H. destruct (C c m H) as [x [X1 X2]]. exists x. unfold fset. destruct (Nat.eqb_spec v x) as [<-|]; [rewrite E in X1; discriminate|auto].
    - intros x. unfold fset. destruct (Nat.eqb_spec v x); [discriminate|apply D].
    - intros x c i. unfold fset. destruct (Nat.eqb_spec v x); [|apply F]. cbn. intros H. injection H as <- <-.
      destruct (F r b off G) as [F1 F2]. split; auto. intros m Hm. specialize (F2 m Hm). lia.
  Qed.

  Lemma move_wff h f r w : wff h f -> f w = dv_empty -> r <> w -> wff h (fset (fset f r dv_empty) w (f r)).
  Proof.
    intros [A B C D F] E N.
    assert (X : forall x, fset (fset f r dv_empty) w (f r) x = (if x =? w then f r else if x =? r then dv_empty else f x)).
    { intros x. unfold fset. rewrite (Nat.eqb_sym w), (Nat.eqb_sym r). auto. }
    eapply wff_ext; [intros x; symmetry; apply X|]. clear X. constructor.
    - intros x. destruct (Nat.eqb_spec x w); [apply A|]. destruct (Nat.eqb_spec x r); [discriminate|apply A].
    - intros x y b i j. destruct (Nat.eqb_spec x w) as [->|]; destruct (Nat.eqb_spec y w) as [->|]; auto.
      + destruct (Nat.eqb_spec y r) as [->|N']; [discriminate|]. intros H1 H2 H3 H4. exfalso. apply N'. symmetry. eapply B; eauto.
      + destruct (Nat.eqb_spec x r) as [->|N']; [discriminate|]. intros H1 H2 H3 H4. exfalso. apply N'. eapply B; eauto.
      + destruct (Nat.eqb_spec x r); [discriminate|]. destruct (Nat.eqb_spec y r); [discriminate|]. apply B.
    - intros b l H. destruct (C b l H) as [x [X1 X2]]. destruct (Nat.eq_dec x r) as [->|N'].
      + exists w. now rewrite Nat.eqb_refl.
      + exists x. destruct (Nat.eqb_spec x w) as [->|]; [rewrite E in X1; discriminate|]. destruct (Nat.eqb_spec x r); [contradiction|auto].
    - intros x. destruct (Nat.eqb_spec x w); [apply D|]. destruct (Nat.eqb_spec x r); [auto|apply D].
    - intros x b i. destruct (Nat.eqb_spec x w); [apply F|]. destruct (Nat.eqb_spec x r); [discriminate|apply F].
  Qed.
End Mem.
Arguments cell {K} _ _ _.
Arguments shape {K} _ _.
Arguments wff {K} _ _.
Arguments cleared {K} _ _ _.
