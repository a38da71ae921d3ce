(* Histories of dVec operations *)
From Coq Require Import NArith.
From Verif Require Import Base BaseProofs VecModel SpecVec VecProofs VecOps.
Local Open Scope nat_scope.

Section Final.
  Variable K : Num.
  Implicit Types (s : vst K) (o : vop K).

  Lemma wf_vstart : wf (vstart (K := K)).
  Proof.
    assert (V : forall x, var (vstart (K := K)) x = dv_empty) by (intros x; now apply var_none; cbn; lia).
    constructor.
    - intros v. rewrite V. discriminate.
    - intros v w b i j. rewrite V. discriminate.
    - intros b l. cbn. now destruct b.
    - intros v. rewrite V. auto.
    - intros v b i. rewrite V. discriminate.
  Qed.

  Lemma run_vops_wf os : forall s s', wf s -> Forall no_wrap os -> run_vops s os = Ok s' -> wf s'.
  Proof.
    induction os as [|o os IH]; intros s s' W F E; cbn in E.
    - now injection E as <-.
    - apply obind_ok in E. destruct E as [s1 [E1 E2]]. inversion F; subst. eapply IH; [|eauto|exact E2]. now apply (vop_sound K s o s1).
  Qed.

  Lemma keep_var s o s' x : wf s -> no_wrap o -> run_vop s o = Ok s' -> x < length (vs_vars s) -> repoints s o x = false -> var s' x = var s x.
  Proof.
    intros W NW E L R. destruct (vop_sound K s o s' W NW E) as [_ [A [B _]]].
    destruct (Nat.eq_dec x (target s o)) as [->|N].
    - now apply B.
    - apply A; auto. destruct o; cbn; auto. cbn in R. apply Nat.eqb_neq in R. congruence.
  Qed.
  Lemma run_length s o s' : run_vop s o = Ok s' -> length (vs_vars s) <= length (vs_vars s').
  Proof.
    intros E. destruct o; cbn [run_vop] in E; unfold assign_list in E;
    repeat match type of E with
    | obind _ _ = Ok _ => apply obind_ok in E; let x := fresh "x" in let H := fresh "H" in destruct E as [x [H E]]
    | asserting _ _ = Ok _ => apply asserting_ok in E; let H := fresh "H" in destruct E as [H E]
    | (match ?p with _ => _ end) = Ok _ => destruct p
    | (if ?p then _ else _) = Ok _ => destruct p
    | UB = _ => discriminate
    | Ok _ = _ => injection E as <-
    end; cbn [vs_vars]; rewrite ?app_length, ?upd_length; try lia.
  Qed.

  (* a vector becomes dangling only when the owner of its memory gives it up *)
  Lemma dangling_cause s o s' x : wf s -> no_wrap o -> run_vop s o = Ok s' -> x <> target s o -> ~ moved o x ->
    dangling s' x -> dangling s x \/
    (repoints s o (target s o) = true /\ dv_own (var s (target s o)) = true /\
     option_map fst (dv_data (var s (target s o))) = option_map fst (dv_data (var s x))).
  Proof.
    intros W NW E N M D. assert (S := vop_sound K s o s' W NW E). destruct S as [W' [A [B _]]].
    destruct (A x N M) as [Vx _]. destruct D as [b [i [D1 D2]]]. rewrite Vx in D1.
    assert (Wf := W). apply wf_wff in Wf. destruct (f_in _ _ _ Wf x b i D1) as [Hb _].
    destruct (nth_error (vs_heap s) b) as [[l|]|] eqn:G; [|left; exists b, i; auto|apply nth_error_None in G; lia].
    right. destruct (f_live _ _ _ Wf b l G) as [y [Y1 Y2]].
    assert (Ly : y < length (vs_vars s)).
    { destruct (Nat.lt_ge_cases y (length (vs_vars s))); auto. rewrite var_none in Y1 by auto. discriminate. }
    assert (NV : var s' y <> var s y).
    { intros Vy. apply wf_wff in W'. rewrite <- Vy in Y1, Y2. destruct (f_own _ _ _ W' y Y1) as [b' [l' [Q1 [Q2 _]]]]. rewrite Q1 in Y2. injection Y2 as ->. congruence. }
    destruct (repoints s o y) eqn:R.
    2:{ exfalso. apply NV. eapply keep_var; eauto. }
    destruct (Nat.eq_dec y (target s o)) as [->|Ny].
    - split; [auto|]. split; [auto|]. now rewrite Y2, D1.
    - exfalso. destruct o; cbn in R, Ny; try discriminate; try (apply Nat.eqb_eq in R; congruence).
      + apply Nat.eqb_eq in R. subst r. cbn [run_vop] in E. rewrite (aget_ok K s y Ly) in E. cbn in E. injection E as <-. cbn in D2. congruence.
      + apply andb_true_iff in R. destruct R as [R _]. apply andb_true_iff in R. destruct R as [R _]. apply Nat.eqb_eq in R. congruence.
      + apply andb_true_iff in R. destruct R as [R _]. apply Nat.eqb_eq in R. congruence.
  Qed.
  Lemma owner_alive s v : wf s -> dv_own (var s v) = true -> ~ dangling s v /\ exists l, contents s v = Ok l /\ length l = dv_size (var s v).
  Proof.
    intros W O. apply wf_wff in W. destruct (f_own _ _ _ W v O) as [b [l [E1 [E2 E3]]]]. split.
    - intros [b' [i [D1 D2]]]. rewrite E1 in D1. injection D1 as <- <-. congruence.
    - exists l. split; auto. unfold contents, read_dv. rewrite E1, (read_live K _ _ _ _ l) by (auto; lia). cbn [skipn]. now rewrite <- E3, firstn_all.
  Qed.

  (* views *)
  Lemma view_reads s w v start n l : is_view s w v start n -> contents s v = Ok l -> contents s w = Ok (firstn n (skipn start l)).
  Proof.
    intros [b [i [E1 [E2 [E3 E4]]]]] E. unfold contents, read_dv in *. rewrite E1 in E. rewrite E2, E3. apply read_cells in E. destruct E as [L E].
    apply read_cells. split; [rewrite firstn_length, skipn_length; lia|]. intros k Hk. rewrite <- Nat.add_assoc, E by lia. symmetry. now apply nth_error_firstn_skipn.
  Qed.
  Lemma view_created s w v start n s' : wf s -> no_wrap (VView (K := K) w v start n) -> run_vop s (VView w v start n) = Ok s' ->
    is_view s' w v start n /\ w <> v /\ w < length (vs_vars s') /\ v < length (vs_vars s').
  Proof.
    intros W NW E. assert (Len := run_length _ _ _ E). assert (S := vop_sound K _ _ _ W NW E). destruct S as [_ [A _]]. cbn [run_vop] in E.
    apply obind_ok in E. destruct E as [d [Ed E]]. apply aget_var in Ed. destruct Ed as [L ->]. apply obind_ok in E. destruct E as [hc [Ec E]].
    apply obind_ok in E. destruct E as [e [Ee E]]. apply (aget_var K (mkVst (fst hc) (upd (vs_vars s) w dv_empty))) in Ee. cbn [vs_vars] in Ee.
    destruct Ee as [Lr ->]. rewrite upd_length in Lr. rewrite (var_upd K (vs_heap s)) in E by auto.
    destruct (Nat.eq_dec w v) as [->|N]; [unfold fset in E; rewrite Nat.eqb_refl in E; discriminate|].
    destruct (A v (not_eq_sym N) (fun x => x)) as [Vv _].
    assert (Fr : fset (var (mkVst (vs_heap s) (vs_vars s))) w dv_empty v = var s v) by (unfold fset; destruct (Nat.eqb_spec w v); [congruence|reflexivity]).
    rewrite Fr in E. destruct (dv_data (var s v)) as [[b off]|] eqn:Dr; [|discriminate].
    apply asserting_ok in E. destruct E as [As E].
    assert (Sz : start + n <= dv_size (var s v)).
    { cbn in NW. unfold wrap32 in As. rewrite N.mod_small in As by exact NW. apply N.leb_le in As. lia. }
    split; [|split; [auto|split; lia]]. exists b, off. rewrite Vv. split; [auto|].
    injection E as <-. rewrite (upd_upd (A := dv)). rewrite (var_upd K (vs_heap s)) by auto. unfold fset. rewrite Nat.eqb_refl. auto.
  Qed.
  Lemma keeps_view os : forall s s' w v start n, wf s -> Forall no_wrap os -> run_vops s os = Ok s' ->
    w < length (vs_vars s) -> v < length (vs_vars s) -> keeps s os w -> keeps s os v -> is_view s w v start n -> is_view s' w v start n.
  Proof.
    induction os as [|o os IH]; intros s s' w v start n W F E Lw Lv Kw Kv V; cbn in E.
    - now injection E as <-.
    - apply obind_ok in E. destruct E as [s1 [E1 E2]]. inversion F; subst. cbn in Kw, Kv. rewrite E1 in Kw, Kv.
      assert (Len := run_length _ _ _ E1).
      eapply IH; [|eauto|exact E2|lia|lia|apply Kw|apply Kv|].
      + now apply (vop_sound K s o s1).
      + unfold is_view. rewrite (keep_var s o s1 w), (keep_var s o s1 v); auto; tauto.
  Qed.

  (* operations in place *)
  Lemma inplace_cells s o s' : wf s -> run_vop s o = Ok s' -> target s o < length (vs_vars s) -> repoints s o (target s o) = false ->
    (forall b, shape (vs_heap s') b = shape (vs_heap s) b) /\
    forall c j, (forall b i, dv_data (var s (target s o)) = Some (b, i) -> c <> b \/ j < i \/ i + dv_size (var s (target s o)) <= j) ->
      cell (vs_heap s') c j = cell (vs_heap s) c j.
  Proof.
    intros W E L R. destruct o; cbn [target] in *; try lia; cbn in R; rewrite ?Nat.eqb_refl in R; try discriminate; cbn [run_vop] in E.
    - (* assign *)
      apply obind_ok in E. destruct E as [d [Ed E]]. apply aget_var in Ed. destruct Ed as [_ ->].
      apply obind_ok in E. destruct E as [e [Ee E]]. apply aget_var in Ee. destruct Ee as [_ ->].
      destruct (v =? r); [injection E as <-; auto|]. cbn in R. apply negb_false_iff, andb_true_iff in R. destruct R as [R1 R2]. rewrite R1, R2 in E. cbn in E.
      destruct (overlap _ _); [discriminate|]. apply obind_ok in E. destruct E as [l [El E]]. apply obind_ok in E. destruct E as [h' [Eh E]]. injection E as <-. cbn [vs_heap].
      apply Nat.eqb_eq in R2. unfold read_dv, is_init in *. destruct (dv_data (var s r)) as [[c k]|]; [|discriminate]. apply read_cells in El. destruct El as [Ll _].
      destruct (dv_data (var s v)) as [[b i]|].
      + destruct (write_cells K _ _ _ _ _ Eh) as [Sh [_ C]]. split; auto. intros c' j H. rewrite C. destruct (Nat.eqb_spec c' b); cbn [andb]; auto.
        destruct (Nat.leb_spec i j); cbn [andb]; auto. destruct (Nat.ltb_spec j (i + length l)); auto. destruct (H b i eq_refl) as [H'|H']; [congruence|lia].
      + unfold write_mem in Eh. destruct (_ =? _); [injection Eh as <-; auto|discriminate].
    - (* eval *)
      apply obind_ok in E. destruct E as [l [El E]]. rewrite El in R. cbn in R. apply negb_false_iff in R. unfold assign_list in E.
      apply obind_ok in E. destruct E as [d [Ed E]]. apply aget_var in Ed. destruct Ed as [_ ->]. rewrite R in E. cbn in E.
      apply obind_ok in E. destruct E as [h' [Eh E]]. injection E as <-. cbn [vs_heap]. apply Nat.eqb_eq in R.
      destruct (dv_data (var s v)) as [[b i]|].
      + destruct (write_cells K _ _ _ _ _ Eh) as [Sh [_ C]]. split; auto. intros c' j H. rewrite C. destruct (Nat.eqb_spec c' b); cbn [andb]; auto.
        destruct (Nat.leb_spec i j); cbn [andb]; auto. destruct (Nat.ltb_spec j (i + length l)); auto. destruct (H b i eq_refl) as [H'|H']; [congruence|lia].
      + unfold write_mem in Eh. destruct (_ =? _); [injection Eh as <-; auto|discriminate].
    - (* += *)
      apply obind_ok in E. destruct E as [d [Ed E]]. apply aget_var in Ed. destruct Ed as [_ ->].
      apply obind_ok in E. destruct E as [e [Ee E]]. apply aget_var in Ee. destruct Ee as [_ ->].
      destruct (dv_data (var s v)) as [[b i]|]; [|discriminate]. destruct (dv_data (var s r)) as [[c k]|]; [|discriminate].
      apply asserting_ok in E. destruct E as [_ E]. apply obind_ok in E. destruct E as [h' [Eh E]]. injection E as <-. cbn [vs_heap].
      destruct (addto_shape _ _ _ _ _ _ _ _ _ Eh) as [Sh [_ C]]. split; auto. intros c' j H. apply C. intros [-> [k' [I G]]]. apply in_seq in I.
      destruct (H b i eq_refl) as [H'|H']; [congruence|lia].
    - (* fill *)
      apply obind_ok in E. destruct E as [d [Ed E]]. apply aget_var in Ed. destruct Ed as [_ ->]. apply asserting_ok in E. destruct E as [_ E].
      apply obind_ok in E. destruct E as [h' [Eh E]]. injection E as <-. cbn [vs_heap].
      destruct (dv_data (var s v)) as [[b i]|].
      + destruct (write_cells K _ _ _ _ _ Eh) as [Sh [_ C]]. split; auto. rewrite repeat_length in C. intros c' j H. rewrite C. destruct (Nat.eqb_spec c' b); cbn [andb]; auto.
        destruct (Nat.leb_spec i j); cbn [andb]; auto. destruct (Nat.ltb_spec j (i + dv_size (var s v))); auto. destruct (H b i eq_refl) as [H'|H']; [congruence|lia].
      + unfold write_mem in Eh. destruct (_ =? _); [injection Eh as <-; auto|discriminate].
    - (* set *)
      apply obind_ok in E. destruct E as [d [Ed E]]. apply aget_var in Ed. destruct Ed as [_ ->].
      destruct (dv_data (var s v)) as [[b i0]|]; [|discriminate]. apply asserting_ok in E. destruct E as [Hi E]. apply Nat.ltb_lt in Hi.
      apply obind_ok in E. destruct E as [h' [Eh E]]. injection E as <-. cbn [vs_heap].
      destruct (write_cells K _ _ _ _ _ Eh) as [Sh [_ C]]. split; auto. cbn [length] in C. intros c' j H. rewrite C. destruct (Nat.eqb_spec c' b); cbn [andb]; auto.
      destruct (Nat.leb_spec (i0 + i) j); cbn [andb]; auto. destruct (Nat.ltb_spec j (i0 + i + 1)); auto. destruct (H b i0 eq_refl) as [H'|H']; [congruence|lia].
  Qed.

  (* writing to a view changes exactly that part of the vector *)
  Lemma view_writes s o s' v start n l m : wf s -> no_wrap o -> clean o s -> run_vop s o = Ok s' ->
    target s o < length (vs_vars s) -> repoints s o (target s o) = false ->
    is_view s (target s o) v start n -> repoints s o v = false -> v < length (vs_vars s) ->
    contents s v = Ok l -> expected s o = Ok m -> length m = n /\ contents s' v = Ok (firstn start l ++ m ++ skipn (start + n) l).
  Proof.
    intros W NW Cl E Lt Rt V Rv Lv El Em. set (w := target s o) in *.
    assert (Vw : var s' w = var s w) by (apply (keep_var s o s' w); auto).
    assert (Vv : var s' v = var s v) by (apply (keep_var s o s' v); auto).
    destruct (inplace_cells s o s' W E Lt Rt) as [Sh C]. fold w in C.
    assert (Ew := view_reads s w v start n l V El).
    assert (Nd : n = 0 \/ ~ dangling s' w).
    { destruct (Nat.eq_dec n 0); [auto|right]. intros [b [i [D1 D2]]]. rewrite Vw in D1. apply (shape_dead K (vs_heap s') (vs_heap s)) in D2; [|symmetry; apply Sh].
      destruct V as [_ [_ [_ [_ [V3 _]]]]]. unfold contents, read_dv, read_mem in Ew. rewrite D1, V3, D2 in Ew. apply Nat.eqb_neq in n0. rewrite n0 in Ew. discriminate. }
    assert (Ew' : length m = n -> contents s' w = Ok m).
    { destruct Nd as [->|Nd].
      - intros L. destruct m; [|discriminate]. unfold contents, read_dv. destruct V as [_ [_ [_ [_ [V3 _]]]]]. now rewrite Vw, V3.
      - intros _. apply (vop_sound K s o s' W NW E); auto. }
    assert (Lm : length m = n).
    { destruct Nd as [->|Nd].
      - destruct V as [b [i [V1 [V2 [V3 V4]]]]]. unfold w in *. destruct o; cbn [target] in *; try lia; cbn in Rt; rewrite ?Nat.eqb_refl in Rt; try discriminate; cbn [expected] in Em.
        + destruct (Nat.eqb_spec v0 r) as [->|]; [rewrite Ew in Em; injection Em as <-; reflexivity|]. cbn in Rt. apply negb_false_iff, andb_true_iff in Rt. destruct Rt as [_ R2]. apply Nat.eqb_eq in R2.
          unfold contents, read_dv in Em. rewrite <- R2, V3 in Em. cbn in Em. injection Em as <-. auto.
        + rewrite Em in Rt. cbn in Rt. apply negb_false_iff, Nat.eqb_eq in Rt. lia.
        + rewrite Ew in Em. cbn in Em. destruct (contents s r); try discriminate. cbn in Em. injection Em as <-. auto.
        + injection Em as <-. now rewrite repeat_length.
        + rewrite Ew in Em. cbn in Em. injection Em as <-. auto.
      - assert (G : contents s' w = Ok m) by (apply (vop_sound K s o s' W NW E); auto).
        unfold contents, read_dv in G. rewrite Vw in G. destruct V as [b [i [V1 [V2 [V3 V4]]]]]. rewrite V2 in G. apply read_cells in G. lia. }
    split; [auto|]. specialize (Ew' Lm). destruct V as [b [i [V1 [V2 [V3 V4]]]]].
    unfold contents, read_dv in *. rewrite Vv, V1 in *. rewrite Vw, V2 in Ew'. apply read_cells in Ew'. apply read_cells in El. destruct El as [Ll El]. destruct Ew' as [_ Ew'].
    assert (Lf : length (firstn start l) = start) by (rewrite firstn_length; lia).
    apply read_cells. split; [rewrite !app_length, skipn_length; lia|]. intros k Hk.
    rewrite <- Lm, (nth_error_splice l m start k) by lia. rewrite Lm.
    destruct (Nat.leb_spec start k); [destruct (Nat.ltb_spec k (start + n))|]; cbn [andb].
    - rewrite <- Ew' by lia. f_equal. lia.
    - rewrite C by (rewrite V2, V3; intros b' i' G; injection G as <- <-; lia). apply El. lia.
    - rewrite C by (rewrite V2, V3; intros b' i' G; injection G as <- <-; lia). apply El. lia.
  Qed.

  (* clearing all vectors frees all memory *)
  Lemma clear_all s : wf s -> exists s', run_vops s (map VClear (seq 0 (length (vs_vars s)))) = Ok s' /\ Forall (fun a => a = None) (vs_heap s').
  Proof.
    intros W.
    assert (H : forall n, n <= length (vs_vars s) -> exists s', run_vops s (map VClear (seq 0 n)) = Ok s' /\ wf s' /\ length (vs_vars s') = length (vs_vars s) /\ forall x, x < n -> var s' x = dv_empty).
    { induction n as [|n IH]; intros Hn.
      - exists s. split; [reflexivity|]. split; [auto|]. split; [auto|]. intros x Hx. lia.
      - destruct (IH ltac:(lia)) as [s1 [E1 [W1 [L1 V1]]]]. rewrite seq_S, map_app. unfold run_vops in *. rewrite ofold_app, E1. cbn [obind map ofold].
        cbn [run_vop plus]. rewrite aget_ok by lia. cbn [obind]. assert (W1' := W1). apply wf_wff in W1'. destruct (clear_wff K _ _ n W1') as [h2 [E2 [C2 W2]]].
        rewrite E2. cbn [obind fst snd]. eexists. split; [reflexivity|].
        assert (V : forall x, var (mkVst h2 (upd (vs_vars s1) n dv_empty)) x = fset (var s1) n dv_empty x) by (intros x; apply (var_upd K (vs_heap s1)); lia).
        split; [apply wf_wff; eapply wff_ext; [intros x; symmetry; apply V|exact W2]|]. split; [cbn; now rewrite upd_length|].
        intros x Hx. rewrite V. unfold fset. destruct (Nat.eqb_spec n x); [auto|]. apply V1. lia. }
    destruct (H _ (le_n _)) as [s' [E [W' [L' V']]]]. exists s'. split; auto. apply Forall_forall. intros a I. apply In_nth_error in I. destruct I as [b Hb].
    destruct a as [l|]; auto. exfalso. apply wf_wff in W'. destruct (f_live _ _ _ W' b l Hb) as [x [X1 X2]].
    destruct (Nat.lt_ge_cases x (length (vs_vars s))); [rewrite V' in X1 by auto|rewrite var_none in X1 by lia]; discriminate.
  Qed.

  (* operations within their preconditions are defined *)
  Lemma readable_read s v : wf s -> readable s v -> exists l, contents s v = Ok l /\ length l = dv_size (var s v).
  Proof.
    intros W [L D]. apply wf_wff in W. unfold contents, read_dv. destruct (Nat.eq_dec (dv_size (var s v)) 0) as [Z|Z].
    { rewrite Z. exists []. auto. }
    specialize (D Z). destruct (dv_data (var s v)) as [[b i]|] eqn:E; [|apply (f_null _ _ _ W) in E; lia].
    destruct (f_in _ _ _ W v b i E) as [Hb Hl]. destruct (nth_error (vs_heap s) b) as [[l|]|] eqn:G.
    - exists (firstn (dv_size (var s v)) (skipn i l)). specialize (Hl l eq_refl). split; [apply read_live; auto|]. rewrite firstn_length, skipn_length. lia.
    - exfalso. apply D. exists b, i. auto.
    - apply nth_error_None in G. lia.
  Qed.
  Lemma readable_write s v (xs : list K) h1 : wf s -> readable s v -> length xs = dv_size (var s v) -> (forall b, shape h1 b = shape (vs_heap s) b) -> exists h', write_mem h1 (dv_data (var s v)) xs = Ok h'.
  Proof.
    intros W [L D] Lx Sh. apply wf_wff in W. destruct (Nat.eq_dec (dv_size (var s v)) 0) as [Z|Z].
    { unfold write_mem. rewrite Lx, Z. cbn. eauto. }
    specialize (D Z). destruct (dv_data (var s v)) as [[b i]|] eqn:E; [|apply (f_null _ _ _ W) in E; lia].
    destruct (f_in _ _ _ W v b i E) as [Hb Hl]. destruct (nth_error (vs_heap s) b) as [[l|]|] eqn:G.
    - destruct (shape_live K (vs_heap s) h1 b l (Sh b) G) as [l' [G1 G2]]. specialize (Hl l eq_refl). eapply write_ok; eauto. lia.
    - exfalso. apply D. exists b, i. auto.
    - apply nth_error_None in G. lia.
  Qed.
  Lemma operand_read s a : wf s -> operand_ok s a -> exists l, operand s a = Ok l /\ length l = dv_size (var s a) /\ contents s a = Ok l.
  Proof.
    intros W [R D]. destruct (readable_read s a W R) as [l [E L]]. exists l. unfold operand. rewrite aget_ok by apply R. cbn [obind].
    unfold is_init. destruct (dv_data (var s a)) eqn:G; [|congruence]. cbn. auto.
  Qed.
  Lemma retarget_write s v (l : list K) : wf s -> (dv_size (var s v) = length l -> readable s v) -> exists h1 d1 h', retarget s v (length l) = Ok (h1, d1) /\ write_mem h1 (dv_data d1) l = Ok h'.
  Proof.
    intros W R. destruct (retarget_spec K s v (length l) W) as [h1 [d1 [E [W1 [Sz [Nz [Rd Alt]]]]]]]. exists h1, d1.
    destruct Alt as [[A1 [A2 A3]]|[A1 A2]].
    - subst d1 h1. destruct (readable_write s v l (vs_heap s) W (R A3) (eq_sym A3)) as [h' Eh]; [auto|]. eauto.
    - rewrite A1. assert (Hn : exists m, nth_error h1 (length (vs_heap s)) = Some (Some m) /\ length m = length l).
      { unfold retarget in E. apply Nat.eqb_neq in A2. rewrite A2 in E. apply obind_ok in E. destruct E as [hc [Ec E]]. unfold new_dv in E. injection E as E1 E2.
        rewrite <- E2 in A1. cbn in A1. injection A1 as A1. rewrite <- A1, <- E1, nth_error_app2, Nat.sub_diag by auto. exists (repeat r0 (length l)). split; auto. apply repeat_length. }
      destruct Hn as [m [G1 G2]]. destruct (write_ok K h1 (length (vs_heap s)) 0 l m G1 ltac:(lia)) as [h' Eh]. eauto.
  Qed.

  Lemma allowed_ok s o : wf s -> no_wrap o -> allowed s o -> exists s', run_vop s o = Ok s'.
  Proof.
    intros W NW A. assert (Wf := W). apply wf_wff in Wf. destruct o; cbn [allowed] in A; cbn [run_vop].
    - eauto.
    - rewrite aget_ok by auto. cbn [obind]. destruct (clear_wff K _ _ v Wf) as [h1 [E1 _]]. rewrite E1. cbn. eauto.
    - destruct A as [Lv [Lr [N [D S]]]]. rewrite aget_ok by auto. cbn [obind]. destruct (clear_wff K _ _ v Wf) as [h1 [E1 _]]. rewrite E1. cbn [obind fst].
      change (upd (vs_vars s) v dv_empty) with (vs_vars (mkVst h1 (upd (vs_vars s) v dv_empty))). rewrite (aget_ok K (mkVst h1 (upd (vs_vars s) v dv_empty)) r) by (cbn; now rewrite upd_length).
      cbn [obind]. rewrite (var_upd K (vs_heap s)) by auto. unfold fset. destruct (Nat.eqb_spec v r); [congruence|]. rewrite (var_eta K s r).
      destruct (dv_data (var s r)) as [[b off]|]; [|congruence]. cbn in NW. unfold wrap32. rewrite N.mod_small by exact NW.
      destruct (N.leb_spec (N.of_nat (start + n)) (N.of_nat (dv_size (var s r)))); [cbn; eauto|lia].
    - rewrite aget_ok by apply A. cbn [obind]. destruct (is_init (var s r)); [|eauto]. destruct (readable_read s r W A) as [l [E _]]. unfold contents in E. rewrite E. cbn. eauto.
    - rewrite aget_ok by auto. cbn. eauto.
    - destruct A as [Lv [Rr [A1 A2]]]. rewrite !aget_ok by (auto; apply Rr). cbn [obind]. destruct (Nat.eqb_spec v r); [eauto|].
      destruct (is_init (var s r)) eqn:In; cbn [negb].
      2:{ destruct (clear_wff K _ _ v Wf) as [h1 [E1 _]]. rewrite E1. cbn. eauto. }
      destruct (readable_read s r W Rr) as [l [El Ll]].
      destruct (retarget_write s v l W) as [h1 [d1 [h' [E1 E2]]]].
      { intros G. apply A1. congruence. }
      destruct (retarget_spec K s v (length l) W) as [h2 [d2 [R' [W2 [Sz [_ [Rd Alt]]]]]]]. rewrite E1 in R'. injection R' as <- <-.
      unfold retarget in E1. rewrite Ll in E1. rewrite E1. cbn [obind fst snd].
      assert (O : overlap d1 (var s r) = false).
      { destruct Alt as [[B1 [B2 B3]]|[B1 B2]].
        - subst d1. destruct (A1 ltac:(congruence)) as [_ [->|H]]; [congruence|exact H].
        - unfold overlap. rewrite B1. destruct (dv_data (var s r)) as [[c j]|] eqn:Dr; auto. destruct (f_in _ _ _ Wf r c j Dr) as [Hc _].
          destruct (Nat.eqb_spec (length (vs_heap s)) c); [lia|auto]. }
      rewrite O. unfold contents, read_dv in *.
      assert (El' : read_mem h1 (dv_data (var s r)) (dv_size (var s r)) = Ok l).
      { destruct (Nat.eq_dec (dv_size (var s r)) 0) as [Z|Z]; [rewrite Z in *; exact El|]. rewrite Rd; auto; [now apply (wff_inheap K _ (var s))|].
        intros [b [i [D1 D2]]]. destruct Alt as [[B1 [B2 B3]]|[B1 B2]].
        - subst h1. apply (proj2 Rr Z). exists b, i. auto.
        - apply Nat.eqb_neq in B2. rewrite <- Ll, B2 in E1. apply obind_ok in E1. destruct E1 as [hc [Ec E1]]. destruct (clear_wff K _ _ v Wf) as [h3 [E3 [C3 _]]]. rewrite E3 in Ec. injection Ec as <-.
          cbn [fst] in E1. unfold new_dv in E1. injection E1 as E1 _. destruct (f_in _ _ _ Wf r b i D1) as [Hb _]. destruct C3 as [C3 C3'].
          rewrite <- E1, nth_error_app1 in D2 by lia. rewrite C3' in D2. destruct (dv_own (var s v)) eqn:Ow.
          + destruct (dv_data (var s v)) as [[c j]|] eqn:Dv.
            * destruct (Nat.eqb_spec c b) as [->|].
              { apply A2; auto; [apply Nat.eqb_neq in B2; congruence|]. rewrite D1. reflexivity. }
              apply (proj2 Rr Z). exists b, i. auto.
            * apply (proj2 Rr Z). exists b, i. auto.
          + apply (proj2 Rr Z). exists b, i. auto. }
      rewrite El'. cbn [obind]. rewrite E2. cbn. eauto.
    - destruct A as [Rv Ae]. assert (Ee : exists l, eval s e = Ok l).
      { destruct e as [f a|f a b]; cbn [eval expr_ok] in *.
        - destruct (operand_read s a W Ae) as [l [E _]]. rewrite E. cbn. eauto.
        - destruct Ae as [Aa [Ab Es]]. destruct (operand_read s a W Aa) as [l [E [L _]]]. destruct (operand_read s b W Ab) as [m [E' [L' _]]]. rewrite E, E'. cbn [obind].
          rewrite L, L', Es, Nat.eqb_refl. cbn. eauto. }
      destruct Ee as [l El]. rewrite El. cbn [obind]. unfold assign_list. rewrite aget_ok by apply Rv. cbn [obind].
      destruct (retarget_write s v l W (fun _ => Rv)) as [h1 [d1 [h' [E1 E2]]]]. unfold retarget in E1. rewrite E1. cbn [obind fst snd]. rewrite E2. cbn. eauto.
    - destruct A as [Av [Ar Es]]. rewrite !aget_ok by (apply Av || apply Ar). cbn [obind].
      destruct (operand_read s v W Av) as [l [_ [Ll El]]]. destruct (operand_read s r W Ar) as [m [_ [Lm Em]]]. unfold contents, read_dv in *.
      destruct Av as [_ Dv]. destruct Ar as [_ Dr]. destruct (dv_data (var s v)) as [[b i]|]; [|congruence]. destruct (dv_data (var s r)) as [[c j]|]; [|congruence].
      rewrite Es, Nat.eqb_refl. cbn [asserting].
      assert (H : forall ks h, (forall k, In k ks -> k < dv_size (var s r)) -> (forall q, shape h q = shape (vs_heap s) q) ->
        exists h', ofold (fun h k => x <- read_mem h (Some (b, i + k)) 1 ;; y <- read_mem h (Some (c, j + k)) 1 ;; write_mem h (Some (b, i + k)) [f (nth 0 x r0) (nth 0 y r0)]) ks h = Ok h').
      { assert (G : forall q off t n, read_mem (vs_heap s) (Some (q, off)) n = Ok t -> n = 0 \/ exists x, nth_error (vs_heap s) q = Some (Some x) /\ off + n <= length x).
        { intros q off t n. unfold read_mem. destruct (Nat.eqb_spec n 0); [auto|]. destruct (nth_error (vs_heap s) q) as [[x|]|]; try discriminate.
          destruct (Nat.leb_spec (off + n) (length x)); [|discriminate]. intros _. right. eauto. }
        apply G in El. apply G in Em. clear G. destruct Em as [Z|[y [Y1 Y2]]].
        { intros [|k ks] h Hk _; [cbn; eauto|]. specialize (Hk k (or_introl eq_refl)). lia. }
        destruct El as [Z|[x [X1 X2]]].
        { intros [|k ks] h Hk _; [cbn; eauto|]. specialize (Hk k (or_introl eq_refl)). lia. }
        induction ks as [|k ks IH]; intros h Hk Sh; [cbn; eauto|]. cbn [ofold].
        assert (Hk' := Hk k (or_introl eq_refl)).
        destruct (shape_live K _ h b x (Sh b) X1) as [x' [X3 X4]]. destruct (shape_live K _ h c y (Sh c) Y1) as [y' [Y3 Y4]].
        rewrite (read_live K h b (i + k) 1 x' X3) by lia. rewrite (read_live K h c (j + k) 1 y' Y3) by lia. cbn [obind].
        match goal with |- context [write_mem h (Some (b, i + k)) ?l] => destruct (write_ok K h b (i + k) l x' X3) as [h' Eh]; [cbn; lia|] end.
        rewrite Eh. cbn [obind]. destruct (write_shape K _ _ _ _ Eh) as [Sh' _]. apply IH; [intros k' I; apply Hk; now right|]. intros q. rewrite Sh'. apply Sh. }
      destruct (H (seq 0 (dv_size (var s r))) (vs_heap s)) as [h' Eh]; [intros k I; apply in_seq in I; lia|auto|]. rewrite Eh. cbn. eauto.
    - destruct A as [R D]. rewrite aget_ok by apply R. cbn [obind]. unfold is_init.
      destruct (readable_write s v (repeat x (dv_size (var s v))) (vs_heap s) W R) as [h' Eh]; [apply repeat_length|auto|]. rewrite Eh.
      destruct (dv_data (var s v)); [cbn; eauto|congruence].
    - destruct A as [[R D] Hi]. rewrite aget_ok by apply R. cbn [obind]. destruct (readable_read s v W R) as [l [El Ll]]. unfold contents, read_dv in El.
      destruct (dv_data (var s v)) as [[b off]|] eqn:Dv; [|congruence]. apply Nat.ltb_lt in Hi. rewrite Hi. cbn [asserting]. apply Nat.ltb_lt in Hi.
      unfold read_mem in El. destruct (Nat.eqb_spec (dv_size (var s v)) 0); [lia|]. destruct (nth_error (vs_heap s) b) as [[m|]|] eqn:G; try discriminate.
      destruct (Nat.leb_spec (off + dv_size (var s v)) (length m)); [|discriminate]. destruct (write_ok K (vs_heap s) b (off + i) [x] m G) as [h' Eh]; [cbn; lia|]. rewrite Eh. cbn. eauto.
    - rewrite aget_ok by auto. cbn [obind]. destruct (clear_wff K _ _ v Wf) as [h1 [E1 _]]. rewrite E1. cbn. eauto.
  Qed.

  Lemma copy_unshared s r s' : wf s -> run_vop s (VCopyNew r) = Ok s' ->
    forall x, x <> length (vs_vars s) -> shared s' (length (vs_vars s)) x = false /\ shared s' x (length (vs_vars s)) = false.
  Proof.
    intros W E x N. assert (S := vop_sound K s (VCopyNew r) s' W I E). destruct S as [W' [A _]]. destruct (A x N (fun z => z)) as [Vx _].
    unfold shared. rewrite Vx. cbn [run_vop] in E. apply obind_ok in E. destruct E as [d [Ed E]]. apply aget_var in Ed. destruct Ed as [L ->].
    apply wf_wff in W. assert (In := fun b i => f_in _ _ _ W x b i). destruct (is_init (var s r)).
    - apply obind_ok in E. destruct E as [l [El E]]. match type of E with Ok ?t = _ => assert (Es : s' = t) by congruence; clear E; subst s' end.
      rewrite var_new. unfold fset. rewrite Nat.eqb_refl. unfold overlap, new_dv. cbn [snd dv_data dv_size]. destruct (dv_data (var s x)) as [[b i]|]; auto.
      destruct (In b i eq_refl) as [Hb _]. destruct (Nat.eqb_spec (length (vs_heap s)) b); [lia|]. destruct (Nat.eqb_spec b (length (vs_heap s))); [lia|auto].
    - injection E as <-. rewrite var_new. unfold fset. rewrite Nat.eqb_refl. unfold overlap. cbn. now destruct (dv_data (var s x)) as [[b i]|].
  Qed.
  (* two different owners never share a number *)
  Lemma owners_disjoint s v w : wf s -> v <> w -> dv_own (var s v) = true -> dv_own (var s w) = true -> shared s v w = false.
  Proof.
    intros W N O1 O2. unfold shared, overlap. destruct (dv_data (var s v)) as [[b i]|] eqn:E; auto. destruct (dv_data (var s w)) as [[c j]|] eqn:G; auto.
    destruct (Nat.eqb_spec b c) as [->|]; auto. exfalso. apply N. apply wf_wff in W. eapply f_one; eauto.
  Qed.
  (* views on separate parts of a vector share nothing *)
  Lemma views_disjoint s v w1 a1 n1 w2 a2 n2 : is_view s w1 v a1 n1 -> is_view s w2 v a2 n2 -> a1 + n1 <= a2 \/ a2 + n2 <= a1 -> shared s w1 w2 = false.
  Proof.
    intros [b [i [E1 [E2 [E3 _]]]]] [c [j [G1 [G2 [G3 _]]]]] H. rewrite E1 in G1. injection G1 as <- <-. unfold shared, overlap. rewrite E2, G2, E3, G3, Nat.eqb_refl. cbn [andb].
    destruct (Nat.ltb_spec (i + a1) (i + a2 + n2)); destruct (Nat.ltb_spec (i + a2) (i + a1 + n1)); auto; lia.
  Qed.
End Final.
