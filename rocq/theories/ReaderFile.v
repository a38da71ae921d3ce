(* constraint equations, renumbering, labels and the round trip of a whole file *)
From Coq Require Import Ascii String.
From Verif Require Import Base ReaderModel SpecReader ReaderProofs ReaderNum SpecCdb.
Local Open Scope nat_scope.
Local Open Scope list_scope.

Lemma n9_int z : n9 z -> int_ok z. Proof. unfold n9, int_ok. lia. Qed.
Lemma n9_wrap z : n9 z -> wrap32 z = z.
Proof. unfold n9, wrap32. intros H. apply Z.mod_small. lia. Qed.
Lemma dec_length f : forall m n, (0 <= n < 10 ^ Z.of_nat (S m))%Z -> length (dec f n) <= S m.
Proof.
  induction f as [|f IH]; intros m n H; cbn [dec]; [cbn; lia|].
  rewrite app_length. cbn [length]. destruct (Z.ltb_spec n 10); [cbn; lia|].
  destruct m as [|m]; [cbn in H; lia|].
  specialize (IH m (n / 10)%Z). rewrite Nat2Z.inj_succ, Z.pow_succ_r in H by lia.
  assert (length (dec f (n / 10)) <= S m); [|lia].
  apply IH. split; [apply Z.div_pos; lia|apply Z.div_lt_upper_bound; lia].
Qed.
Lemma show_length9 z : n9 z -> length (show z) <= 9.
Proof.
  intros [A B]. unfold show. destruct (Z.ltb_spec z 0); [lia|]. apply dec_length. cbn. lia.
Qed.
Lemma p9_length z : n9 z -> length (p9 z) = 9.
Proof. intros H. apply pad_length, show_length9, H. Qed.
Lemma stoi_p9 z : n9 z -> stoi (p9 z) = CVal z.
Proof. intros H. apply stoi_padw, n9_int, H. Qed.
Lemma strim_p9 z : n9 z -> strim (p9 z) = show z.
Proof. intros H. apply strim_pad, show_trimmed, n9_int, H. Qed.
Lemma stoi_show9 z : n9 z -> stoi (show z) = CVal z.
Proof. intros H. apply stoi_show, n9_int, H. Qed.
Lemma pad_nodelim w l : no_delim comma l -> no_delim comma (pad w l).
Proof.
  intros H. unfold pad. apply Forall_app. split; [|exact H].
  apply Forall_forall. intros c I. apply repeat_spec in I. subst. reflexivity.
Qed.
Lemma p9_nodelim z : n9 z -> no_delim comma (p9 z).
Proof. intros H. apply pad_nodelim, show_plain, n9_int, H. Qed.
Lemma p9_plain z : n9 z -> plain (p9 z).
Proof. intros H. apply pad_plain, show_plain, n9_int, H. Qed.

Lemma toks_line ts : ts <> [] -> Forall (no_delim comma) ts -> toks (tok_line ts) = Ok (map strim ts).
Proof.
  intros N F. unfold toks, tok_line. rewrite tokenize_join; [reflexivity| |exact F|].
  - rewrite repeat_length. destruct ts; [exfalso; auto|cbn; lia].
  - apply Forall_forall. intros c I. apply repeat_spec in I. subst. reflexivity.
Qed.

Ltac dof_cases d H := do 8 (destruct d as [|d]; [try reflexivity|]); [..|lia].
Lemma dof_label_ok d : d < 8 -> label2dofType (dof_label d) = d.
Proof. intros H. dof_cases d H. Qed.
Lemma dof_label_trim d : d < 8 -> strim (dof_label d) = dof_label d.
Proof. intros H. dof_cases d H. Qed.
Definition commafree (l : str) : bool := forallb (fun c => negb (mem c comma)) l.
Lemma commafree_ok l : commafree l = true -> no_delim comma l.
Proof.
  unfold commafree. rewrite forallb_forall. intros H. apply Forall_forall. intros c I.
  specialize (H c I). destruct (mem c comma); [discriminate|reflexivity].
Qed.
Definition plainb (l : str) : bool := forallb (fun c => negb (Ascii.eqb c LF || Ascii.eqb c CR)) l.
Lemma plainb_ok l : plainb l = true -> plain l.
Proof.
  unfold plainb. rewrite forallb_forall. intros H.
  split; intros I; specialize (H _ I); vm_compute in H; discriminate.
Qed.
Lemma dof_label_free d : d < 8 -> commafree (dof_label d) && plainb (dof_label d) = true.
Proof. intros H. dof_cases d H. Qed.
Lemma force_label_ok d : d < 8 -> force_dof (strim (force_label d)) = d.
Proof. intros H. dof_cases d H. Qed.
Lemma force_label_free d : d < 8 -> commafree (force_label d) && plainb (force_label d) = true.
Proof. intros H. dof_cases d H. Qed.

Lemma map_flat {A B} (f : A -> B) l : map f l = flat_map (fun b => [f b]) l.
Proof. induction l as [|a l IH]; [reflexivity|]. cbn. rewrite IH. reflexivity. Qed.

Section RT.
  Variable D : Type.
  Variable d0 : D.
  Variable stod : str -> conv D.
  Variable fmt : D -> str.
  Hypothesis FM : fmt_ok D fmt stod.

  Lemma fm_comma x : no_delim comma (fmt x). Proof. apply (FM x). Qed.
  Lemma fm_plain x : plain (fmt x). Proof. apply (FM x). Qed.
  Lemma fm_len x : length (fmt x) = 20. Proof. apply (FM x). Qed.
  Lemma fm_stod x : stod (fmt x) = CVal x. Proof. apply (FM x). Qed.
  Lemma fm_stodt x : stod (strim (fmt x)) = CVal x. Proof. apply (FM x). Qed.

  Ltac comma_tac :=
    repeat (apply Forall_cons; [first [apply fm_comma | apply p9_nodelim; assumption
      | apply commafree_ok; vm_compute; reflexivity ]|]); try apply Forall_nil.

  (* ---- CE *)
  Definition tstrim (t : term D) : list str := map strim (term_toks D fmt t).
  Lemma term_toks_free t : term_ok D t -> Forall (no_delim comma) (term_toks D fmt t).
  Proof.
    intros [A B]. pose proof (dof_label_free _ B) as F. apply andb_true_iff in F.
    unfold term_toks. repeat constructor; [apply p9_nodelim; exact A|apply commafree_ok; apply F|apply fm_comma].
  Qed.
  Lemma toks_term_line ts : Forall (term_ok D) ts ->
    toks (term_line D fmt ts) = Ok ([s_ "CE"; s_ "R5.0"; s_ "NODE"] ++ flat_map tstrim ts).
  Proof.
    intros F. unfold term_line. rewrite toks_line.
    - rewrite map_app. f_equal. f_equal.
      clear F. induction ts as [|t ts IH]; [reflexivity|]. cbn [flat_map]. rewrite map_app, IH. reflexivity.
    - discriminate.
    - apply Forall_app. split; [comma_tac|].
      induction F as [|t ts H F IH]; [constructor|]. cbn [flat_map]. apply Forall_app. split; [|exact IH].
      apply term_toks_free. exact H.
  Qed.
  (* reading term i of a line *)
  Lemma ce_for_step fuel ts i n eq t : Forall (term_ok D) ts -> nth_error ts i = Some t ->
    (Z.of_nat i < Z.max n 2)%Z ->
    ce_for D stod (S fuel) ([s_ "CE"; s_ "R5.0"; s_ "NODE"] ++ flat_map tstrim ts) i n eq =
    ce_for D stod fuel ([s_ "CE"; s_ "R5.0"; s_ "NODE"] ++ flat_map tstrim ts) (S i) (n - 1)%Z (eq ++ [t]).
  Proof.
    intros F H L. cbn [ce_for]. destruct (Z.ltb_spec (Z.of_nat i) (Z.max n 2)) as [L2|]; [|lia].
    assert (G : forall j, j < 3 -> nth_error ([s_ "CE"; s_ "R5.0"; s_ "NODE"] ++ flat_map tstrim ts) (3 + 3 * i + j)
                          = nth_error (tstrim t) j).
    { intros j Hj. replace (3 + 3 * i + j) with (3 + (3 * i + j)) by lia.
      change (nth_error ([s_ "CE"; s_ "R5.0"; s_ "NODE"] ++ flat_map tstrim ts) (3 + (3 * i + j)))
        with (nth_error (flat_map tstrim ts) (3 * i + j)).
      clear F L L2. revert i H. induction ts as [|u ts IH]; intros [|i] H; try discriminate.
      - cbn in H. injection H as ->. cbn [flat_map]. rewrite nth_error_app1; [reflexivity|].
        unfold tstrim. rewrite map_length. cbn. lia.
      - cbn in H. cbn [flat_map]. rewrite nth_error_app2 by (unfold tstrim; rewrite map_length; cbn; lia).
        rewrite <- (IH i H). f_equal. unfold tstrim. rewrite map_length. cbn. lia. }
    assert (TO : term_ok D t) by (rewrite Forall_forall in F; apply F; eapply nth_error_In; exact H).
    destruct TO as [T1 T2].
    unfold tokenInt, tokenDouble, aget. rewrite !G by lia.
    cbn [tstrim term_toks map nth_error obind]. rewrite strim_p9, stoi_show9 by exact T1. cbn [thrown obind].
    rewrite dof_label_trim, dof_label_ok, fm_stodt, n9_wrap by assumption. cbn [thrown obind].
    destruct t; reflexivity.
  Qed.
  Lemma ce_for_out fuel ts i n eq : Forall (term_ok D) ts -> length ts <= i -> (Z.of_nat i < Z.max n 2)%Z ->
    ce_for D stod (S fuel) ([s_ "CE"; s_ "R5.0"; s_ "NODE"] ++ flat_map tstrim ts) i n eq = UB.
  Proof.
    intros F H L. cbn [ce_for]. destruct (Z.ltb_spec (Z.of_nat i) (Z.max n 2)); [|lia].
    unfold tokenInt, aget.
    assert (E : length (flat_map tstrim ts) = 3 * length ts).
    { clear. induction ts as [|t ts IH]; [reflexivity|]. cbn [flat_map]. rewrite app_length, IH. cbn. lia. }
    rewrite (proj2 (nth_error_None _ _)); [reflexivity|]. rewrite app_length, E. cbn [length]. lia.
  Qed.
  Lemma ce_for_done fuel t i n eq : (Z.max n 2 <= Z.of_nat i)%Z -> ce_for D stod (S fuel) t i n eq = Ok (n, eq).
  Proof. intros L. cbn [ce_for]. destruct (Z.ltb_spec (Z.of_nat i) (Z.max n 2)); [lia|reflexivity]. Qed.

  Lemma ce_while_pair fuel a b n eq ls : term_ok D a -> term_ok D b -> (n = 2 \/ n = 4)%Z ->
    ce_while D stod (S fuel) (term_line D fmt [a; b] :: ls) n eq = ce_while D stod fuel ls (n - 2)%Z (eq ++ [a; b]).
  Proof.
    intros A B Hn. cbn [ce_while]. destruct (Z.ltb_spec 0 n); [|lia]. cbn [next_line fst snd].
    assert (F : Forall (term_ok D) [a; b]) by (constructor; [exact A|constructor; [exact B|constructor]]).
    rewrite toks_term_line by exact F. cbn [obind].
    replace (Z.to_nat n + 3) with (S (S (S (Z.to_nat n)))) by lia.
    rewrite (ce_for_step _ [a; b] 0 n eq a F eq_refl) by lia.
    rewrite (ce_for_step _ [a; b] 1 (n - 1) _ b F eq_refl) by lia.
    rewrite ce_for_done by lia. cbn [obind fst snd]. rewrite <- app_assoc.
    replace (n - 1 - 1)%Z with (n - 2)%Z by lia. reflexivity.
  Qed.
  Lemma ce_while_zero fuel ls eq : ce_while D stod (S fuel) ls 0%Z eq = Ok (ls, eq).
  Proof. reflexivity. Qed.

  Lemma ce_terms_read m rest : Forall (term_ok D) (mp_eq D m) -> ce_terms_ok D m ->
    ce_while D stod (Z.to_nat (Z.of_nat (length (mp_eq D m))) + 1) (term_lines D fmt (mp_eq D m) ++ rest)
             (Z.of_nat (length (mp_eq D m))) [] = Ok (rest, mp_eq D m).
  Proof.
    intros F [H|[H|H]]; destruct (mp_eq D m) as [|a [|b [|c [|d [|? ?]]]]]; try discriminate H;
      repeat match goal with X : Forall _ (_ :: _) |- _ => inversion X; clear X; subst end.
    - reflexivity.
    - cbn [term_lines app length]. change (Z.to_nat (Z.of_nat 2) + 1) with 3.
      change (Z.of_nat 2) with 2%Z. rewrite ce_while_pair by auto. reflexivity.
    - cbn [term_lines app length]. change (Z.to_nat (Z.of_nat 4) + 1) with 5.
      change (Z.of_nat 4) with 4%Z. rewrite ce_while_pair by auto. cbn [app].
      change (4 - 2)%Z with 2%Z. rewrite ce_while_pair by auto. reflexivity.
  Qed.
  (* any other number of terms: tokens outside the line are read *)
  Lemma ce_terms_ub ts rest : Forall (term_ok D) ts ->
    length ts <> 0 -> length ts <> 2 -> length ts <> 4 ->
    ce_while D stod (Z.to_nat (Z.of_nat (length ts)) + 1) (term_lines D fmt ts ++ rest) (Z.of_nat (length ts)) [] = UB.
  Proof.
    intros F H0 H2 H4. rewrite Nat2Z.id.
    destruct ts as [|a [|b ts]]; [cbn in H0; lia| |].
    - cbn [term_lines app length ce_while Nat.add next_line fst snd]. change (0 <? Z.of_nat 1)%Z with true.
      cbn iota. rewrite toks_term_line by exact F. cbn [obind]. change (Z.to_nat (Z.of_nat 1) + 3) with 4.
      inversion F as [|? ? Fa _]; subst.
      rewrite (ce_for_step _ [a] 0 _ _ a F eq_refl) by lia.
      rewrite (ce_for_out _ [a] 1) by (first [exact F | cbn; lia]). reflexivity.
    - inversion F as [|? ? Fa F1]; subst. inversion F1 as [|? ? Fb F2]; subst.
      assert (Fab : Forall (term_ok D) [a; b]) by (constructor; [exact Fa|constructor; [exact Fb|constructor]]).
      cbn [term_lines app]. set (n := length (a :: b :: ts)) in *.
      replace (n + 1) with (S n) by lia. cbn [ce_while next_line fst snd].
      assert (Hn : n = S (S (length ts))) by reflexivity.
      destruct (Z.ltb_spec 0 (Z.of_nat n)); [|lia]. rewrite toks_term_line by exact Fab. cbn [obind].
      rewrite Nat2Z.id. replace (n + 3) with (S (S (S n))) by lia.
      rewrite (ce_for_step _ [a; b] 0 _ _ a Fab eq_refl) by lia.
      rewrite (ce_for_step _ [a; b] 1 _ _ b Fab eq_refl) by lia.
      destruct (Nat.le_gt_cases 5 n) as [L|L].
      + rewrite (ce_for_out _ [a; b] 2) by (first [exact Fab | cbn [length]; lia]). reflexivity.
      + assert (En : n = 3) by lia. destruct ts as [|c [|? ?]]; cbn [length] in Hn; try lia.
        rewrite En. rewrite ce_for_done by lia. cbn [obind fst snd app].
        change (Z.of_nat 3 - 1 - 1)%Z with 1%Z. cbn [ce_while term_lines app next_line fst snd].
        change (0 <? 1)%Z with true. cbn iota. rewrite toks_term_line by exact F2. cbn [obind].
        change (Z.to_nat 1 + 3) with 4.
        rewrite (ce_for_step _ [c] 0 _ _ c F2 eq_refl) by lia.
        rewrite (ce_for_out _ [c] 1) by (first [exact F2 | cbn; lia]). reflexivity.
  Qed.
  Definition ce_head_toks (m : mpc D) : list str :=
    map strim [s_ "CE"; s_ "R5.0"; s_ "DEFI"; p9 (Z.of_nat (length (mp_eq D m))); p9 1; fmt (mp_b D m)].
  Lemma toks_ce_head m : n9 (Z.of_nat (length (mp_eq D m))) -> toks (ce_head D fmt m) = Ok (ce_head_toks m).
  Proof. intros H. unfold ce_head. apply toks_line; [discriminate|]. assert (n9 1) by (unfold n9; lia). comma_tac. Qed.
  Lemma read_ce_unfold m ls : n9 (Z.of_nat (length (mp_eq D m))) ->
    read_ce D stod (ce_head_toks m) ls =
    (r <- ce_while D stod (Z.to_nat (Z.of_nat (length (mp_eq D m))) + 1) ls (Z.of_nat (length (mp_eq D m))) [] ;;
     Ok (fst r, mkMPC D (mp_b D m) (snd r))).
  Proof.
    intros H. unfold read_ce, ce_head_toks, tokenDouble, tokenInt, aget. cbn [map nth_error obind].
    rewrite fm_stodt. cbn [thrown obind]. rewrite strim_p9, stoi_show9 by exact H. reflexivity.
  Qed.
  Lemma read_ce_ok m rest : Forall (term_ok D) (mp_eq D m) -> ce_terms_ok D m ->
    read_ce D stod (ce_head_toks m) (term_lines D fmt (mp_eq D m) ++ rest) = Ok (rest, m).
  Proof.
    intros F H. rewrite read_ce_unfold by (unfold n9; destruct H as [H|[H|H]]; rewrite H; cbn; lia).
    rewrite ce_terms_read by assumption. cbn [obind fst snd]. destruct m; reflexivity.
  Qed.
  Lemma read_ce_ub m rest : Forall (term_ok D) (mp_eq D m) -> ~ ce_terms_ok D m ->
    n9 (Z.of_nat (length (mp_eq D m))) ->
    read_ce D stod (ce_head_toks m) (term_lines D fmt (mp_eq D m) ++ rest) = UB.
  Proof.
    intros F H L. rewrite read_ce_unfold by exact L.
    rewrite ce_terms_ub; [reflexivity|exact F|..]; intros E; apply H; unfold ce_terms_ok; auto.
  Qed.

  (* ---- tables *)
  Lemma ssplit_row9 strs k w w2 m : (* k int fields of width 9, then float fields *)
    map (@length _) strs = firstn (length strs) (repeat 9 k ++ repeat 20 m) -> w = 9 -> w2 = 20 ->
    length strs <= k + m ->
    ssplit (concat strs) (repeat w k ++ repeat w2 m) false = Ok strs.
  Proof.
    intros E -> -> L. apply ssplit_fields. exists (skipn (length strs) (repeat 9 k ++ repeat 20 m)). split.
    - rewrite E. symmetry. apply firstn_skipn.
    - apply Forall_forall. intros x I.
      assert (J : In x (repeat 9 k ++ repeat 20 m)).
      { rewrite <- (firstn_skipn (length strs)). apply in_or_app. right. exact I. }
      apply in_app_or in J. destruct J as [J|J]; apply repeat_spec in J; lia.
  Qed.
  Lemma first_p9 z l : n9 z -> exists c, sfirstNotBlank (p9 z ++ l) = Ok c /\ is_end c = false.
  Proof.
    intros H. unfold sfirstNotBlank, p9, pad. rewrite <- app_assoc.
    rewrite drop_blank_blanks by apply blanks_repeat.
    destruct (show_cases z (n9_int z H)) as [[A _]|[A ->]]; [unfold n9 in H; lia|].
    destruct (dec_nonempty 10 z ltac:(lia) A) as (c & t & -> & Dg).
    destruct (digit_notspace c Dg) as (_ & _ & _ & B).
    cbn [app drop_blank]. rewrite B. exists c. split; [reflexivity|].
    unfold is_end. apply orb_false_iff. split; apply aeqb_f; intros ->; vm_compute in Dg; discriminate.
  Qed.
  Lemma fieldInt_p9 v i z : n9 z -> nth_error v i = Some (p9 z) -> fieldInt v i = Ok z.
  Proof.
    intros H E. unfold fieldInt. rewrite (aget_nth _ _ _ E). cbn [obind]. rewrite stoi_p9 by exact H.
    cbn [thrown obind]. rewrite n9_wrap by exact H. reflexivity.
  Qed.
  Lemma coord_fmt (a b c : Z) cs k : k < 3 -> length cs <= 3 ->
    coord D d0 stod (map p9 [a; b; c] ++ map fmt cs) 3 k = Ok (nth k cs d0).
  Proof.
    intros Hk Hc. unfold coord. rewrite app_length, !map_length. cbn [length].
    destruct (Nat.ltb_spec (3 + k) (3 + length cs)).
    - change (map p9 [a; b; c] ++ map fmt cs) with (p9 a :: p9 b :: p9 c :: map fmt cs).
      unfold aget. cbn [Nat.add nth_error]. rewrite nth_error_map.
      rewrite (nth_error_nth' cs d0) by lia. cbn [option_map obind]. rewrite fm_stod. reflexivity.
    - rewrite nth_overflow by lia. reflexivity.
  Qed.
  Lemma read_nodes_ok ns : Forall (fun p => n9 (fst p) /\ length (snd p) <= 3) ns -> forall rest,
    read_nodes D d0 stod 3 (repeat 9 3 ++ repeat 20 6)
      (map (w_node D fmt) ns ++ s_ "N,R5.3,LOC,       -1," :: rest)
    = Ok (rest, map (fun p => (fst p, node_pos D d0 (snd p))) ns).
  Proof.
    induction 1 as [|[n cs] ns [A B] F IH]; intros rest; cbn [map app read_nodes].
    - reflexivity.
    - cbn [fst snd] in A, B. unfold w_node at 1 2. cbn [fst snd].
      assert (Z0 : n9 0) by (unfold n9; lia).
      destruct (first_p9 n (concat (map p9 [0; 0]%Z ++ map fmt cs)) A) as (c & E1 & E2).
      change (concat (map p9 [n; 0%Z; 0%Z] ++ map fmt cs))
        with (p9 n ++ concat (map p9 [0; 0]%Z ++ map fmt cs)) at 1.
      rewrite E1. cbn [obind]. rewrite E2.
      change (w_node D fmt (n, cs)) with (concat (map p9 [n; 0%Z; 0%Z] ++ map fmt cs)).
      rewrite ssplit_row9; auto.
      2: { rewrite map_app, app_length, !map_length. cbn [map length]. rewrite !p9_length by assumption.
           replace (map (@length _) (map fmt cs)) with (repeat 20 (length cs)).
           - destruct cs as [|? [|? [|? [|? ?]]]]; cbn [length] in B |- *; try reflexivity. lia.
           - clear - FM. induction cs as [|x cs IH]; [reflexivity|]. cbn. rewrite fm_len, IH. reflexivity. }
      2: { rewrite app_length, !map_length. cbn [length]. lia. }
      cbn [obind]. rewrite (fieldInt_p9 _ 0 n) by (first [exact A|reflexivity]). cbn [obind].
      rewrite !coord_fmt by (first [lia | exact B]). cbn [obind]. rewrite IH. reflexivity.
  Qed.
  Lemma fieldInts_ok v st : forall m l0 zs, length zs = m -> Forall n9 zs ->
    (forall i, i < m -> nth_error v (st + i) = Some (p9 (nth i zs 0%Z))) ->
    ofold (fun l i => x <- fieldInt v (st + i) ;; Ok (l ++ [x])) (seq 0 m) l0 = Ok (l0 ++ zs).
  Proof.
    intros m l0 zs L F H.
    assert (G : forall k j l1, k + j = m ->
      ofold (fun l i => x <- fieldInt v (st + i) ;; Ok (l ++ [x])) (seq j k) l1 = Ok (l1 ++ skipn j zs)).
    { induction k as [|k IH]; intros j l1 E.
      - cbn. rewrite skipn_all2 by lia. rewrite app_nil_r. reflexivity.
      - cbn [seq ofold]. rewrite (fieldInt_p9 _ _ (nth j zs 0%Z)); [| |apply H; lia].
        2: { rewrite Forall_forall in F. apply F. apply nth_In. lia. }
        cbn [obind]. rewrite IH by lia. rewrite <- app_assoc. f_equal. f_equal.
        clear - L E. revert j E. revert m L. induction zs as [|z zs IHz]; intros m L j E; [cbn in L; lia|].
        destruct j as [|j]; [reflexivity|]. cbn [skipn nth]. cbn in L.
        specialize (IHz (m - 1) ltac:(lia) j ltac:(lia)). cbn [app]. exact IHz. }
    rewrite (G m 0 l0) by lia. reflexivity.
  Qed.
  Lemma read_cell_ok c : cell_ok c -> read_cell true (map p9 (cell_fields c)) = Ok c.
  Proof.
    intros [L F]. unfold cell_fields in F |- *.
    pose proof (proj1 (Forall_app _ _ _) F) as [F1 F2].
    repeat match goal with X : Forall n9 (_ :: _) |- _ => inversion X; clear X; subst end.
    unfold read_cell. cbv iota.
    rewrite (fieldInt_p9 _ 0 (ce_mat c)), (fieldInt_p9 _ 1 (ce_type c)), (fieldInt_p9 _ 2 (ce_real c)),
      (fieldInt_p9 _ 3 (ce_sect c)), (fieldInt_p9 _ 4 (ce_cs c)), (fieldInt_p9 _ 7 (ce_shape c)),
      (fieldInt_p9 _ 8 (Z.of_nat (length (ce_nodes c)))), (fieldInt_p9 _ 10 (ce_num c)) by (first [assumption|reflexivity]).
    cbn [obind]. rewrite map_length, app_length. cbn [length].
    replace (Z.of_nat (11 + length (ce_nodes c)) =? 11 + Z.of_nat (length (ce_nodes c)))%Z with true
      by (symmetry; apply Z.eqb_eq; lia).
    cbn [negb]. replace (11 + length (ce_nodes c) - 11) with (length (ce_nodes c)) by lia.
    unfold fieldInts. rewrite (fieldInts_ok _ 11 (length (ce_nodes c)) [] (ce_nodes c)); auto.
    - cbn [obind app]. destruct c; reflexivity.
    - intros i Hi. rewrite map_app. cbn [map app Nat.add nth_error].
      rewrite nth_error_map, (nth_error_nth' _ 0%Z) by exact Hi. reflexivity.
  Qed.
  Lemma read_cells_ok cs : Forall cell_ok cs -> forall rest,
    read_cells true (repeat 9 19) (map w_cell cs ++ s_ "       -1" :: rest) = Ok (rest, cs).
  Proof.
    induction 1 as [|c cs H F IH]; intros rest; cbn [map app read_cells].
    - reflexivity.
    - unfold w_cell at 1 2.
      assert (Fc : Forall n9 (cell_fields c)) by apply H.
      assert (Hm : n9 (ce_mat c)) by (unfold cell_fields in Fc; inversion Fc; auto).
      destruct (first_p9 (ce_mat c) (concat (tl (map p9 (cell_fields c)))) Hm) as (ch & E1 & E2).
      change (concat (map p9 (cell_fields c))) with (p9 (ce_mat c) ++ concat (tl (map p9 (cell_fields c)))) at 1.
      rewrite E1. cbn [obind]. rewrite E2.
      assert (Lc : length (cell_fields c) <= 19).
      { unfold cell_fields. rewrite app_length. cbn [length]. destruct H as [L _]. lia. }
      assert (S1 : ssplit (concat (map p9 (cell_fields c))) (repeat 9 19) false = Ok (map p9 (cell_fields c))).
      { apply ssplit_fields. exists (repeat 9 (19 - length (cell_fields c))). split.
        - rewrite map_map. rewrite (map_ext_in _ (fun _ => 9)).
          + replace (map (fun _ : Z => 9) (cell_fields c)) with (repeat 9 (length (cell_fields c))).
            * rewrite <- repeat_app. f_equal. lia.
            * generalize (cell_fields c). induction l as [|x l IHl]; [reflexivity|]. cbn. rewrite IHl. reflexivity.
          + intros z Hz. apply p9_length. rewrite Forall_forall in Fc. auto.
        - apply Forall_forall. intros x I. apply repeat_spec in I. lia. }
      change (w_cell c) with (concat (map p9 (cell_fields c))).
      rewrite S1. cbn [obind]. rewrite read_cell_ok by exact H. cbn [obind]. rewrite IH. reflexivity.
  Qed.

  Lemma read_short_ok c : short_ok c -> read_cell false (map p9 (short_fields c)) = Ok c.
  Proof.
    intros (L & F & S0 & S1). unfold short_fields in F |- *.
    pose proof (proj1 (Forall_app _ _ _) F) as [F1 F2].
    repeat match goal with X : Forall n9 (_ :: _) |- _ => inversion X; clear X; subst end.
    unfold read_cell. cbv iota.
    rewrite (fieldInt_p9 _ 0 (ce_num c)), (fieldInt_p9 _ 1 (ce_type c)), (fieldInt_p9 _ 2 (ce_real c)),
      (fieldInt_p9 _ 3 (ce_mat c)), (fieldInt_p9 _ 4 (ce_cs c)) by (first [assumption|reflexivity]).
    cbn [obind]. rewrite map_length, app_length. cbn [length].
    replace (5 + length (ce_nodes c) - 5) with (length (ce_nodes c)) by lia.
    unfold fieldInts. rewrite (fieldInts_ok _ 5 (length (ce_nodes c)) [] (ce_nodes c)); auto.
    - cbn [obind app]. destruct c; cbn in S0, S1; subst; reflexivity.
    - intros i Hi. rewrite map_app. cbn [map app Nat.add nth_error].
      rewrite nth_error_map, (nth_error_nth' _ 0%Z) by exact Hi. reflexivity.
  Qed.
  Lemma read_shorts_ok cs : Forall short_ok cs -> forall rest,
    read_cells false (repeat 9 15) (map w_short cs ++ s_ "       -1" :: rest) = Ok (rest, cs).
  Proof.
    induction 1 as [|c cs H F IH]; intros rest; cbn [map app read_cells].
    - reflexivity.
    - unfold w_short at 1 2.
      assert (Fc : Forall n9 (short_fields c)) by apply H.
      assert (Hm : n9 (ce_num c)) by (unfold short_fields in Fc; inversion Fc; auto).
      destruct (first_p9 (ce_num c) (concat (tl (map p9 (short_fields c)))) Hm) as (ch & E1 & E2).
      change (concat (map p9 (short_fields c))) with (p9 (ce_num c) ++ concat (tl (map p9 (short_fields c)))) at 1.
      rewrite E1. cbn [obind]. rewrite E2.
      assert (Lc : length (short_fields c) <= 15).
      { unfold short_fields. rewrite app_length. cbn [length]. destruct H as [L _]. lia. }
      assert (S1 : ssplit (concat (map p9 (short_fields c))) (repeat 9 15) false = Ok (map p9 (short_fields c))).
      { apply ssplit_fields. exists (repeat 9 (15 - length (short_fields c))). split.
        - rewrite map_map. rewrite (map_ext_in _ (fun _ => 9)).
          + replace (map (fun _ : Z => 9) (short_fields c)) with (repeat 9 (length (short_fields c))).
            * rewrite <- repeat_app. f_equal. lia.
            * generalize (short_fields c). induction l as [|x l IHl]; [reflexivity|]. cbn. rewrite IHl. reflexivity.
          + intros z Hz. apply p9_length. rewrite Forall_forall in Fc. auto.
        - apply Forall_forall. intros x I. apply repeat_spec in I. lia. }
      change (w_short c) with (concat (map p9 (short_fields c))).
      rewrite S1. cbn [obind]. rewrite read_short_ok by exact H. cbn [obind]. rewrite IH. reflexivity.
  Qed.

  (* ---- boundary conditions *)
  Lemma read_bc_ok key lab dof b : n9 (bc_node D b) -> strim lab = lab -> dof lab = bc_dof D b ->
    read_bc D stod dof (map strim [key; p9 (bc_node D b); lab; fmt (bc_value D b)]) = Ok (Some b).
  Proof.
    intros H T Hd. unfold read_bc, tokenInt, tokenDouble, aget. cbn [map nth_error obind].
    rewrite strim_p9, stoi_show9, fm_stodt, T, Hd, n9_wrap by exact H. destruct b; reflexivity.
  Qed.
  Lemma force_label_trim d : d < 8 -> strim (force_label d) = force_label d.
  Proof. intros H. dof_cases d H. Qed.

  (* ---- one command of the file *)
  Definition consumes (g : list str) (f : mesh D -> mesh D) : Prop :=
    forall fuel rest md, read_cdb_from D d0 stod (S fuel) (g ++ rest) md = read_cdb_from D d0 stod fuel rest (f md).
  Definition add_fix (b : list (bc D)) (md : mesh D) : mesh D :=
    mkMesh D (md_nodes D md) (md_pos D md) (md_cells D md) (md_fix D md ++ b) (md_load D md) (md_mpcs D md) (md_comps D md).
  Definition add_load (b : list (bc D)) (md : mesh D) : mesh D :=
    mkMesh D (md_nodes D md) (md_pos D md) (md_cells D md) (md_fix D md) (md_load D md ++ b) (md_mpcs D md) (md_comps D md).
  Definition add_mpc (b : list (mpc D)) (md : mesh D) : mesh D :=
    mkMesh D (md_nodes D md) (md_pos D md) (md_cells D md) (md_fix D md) (md_load D md) (md_mpcs D md ++ b) (md_comps D md).
  Definition add_cells (b : list cell) (md : mesh D) : mesh D :=
    mkMesh D (md_nodes D md) (md_pos D md) (md_cells D md ++ b) (md_fix D md) (md_load D md) (md_mpcs D md) (md_comps D md).
  Definition add_nodes (b : list (Z * (D * D * D))) (md : mesh D) : mesh D :=
    mkMesh D (md_nodes D md ++ map fst b) (md_pos D md ++ map snd b) (md_cells D md) (md_fix D md) (md_load D md) (md_mpcs D md) (md_comps D md).
  Definition add_comp (p : str * comp) (md : mesh D) : mesh D :=
    mkMesh D (md_nodes D md) (md_pos D md) (md_cells D md) (md_fix D md) (md_load D md) (md_mpcs D md) (comps_insert (md_comps D md) p).

  Lemma consumes_fix b : bc_ok D b -> consumes [w_fix D fmt b] (add_fix [b]).
  Proof.
    intros [A B] fuel rest md. cbn [app read_cdb_from]. unfold w_fix.
    pose proof (dof_label_free _ B) as Fr. apply andb_true_iff in Fr.
    rewrite toks_line; [|discriminate|repeat (apply Forall_cons; [first [apply fm_comma|apply p9_nodelim; exact A
        |apply commafree_ok; exact (proj1 Fr)|apply commafree_ok; reflexivity]|]); apply Forall_nil].
    cbn [obind]. unfold command.
    change (aget (map strim [s_ "D"; p9 (bc_node D b); dof_label (bc_dof D b); fmt (bc_value D b)]) 0) with (Ok (s_ "D")).
    cbn [obind]. rewrite read_bc_ok; [reflexivity|exact A|apply dof_label_trim; exact B|apply dof_label_ok; exact B].
  Qed.
  Lemma consumes_load b : bc_ok D b -> consumes [w_load D fmt b] (add_load [b]).
  Proof.
    intros [A B] fuel rest md. cbn [app read_cdb_from]. unfold w_load.
    pose proof (force_label_free _ B) as Fr. apply andb_true_iff in Fr.
    rewrite toks_line; [|discriminate|repeat (apply Forall_cons; [first [apply fm_comma|apply p9_nodelim; exact A
        |apply commafree_ok; exact (proj1 Fr)|apply commafree_ok; reflexivity]|]); apply Forall_nil].
    cbn [obind]. unfold command.
    change (aget (map strim [s_ "F"; p9 (bc_node D b); force_label (bc_dof D b); fmt (bc_value D b)]) 0) with (Ok (s_ "F")).
    cbn [obind]. rewrite (read_bc_ok _ _ force_dof); [reflexivity|exact A|apply force_label_trim; exact B|].
    rewrite <- (force_label_trim _ B). apply force_label_ok. exact B.
  Qed.
  Lemma consumes_ce m : Forall (term_ok D) (mp_eq D m) -> ce_terms_ok D m -> consumes (w_ce D fmt m) (add_mpc [m]).
  Proof.
    intros A B fuel rest md. unfold w_ce. cbn [app read_cdb_from].
    rewrite toks_ce_head by (unfold n9; destruct B as [H|[H|H]]; rewrite H; cbn; lia).
    cbn [obind]. unfold command. change (aget (ce_head_toks m) 0) with (Ok (s_ "CE")). cbn [obind].
    rewrite read_ce_ok by assumption. reflexivity.
  Qed.
  Lemma consumes_nodes ns : Forall (fun p => n9 (fst p) /\ length (snd p) <= 3) ns ->
    consumes ([s_ "NBLOCK,6,SOLID"; s_ "(3i9,6e20.13)"] ++ map (w_node D fmt) ns ++ [s_ "N,R5.3,LOC,       -1,"])
             (add_nodes (map (fun p => (fst p, node_pos D d0 (snd p))) ns)).
  Proof.
    intros F fuel rest md. cbn [app read_cdb_from].
    change (toks (s_ "NBLOCK,6,SOLID")) with (Ok [s_ "NBLOCK"; s_ "6"; s_ "SOLID"]). cbn [obind].
    unfold command. change (aget [s_ "NBLOCK"; s_ "6"; s_ "SOLID"] 0) with (Ok (s_ "NBLOCK")). cbn [obind next_line fst snd].
    change (fmt_ie (s_ "(3i9,6e20.13)")) with (Ok (3, 9, 6, 20)).
    rewrite <- app_assoc. cbn [app].
    change (iequals (s_ "NBLOCK") (s_ "NBLOCK")) with true.
    change (str_eqb (s_ "NBLOCK") []) with false. change (Ascii.eqb (first_char (s_ "NBLOCK")) "/"%char) with false.
    change (Ascii.eqb (first_char (s_ "NBLOCK")) "!"%char) with false. cbv iota. cbn [obind].
    rewrite read_nodes_ok by exact F. reflexivity.
  Qed.
  Lemma consumes_cells cs : Forall cell_ok cs ->
    consumes ([s_ "EBLOCK,19,SOLID"; s_ "(19i9)"] ++ map w_cell cs ++ [s_ "       -1"]) (add_cells cs).
  Proof.
    intros F fuel rest md. cbn [app read_cdb_from].
    change (toks (s_ "EBLOCK,19,SOLID")) with (Ok [s_ "EBLOCK"; s_ "19"; s_ "SOLID"]). cbn [obind].
    unfold command. change (aget [s_ "EBLOCK"; s_ "19"; s_ "SOLID"] 0) with (Ok (s_ "EBLOCK")). cbn [obind next_line fst snd].
    change (fmt_i (s_ "(19i9)")) with (Ok (19, 9)).
    change (aget [s_ "EBLOCK"; s_ "19"; s_ "SOLID"] 2) with (Ok (s_ "SOLID")).
    rewrite <- app_assoc. cbn [app].
    change (iequals (s_ "EBLOCK") (s_ "EBLOCK")) with true. change (iequals (s_ "EBLOCK") (s_ "NBLOCK")) with false.
    change (iequals (s_ "SOLID") (s_ "SOLID")) with true.
    change (str_eqb (s_ "EBLOCK") []) with false. change (Ascii.eqb (first_char (s_ "EBLOCK")) "/"%char) with false.
    change (Ascii.eqb (first_char (s_ "EBLOCK")) "!"%char) with false. cbv iota. cbn [obind fst snd].
    rewrite read_cells_ok by exact F. reflexivity.
  Qed.
  Lemma consumes_shorts cs : Forall short_ok cs ->
    consumes ([s_ "EBLOCK,10,,"; s_ "(15i9)"] ++ map w_short cs ++ [s_ "       -1"]) (add_cells cs).
  Proof.
    intros F fuel rest md. cbn [app read_cdb_from].
    change (toks (s_ "EBLOCK,10,,")) with (Ok [s_ "EBLOCK"; s_ "10"; []; []]). cbn [obind].
    unfold command. change (aget [s_ "EBLOCK"; s_ "10"; []; []] 0) with (Ok (s_ "EBLOCK")). cbn [obind next_line fst snd].
    change (fmt_i (s_ "(15i9)")) with (Ok (15, 9)).
    change (aget [s_ "EBLOCK"; s_ "10"; []; []] 2) with (Ok (@nil ascii)).
    rewrite <- app_assoc. cbn [app].
    change (iequals (s_ "EBLOCK") (s_ "EBLOCK")) with true. change (iequals (s_ "EBLOCK") (s_ "NBLOCK")) with false.
    change (iequals [] (s_ "SOLID")) with false.
    change (str_eqb (s_ "EBLOCK") []) with false. change (Ascii.eqb (first_char (s_ "EBLOCK")) "/"%char) with false.
    change (Ascii.eqb (first_char (s_ "EBLOCK")) "!"%char) with false. cbv iota. cbn [obind fst snd].
    rewrite read_shorts_ok by exact F. reflexivity.
  Qed.
  Lemma item9_ok xs : Forall item9 xs -> Forall item_ok xs /\ Forall (fun z => length (show z) <= 10) (encode xs).
  Proof.
    intros F. split.
    - eapply Forall_impl; [|exact F]. intros [a|a b]; cbn; lia.
    - induction F as [|x xs H F IH]; [constructor|]. unfold encode in *. cbn [flat_map]. apply Forall_app. split; [|exact IH].
      assert (P1 : forall a, (0 < a < 1000000000)%Z -> length (show a) <= 10).
      { intros a Ha. pose proof (show_length9 a ltac:(unfold n9; lia)). lia. }
      assert (P2 : forall b, (0 < b < 1000000000)%Z -> length (show (- b)) <= 10).
      { intros b Hb. unfold show. destruct (Z.ltb_spec (- b) 0); [|lia]. cbn [length].
        rewrite Z.opp_involutive. pose proof (dec_length 10 8 b ltac:(cbn; lia)). lia. }
      destruct x as [a|a b]; cbn [item9] in H.
      + apply Forall_cons; [apply P1; lia|apply Forall_nil].
      + apply Forall_cons; [apply P1; lia|apply Forall_cons; [apply P2; lia|apply Forall_nil]].
  Qed.
  Lemma consumes_comp c : wcomp_ok c -> consumes (w_comp c) (add_comp (comp_of c)).
  Proof.
    intros [(T & Cm & Pl & Us) [I L]] fuel rest md. unfold w_comp. cbn [app read_cdb_from].
    destruct (item9_ok _ I) as [I1 I2].
    assert (Ln : n9 (Z.of_nat (length (encode (wc_items c))))) by (unfold n9; lia).
    unfold cm_head. rewrite toks_line; [|discriminate|].
    2: { repeat (apply Forall_cons; [first [exact Cm|apply p9_nodelim; exact Ln|apply commafree_ok; reflexivity
          |destruct (wc_nodes c); apply commafree_ok; reflexivity]|]); apply Forall_nil. }
    cbn [obind map]. rewrite (strim_id _ T), strim_p9 by exact Ln.
    change (strim (s_ "CMBLOCK")) with (s_ "CMBLOCK").
    replace (strim (if wc_nodes c then s_ "NODE" else s_ "ELEM")) with (if wc_nodes c then s_ "NODE" else s_ "ELEM")
      by (destruct (wc_nodes c); reflexivity).
    unfold command.
    match goal with |- context [aget ?t 0] =>
      change (aget t 0) with (Ok (s_ "CMBLOCK")); change (aget t 1) with (Ok (wc_name c)) end.
    cbn [obind].
    change (iequals (s_ "CMBLOCK") (s_ "CMBLOCK")) with true. change (iequals (s_ "CMBLOCK") (s_ "NBLOCK")) with false.
    change (iequals (s_ "CMBLOCK") (s_ "EBLOCK")) with false. change (iequals (s_ "CMBLOCK") (s_ "D")) with false.
    change (iequals (s_ "CMBLOCK") (s_ "CE")) with false.
    change (str_eqb (s_ "CMBLOCK") []) with false. change (Ascii.eqb (first_char (s_ "CMBLOCK")) "/"%char) with false.
    change (Ascii.eqb (first_char (s_ "CMBLOCK")) "!"%char) with false. cbv iota.
    rewrite (proj2 (aeqb_f _ _) Us).
    rewrite (read_cm_ok _ (wc_name c) (if wc_nodes c then s_ "NODE" else s_ "ELEM")
               (show (Z.of_nat (length (encode (wc_items c))))) (s_ "(8i10)") 8 10 (wc_items c) rest); auto; try lia.
    - cbn [obind fst snd]. unfold add_comp, comp_of. destruct (wc_nodes c); reflexivity.
    - apply stoi_show9. exact Ln.
  Qed.

  Lemma consumes_list {A} (w : A -> list str) (f : A -> mesh D -> mesh D) l :
    Forall (fun a => consumes (w a) (f a)) l -> forall fuel rest md, 
    read_cdb_from D d0 stod (length l + fuel) (flat_map w l ++ rest) md =
    read_cdb_from D d0 stod fuel rest (fold_left (fun m a => f a m) l md).
  Proof.
    induction 1 as [|a l H F IH]; intros fuel rest md; [reflexivity|].
    cbn [flat_map length fold_left Nat.add]. rewrite <- app_assoc, H, IH. reflexivity.
  Qed.
  Lemma fold_fix l : forall md, fold_left (fun m a => add_fix [a] m) l md = add_fix l md.
  Proof.
    induction l as [|a l IH]; intros md; cbn [fold_left]; [unfold add_fix; rewrite app_nil_r; destruct md; reflexivity|].
    rewrite IH. unfold add_fix. cbn. rewrite <- app_assoc. reflexivity.
  Qed.
  Lemma fold_load l : forall md, fold_left (fun m a => add_load [a] m) l md = add_load l md.
  Proof.
    induction l as [|a l IH]; intros md; cbn [fold_left]; [unfold add_load; rewrite app_nil_r; destruct md; reflexivity|].
    rewrite IH. unfold add_load. cbn. rewrite <- app_assoc. reflexivity.
  Qed.
  Lemma fold_mpc l : forall md, fold_left (fun m a => add_mpc [a] m) l md = add_mpc l md.
  Proof.
    induction l as [|a l IH]; intros md; cbn [fold_left]; [unfold add_mpc; rewrite app_nil_r; destruct md; reflexivity|].
    rewrite IH. unfold add_mpc. cbn. rewrite <- app_assoc. reflexivity.
  Qed.
  Lemma existsb_name (l : list (str * comp)) n : existsb (fun q => str_eqb (fst q) n) l = true <-> In n (map fst l).
  Proof.
    rewrite existsb_exists. split.
    - intros (q & I & E). apply str_eqb_eq in E. rewrite <- E. apply in_map. exact I.
    - intros I. apply in_map_iff in I. destruct I as (q & E & I). exists q. split; [exact I|]. apply str_eqb_eq. exact E.
  Qed.
  Lemma filter_filter' {A} (f g : A -> bool) l : filter f (filter g l) = filter g (filter f l).
  Proof. induction l as [|a l IH]; [reflexivity|]. cbn. destruct (g a) eqn:G, (f a) eqn:H; cbn; rewrite ?G, ?H, IH; reflexivity. Qed.
  Lemma filter_idem {A} (f : A -> bool) l : filter f (filter f l) = filter f l.
  Proof. induction l as [|a l IH]; [reflexivity|]. cbn. destruct (f a) eqn:H; cbn; rewrite ?H, IH; reflexivity. Qed.
  Definition notin (l : list (str * comp)) (q : str * comp) : bool := negb (existsb (fun p => str_eqb (fst p) (fst q)) l).
  Lemma fold_comp l : forall md,
    fold_left (fun m c => add_comp (comp_of c) m) l md =
    mkMesh D (md_nodes D md) (md_pos D md) (md_cells D md) (md_fix D md) (md_load D md) (md_mpcs D md)
           (md_comps D md ++ filter (notin (md_comps D md)) (firsts (map comp_of l))).
  Proof.
    induction l as [|c l IH]; intros md; cbn [fold_left map firsts filter]; [rewrite app_nil_r; destruct md; reflexivity|].
    rewrite IH. unfold add_comp at 1 2 3 4 5 6 7 8. cbn [md_nodes md_pos md_cells md_fix md_load md_mpcs md_comps]. f_equal.
    unfold comps_insert. unfold notin at 2.
    destruct (existsb (fun p => str_eqb (fst p) (fst (comp_of c))) (md_comps D md)) eqn:E; cbn [negb].
    - f_equal. rewrite filter_filter'.
      assert (G : forall L, filter (notin (md_comps D md)) L = filter (fun q => negb (str_eqb (fst q) (fst (comp_of c)))) (filter (notin (md_comps D md)) L)).
      { intros L. induction L as [|q L IHL]; [reflexivity|]. cbn [filter]. destruct (notin (md_comps D md) q) eqn:N; [|exact IHL].
        cbn [filter]. destruct (str_eqb (fst q) (fst (comp_of c))) eqn:Q; cbn [negb]; [|rewrite <- IHL; reflexivity].
        apply str_eqb_eq in Q. unfold notin in N. rewrite Q in N. rewrite E in N. discriminate. }
      apply G.
    - rewrite <- app_assoc. cbn [app]. f_equal. f_equal. rewrite filter_filter'.
      generalize (firsts (map comp_of l)). intros L. induction L as [|q L IHL]; [reflexivity|]. cbn [filter].
      assert (X : notin (md_comps D md ++ [comp_of c]) q = notin (md_comps D md) q && negb (str_eqb (fst q) (fst (comp_of c)))).
      { unfold notin. rewrite existsb_app, negb_orb. cbn [existsb]. rewrite orb_false_r. do 2 f_equal.
        destruct (str_eqb (fst (comp_of c)) (fst q)) eqn:A, (str_eqb (fst q) (fst (comp_of c))) eqn:B; try reflexivity; exfalso.
        - apply str_eqb_eq in A. rewrite A in B. assert (str_eqb (fst q) (fst q) = true) by (apply str_eqb_eq; reflexivity). congruence.
        - apply str_eqb_eq in B. rewrite B in A. assert (str_eqb (fst (comp_of c)) (fst (comp_of c)) = true) by (apply str_eqb_eq; reflexivity). congruence. }
      rewrite X. destruct (notin (md_comps D md) q); cbn [andb]; [|exact IHL].
      cbn [filter]. destruct (str_eqb (fst q) (fst (comp_of c))); cbn [negb]; rewrite IHL; reflexivity.
  Qed.
  Lemma consumes_comment : consumes [s_ "/COM,ANSYS MESH"] (fun m => m).
  Proof. intros fuel rest md. reflexivity. Qed.

  Theorem cdb_lines_roundtrip m : wm_ok D m -> Forall (ce_terms_ok D) (wm_mpcs D m) ->
    read_cdb_lines D d0 stod (w_lines D fmt m) = Ok (mesh_of D d0 m).
  Proof.
    intros [Hn Hc Hs Hx Hl Ht Hp] Hce. unfold read_cdb_lines.
    set (nf := length (w_lines D fmt m)).
    assert (Len : 4 + (length (wm_mpcs D m) + (length (wm_fix D m) + (length (wm_load D m) + (length (wm_comps D m) + 1)))) <= S nf).
    { unfold nf, w_lines. repeat rewrite app_length. cbn [length]. repeat rewrite map_length.
      assert (X : forall A (w : A -> list str) l, (forall a, 1 <= length (w a)) -> length l <= length (flat_map w l)).
      { intros A w l Hw. induction l as [|a l IH]; [cbn; lia|]. cbn [flat_map]. rewrite app_length. specialize (Hw a). cbn; lia. }
      pose proof (X _ (w_ce D fmt) (wm_mpcs D m) ltac:(intros; cbn; lia)).
      pose proof (X _ w_comp (wm_comps D m) ltac:(intros; cbn; lia)). lia. }
    assert (R : exists r, S nf = S (S (S (S (length (wm_mpcs D m) + (length (wm_fix D m) + (length (wm_load D m) + (length (wm_comps D m) + S r)))))))).
    { exists (S nf - (5 + length (wm_mpcs D m) + length (wm_fix D m) + length (wm_load D m) + length (wm_comps D m))). lia. }
    destruct R as [r ->]. clear Len nf.
    assert (E : w_lines D fmt m = [s_ "/COM,ANSYS MESH"] ++
      ([s_ "NBLOCK,6,SOLID"; s_ "(3i9,6e20.13)"] ++ map (w_node D fmt) (wm_nodes D m) ++ [s_ "N,R5.3,LOC,       -1,"]) ++
      ([s_ "EBLOCK,19,SOLID"; s_ "(19i9)"] ++ map w_cell (wm_cells D m) ++ [s_ "       -1"]) ++
      ([s_ "EBLOCK,10,,"; s_ "(15i9)"] ++ map w_short (wm_short D m) ++ [s_ "       -1"]) ++
      flat_map (w_ce D fmt) (wm_mpcs D m) ++ map (w_fix D fmt) (wm_fix D m) ++ map (w_load D fmt) (wm_load D m)
      ++ flat_map w_comp (wm_comps D m)) by reflexivity.
    rewrite E. clear E.
    rewrite consumes_comment, (consumes_nodes _ Hn), (consumes_cells _ Hc), (consumes_shorts _ Hs).
    rewrite (consumes_list (w_ce D fmt) (fun a => add_mpc [a])).
    2: { apply Forall_forall. intros a Ia. rewrite Forall_forall in Ht, Hce. apply consumes_ce; auto. }
    rewrite (map_flat (w_fix D fmt)), (map_flat (w_load D fmt)).
    rewrite (consumes_list (fun b => [w_fix D fmt b]) (fun a => add_fix [a])).
    2: { eapply Forall_impl; [|exact Hx]. intros a Ha. apply consumes_fix. exact Ha. }
    rewrite (consumes_list (fun b => [w_load D fmt b]) (fun a => add_load [a])).
    2: { eapply Forall_impl; [|exact Hl]. intros a Ha. apply consumes_load. exact Ha. }
    rewrite <- (app_nil_r (flat_map w_comp (wm_comps D m))).
    rewrite (consumes_list w_comp (fun a => add_comp (comp_of a))).
    2: { eapply Forall_impl; [|exact Hp]. intros a Ha. apply consumes_comp. exact Ha. }
    rewrite fold_mpc, fold_fix, fold_load. cbn [read_cdb_from].
    rewrite fold_comp.
    cbn [md_nodes md_pos md_cells md_fix md_load md_mpcs md_comps add_mpc add_fix add_load add_cells add_nodes md_empty app].
    unfold mesh_of. rewrite !map_map. cbn [fst snd]. f_equal. f_equal.
    generalize (firsts (map comp_of (wm_comps D m))). intros L. induction L as [|q L IHL]; [reflexivity|].
    change (filter (notin []) (q :: L)) with (q :: filter (notin []) L). rewrite IHL. reflexivity.
  Qed.

  (* all lines are free of line ends *)
  Lemma plain_app a b : plain a -> plain b -> plain (a ++ b).
  Proof. intros [A1 A2] [B1 B2]. split; intros I; apply in_app_or in I; tauto. Qed.
  Lemma plain_concat l : Forall plain l -> plain (concat l).
  Proof. induction 1; cbn; [split; intros []|]. apply plain_app; auto. Qed.
  Lemma plain_join ts : forall ds, Forall plain ts -> Forall (fun c => c = ","%char) ds -> plain (join ts ds).
  Proof.
    induction ts as [|t ts IH]; intros ds F G; [split; intros []|]. inversion F; subst.
    destruct ts as [|t' ts]; [cbn; auto|]. destruct ds as [|d ds].
    - change (join (t :: t' :: ts) []) with (t ++ join (t' :: ts) []). apply plain_app; auto.
    - inversion G; subst. rewrite join_cons. apply plain_app; auto.
      change (","%char :: join (t' :: ts) ds) with ([","%char] ++ join (t' :: ts) ds).
      apply plain_app; auto. apply plainb_ok. reflexivity.
  Qed.
  Lemma plain_tok_line ts : Forall plain ts -> plain (tok_line ts).
  Proof. intros F. apply plain_join; [exact F|]. apply Forall_forall. intros c I. apply repeat_spec in I. exact I. Qed.
  Lemma rows_plain f k l : Forall plain l -> Forall plain (rows f k l).
  Proof.
    revert l. induction f as [|f IH]; intros l F; cbn [rows]; [constructor|].
    destruct (length l <=? k); [constructor; [apply plain_concat; exact F|constructor]|].
    assert (F2 := F). rewrite <- (firstn_skipn k l) in F2. apply Forall_app in F2. destruct F2 as [Fa Fb].
    constructor; [apply plain_concat; exact Fa|apply IH; exact Fb].
  Qed.
  Ltac pl := repeat (apply Forall_cons; [first [apply fm_plain | apply p9_plain; assumption | apply plainb_ok; reflexivity | assumption]|]); try apply Forall_nil.
  Lemma w_lines_plain m : wm_ok D m -> Forall (ce_terms_ok D) (wm_mpcs D m) -> Forall plain (w_lines D fmt m).
  Proof.
    intros [Hn Hc Hs Hx Hl Ht Hp] Hce. unfold w_lines.
    assert (Z0 : n9 0) by (unfold n9; lia). assert (Z1 : n9 1) by (unfold n9; lia).
    repeat (apply Forall_app; split); try solve [pl].
    - apply Forall_forall. intros s I. apply in_map_iff in I. destruct I as ([n cs] & <- & I).
      rewrite Forall_forall in Hn. destruct (Hn _ I) as [A _]. cbn [fst] in A.
      unfold w_node. apply plain_concat. apply Forall_app. split; [cbn [map fst]; pl|].
      apply Forall_forall. intros s J. apply in_map_iff in J. destruct J as (x & <- & _). apply fm_plain.
    - apply Forall_forall. intros s I. apply in_map_iff in I. destruct I as (c & <- & I).
      rewrite Forall_forall in Hc. destruct (Hc _ I) as [_ A]. unfold w_cell. apply plain_concat.
      apply Forall_forall. intros s J. apply in_map_iff in J. destruct J as (z & <- & J).
      rewrite Forall_forall in A. apply p9_plain. auto.
    - apply Forall_forall. intros s I. apply in_map_iff in I. destruct I as (c & <- & I).
      rewrite Forall_forall in Hs. destruct (Hs _ I) as (_ & A & _). unfold w_short. apply plain_concat.
      apply Forall_forall. intros s J. apply in_map_iff in J. destruct J as (z & <- & J).
      rewrite Forall_forall in A. apply p9_plain. auto.
    - apply Forall_forall. intros s I. apply in_flat_map in I. destruct I as (c & I & J).
      rewrite Forall_forall in Ht, Hce. specialize (Ht _ I). specialize (Hce _ I).
      assert (Ln : n9 (Z.of_nat (length (mp_eq D c)))) by (unfold n9; destruct Hce as [H|[H|H]]; rewrite H; cbn; lia).
      unfold w_ce in J. destruct J as [<-|J].
      + unfold ce_head. apply plain_tok_line. pl.
      + assert (G : forall k ts, length ts <= k -> Forall (term_ok D) ts -> Forall plain (term_lines D fmt ts)).
        { assert (PT : forall t, term_ok D t -> Forall plain (term_toks D fmt t)).
          { intros t [A B]. pose proof (dof_label_free _ B) as Fr. apply andb_true_iff in Fr. unfold term_toks.
            repeat constructor; try (apply p9_plain; exact A); try apply fm_plain; apply plainb_ok, Fr. }
          assert (PL : forall l, Forall (term_ok D) l -> plain (term_line D fmt l)).
          { intros l Fl. unfold term_line. apply plain_tok_line. apply Forall_app. split; [pl|].
            induction Fl as [|t l H Fl IHl]; [constructor|]. cbn [flat_map]. apply Forall_app. split; auto. }
          induction k as [|k IHk]; intros ts Lk F.
          - destruct ts; [constructor|cbn in Lk; lia].
          - destruct ts as [|a [|b ts]]; [constructor|constructor; [apply PL; exact F|constructor]|].
            inversion F as [|? ? Fa F1]; subst. inversion F1 as [|? ? Fb F2]; subst.
            cbn [term_lines]. constructor; [apply PL; constructor; [exact Fa|constructor; [exact Fb|constructor]]|].
            apply IHk; [cbn in Lk; lia|exact F2]. }
        specialize (G (length (mp_eq D c)) (mp_eq D c) ltac:(lia) Ht). rewrite Forall_forall in G. auto.
    - apply Forall_forall. intros s I. apply in_map_iff in I. destruct I as (b & <- & I).
      rewrite Forall_forall in Hx. destruct (Hx _ I) as [A B]. pose proof (dof_label_free _ B) as Fr. apply andb_true_iff in Fr.
      unfold w_fix. apply plain_tok_line. repeat constructor; try apply fm_plain; try (apply p9_plain; exact A); try (apply plainb_ok; first [reflexivity|apply Fr]).
      all: try (intros X; vm_compute in X; intuition discriminate).
    - apply Forall_forall. intros s I. apply in_map_iff in I. destruct I as (b & <- & I).
      rewrite Forall_forall in Hl. destruct (Hl _ I) as [A B]. pose proof (force_label_free _ B) as Fr. apply andb_true_iff in Fr.
      unfold w_load. apply plain_tok_line. repeat (apply Forall_cons; [first [apply fm_plain|apply p9_plain; exact A|apply plainb_ok; reflexivity|apply plainb_ok; apply Fr]|]). apply Forall_nil.
    - apply Forall_forall. intros s I. apply in_flat_map in I. destruct I as (c & I & J).
      rewrite Forall_forall in Hp. destruct (Hp _ I) as ((T & Cm & Pl & Us) & Ii & L).
      assert (Ln : n9 (Z.of_nat (length (encode (wc_items c))))) by (unfold n9; lia).
      unfold w_comp in J. destruct J as [<-|[<-|J]].
      + unfold cm_head. apply plain_tok_line. destruct (wc_nodes c); pl.
      + apply plainb_ok. reflexivity.
      + unfold number_rows in J.
        assert (G : Forall plain (rows (S (length (encode (wc_items c)))) 8 (map (fun z => pad 10 (show z)) (encode (wc_items c))))).
        { apply rows_plain. apply Forall_forall. intros x K. apply in_map_iff in K. destruct K as (z & <- & K).
          apply pad_plain, show_plain. pose proof (encode_int _ (proj1 (item9_ok _ Ii))) as E. rewrite Forall_forall in E. auto. }
        rewrite Forall_forall in G. auto.
  Qed.

  Theorem cdb_roundtrip m ends last : wm_ok D m -> Forall (ce_terms_ok D) (wm_mpcs D m) ->
    map fst ends ++ last_line last = w_lines D fmt m -> unambiguous ends ->
    readCdbFile D d0 stod (file_of ends last) = Ok (mesh_of D d0 m).
  Proof.
    intros H1 H2 E U. unfold readCdbFile.
    pose proof (w_lines_plain m H1 H2) as F. rewrite <- E in F. apply Forall_app in F. destruct F as [F1 F2].
    rewrite read_lines_file.
    - cbn [obind]. rewrite E. apply cdb_lines_roundtrip; assumption.
    - apply Forall_forall. intros p I. rewrite Forall_forall in F1. apply F1. apply in_map. exact I.
    - destruct last; [split; intros []|]. inversion F2; auto.
    - exact U.
    - apply file_length.
  Qed.
End RT.
