From Coq Require Import Ascii String Lia ZArith.
From Verif Require Import Base BaseProofs ReaderModel SpecReader ReaderProofs ReaderNum SpecCdb ReaderFile SpecPieces.
Local Open Scope nat_scope.
Local Open Scope list_scope.

Section P.
  Variable D : Type.
  Variable d0 : D.
  Variable stod : str -> conv D.
  Variable fmt : D -> str.
  Hypothesis FM : fmt_ok D fmt stod.
  Notation piece := (piece D).

  Definition eff (p : piece) : mesh D -> mesh D :=
    match p with
    | PNodes _ ns => add_nodes D (map (fun p => (fst p, node_pos D d0 (snd p))) ns)
    | PCells _ cs => add_cells D cs
    | PShort _ cs => add_cells D cs
    | PFix _ b => add_fix D [b]
    | PLoad _ b => add_load D [b]
    | PCe _ m => add_mpc D [m]
    | PComp _ c => add_comp D (comp_of c)
    | _ => fun m => m
    end.

  Lemma text_delim ts : Forall text_ok ts -> Forall (no_delim comma) ts.
  Proof. intros F. eapply Forall_impl; [|exact F]. intros t [A _]. exact A. Qed.
  Lemma iequals_other w k : map lower w <> map lower k -> iequals w k = false.
  Proof.
    intros N. unfold iequals, stolower. destruct (str_eqb (map lower w) (map lower k)) eqn:E; [|reflexivity]. apply str_eqb_eq in E. contradiction.
  Qed.

  Lemma note_ok w ts : piece_ok D (PNote D w ts) -> consumes D d0 stod (w_piece D fmt (PNote D w ts)) (fun m => m).
  Proof.
    intros (T & I & F) fuel rest md. cbn [w_piece app read_cdb_from]. rewrite toks_line by (try discriminate; apply text_delim, F). cbn [obind map].
    unfold command. unfold aget at 1. cbn [nth_error obind]. rewrite (strim_id w T).
    destruct I as [->|[(t & ->)|[(t & ->)|I]]]; [reflexivity|reflexivity|reflexivity|].
    destruct (str_eqb w []); [reflexivity|]. destruct (Ascii.eqb (first_char w) "/"%char); [reflexivity|]. destruct (Ascii.eqb (first_char w) "!"%char); [reflexivity|].
    unfold known_words in I. cbn [map] in I. rewrite Forall_forall in I.
    assert (Q : forall k, In k known_words -> iequals w k = false) by (intros k Hk; apply iequals_other, I, Hk).
    rewrite !Q by (cbn; tauto). reflexivity.
  Qed.
  Lemma type_ok z ts : piece_ok D (PType D z ts) -> consumes D d0 stod (w_piece D fmt (PType D z ts)) (fun m => m).
  Proof.
    intros (N & F) fuel rest md. cbn [w_piece app read_cdb_from]. rewrite toks_line.
    2: discriminate.
    2: { constructor; [apply commafree_ok; reflexivity|]. constructor; [apply p9_nodelim; exact N|]. apply text_delim, F. }
    cbn [obind map]. rewrite strim_p9 by exact N. unfold command, tokenInt. unfold aget at 1. cbn [nth_error obind]. change (strim (s_ "ET")) with (s_ "ET").
    change (iequals (s_ "ET") (s_ "NBLOCK")) with false. change (iequals (s_ "ET") (s_ "EBLOCK")) with false. change (iequals (s_ "ET") (s_ "D")) with false.
    change (iequals (s_ "ET") (s_ "CE")) with false. change (iequals (s_ "ET") (s_ "CMBLOCK")) with false. change (iequals (s_ "ET") (s_ "ET")) with true.
    change (str_eqb (s_ "ET") []) with false. change (Ascii.eqb (first_char (s_ "ET")) "/"%char) with false. change (Ascii.eqb (first_char (s_ "ET")) "!"%char) with false. cbv iota.
    unfold aget. cbn [nth_error obind orb]. rewrite stoi_show9 by exact N. reflexivity.
  Qed.
  Lemma set_ok name x : piece_ok D (PSet D name x) -> consumes D d0 stod (w_piece D fmt (PSet D name x)) (fun m => m).
  Proof.
    intros (N & _) fuel rest md. cbn [w_piece app read_cdb_from]. rewrite toks_line.
    2: discriminate.
    2: { constructor; [apply commafree_ok; reflexivity|]. constructor; [exact N|]. constructor; [apply (FM x)|constructor]. }
    cbn [obind map]. unfold command, tokenDouble. unfold aget at 1. cbn [nth_error obind]. change (strim (s_ "*SET")) with (s_ "*SET").
    change (iequals (s_ "*SET") (s_ "NBLOCK")) with false. change (iequals (s_ "*SET") (s_ "EBLOCK")) with false. change (iequals (s_ "*SET") (s_ "D")) with false.
    change (iequals (s_ "*SET") (s_ "CE")) with false. change (iequals (s_ "*SET") (s_ "CMBLOCK")) with false. change (iequals (s_ "*SET") (s_ "ET")) with false.
    change (iequals (s_ "*SET") (s_ "ETYPE")) with false. change (iequals (s_ "*SET") (s_ "TYPE")) with false. change (iequals (s_ "*SET") (s_ "F")) with false.
    change (iequals (s_ "*SET") (s_ "*set")) with true.
    change (str_eqb (s_ "*SET") []) with false. change (Ascii.eqb (first_char (s_ "*SET")) "/"%char) with false. change (Ascii.eqb (first_char (s_ "*SET")) "!"%char) with false. cbv iota.
    unfold aget. cbn [nth_error obind orb]. destruct (FM x) as (_ & _ & E & _). rewrite E. reflexivity.
  Qed.
  Lemma piece_consumes p : piece_ok D p -> consumes D d0 stod (w_piece D fmt p) (eff p).
  Proof.
    intros H. destruct p; cbn [piece_ok w_piece eff] in *.
    - apply consumes_nodes; assumption.
    - apply consumes_cells; assumption.
    - apply consumes_shorts; assumption.
    - apply consumes_fix; assumption.
    - apply consumes_load; assumption.
    - destruct H. apply consumes_ce; assumption.
    - apply consumes_comp; assumption.
    - apply type_ok. exact H.
    - apply set_ok. exact H.
    - apply note_ok. exact H.
  Qed.

  Lemma comps_fold ps : forall md, md_comps D (fold_left (fun m p => eff p m) ps md) = fold_left comps_insert (map comp_of (flat_map (p_comps D) ps)) (md_comps D md).
  Proof.
    induction ps as [|p ps IH]; intros md; [reflexivity|]. cbn [fold_left flat_map]. rewrite map_app, fold_left_app, IH. destruct p; reflexivity.
  Qed.
  Lemma comps_fold2 l : forall md, md_comps D (fold_left (fun m c => add_comp D (comp_of c) m) l md) = fold_left comps_insert (map comp_of l) (md_comps D md).
  Proof. induction l as [|c l IH]; intros md; [reflexivity|]. cbn [fold_left map]. rewrite IH. reflexivity. Qed.
  Lemma fields_fold ps : forall md, let r := fold_left (fun m p => eff p m) ps md in
    md_nodes D r = md_nodes D md ++ map fst (flat_map (p_nodes D) ps) /\
    md_pos D r = md_pos D md ++ map (fun p => node_pos D d0 (snd p)) (flat_map (p_nodes D) ps) /\
    md_cells D r = md_cells D md ++ flat_map (p_cells D) ps /\ md_fix D r = md_fix D md ++ flat_map (p_fix D) ps /\
    md_load D r = md_load D md ++ flat_map (p_load D) ps /\ md_mpcs D r = md_mpcs D md ++ flat_map (p_mpcs D) ps.
  Proof.
    induction ps as [|p ps IH]; intros md; cbv zeta; cbn [fold_left flat_map].
    - cbn [map]. rewrite !app_nil_r. repeat split.
    - specialize (IH (eff p md)). cbv zeta in IH. destruct IH as (A & B & C & E & F & G). rewrite A, B, C, E, F, G. clear.
      rewrite !map_app, !app_assoc.
      destruct p; cbn [eff p_nodes p_cells p_fix p_load p_mpcs map]; unfold add_nodes, add_cells, add_fix, add_load, add_mpc, add_comp;
        cbn [md_nodes md_pos md_cells md_fix md_load md_mpcs]; rewrite ?app_nil_r, ?map_map; cbn [fst snd]; repeat split.
  Qed.
  Lemma pieces_fold ps : fold_left (fun m p => eff p m) ps (md_empty D) = mesh_of_pieces D d0 ps.
  Proof.
    pose proof (fields_fold ps (md_empty D)) as (A & B & C & E & F & G). pose proof (comps_fold ps (md_empty D)) as H.
    rewrite <- comps_fold2, fold_comp in H. destruct (fold_left (fun m p => eff p m) ps (md_empty D)) as [ns qs cs fs ls ms ks].
    cbn [md_nodes md_pos md_cells md_fix md_load md_mpcs md_comps md_empty app] in *. subst. unfold mesh_of_pieces. f_equal.
    generalize (firsts (map comp_of (flat_map (p_comps D) ps))). intros L. induction L as [|q L IHL]; [reflexivity|].
    change (filter (notin []) (q :: L)) with (q :: filter (notin []) L). rewrite IHL. reflexivity.
  Qed.

  Lemma pieces_lines ps : Forall (piece_ok D) ps -> read_cdb_lines D d0 stod (flat_map (w_piece D fmt) ps) = Ok (mesh_of_pieces D d0 ps).
  Proof.
    intros F. unfold read_cdb_lines.
    assert (L : length ps <= length (flat_map (w_piece D fmt) ps)).
    { clear F. induction ps as [|p ps IH]; [cbn; lia|]. cbn [flat_map length]. rewrite app_length.
      assert (1 <= length (w_piece D fmt p)) by (destruct p; cbn; lia). lia. }
    replace (S (length (flat_map (w_piece D fmt) ps))) with (length ps + S (length (flat_map (w_piece D fmt) ps) - length ps)) by lia.
    rewrite <- (app_nil_r (flat_map (w_piece D fmt) ps)) at 2. rewrite (consumes_list D d0 stod (w_piece D fmt) eff).
    - cbn [read_cdb_from]. rewrite pieces_fold. reflexivity.
    - eapply Forall_impl; [|exact F]. exact piece_consumes.
  Qed.

  Lemma text_plain ts : Forall text_ok ts -> Forall plain ts.
  Proof. intros F. eapply Forall_impl; [|exact F]. intros t [_ A]. exact A. Qed.
  Lemma piece_plain p : piece_ok D p -> Forall plain (w_piece D fmt p).
  Proof.
    assert (W : forall m, wm_ok D m -> Forall (ce_terms_ok D) (wm_mpcs D m) -> forall a, (forall s, In s a -> In s (w_lines D fmt m)) -> Forall plain a).
    { intros m A B a S. pose proof (w_lines_plain D stod fmt FM m A B) as P. rewrite Forall_forall in P |- *. auto. }
    intros H. destruct p as [ns|cs|cs|b|b|m|c|z ts|name x|w ts]; cbn [piece_ok w_piece] in *.
    - apply (W (mkWM D ns [] [] [] [] [] [])); [split; try constructor; exact H|constructor|]. intros s Hs. unfold w_lines. cbn [wm_nodes]. rewrite !in_app_iff in *. cbn [In] in *. tauto.
    - apply (W (mkWM D [] cs [] [] [] [] [])); [split; try constructor; exact H|constructor|]. intros s Hs. unfold w_lines. cbn [wm_cells]. rewrite !in_app_iff in *. cbn [In] in *. tauto.
    - apply (W (mkWM D [] [] cs [] [] [] [])); [split; try constructor; exact H|constructor|]. intros s Hs. unfold w_lines. cbn [wm_short]. rewrite !in_app_iff in *. cbn [In] in *. tauto.
    - apply (W (mkWM D [] [] [] [b] [] [] [])); [split; try constructor; try exact H; constructor|constructor|]. intros s Hs. unfold w_lines. cbn [wm_fix map]. rewrite !in_app_iff in *. cbn [In] in *. tauto.
    - apply (W (mkWM D [] [] [] [] [b] [] [])); [split; try constructor; try exact H; constructor|constructor|]. intros s Hs. unfold w_lines. cbn [wm_load map]. rewrite !in_app_iff in *. cbn [In] in *. tauto.
    - destruct H as [H1 H2]. apply (W (mkWM D [] [] [] [] [] [m] [])); [split; try constructor; try exact H1; constructor|constructor; [exact H2|constructor]|].
      intros s Hs. unfold w_lines. cbn [wm_mpcs flat_map]. rewrite !in_app_iff in *. tauto.
    - apply (W (mkWM D [] [] [] [] [] [] [c])); [split; try constructor; try exact H; constructor|constructor|]. intros s Hs. unfold w_lines. cbn [wm_comps flat_map]. rewrite !in_app_iff in *. tauto.
    - destruct H as [N F]. constructor; [|constructor]. apply plain_tok_line. constructor; [apply plainb_ok; reflexivity|]. constructor; [apply p9_plain; exact N|]. apply text_plain, F.
    - destruct H as [_ N]. constructor; [|constructor]. apply plain_tok_line. constructor; [apply plainb_ok; reflexivity|]. constructor; [exact N|]. constructor; [apply (FM x)|constructor].
    - destruct H as (_ & _ & F). constructor; [|constructor]. apply plain_tok_line. apply text_plain, F.
  Qed.

  Theorem pieces_read ps ends last : Forall (piece_ok D) ps -> map fst ends ++ last_line last = flat_map (w_piece D fmt) ps -> unambiguous ends ->
    readCdbFile D d0 stod (file_of ends last) = Ok (mesh_of_pieces D d0 ps).
  Proof.
    intros H E U. unfold readCdbFile.
    assert (F : Forall plain (flat_map (w_piece D fmt) ps)).
    { rewrite Forall_forall in *. intros s Hs. apply in_flat_map in Hs as (p & P1 & P2). pose proof (piece_plain p (H p P1)) as Q. rewrite Forall_forall in Q. auto. }
    rewrite <- E in F. apply Forall_app in F. destruct F as [F1 F2]. rewrite read_lines_file.
    - cbn [obind]. rewrite E. apply pieces_lines, H.
    - apply Forall_forall. intros p I. rewrite Forall_forall in F1. apply F1. apply in_map. exact I.
    - destruct last; [split; intros []|]. inversion F2; auto.
    - exact U.
    - apply file_length.
  Qed.

  Lemma flat_kind {A} (f : piece -> list A) k : (forall p, of_kind D k p = false -> f p = []) -> forall ps, flat_map f ps = flat_map f (filter (of_kind D k) ps).
  Proof.
    intros H ps. induction ps as [|p ps IH]; [reflexivity|]. cbn [flat_map filter]. destruct (of_kind D k p) eqn:E; [cbn [flat_map]; rewrite IH; reflexivity|]. rewrite (H p E). exact IH.
  Qed.
  Lemma same_mesh ps qs : same_by_kind D ps qs -> mesh_of_pieces D d0 ps = mesh_of_pieces D d0 qs.
  Proof.
    intros S. unfold mesh_of_pieces.
    assert (X : forall A (f : piece -> list A) k, (forall p, of_kind D k p = false -> f p = []) -> flat_map f ps = flat_map f qs).
    { intros A f k H. rewrite (flat_kind f k H ps), (flat_kind f k H qs), (S k). reflexivity. }
    rewrite (X _ (p_nodes D) KNodes), (X _ (p_cells D) KCells), (X _ (p_fix D) KFix), (X _ (p_load D) KLoad), (X _ (p_mpcs D) KCe), (X _ (p_comps D) KComp); [reflexivity|..].
    all: intros p E; destruct p; cbn in *; try reflexivity; discriminate E.
  Qed.
End P.
