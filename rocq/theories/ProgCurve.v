(* Proofs about the program: reference curves and their comparison *)
From Coq Require Import String Ascii Reals Lra.
From Verif Require Import Base ReaderModel SpecReader ReaderProofs ReaderNum DofModel ReactModel ProgModel SpecProg.
Local Open Scope list_scope.
Local Open Scope nat_scope.

Lemma drop_spaces p l : spaces p -> drop_space (p ++ l) = drop_space l.
Proof. induction 1 as [|c p H _ IH]; [reflexivity|]. cbn [app drop_space]. rewrite H. exact IH. Qed.
Lemma drop_all p : spaces p -> drop_space p = [].
Proof. intros H. rewrite <- (app_nil_r p), drop_spaces by exact H. reflexivity. Qed.
Definition brk (l : str) : Prop := l = [] \/ exists c u, l = c :: u /\ is_space c = true.
Lemma word_brk w l : Forall (fun c => is_space c = false) w -> brk l -> word (w ++ l) = (w, l).
Proof.
  intros H B. induction H as [|c w H _ IH].
  - destruct B as [->|(c & u & -> & E)]; [reflexivity|]. cbn [app word]. rewrite E. reflexivity.
  - cbn [app word]. rewrite H, IH. reflexivity.
Qed.
Lemma brk_app p l : p <> [] -> spaces p -> brk (p ++ l).
Proof. intros N S. destruct p as [|c p]; [contradiction|]. inversion S; subst. right. exists c, (p ++ l). split; [reflexivity|assumption]. Qed.
Lemma brk_spaces p : spaces p -> brk p.
Proof. intros S. destruct p as [|c p]; [left; reflexivity|]. inversion S; subst. right. exists c, p. auto. Qed.
Lemma brk_text l t : Forall sep_word l -> brk t -> brk (text l ++ t).
Proof.
  destruct 1 as [|[p w] l (A & B & _) _]; intros T; [exact T|]. cbn [text flat_map fst snd] in *. rewrite <- !app_assoc. apply brk_app; assumption.
Qed.
Lemma get_word_ok p w l old : spaces p -> is_word w -> brk l ->
  get_word (mkSt (p ++ w ++ l) false false) old = (w, mkSt l (at_end l) false).
Proof.
  intros S (N & W) B. unfold get_word. cbn [good sm_eof sm_fail sm_left negb andb]. rewrite drop_spaces by exact S.
  destruct w as [|c w]; [contradiction|]. inversion W as [|? ? X Y]; subst.
  change (drop_space ((c :: w) ++ l)) with (if is_space c then drop_space (w ++ l) else (c :: w) ++ l). rewrite X.
  change ((c :: w) ++ l) with (c :: (w ++ l)). cbn iota zeta. change (c :: w ++ l) with ((c :: w) ++ l).
  rewrite word_brk by assumption. reflexivity.
Qed.
Lemma at_end_app (p : str) l : p <> [] -> at_end (p ++ l) = false.
Proof. destruct p; [contradiction|reflexivity]. Qed.

Lemma get_word_end t old : spaces t -> get_word (mkSt t false false) old = (old, mkSt [] true true).
Proof. intros S. unfold get_word. cbn [good sm_eof sm_fail sm_left negb andb]. rewrite drop_all by exact S. reflexivity. Qed.
Lemma get_word_bad l e old : get_word (mkSt l e true) old = (old, mkSt l e true).
Proof. unfold get_word, good. cbn [sm_eof sm_fail sm_left negb andb]. rewrite andb_false_r. reflexivity. Qed.
Lemma get_num_bad D l e old : get_num D (mkSt l e true) old = (old, mkSt l e true).
Proof. unfold get_num, good. cbn [sm_eof sm_fail sm_left negb andb]. rewrite andb_false_r. reflexivity. Qed.
Section C.
  Variable D : Dbl.
  Variable sh : D -> str.

  Lemma get_num_ok p v l old : printed D sh v -> spaces p -> brk l -> get_num D (mkSt (p ++ sh v ++ l) false false) old = (Some v, mkSt l (at_end l) false).
  Proof.
    intros (V & G) S B. unfold get_num. cbn [good sm_eof sm_fail sm_left negb andb]. rewrite drop_spaces by exact S.
    destruct V as (N & W). specialize (G l B). destruct (sh v) as [|c w]; [contradiction|]. inversion W as [|? ? X Y]; subst.
    change (drop_space ((c :: w) ++ l)) with (if is_space c then drop_space (w ++ l) else (c :: w) ++ l). rewrite X.
    change ((c :: w) ++ l) with (c :: (w ++ l)). cbn iota. change (c :: w ++ l) with ((c :: w) ++ l). rewrite G. reflexivity.
  Qed.
  (* one pass of the loop over a row *)
  Lemma loop_row fuel r l tmp pre res : row_ok D sh r -> brk l ->
    ref_loop D (S fuel) (mkSt (text (row_text sh r) ++ l) false false) tmp pre res =
    (if deq (rw_val r) pre then ref_loop D fuel (mkSt l (at_end l) false) (Some (rw_val r)) pre res
     else ref_loop D fuel (mkSt l (at_end l) false) (Some (rw_val r)) (rw_val r) (res ++ [rw_val r])).
  Proof.
    intros (A & B & C1 & C2 & PR) L. destruct r as [[pa wa] [pb wb] pc v]. cbn [rw_a rw_b rw_sep rw_val] in *.
    destruct A as (A1 & A2 & A3), B as (B1 & B2 & B3). cbn [fst snd] in *.
    cbn [ref_loop sm_eof]. unfold row_text, text. cbn [flat_map fst snd rw_a rw_b rw_sep rw_val]. rewrite app_nil_r, <- !app_assoc.
    rewrite get_word_ok; [|exact A2|exact A3|apply brk_app; assumption]. cbn [snd]. rewrite at_end_app by exact B1.
    rewrite get_word_ok; [|exact B2|exact B3|apply brk_app; assumption]. cbn [snd]. rewrite at_end_app by exact C1.
    rewrite get_num_ok by assumption. cbn [fst snd]. reflexivity.
  Qed.

  Lemma text_cons r rows t : text (flat_map (row_text sh) (r :: rows)) ++ t = text (row_text sh r) ++ text (flat_map (row_text sh) rows) ++ t.
  Proof. cbn [flat_map]. unfold text. rewrite flat_map_app, <- app_assoc. reflexivity. Qed.
  Lemma rows_sep rows : Forall (row_ok D sh) rows -> Forall sep_word (flat_map (row_text sh) rows).
  Proof.
    induction 1 as [|r rows (A & B & C1 & C2 & PR & _) _ IH]; [constructor|]. cbn [flat_map]. apply Forall_app. split; [|exact IH].
    repeat (constructor; [assumption|]). constructor; [|constructor]. split; [exact C1|]. split; [exact C2|]. exact PR.
  Qed.
  Lemma rows_brk rows t : Forall (row_ok D sh) rows -> brk t -> brk (text (flat_map (row_text sh) rows) ++ t).
  Proof. intros H B. apply brk_text; [apply rows_sep; exact H|exact B]. Qed.
  Lemma row_end r t : row_ok D sh r -> at_end (text (row_text sh r) ++ t) = false.
  Proof. intros ((A & _) & _). unfold text, row_text. cbn [flat_map fst snd]. rewrite <- !app_assoc. apply at_end_app, A. Qed.

  (* the value in tmp is the last one pushed, or equal to it *)
  Lemma loop_end fuel t v pre res : spaces t -> deq v pre = true -> 1 < fuel ->
    ref_loop D fuel (mkSt t (at_end t) false) (Some v) pre res = Ok res.
  Proof.
    intros S E L. destruct fuel as [|[|fuel]]; [lia|lia|]. destruct t as [|c t]; [reflexivity|].
    cbn [ref_loop at_end sm_eof]. rewrite get_word_end by exact S. cbn [snd]. rewrite get_word_bad. cbn [snd].
    rewrite get_num_bad. cbn [fst snd sm_eof]. rewrite E. reflexivity.
  Qed.
  Lemma loop_rows rows : forall fuel t v pre res, Forall (row_ok D sh) rows -> spaces t -> deq v pre = true ->
    (forall r, In r rows -> deq (rw_val r) (rw_val r) = true) -> S (length rows) < fuel ->
    ref_loop D fuel (mkSt (text (flat_map (row_text sh) rows) ++ t) (at_end (text (flat_map (row_text sh) rows) ++ t)) false) (Some v) pre res =
    Ok (res ++ squeeze D pre (map rw_val rows)).
  Proof.
    induction rows as [|r rows IH]; intros fuel t v pre res R S E V L.
    - cbn [flat_map text map squeeze app]. rewrite app_nil_r. apply loop_end; [exact S|exact E|cbn in L; lia].
    - inversion R as [|? ? R1 R2]; subst. rewrite text_cons, row_end by exact R1.
      destruct fuel as [|fuel]; [lia|]. rewrite loop_row; [|exact R1|apply rows_brk; [exact R2|apply brk_spaces, S]].
      cbn [map squeeze]. cbn [length] in L. destruct (deq (rw_val r) pre) eqn:Q.
      + apply IH; auto; [intros; apply V; right; assumption|lia].
      + rewrite IH; auto; [rewrite <- app_assoc; reflexivity|apply V; left; reflexivity|intros; apply V; right; assumption|lia].
  Qed.

  Variables h0 h1 p1 p2 p3 : str.
  Hypothesis HW : is_word h0 /\ is_word h1.
  Hypothesis HP : spaces p1 /\ spaces p2 /\ p2 <> [] /\ spaces p3 /\ p3 <> [].
  Lemma force_word : is_word (s_ "force").
  Proof. split; [discriminate|]. repeat constructor. Qed.
  Lemma header_ok fuel l : brk l ->
    readRefCurveData D fuel (Some (p1 ++ h0 ++ p2 ++ h1 ++ p3 ++ s_ "force" ++ l)) =
    lift (ref_loop D fuel (mkSt l (at_end l) false) None (ropp r1) []).
  Proof.
    intros B. destruct HW as (W0 & W1), HP as (P1 & P2 & N2 & P3 & N3).
    unfold readRefCurveData. cbv zeta.
    rewrite get_word_ok; [|exact P1|exact W0|apply brk_app; assumption]. cbn [fst snd]. rewrite at_end_app by exact N2.
    rewrite get_word_ok; [|exact P2|exact W1|apply brk_app; assumption]. cbn [fst snd]. rewrite at_end_app by exact N3.
    rewrite get_word_ok; [|exact P3|exact force_word|exact B]. cbn [fst snd]. rewrite str_eqb_refl. reflexivity.
  Qed.

  Lemma read_curve fuel rows t : Forall (row_ok D sh) rows -> rows <> [] -> spaces t ->
    (forall r, In r rows -> deq (rw_val r) (rw_val r) = true) -> S (S (length rows)) <= fuel ->
    readRefCurveData D fuel (Some (curve_file sh h0 h1 p1 p2 p3 rows t)) = go (squeeze D (ropp r1) (map rw_val rows)).
  Proof.
    intros R N S V L. unfold curve_file. rewrite header_ok by (apply rows_brk; [exact R|apply brk_spaces, S]).
    destruct rows as [|r rows]; [contradiction|]. inversion R as [|? ? R1 R2]; subst.
    rewrite text_cons, row_end by exact R1. destruct fuel as [|fuel]; [lia|].
    rewrite loop_row; [|exact R1|apply rows_brk; [exact R2|apply brk_spaces, S]].
    cbn [map squeeze]. cbn [length] in L. destruct (deq (rw_val r) (ropp r1)) eqn:Q.
    - rewrite loop_rows; auto; [intros; apply V; right; assumption|lia].
    - rewrite loop_rows; auto; [apply V; left; reflexivity|intros; apply V; right; assumption|lia].
  Qed.
  Lemma header_only fuel t : spaces t -> t <> [] -> 0 < fuel ->
    readRefCurveData D fuel (Some (curve_file sh h0 h1 p1 p2 p3 [] t)) = UB.
  Proof.
    intros S N L. unfold curve_file. cbn [flat_map text app]. rewrite header_ok by (apply brk_spaces, S).
    destruct fuel as [|fuel]; [lia|]. destruct t as [|c t]; [contradiction|]. cbn [ref_loop at_end sm_eof].
    rewrite get_word_end by exact S. cbn [snd]. rewrite get_word_bad. cbn [snd]. rewrite get_num_bad. reflexivity.
  Qed.

  (* after a failed extraction that does not reach the end the loop never ends *)
  Lemma stuck fuel : forall l tmp pre res, tmp <> None -> ref_loop D fuel (mkSt l false true) tmp pre res = Loop.
  Proof.
    induction fuel as [|fuel IH]; intros l tmp pre res T; [reflexivity|].
    cbn [ref_loop sm_eof]. rewrite get_word_bad. cbn [snd]. rewrite get_word_bad. cbn [snd]. rewrite get_num_bad. cbn [fst snd].
    destruct tmp as [v|]; [|contradiction]. destruct (deq v pre); apply IH; discriminate.
  Qed.
  Lemma bad_row fuel a b p x l rest tmp pre res : sep_word a -> sep_word b -> p <> [] -> spaces p -> is_word x ->
    @dget D (x ++ l) = (None, rest) -> rest <> [] ->
    ref_loop D fuel (mkSt (text [a; b; (p, x)] ++ l) false false) tmp pre res = Loop.
  Proof.
    intros (A1 & A2 & A3) (B1 & B2 & B3) N S X G R. destruct fuel as [|fuel]; [reflexivity|].
    cbn [ref_loop sm_eof]. unfold text. cbn [flat_map fst snd]. rewrite app_nil_r, <- !app_assoc.
    rewrite get_word_ok; [|exact A2|exact A3|apply brk_app; assumption]. cbn [snd]. rewrite at_end_app by exact B1.
    rewrite get_word_ok; [|exact B2|exact B3|apply brk_app; assumption]. cbn [snd]. rewrite at_end_app by exact N.
    unfold get_num. cbn [good sm_eof sm_fail sm_left negb andb]. rewrite drop_spaces by exact S.
    destruct X as (X1 & X2). destruct x as [|c x]; [contradiction|]. inversion X2 as [|? ? X3 X4]; subst.
    change (drop_space ((c :: x) ++ l)) with (if is_space c then drop_space (x ++ l) else (c :: x) ++ l). rewrite X3.
    change ((c :: x) ++ l) with (c :: (x ++ l)). cbn iota. change (c :: x ++ l) with ((c :: x) ++ l). rewrite G.
    destruct rest as [|d rest]; [contradiction|]. cbn [at_end fst snd].
    destruct (deq _ pre); apply stuck; discriminate.
  Qed.
  Lemma malformed rows : forall fuel a b p x l rest tmp pre res, Forall (row_ok D sh) rows -> sep_word a -> sep_word b -> p <> [] -> spaces p -> is_word x ->
    @dget D (x ++ l) = (None, rest) -> rest <> [] -> brk l ->
    ref_loop D fuel (mkSt (text (flat_map (row_text sh) rows) ++ text [a; b; (p, x)] ++ l) false false) tmp pre res = Loop.
  Proof.
    induction rows as [|r rows IH]; intros fuel a b p x l rest tmp pre res Rw A B N S X G R K.
    - cbn [flat_map text app]. eapply bad_row; eassumption.
    - inversion Rw as [|? ? R1 R2]; subst. rewrite text_cons. destruct fuel as [|fuel]; [reflexivity|].
      assert (T : brk (text [a; b; (p, x)] ++ l)).
      { apply brk_text; [|exact K]. repeat (constructor; [assumption|]). constructor; [|constructor]. split; [exact N|]. split; assumption. }
      rewrite loop_row; [|exact R1|apply rows_brk; assumption].
      assert (E : at_end (text (flat_map (row_text sh) rows) ++ text [a; b; (p, x)] ++ l) = false).
      { destruct rows as [|r2 rows2]; [|inversion R2; subst; rewrite text_cons; apply row_end; assumption].
        cbn [flat_map text app]. unfold text. cbn [flat_map fst snd]. rewrite <- !app_assoc. apply at_end_app, A. }
      rewrite E. destruct (deq (rw_val r) pre); eapply IH; eassumption.
  Qed.
  Lemma malformed_file fuel rows a b p x l rest : Forall (row_ok D sh) rows -> sep_word a -> sep_word b -> p <> [] -> spaces p -> is_word x ->
    @dget D (x ++ l) = (None, rest) -> rest <> [] -> brk l ->
    readRefCurveData D fuel (Some (curve_file sh h0 h1 p1 p2 p3 rows (text [a; b; (p, x)] ++ l))) = Loop.
  Proof.
    intros Rw A B N S X G R K. unfold curve_file.
    assert (T : brk (text [a; b; (p, x)] ++ l)).
    { apply brk_text; [|exact K]. repeat (constructor; [assumption|]). constructor; [|constructor]. split; [exact N|]. split; assumption. }
    rewrite header_ok by (apply rows_brk; assumption).
    assert (E : at_end (text (flat_map (row_text sh) rows) ++ text [a; b; (p, x)] ++ l) = false).
    { destruct rows as [|r2 rows2]; [|inversion Rw; subst; rewrite text_cons; apply row_end; assumption].
      cbn [flat_map text app]. unfold text. cbn [flat_map fst snd]. rewrite <- !app_assoc. apply at_end_app, A. }
    rewrite E. erewrite malformed; [reflexivity|eassumption..].
  Qed.
End C.
Lemma squeeze_changing D pre l : changing D pre l -> squeeze D pre l = l.
Proof. revert pre; induction l as [|v l IH]; intros pre; [reflexivity|]. intros [E C]. cbn [squeeze]. rewrite E, (IH _ C). reflexivity. Qed.
Lemma no_file D fuel : readRefCurveData D fuel None = stop 1.
Proof. reflexivity. Qed.

(* ---- comparison over the extended real numbers *)
Section X.
  Variables (atof : str -> ext) (get : str -> option ext * str).
  Let X := XDbl atof get.
  Lemma fold_fin n a : forall b s, length a = length b ->
    fold_left (fun e p => @radd X e (@ddivn X (dabs (rsub (fst p) (snd p))) n)) (combine (map Fin a) (map Fin b)) (Fin s)
    = Fin (s + abs_sum a b / INR n)%R.
  Proof.
    induction a as [|x a IH]; intros [|y b] s L; try discriminate.
    - cbn. f_equal. unfold Rdiv. ring.
    - cbn [map combine fold_left fst snd abs_sum]. change (@radd X) with xadd. change (@ddivn X) with xdivn. change (@dabs X) with xabs.
      change (@rsub X) with (fun a b => xadd a (xneg b)). cbn [xadd xneg xabs xdivn].
      cbn [length] in L. change (@radd X) with xadd in IH. change (@ddivn X) with xdivn in IH. change (@dabs X) with xabs in IH.
      change (@rsub X) with (fun a b => xadd a (xneg b)) in IH. rewrite IH by lia. f_equal. unfold Rminus, Rdiv. ring.
  Qed.
  Lemma compare_fin a b : length a = length b -> compareCurves X (map Fin a) (map Fin b) = go (Fin (mean_diff a b)).
  Proof.
    intros L. unfold compareCurves. rewrite !map_length, L, Nat.eqb_refl. unfold go. do 2 f_equal.
    change (@r0 X) with (Fin 0). rewrite fold_fin by exact L. f_equal. unfold mean_diff. ring.
  Qed.
  Lemma nan_absorbs n l : fold_left (fun e p => @radd X e (@ddivn X (dabs (rsub (fst p) (snd p))) n)) l NaN = NaN.
  Proof. induction l as [|p l IH]; [reflexivity|]. cbn [fold_left]. exact IH. Qed.
  Lemma fold_nan n a : forall b s, length a = length b -> In NaN b ->
    fold_left (fun e p => @radd X e (@ddivn X (dabs (rsub (fst p) (snd p))) n)) (combine a b) s = NaN.
  Proof.
    induction a as [|x a IH]; intros [|y b] s L I; try discriminate; [destruct I|]. cbn [combine fold_left fst snd].
    destruct I as [->|I]; [|apply IH; [injection L; auto|exact I]].
    replace (@radd X s (@ddivn X (dabs (rsub x NaN)) n)) with NaN; [apply nan_absorbs|].
    change (NaN = xadd s (xdivn (xabs (xadd x NaN)) n)). destruct x, s; reflexivity.
  Qed.
  Lemma compare_nan a b : length a = length b -> In NaN b -> compareCurves X a b = go NaN.
  Proof. intros L I. unfold compareCurves. rewrite L, Nat.eqb_refl. unfold go. do 2 f_equal. rewrite fold_nan by assumption. reflexivity. Qed.
End X.
Lemma abs_sum_pos a : forall b, (0 <= abs_sum a b)%R.
Proof. induction a as [|x a IH]; intros [|y b]; cbn [abs_sum]; try lra. pose proof (Rabs_pos (x - y)). specialize (IH b). lra. Qed.
Lemma abs_sum_zero a : forall b, length a = length b -> abs_sum a b = 0%R -> a = b.
Proof.
  induction a as [|x a IH]; intros [|y b] L; try discriminate; [reflexivity|]. cbn [abs_sum length] in *. intros E.
  pose proof (Rabs_pos (x - y)). pose proof (abs_sum_pos a b). f_equal; [|apply IH; [lia|lra]].
  assert (Rabs (x - y) = 0)%R as Z by lra. destruct (Req_dec (x - y) 0) as [Q|Q]; [lra|]. apply Rabs_no_R0 in Q. contradiction.
Qed.
Lemma abs_sum_same a : abs_sum a a = 0%R.
Proof. induction a as [|x a IH]; [reflexivity|]. cbn [abs_sum]. rewrite IH. replace (x - x)%R with 0%R by ring. rewrite Rabs_R0. ring. Qed.
Lemma mean_zero a b : length a = length b -> (mean_diff a b = 0%R <-> a = b).
Proof.
  intros L. unfold mean_diff. split.
  - intros E. destruct b as [|y b]; [destruct a; [reflexivity|discriminate]|].
    apply abs_sum_zero; [exact L|]. assert (0 < INR (length (y :: b)))%R by (apply lt_0_INR; cbn; lia).
    apply Rmult_integral in E. destruct E as [E|E]; [exact E|]. exfalso. pose proof (Rinv_0_lt_compat _ H). lra.
  - intros ->. rewrite abs_sum_same. unfold Rdiv. ring.
Qed.
