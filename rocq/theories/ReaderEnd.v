(* The reader ends for every file *)
From Coq Require Import Ascii String.
From Verif Require Import Base ReaderModel SpecReader ReaderProofs ReaderNum.
Local Open Scope nat_scope.
Local Open Scope list_scope.

(* e does not run for ever, and its result has the property P *)
Definition ends {A} (P : A -> Prop) (e : outcome A) : Prop :=
  match e with Ok a => P a | Loop => False | _ => True end.
Lemma ends_bind {A B} (P : A -> Prop) (Q : B -> Prop) e k :
  ends P e -> (forall a, P a -> ends Q (k a)) -> ends Q (obind e k).
Proof. destruct e; cbn; auto. Qed.
Lemma ends_weak {A} (P Q : A -> Prop) e : (forall a, P a -> Q a) -> ends P e -> ends Q e.
Proof. destruct e; cbn; auto. Qed.
Definition any {A} (_ : A) : Prop := True.
Lemma ends_aget {A} (l : list A) i : ends any (aget l i).
Proof. unfold aget. destruct (nth_error l i); exact I. Qed.
Lemma ends_thrown {A} (x : conv A) : ends any (thrown x).
Proof. destruct x; exact I. Qed.
Lemma ends_asserting {A} (P : A -> Prop) b e : ends P e -> ends P (asserting b e).
Proof. destruct b; cbn; auto. Qed.
Lemma ends_ssplit line ws strict : forall ind vv, ends any (ssplit_from line ind ws strict vv).
Proof.
  induction ws as [|w ws IH]; intros ind vv; cbn; [exact I|].
  destruct (_ <? w); [destruct strict; [exact I|destruct (negb _); exact I]|apply IH].
Qed.
Lemma ends_tokenInt t i : ends any (tokenInt t i).
Proof. eapply ends_bind; [apply ends_aget|]. intros; exact I. Qed.
Lemma ends_fieldInt v i : ends any (fieldInt v i).
Proof. eapply ends_bind; [apply ends_aget|]. intros a _. eapply ends_bind; [apply ends_thrown|]. intros; exact I. Qed.
Lemma ends_fieldInts v st n : ends any (fieldInts v st n).
Proof.
  unfold fieldInts. set (f := fun _ _ => _). generalize (@nil Z). generalize (seq 0 n). intros l.
  induction l as [|i l IH]; intros acc; cbn; [exact I|].
  eapply ends_bind with (P := any); [|intros a _; apply IH]. eapply ends_bind; [apply ends_fieldInt|intros; exact I].
Qed.
Lemma ends_toks line : ends any (toks line).
Proof.
  unfold toks. destruct (tokenize_spec comma false line) as (raws & dts & -> & _). exact I.
Qed.
Lemma ends_fmt_i l : ends any (fmt_i l).
Proof.
  unfold fmt_i. destruct (re_i _) as [[a b]|]; [|exact I].
  eapply ends_bind; [apply ends_thrown|]. intros. eapply ends_bind; [apply ends_thrown|]. intros; exact I.
Qed.
Lemma ends_fmt_ie l : ends any (fmt_ie l).
Proof.
  unfold fmt_ie. destruct (re_ie _) as [[[[a b] c] d]|]; [|exact I].
  do 4 (eapply ends_bind; [apply ends_thrown|]; intros). exact I.
Qed.
Lemma next_line_len ls : length (snd (next_line ls)) <= length ls.
Proof. destruct ls; cbn; lia. Qed.

Section End.
  Variable D : Type.
  Variable d0 : D.
  Variable stod : str -> conv D.
  (* r leaves a last part of ls *)
  Inductive suffix : list str -> list str -> Prop :=
  | Suf0 l : suffix l l
  | SufS x l l' : suffix l l' -> suffix (x :: l) l'.
  Definition shorter {A} (ls : list str) (r : list str * A) : Prop := suffix ls (fst r).
  Lemma suf_trans a b : suffix a b -> forall c, suffix b c -> suffix a c.
  Proof. induction 1; intros c H2; [exact H2|constructor; auto]. Qed.
  Lemma suf_next ls c : suffix (snd (next_line ls)) c -> suffix ls c.
  Proof. destruct ls; [auto|]. cbn. intros. constructor. assumption. Qed.
  Lemma suf_length a b : suffix a b -> length b <= length a.
  Proof. induction 1; cbn; lia. Qed.
  Lemma suf_in a b : suffix a b -> forall x, In x b -> In x a.
  Proof. induction 1; cbn; auto. Qed.
  Hint Constructors suffix : core.
  Hint Resolve suf_next suf_trans : core.

  Ltac eb := eapply ends_bind; [first [apply ends_aget|apply ends_thrown|apply ends_tokenInt|apply ends_fieldInt
     |apply ends_fieldInts|apply ends_toks|apply ends_fmt_i|apply ends_fmt_ie|apply ends_ssplit]|intros ? _].

  Lemma ends_tokenDouble t i : ends any (tokenDouble D stod t i).
  Proof. unfold tokenDouble. eb. exact I. Qed.
  Lemma ends_coord v n k : ends any (coord D d0 stod v n k).
  Proof. unfold coord. destruct (_ <? _); [|exact I]. eb. apply ends_thrown. Qed.
  Lemma ends_nodes n ws ls : ends (shorter ls) (read_nodes D d0 stod n ws ls).
  Proof.
    induction ls as [|l ls IH]; cbn [read_nodes]; [apply Suf0|].
    eapply ends_bind with (P := any); [unfold sfirstNotBlank; destruct (drop_blank l); exact I|]. intros ch _.
    destruct (is_end ch); [apply SufS, Suf0|]. eapply ends_bind; [apply ends_ssplit|]. intros v _.
    eb. do 3 (eapply ends_bind; [apply ends_coord|intros ? _]). eapply ends_bind; [exact IH|].
    intros r H. apply SufS. exact H.
  Qed.
  Lemma ends_cell b v : ends any (read_cell b v).
  Proof.
    unfold read_cell. destruct b; repeat eb; [|exact I].
    destruct (negb _); [exact I|]. eb. exact I.
  Qed.
  Lemma ends_cells b ws ls : ends (shorter ls) (read_cells b ws ls).
  Proof.
    induction ls as [|l ls IH]; cbn [read_cells]; [apply Suf0|].
    eapply ends_bind with (P := any); [unfold sfirstNotBlank; destruct (drop_blank l); exact I|]. intros ch _.
    destruct (is_end ch); [apply SufS, Suf0|]. eapply ends_bind; [apply ends_ssplit|]. intros v _.
    eapply ends_bind; [apply ends_cell|]. intros c _. eapply ends_bind; [exact IH|].
    intros r H. apply SufS. exact H.
  Qed.
  Lemma ends_ce_for t : forall fuel i n eq, (Z.max n 2 - Z.of_nat i < Z.of_nat fuel)%Z -> 0 < fuel ->
    ends (fun r => (fst r <= n)%Z /\ ((Z.of_nat i < Z.max n 2)%Z -> (fst r < n)%Z)) (ce_for D stod fuel t i n eq).
  Proof.
    induction fuel as [|fuel IH]; intros i n eq H Hf; [lia|]. cbn [ce_for].
    destruct (Z.ltb_spec (Z.of_nat i) (Z.max n 2)) as [L|L]; [|cbn; lia].
    repeat eb. eapply ends_bind; [apply ends_tokenDouble|intros ? _]. repeat eb.
    eapply ends_weak; [|apply IH]; [|lia|lia]. intros r [H1 H2]. lia.
  Qed.
  Lemma ends_ce_while : forall fuel ls n eq, (n < Z.of_nat fuel)%Z -> 0 < fuel ->
    ends (shorter ls) (ce_while D stod fuel ls n eq).
  Proof.
    induction fuel as [|fuel IH]; intros ls n eq H Hf; [lia|]. cbn [ce_while].
    destruct (Z.ltb_spec 0 n) as [L|L]; [|apply Suf0].
    eb. eapply ends_bind; [apply ends_ce_for; lia|]. intros r [_ H2].
    eapply ends_weak; [|apply IH; lia]. intros q Q. apply suf_next. exact Q.
  Qed.
  Lemma ends_ce t ls : ends (shorter ls) (read_ce D stod t ls).
  Proof.
    unfold read_ce. eapply ends_bind; [apply ends_tokenDouble|intros ? _]. repeat eb.
    eapply ends_bind; [apply ends_ce_while; lia|]. intros r H. exact H.
  Qed.

  (* the numbers of an empty line *)
  Lemma ssplit_empty ws : forall vv, Forall (fun s => s = []) vv ->
    ends (Forall (fun s => s = [])) (ssplit_from [] 0 ws false vv).
  Proof.
    induction ws as [|w ws IH]; intros vv F; cbn [ssplit_from length Nat.sub]; [exact F|].
    destruct (Nat.ltb_spec 0 w); [exact F|]. assert (w = 0) by lia. subst w. cbn [Nat.add].
    apply IH. apply Forall_app. split; [exact F|]. repeat constructor.
  Qed.
  Lemma ends_cm k w n : (N.of_nat k < 65536)%N -> forall fuel ls v in_row all rv ne,
    in_row <= k -> (length ls + 1) * S k + (k - in_row) < fuel ->
    ends (shorter ls) (cm_read fuel k (repeat w k) n ls v in_row all rv ne).
  Proof.
    intros Hk. induction fuel as [|fuel IH]; intros ls v in_row all rv ne Hr Hf; [lia|]. cbn [cm_read].
    destruct (_ <? n)%Z; [|apply Suf0].
    assert (Step : forall ls' v' r', r' < k \/ r' = 0 -> (r' = 0 -> k = 0 -> False) -> suffix ls ls' -> length ls' <= length ls ->
              (length ls' + 1) * S k + (k - r') < S fuel ->
              ends (shorter ls)
                (x <- aget v' r' ;; z <- thrown (stoi x) ;; cur <- aget (rv ++ [z]) all ;;
                 ne <- (if (0 <? cur)%Z then Ok (ne + 1)%Z
                 else asserting (0 <? all)
                        (pr <- aget (rv ++ [z]) (all - 1) ;;
                         asserting (0 <? pr)%Z
                           (asserting (negb (Z.eqb cur (-2147483648)))
                              (Ok ((ne + (- cur - pr)) mod 18446744073709551616)%Z)))) ;;
                 cm_read fuel k (repeat w k) n ls' v' (w16 (r' + 1)) (w16 (all + 1)) (rv ++ [z]) ne)).
    { intros ls' v' r' Hr' Hz Hsf Hl Hm. repeat eb.
      eapply ends_bind with (P := any).
      - destruct (0 <? _)%Z; [exact I|]. apply ends_asserting. eb. apply ends_asserting. apply ends_asserting. exact I.
      - intros ne' _. rewrite (w16_small (r' + 1)) by lia.
        eapply ends_weak; [|apply IH]; [|lia|lia]. intros q Q. eapply suf_trans; [exact Hsf|exact Q]. }
    destruct (Nat.eqb_spec in_row k) as [->|Hne].
    - destruct ls as [|l ls].
      + (* the end of the file *)
        cbn [next_line fst snd]. pose proof (ssplit_empty (repeat w k) [] (Forall_nil _)) as E.
        unfold ssplit. destruct (ssplit_from [] 0 (repeat w k) false []) as [v'| | |]; try exact I; [|exact E].
        cbn [obind fst snd]. cbn [ends] in E. unfold aget at 1. destruct v' as [|x v']; [exact I|]. cbn [nth_error obind].
        inversion E; subst. exact I.
      + cbn [next_line fst snd]. destruct k as [|k].
        * (* no number fits in a line *)
          exact I.
        * eapply ends_bind with (P := fun q => fst q = ls /\ snd (snd q) = 0).
          -- eapply ends_bind; [apply ends_ssplit|]. intros v' _. cbn. auto.
          -- intros [ls' [v' r']] [E1 E2]. cbn in E1, E2. subst. cbn [fst snd].
             apply Step; [left; lia|lia|auto|cbn; lia|cbn [length] in *; lia].
    - cbn [obind fst snd]. apply Step; [left; lia|lia|auto|lia|lia].
  Qed.
  Lemma ends_read_cm t ls : (forall l k w, In l ls -> fmt_i l = Ok (k, w) -> (N.of_nat k < 65536)%N) ->
    ends (shorter ls) (read_cm t ls).
  Proof.
    intros Hk. unfold read_cm. do 4 eb.
    eapply ends_bind with (P := fun f => (N.of_nat (fst f) < 65536)%N).
    - destruct ls as [|l ls]; [exact I|]. cbn [next_line fst].
      pose proof (ends_fmt_i l) as E. destruct (fmt_i l) as [[k w]| | |] eqn:F; cbn in *; auto.
      eapply Hk; [left; reflexivity|exact F].
    - intros f Hf. eb.
      eapply ends_bind; [apply ends_cm; [exact Hf|lia|]|].
      + pose proof (next_line_len (snd (next_line ls))). nia.
      + intros r H. destruct (_ <? _)%Z; [exact I|]. do 2 apply suf_next. exact H.
  Qed.
  Lemma ends_bc f t : ends any (read_bc D stod f t).
  Proof.
    unfold read_bc. eb. destruct a; try exact I. eapply ends_bind; [apply ends_tokenDouble|intros b _].
    destruct b; try exact I. eb. exact I.
  Qed.
  Lemma ends_command t ls md : (forall l k w, In l ls -> fmt_i l = Ok (k, w) -> (N.of_nat k < 65536)%N) ->
    ends (shorter ls) (command D d0 stod t ls md).
  Proof.
    intros Hk. assert (S0 : forall A (x : A), shorter ls (ls, x)) by (intros; apply Suf0).
    unfold command. eb. rename a into t0.
    destruct (str_eqb t0 []); [apply S0|]. destruct (Ascii.eqb _ _); [apply S0|]. destruct (Ascii.eqb _ _); [apply S0|].
    destruct (iequals t0 _).
    { eb. destruct a as [[[a b] c] d]. eapply ends_bind; [apply ends_nodes|]. intros r H. apply suf_next. exact H. }
    destruct (iequals t0 _).
    { repeat eb. eapply ends_bind; [apply ends_cells|]. intros r H. apply suf_next. exact H. }
    destruct (iequals t0 _). { eapply ends_bind; [apply ends_bc|]. intros; apply S0. }
    destruct (iequals t0 _). { eapply ends_bind; [apply ends_ce|]. intros r H. exact H. }
    destruct (iequals t0 _).
    { eb. destruct (Ascii.eqb _ _); [apply S0|]. eapply ends_bind; [apply ends_read_cm; exact Hk|]. intros r H. exact H. }
    destruct (_ || _). { eb. destruct a; first [exact I|apply S0]. }
    destruct (iequals t0 _). { eapply ends_bind; [apply ends_bc|]. intros; apply S0. }
    destruct (iequals t0 _).
    { eb. eapply ends_bind; [apply ends_tokenDouble|intros b _]. destruct b; first [exact I|apply S0]. }
    apply S0.
  Qed.
  Lemma ends_from : forall fuel ls md, (forall l k w, In l ls -> fmt_i l = Ok (k, w) -> (N.of_nat k < 65536)%N) ->
    length ls < fuel -> ends any (read_cdb_from D d0 stod fuel ls md).
  Proof.
    induction fuel as [|fuel IH]; intros ls md Hk L; [lia|]. cbn [read_cdb_from].
    destruct ls as [|l ls]; [exact I|]. cbn [length] in L. eb.
    eapply ends_bind; [apply ends_command|].
    - intros l' k w Hl. apply Hk. right. exact Hl.
    - intros r H. apply IH.
      + intros l' k w Hl. apply Hk. right. eapply suf_in; [exact H|exact Hl].
      + apply suf_length in H. lia.
  Qed.
  (* every file *)
  Lemma reader_ends file : exists lines, read_lines (S (length file)) file = Ok lines /\
    ((forall l k w, In l lines -> fmt_i l = Ok (k, w) -> (N.of_nat k < 65536)%N) ->
     readCdbFile D d0 stod file <> Loop).
  Proof.
    destruct (file_decompose (S (length file)) file ltac:(lia)) as (ls & last & E & F & P & U). subst file.
    exists (map fst ls ++ last_line last). split; [apply read_lines_file; try assumption; apply file_length|].
    intros Hk. unfold readCdbFile. rewrite read_lines_file by (try assumption; apply file_length).
    cbn [obind]. unfold read_cdb_lines.
    pose proof (ends_from (S (length (map fst ls ++ last_line last))) _ (md_empty D) Hk ltac:(lia)) as E.
    destruct (read_cdb_from _ _ _ _ _ _); try discriminate. destruct E.
  Qed.
End End.
