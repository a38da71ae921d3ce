(* Proofs about dumping and comparing *)
From Coq Require Import QArith Qabs Qpower Qround Qcanon Lqa.
From Verif Require Import Base BaseProofs SparseModel SpecSparse SparseProofs SparseMatProofs SparseMoreProofs SparseFinal DumpModel SpecDump QcTac.
From Verif Require VecModel.
Local Open Scope nat_scope.
Local Open Scope Q_scope.

(* ---- decimal rounding *)
Lemma ten_pos e : 0 < ten ^ e.
Proof. apply Qpower_0_lt. reflexivity. Qed.
Lemma round_even_err q : Qabs (inject_Z (round_even q) - q) <= 1 # 2.
Proof.
  unfold round_even. assert (A := Qfloor_le q). assert (B := Qlt_floor q). rewrite inject_Z_plus in B. set (f := Qfloor q) in *.
  change (inject_Z 1) with 1 in B. apply Qabs_Qle_condition.
  destruct (Qcompare_spec (q - inject_Z f) (1 # 2)); [destruct (Z.even f)| |]; rewrite ?inject_Z_plus; change (inject_Z 1) with 1; split; lra.
Qed.
Lemma exponent_from_low fuel : forall e q, ten ^ e <= q -> ten ^ (exponent_from fuel e q) <= q.
Proof.
  induction fuel as [|n IH]; intros e q H; cbn [exponent_from]; auto.
  destruct (Qle_bool (ten ^ (e + 1)) q) eqn:E; auto. apply IH. now apply Qle_bool_iff.
Qed.
Lemma exponent_from_high fuel : forall e q, q < ten ^ (e + Z.of_nat fuel + 1) -> q < ten ^ (exponent_from fuel e q + 1).
Proof.
  induction fuel as [|n IH]; intros e q H; cbn [exponent_from].
  - now rewrite Z.add_0_r in H.
  - destruct (Qle_bool (ten ^ (e + 1)) q) eqn:E.
    + apply IH. replace (e + 1 + Z.of_nat n + 1)%Z with (e + Z.of_nat (S n) + 1)%Z by lia. exact H.
    + apply Qnot_le_lt. intros L. apply Qle_bool_iff in L. congruence.
Qed.
Lemma pow2_le_ten n : (0 <= n)%Z -> inject_Z (2 ^ n) <= ten ^ n.
Proof.
  intros H. rewrite Zpower_Qpower by auto. unfold ten. change (inject_Z 2) with 2.
  assert (P : 0 < 2 ^ n) by (apply Qpower_0_lt; reflexivity).
  setoid_replace (10 ^ n) with (2 ^ n * 5 ^ n).
  - assert (1 <= 5 ^ n) by (apply Qpower_1_le; [discriminate|auto]). nra.
  - rewrite <- Qmult_power. reflexivity.
Qed.
Lemma exponent_spec q : 0 < q -> ten ^ (exponent q) <= q /\ q < ten ^ (exponent q + 1).
Proof.
  intros H. unfold exponent. destruct q as [n d]. cbn [Qnum Qden]. assert (Hn : (0 < n)%Z) by (unfold Qlt in H; cbn in H; lia).
  set (L := Z.log2_up (Z.pos d)). set (M := Z.log2_up n). assert (HL : (0 <= L)%Z) by apply Z.log2_up_nonneg. assert (HM : (0 <= M)%Z) by apply Z.log2_up_nonneg.
  assert (D : (Z.pos d <= 2 ^ L)%Z) by (apply Z.log2_log2_up_spec; lia). assert (N : (n <= 2 ^ M)%Z) by (apply Z.log2_log2_up_spec; lia).
  split.
  - apply exponent_from_low. rewrite Qpower_opp. assert (P := pow2_le_ten L HL). assert (T := ten_pos L).
    apply Qle_shift_inv_r; [exact T|]. (* 1 <= q * ten^L *)
    apply Qle_trans with ((n # d) * inject_Z (Z.pos d)).
    + unfold Qle, Qmult, inject_Z. cbn. nia.
    + apply Qmult_le_l; [exact H|]. apply Qle_trans with (inject_Z (2 ^ L)); [|exact P]. rewrite <- Zle_Qle. exact D.
  - apply exponent_from_high. rewrite Z2Nat.id by lia.
    replace (- L + (M + 1 - - L) + 1)%Z with (M + 2)%Z by lia.
    apply Qle_lt_trans with (inject_Z n).
    + unfold Qle, inject_Z. cbn. nia.
    + apply Qle_lt_trans with (inject_Z (2 ^ M)); [rewrite <- Zle_Qle; exact N|]. apply Qle_lt_trans with (ten ^ M); [now apply pow2_le_ten|].
      apply Qpower_lt_compat_l; [lia|reflexivity].
Qed.
Lemma round_pos_err p q : 0 < q -> Qabs (round_pos p q - q) <= (1 # 2) * ten ^ (exponent q - Z.of_nat p).
Proof.
  intros H. unfold round_pos. set (u := ten ^ (exponent q - Z.of_nat p)). assert (U : 0 < u) by apply ten_pos.
  assert (E := round_even_err (q / u)). set (r := inject_Z (round_even (q / u))) in *.
  setoid_replace (r * u - q) with ((r - q / u) * u) by (field; lra).
  rewrite Qabs_Qmult, (Qabs_pos u) by lra. apply Qmult_le_compat_r; lra.
Qed.
Lemma exponent_lt q k : 0 < q -> q < ten ^ (k + 1) -> (exponent q <= k)%Z.
Proof.
  intros H L. destruct (exponent_spec q H) as [A _]. assert (B : ten ^ exponent q < ten ^ (k + 1)) by lra.
  apply Qpower_lt_compat_l_inv in B; [lia|reflexivity].
Qed.
Lemma round_digits_err p k x : smaller (ten ^ (k + 1)) x -> Qabs (this (round_digits p x) - this x) <= (1 # 2) * ten ^ (k - Z.of_nat p).
Proof.
  intros S. unfold smaller in S. unfold round_digits. assert (T := ten_pos (k - Z.of_nat p)).
  assert (Mono : forall q, 0 < q -> q < ten ^ (k + 1) -> Qabs (round_pos p q - q) <= (1 # 2) * ten ^ (k - Z.of_nat p)).
  { intros q Hq Lq. eapply Qle_trans; [now apply round_pos_err|]. apply Qmult_le_l; [reflexivity|]. apply Qpower_le_compat_l; [|discriminate].
    assert (exponent q <= k)%Z by now apply exponent_lt. lia. }
  destruct (Qcompare_spec (this x) 0) as [E|E|E].
  - rewrite this_Q2Qc, E. apply Qabs_Qle_condition. lra.
  - rewrite this_Q2Qc. rewrite Qabs_neg in S by lra. specialize (Mono (- this x) ltac:(lra) S).
    setoid_replace (- round_pos p (- this x) - this x) with (- (round_pos p (- this x) - - this x)) by ring. now rewrite Qabs_opp.
  - rewrite this_Q2Qc. rewrite Qabs_pos in S by lra. exact (Mono (this x) E S).
Qed.
Lemma nearest_err rep rd o x b : reads_nearest rep rd -> rep x -> Qabs (this (print_num o x) - this x) <= b -> within (2 * b) x (again rd o x).
Proof.
  intros N R B. unfold within, again. assert (C := N (print_num o x) x R). set (d := print_num o x) in *. set (y := rd d) in *.
  rewrite Qabs_Qminus in B. apply Qabs_Qle_condition in B.
  assert (Cc : Qabs (this y - this d) <= b) by (eapply Qle_trans; [exact C|]; apply Qabs_Qle_condition; lra). apply Qabs_Qle_condition in Cc.
  apply Qabs_Qle_condition. lra.
Qed.

(* ---- matrices *)
Lemma is_matrix_mrep m : is_matrix m -> exists nr nc P f, mrep m nr nc P f.
Proof.
  intros [(nr & nc & cap & es & os & H)|(n & cap & es & os & H)].
  - apply filled_inv in H. eauto.
  - apply filled_sym_inv in H. destruct H as (f & H & _). eauto.
Qed.
Lemma roundtrip_on (g : Qc -> Qc) differ m : is_matrix m -> differ (Q2Qc 0) (Q2Qc 0) = false -> (forall x, differ x x = false) -> (forall x, stored m x -> differ x (g x) = false) ->
  exists nr nc recs m', mat_records m = Ok ((nr, nc, length recs), recs) /\
    mat_reinit_entries (K := QcRng) None nr nc (map (fun e => (fst e, g (snd e))) recs) = Ok m' /\ mat_compare (K := QcRng) differ m m' = Ok true.
Proof.
  intros M D0 Dr Dg. destruct (is_matrix_mrep m M) as (nr & nc & P & f & HM).
  set (g' := fun x : QcRng => if differ x (g x) then x else g x).
  destruct (roundtrip_spec QcRng g' differ m nr nc P f None HM D0) as (es & m' & E1 & E2 & E3).
  { intros x. unfold g'. destruct (differ x (g x)) eqn:E; auto. }
  exists nr, nc, es, m'. split; [exact E1|]. split; [|exact E3]. etransitivity; [|exact E2]. f_equal. apply map_ext_in. intros e He. unfold g'.
  rewrite Dg; auto. exists (nr, nc, length es), es, e. auto.
Qed.

Local Open Scope nat_scope.
Lemma get_entries_written rd p es rest :
  get_entries rd (length es) (flat_map (fun e => [TN (fst (fst e)); TN (snd (fst e)); TX (print_num p (snd e))]) es ++ rest) =
  Ok (map (fun e : nat * nat * Qc => (fst e, again rd p (snd e))) es, rest).
Proof.
  induction es as [|[[i j] x] es IH]; cbn [get_entries length flat_map app fst snd map]; [reflexivity|].
  cbn [get_n get_x obind fst snd]. cbn [app] in IH. rewrite IH. reflexivity.
Qed.
Lemma get_vals_written rd o v rest : get_vals rd (length v) (map (fun x => TX (print_num o x)) v ++ rest) = Ok (map (again rd o) v, rest).
Proof. induction v as [|x v IH]; cbn [get_vals length map app]; [reflexivity|]. cbn [get_x obind fst snd]. rewrite IH. reflexivity. Qed.
Lemma read_vec_written rd o v rest : read_vec rd (write_vec o v ++ rest) = Ok (map (again rd o) v, rest).
Proof. unfold read_vec, write_vec. cbn [app get_n obind fst snd]. apply get_vals_written. Qed.

Definition mat_os : ostate := mkOS 15 false true.
Lemma effect_sci o : write_fmt_effect o = mkOS (os_prec o) (os_fixed o) true.
Proof. destruct o. reflexivity. Qed.

Lemma mats_ok rd th ms : (0 <= th)%Q -> Forall is_matrix ms -> (forall m x, In m ms -> stored m x -> within th x (again rd mat_os x)) ->
  forall o, exists t, write_mats o ms = Ok (t, match ms with [] => o | _ => mkOS (os_prec o) (os_fixed o) true end) /\
    forall rest, compare_mats rd th ms (t ++ rest) = Ok rest.
Proof.
  intros Hth. induction ms as [|m ms IH]; intros F S o.
  - exists []. split; auto.
  - inversion F; subst.
    destruct (roundtrip_on (again rd mat_os) (differ_by th) m) as (nr & nc & recs & m' & E1 & E2 & E3); auto.
    + unfold differ_by. rewrite Bool.negb_false_iff. apply Qle_bool_iff. exact Hth.
    + intros x. unfold differ_by. rewrite Bool.negb_false_iff. apply Qle_bool_iff. setoid_replace (this x - this x)%Q with 0%Q by ring. exact Hth.
    + intros x Sx. unfold differ_by. rewrite Bool.negb_false_iff. apply Qle_bool_iff. apply (S m x); [now left|exact Sx].
    + destruct (IH H2 (fun m x I => S m x (or_intror I)) (write_fmt_effect o)) as (t & T1 & T2).
      eexists. split.
      * cbn [write_mats]. unfold write_mat. rewrite E1. cbn [obind fst snd]. rewrite T1. cbn [obind fst snd]. f_equal. f_equal.
        rewrite effect_sci. destruct ms; reflexivity.
      * intros rest. cbn [compare_mats]. unfold read_mat. cbn [app get_n obind fst snd]. rewrite <- app_assoc.
        match goal with |- context [get_entries ?a ?b ?c] => replace (get_entries a b c) with (Ok (map (fun e : nat * nat * Qc => (fst e, again rd mat_os (snd e))) recs, t ++ rest))
          by (symmetry; exact (get_entries_written rd mat_os recs (t ++ rest))) end. cbn [obind fst snd].
        match goal with |- context [mat_reinit_entries None nr nc ?l] => replace (mat_reinit_entries (K := QcRng) None nr nc l) with (Ok m') by (symmetry; exact E2) end. cbn [obind fst snd]. rewrite E3. cbn [obind checking]. apply T2.
Qed.
Lemma vec_ok rd th o v : (forall x, In x v -> within th x (again rd o x)) -> VecModel.vcompare (K := QcNum) (differ_by th) v (map (again rd o) v) = true.
Proof.
  intros H. unfold VecModel.vcompare. rewrite map_length, Nat.eqb_refl. cbn [andb]. apply forallb_forall. intros [a b] I.
  assert (E : exists x, In x v /\ a = x /\ b = again rd o x).
  { clear H. revert I. induction v as [|x v IH]; cbn; [tauto|]. intros [E|I]; [injection E as <- <-; eauto|]. destruct (IH I) as (y & ? & ? & ?). eauto. }
  destruct E as (x & Ix & -> & ->). cbn [fst snd]. unfold differ_by. rewrite Bool.negb_involutive. apply Qle_bool_iff. now apply H.
Qed.

Lemma dump_compare rd th s : (0 <= th)%Q -> sys_mats s <> [] -> Forall is_matrix (sys_mats s) ->
  (forall m x, In m (sys_mats s) -> stored m x -> within th x (again rd mat_os x)) ->
  (forall x, In x (sys_F s) \/ In x (sys_R s) -> within th x (again rd (mkOS 6 false true) x)) ->
  exists t, dump s = Ok t /\ compare_sys rd th s t = Ok tt.
Proof.
  intros Hth N F Sm Sv. destruct (mats_ok rd th (sys_mats s) Hth F Sm fresh_stream) as (t & T1 & T2).
  unfold dump. rewrite T1. cbn [obind fst snd]. destruct (sys_mats s) eqn:E; [contradiction|]. rewrite <- E in *. cbn [os_prec os_fixed fresh_stream].
  eexists. split; [reflexivity|]. unfold compare_sys. rewrite T2. cbn [obind]. rewrite read_vec_written. cbn [obind fst snd].
  rewrite (vec_ok rd th) by auto. cbn [checking]. rewrite <- (app_nil_r (write_vec _ (sys_R s))), read_vec_written. cbn [obind fst snd].
  rewrite (vec_ok rd th) by auto. reflexivity.
Qed.

(* the numbers up to which the default threshold is met *)
Lemma small_mat rep rd x : reads_nearest rep rd -> rep x -> smaller 1000000 x -> within (1 # 10000000000) x (again rd mat_os x).
Proof.
  intros N R S. assert (W := nearest_err rep rd mat_os x _ N R (round_digits_err 15 5 x S)).
  unfold within in *. eapply Qle_trans; [exact W|]. vm_compute. discriminate.
Qed.
Lemma small_vec rep rd x : reads_nearest rep rd -> rep x -> smaller (1 # 1000) x -> within (1 # 10000000000) x (again rd (mkOS 6 false true) x).
Proof.
  intros N R S. assert (S' : smaller (ten ^ (-4 + 1)) x) by (unfold smaller in *; exact S).
  assert (W := nearest_err rep rd (mkOS 6 false true) x _ N R (round_digits_err 6 (-4) x S')).
  unfold within in *. eapply Qle_trans; [exact W|]. vm_compute. discriminate.
Qed.
Lemma short_vec rep rd th o x : (0 <= th)%Q -> reads_nearest rep rd -> rep x -> print_num o x = x -> within th x (again rd o x).
Proof.
  intros Hth N R E. assert (W := nearest_err rep rd o x 0 N R). rewrite E in W. unfold within in *. eapply Qle_trans; [apply W|lra].
  setoid_replace (this x - this x)%Q with 0%Q by ring. cbn. discriminate.
Qed.
