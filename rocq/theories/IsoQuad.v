(* Accuracy of the quadrature tables *)
From Coq Require Import Reals Lra Psatz.
Set Warnings "-ambiguous-paths".
From Coquelicot Require Import Coquelicot.
From Verif Require Import Base RealBase MatModel IsoModel SpecIso.
Local Open Scope R_scope.

(* ---- iterated integrals *)
Lemma is_int_ext : forall n f g I, (forall l, f l = g l) -> is_int n f I -> is_int n g I.
Proof.
  induction n as [|n IH]; cbn; intros f g I E H.
  - rewrite H. apply E.
  - destruct H as (h & H1 & H2). exists h. split; [|exact H2].
    intros x. eapply IH; [|apply H1]. intros l. apply E.
Qed.
Lemma is_int_scal : forall n c f I, is_int n f I -> is_int n (fun l => c * f l) (c * I).
Proof.
  induction n as [|n IH]; cbn; intros c f I H.
  - rewrite H. reflexivity.
  - destruct H as (h & H1 & H2). exists (fun x => c * h x). split.
    + intros x. apply (IH c (fun l => f (x :: l))). apply H1.
    + apply (is_RInt_scal h (-1) 1 c I H2).
Qed.
Lemma is_int_plus : forall n f g I J, is_int n f I -> is_int n g J -> is_int n (fun l => f l + g l) (I + J).
Proof.
  induction n as [|n IH]; cbn; intros f g I J H K.
  - rewrite H, K. reflexivity.
  - destruct H as (h & H1 & H2). destruct K as (k & K1 & K2). exists (fun x => h x + k x). split.
    + intros x. apply (IH (fun l => f (x :: l)) (fun l => g (x :: l))); auto.
    + apply (is_RInt_plus h k (-1) 1 I J H2 K2).
Qed.
Lemma is_int_zero : forall n, is_int n (fun _ => 0) 0.
Proof.
  induction n as [|n IH]; [reflexivity|]. exists (fun _ => 0). split; [intros; exact IH|].
  pose proof (is_RInt_const (-1) 1 (0:R)) as H. unfold scal in H; cbn in H; unfold mult in H; cbn in H.
  rewrite Rmult_0_r in H. exact H.
Qed.
Lemma is_int_unique : forall n f I J, is_int n f I -> is_int n f J -> I = J.
Proof.
  induction n as [|n IH]; cbn; intros f I J H K; [congruence|].
  destruct H as (h & H1 & H2). destruct K as (k & K1 & K2).
  assert (forall x, h x = k x) as E by (intros x; exact (IH _ _ _ (H1 x) (K1 x))).
  assert (is_RInt h (-1) 1 J) as H3 by (eapply is_RInt_ext; [|exact K2]; intros; symmetry; apply E).
  rewrite <- (is_RInt_unique _ _ _ _ H2). apply is_RInt_unique. exact H3.
Qed.

(* ∫_{-1}^{1} x^a dx as a fraction *)
Definition momz (a : nat) : Z * Z := if Nat.even a then (2, Z.of_nat (S a))%Z else (0, 1)%Z.
Definition mom (a : nat) : R := IZR (fst (momz a)) / IZR (snd (momz a)).
Fixpoint moms (e : list nat) : R := match e with [] => 1 | a :: e => mom a * moms e end.

Lemma pow_m1 : forall a, (-1) ^ a = if Nat.even a then 1 else -1.
Proof.
  induction a as [|a IH]; [reflexivity|]. rewrite Nat.even_succ, <- Nat.negb_even. cbn. rewrite IH.
  destruct (Nat.even a); cbn; lra.
Qed.
Lemma mom_int : forall a, is_RInt (fun x => x ^ a) (-1) 1 (mom a).
Proof.
  intros a.
  assert (INR (S a) <> 0) as Hn by (apply not_0_INR; lia).
  replace (mom a) with (minus ((fun x => x ^ S a / INR (S a)) 1) ((fun x => x ^ S a / INR (S a)) (-1))).
  - apply (is_RInt_derive (fun x => x ^ S a / INR (S a)) (fun x => x ^ a)).
    + intros x _. auto_derive; [exact I|]. change (Nat.pred (S a)) with a. field. exact Hn.
    + intros x _. apply (ex_derive_continuous (fun x => x ^ a)). auto_derive. exact I.
  - unfold minus, plus, opp; cbn -[pow INR]. rewrite pow1, pow_m1, Nat.even_succ, <- Nat.negb_even.
    unfold mom, momz. destruct (Nat.even a); cbn [negb fst snd].
    + rewrite <- INR_IZR_INZ. field. exact Hn.
    + field. exact Hn.
Qed.
Lemma meval_int : forall e, is_int (length e) (meval e) (moms e).
Proof.
  induction e as [|a e IH]; [reflexivity|]. cbn [length is_int moms].
  exists (fun x => x ^ a * moms e). split.
  - intros x. cbn [meval]. apply is_int_scal. exact IH.
  - pose proof (is_RInt_scal (fun x => x ^ a) (-1) 1 (moms e) _ (mom_int a)) as H.
    unfold scal in H; cbn in H; unfold mult in H; cbn in H. rewrite Rmult_comm.
    eapply is_RInt_ext; [|exact H]. intros; cbn. ring.
Qed.

(* integral of a polynomial *)
Definition pint (p : poly) : R := rsuml p (fun m => fst m * moms (snd m)).
Lemma pint_ok : forall n d p, pdeg n d p -> is_int n (peval p) (pint p).
Proof.
  intros n d p H. induction H as [|m p (Hm & _) H IH].
  - eapply is_int_ext; [|apply is_int_zero]. reflexivity.
  - unfold pint. rewrite rsuml_cons.
    eapply is_int_ext; [intros l; symmetry; apply rsuml_cons|].
    apply is_int_plus; [|exact IH]. apply is_int_scal. rewrite <- Hm. apply meval_int.
Qed.

(* ---- moments of a table, computed in Z *)
Definition tab := list (list Z * Z).
Definition tsum (t : tab) (f : list R -> R) : R := rsuml t (fun q => dec (snd q) * f (map dec (fst q))).
Fixpoint zeval (e : list nat) (x : list Z) : Z :=
  match e, x with
  | a :: e, y :: x => y ^ Z.of_nat a * zeval e x
  | _, _ => 1
  end.
Definition zmom (t : tab) (e : list nat) : Z := fold_right (fun q s => snd q * zeval e (fst q) + s)%Z 0%Z t.
Definition D16 : Z := 10000000000000000.
Definition esum (e : list nat) : Z := Z.of_nat (S (list_sum e)).
Fixpoint zmoms (e : list nat) : Z * Z :=
  match e with [] => (1, 1)%Z | a :: e => let '(n, d) := zmoms e in (fst (momz a) * n, snd (momz a) * d)%Z end.

Lemma IZR_pow_nat : forall z a, IZR (z ^ Z.of_nat a) = IZR z ^ a.
Proof. intros. symmetry. apply pow_IZR. Qed.
Lemma D16_pos : 0 < IZR D16.
Proof. apply IZR_lt. reflexivity. Qed.
Lemma dec_eq : forall z, dec z = IZR z / IZR D16.
Proof. reflexivity. Qed.
Lemma div_pow : forall a b n, b <> 0 -> (a / b) ^ n = a ^ n / b ^ n.
Proof. intros. unfold Rdiv. rewrite Rpow_mult_distr, pow_inv. reflexivity. Qed.

Lemma meval_dec : forall e x, length x = length e ->
  meval e (map dec x) * IZR D16 ^ (list_sum e) = IZR (zeval e x).
Proof.
  induction e as [|a e IH]; intros [|y x] H; try discriminate; [cbn; ring|].
  cbn [meval map zeval list_sum fold_right]. change (fold_right Nat.add 0%nat e) with (list_sum e).
  rewrite mult_IZR, <- IH by (cbn in H; lia). rewrite IZR_pow_nat, dec_eq.
  rewrite div_pow by (pose proof D16_pos; lra). rewrite pow_add.
  assert (IZR D16 ^ a <> 0) by (apply pow_nonzero; pose proof D16_pos; lra). field. assumption.
Qed.
Lemma tsum_mono : forall t e, Forall (fun q => length (fst q) = length e) t ->
  tsum t (meval e) * IZR (D16 ^ esum e) = IZR (zmom t e).
Proof.
  intros t e H. unfold esum. rewrite IZR_pow_nat. induction H as [|q t Hq H IH].
  - cbn. ring.
  - unfold tsum in *. rewrite rsuml_cons. cbn [zmom fold_right]. fold (zmom t e). rewrite plus_IZR, <- IH, mult_IZR.
    rewrite <- (meval_dec e (fst q) Hq). rewrite dec_eq. cbn [pow]. field. pose proof D16_pos; lra.
Qed.
Lemma momz_pos : forall a, (0 < snd (momz a))%Z.
Proof. intros a. unfold momz. destruct (Nat.even a); cbn [snd]; lia. Qed.
Lemma zmoms_ok : forall e, (0 < snd (zmoms e))%Z /\ moms e = IZR (fst (zmoms e)) / IZR (snd (zmoms e)).
Proof.
  induction e as [|a e (IH1 & IH2)]; [cbn; split; [lia|lra]|].
  cbn [zmoms moms]. destruct (zmoms e) as (n, d). cbn [fst snd] in *. pose proof (momz_pos a) as Ha.
  split; [nia|]. rewrite IH2. unfold mom. rewrite !mult_IZR. field.
  split; apply not_0_IZR; lia.
Qed.

(* error of one monomial at most 1/eps *)
Definition mono_ok (eps : Z) (t : tab) (e : list nat) : bool :=
  (let '(n, d) := zmoms e in
   Z.abs (zmom t e * d - n * D16 ^ esum e) * eps <=? d * D16 ^ esum e)%Z.
Lemma mono_ok_spec : forall eps t e, (0 < eps)%Z -> Forall (fun q => length (fst q) = length e) t ->
  mono_ok eps t e = true -> Rabs (tsum t (meval e) - moms e) <= / IZR eps.
Proof.
  intros eps t e He Ht H. unfold mono_ok in H. destruct (zmoms_ok e) as (Hd & Em).
  destruct (zmoms e) as (n, d). cbn [fst snd] in *. apply Z.leb_le in H.
  assert (0 < D16 ^ esum e)%Z as HD by (apply Z.pow_pos_nonneg; unfold D16, esum; lia).
  set (P := (D16 ^ esum e)%Z) in *. pose proof (tsum_mono t e Ht) as E. fold P in E.
  apply IZR_lt in He, Hd, HD. apply IZR_le in H.
  rewrite !mult_IZR, abs_IZR, minus_IZR, !mult_IZR, <- E in H.
  replace (tsum t (meval e) * IZR P * IZR d - IZR n * IZR P) with ((tsum t (meval e) - moms e) * (IZR P * IZR d)) in H
    by (rewrite Em; field; lra).
  rewrite Rabs_mult, (Rabs_pos_eq (IZR P * IZR d)) in H by nra.
  apply (Rmult_le_reg_r (IZR eps)); [lra|]. rewrite Rinv_l by lra.
  apply (Rmult_le_reg_r (IZR P * IZR d)); [nra|]. lra.
Qed.

(* all exponent vectors of length n with entries below d *)
Fixpoint exps (n d : nat) : list (list nat) :=
  match n with
  | 0%nat => [[]]
  | S n => flat_map (fun a => map (cons a) (exps n d)) (seq 0 d)
  end.
Lemma exps_in : forall n d e, length e = n -> Forall (fun a => (a < d)%nat) e -> In e (exps n d).
Proof.
  induction n as [|n IH]; intros d [|a e] L H; try discriminate; [left; reflexivity|].
  inversion H; subst. cbn [exps]. apply in_flat_map. exists a. split; [apply in_seq; lia|].
  apply in_map. apply IH; [cbn in L; lia|assumption].
Qed.

Lemma tsum_poly : forall t p, tsum t (peval p) = rsuml p (fun m => fst m * tsum t (meval (snd m))).
Proof.
  intros t p. unfold tsum, peval.
  transitivity (rsuml t (fun q => rsuml p (fun m => dec (snd q) * (fst m * meval (snd m) (map dec (fst q)))))).
  { apply rsuml_ext. intros q _. rewrite <- rsuml_mul. reflexivity. }
  rewrite rsuml_swap. apply rsuml_ext. intros m _. rewrite <- rsuml_mul. apply rsuml_ext. intros; ring.
Qed.
Lemma tab_accurate : forall n d eps t, (0 < eps)%Z -> Forall (fun q => length (fst q) = n) t ->
  forallb (mono_ok eps t) (exps n d) = true ->
  forall p, pdeg n d p -> Rabs (tsum t (peval p) - pint p) <= pnorm p / IZR eps.
Proof.
  intros n d eps t He Ht Hb p H. rewrite tsum_poly. unfold pint, pnorm.
  induction H as [|m p (Hm & Hm') H IH].
  - rewrite !rsuml_nil. rewrite Rminus_0_r, Rabs_R0. unfold Rdiv. lra.
  - rewrite !rsuml_cons.
    assert (Rabs (tsum t (meval (snd m)) - moms (snd m)) <= / IZR eps) as E.
    { apply mono_ok_spec; [exact He| |].
      - rewrite Hm. exact Ht.
      - rewrite forallb_forall in Hb. apply Hb. apply exps_in; assumption. }
    match goal with |- Rabs (?a + ?b - (?c + ?d)) <= _ => replace (a + b - (c + d)) with ((a - c) + (b - d)) by ring end.
    eapply Rle_trans; [apply Rabs_triang|].
    assert (Rabs (fst m * tsum t (meval (snd m)) - fst m * moms (snd m)) <= Rabs (fst m) * / IZR eps) as E'.
    { rewrite <- Rmult_minus_distr_l, Rabs_mult. apply Rmult_le_compat_l; [apply Rabs_pos|exact E]. }
    unfold Rdiv in *. lra.
Qed.

Definition tab_line (k : nat) : tab := map (fun q => let '(r, w) := q in ([r], w)) (quad_line k).
Definition tab_quad (k : nat) : tab := map (fun q => let '(r, s, w) := q in ([r; s], w)) (quad_quad k).
Definition tab_hex (k : nat) : tab := map (fun q => let '(r, s, t, w) := q in ([r; s; t], w)) (quad_hex k).
Lemma tab_line_sum : forall k f, line_sum k (fun r => f [r]) = tsum (tab_line k) f.
Proof.
  intros k f. unfold line_sum, tsum, tab_line. induction (quad_line k) as [|(r, w) t IH]; [reflexivity|].
  cbn [map]. rewrite !rsuml_cons, IH. reflexivity.
Qed.
Lemma tab_quad_sum : forall k f, quad_sum k (fun r s => f [r; s]) = tsum (tab_quad k) f.
Proof.
  intros k f. unfold quad_sum, tsum, tab_quad. induction (quad_quad k) as [|((r, s), w) t IH]; [reflexivity|].
  cbn [map]. rewrite !rsuml_cons, IH. reflexivity.
Qed.
Lemma tab_hex_sum : forall k f, hex_sum k (fun r s u => f [r; s; u]) = tsum (tab_hex k) f.
Proof.
  intros k f. unfold hex_sum, tsum, tab_hex. induction (quad_hex k) as [|(((r, s), u), w) t IH]; [reflexivity|].
  cbn [map]. rewrite !rsuml_cons, IH. reflexivity.
Qed.
Lemma tab_line_dim : forall k, Forall (fun q => length (fst q) = 1%nat) (tab_line k).
Proof. intros. apply Forall_map. apply Forall_forall. intros (r, w) _. reflexivity. Qed.
Lemma tab_quad_dim : forall k, Forall (fun q => length (fst q) = 2%nat) (tab_quad k).
Proof. intros. apply Forall_map. apply Forall_forall. intros ((r, s), w) _. reflexivity. Qed.
Lemma tab_hex_dim : forall k, Forall (fun q => length (fst q) = 3%nat) (tab_hex k).
Proof. intros. apply Forall_map. apply Forall_forall. intros (((r, s), u), w) _. reflexivity. Qed.

Definition eps : Z := 1000000000000000.
Definition chk (n : nat) (tb : nat -> tab) : bool :=
  forallb (fun k => forallb (mono_ok eps (tb k)) (exps n (2 * S k))) [0; 1; 2]%nat.
Lemma chk_line : chk 1 tab_line = true. Proof. vm_compute. reflexivity. Qed.
Lemma chk_quad : chk 2 tab_quad = true. Proof. vm_compute. reflexivity. Qed.
Lemma chk_hex : chk 3 tab_hex = true. Proof. vm_compute. reflexivity. Qed.
Lemma chk_use : forall n tb, chk n tb = true -> forall k, (k < 3)%nat -> forallb (mono_ok eps (tb k)) (exps n (2 * S k)) = true.
Proof.
  intros n tb H k Hk. unfold chk in H. rewrite forallb_forall in H. apply H.
  destruct k as [|[|[|k]]]; cbn; auto; lia.
Qed.

Lemma line_accurate : forall k p, (k < 3)%nat -> pdeg 1 (2 * S k) p ->
  exists I, is_int 1 (peval p) I /\ Rabs (line_sum k (fun r => peval p [r]) - I) <= pnorm p / 10 ^ 15.
Proof.
  intros k p Hk Hp. exists (pint p). split; [eapply pint_ok; eassumption|].
  rewrite tab_line_sum. replace (10 ^ 15) with (IZR eps) by (unfold eps; lra).
  eapply tab_accurate; [reflexivity|apply tab_line_dim|apply (chk_use _ _ chk_line k Hk)|exact Hp].
Qed.
Lemma quad_accurate : forall k p, (k < 3)%nat -> pdeg 2 (2 * S k) p ->
  exists I, is_int 2 (peval p) I /\ Rabs (quad_sum k (fun r s => peval p [r; s]) - I) <= pnorm p / 10 ^ 15.
Proof.
  intros k p Hk Hp. exists (pint p). split; [eapply pint_ok; eassumption|].
  rewrite tab_quad_sum. replace (10 ^ 15) with (IZR eps) by (unfold eps; lra).
  eapply tab_accurate; [reflexivity|apply tab_quad_dim|apply (chk_use _ _ chk_quad k Hk)|exact Hp].
Qed.
Lemma hex_accurate : forall k p, (k < 3)%nat -> pdeg 3 (2 * S k) p ->
  exists I, is_int 3 (peval p) I /\ Rabs (hex_sum k (fun r s t => peval p [r; s; t]) - I) <= pnorm p / 10 ^ 15.
Proof.
  intros k p Hk Hp. exists (pint p). split; [eapply pint_ok; eassumption|].
  rewrite tab_hex_sum. replace (10 ^ 15) with (IZR eps) by (unfold eps; lra).
  eapply tab_accurate; [reflexivity|apply tab_hex_dim|apply (chk_use _ _ chk_hex k Hk)|exact Hp].
Qed.
