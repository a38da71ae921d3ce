(* volume() of an arbitrary HEXAHEDRON: the Jacobian is a polynomial of degree at most two in each variable *)
From Coq Require Import Reals Lra Psatz.
Set Warnings "-ambiguous-paths".
From Coquelicot Require Import Coquelicot.
From Verif Require Import Base RealBase MatModel IsoModel SpecIso IsoProofs IsoQuad.
Local Open Scope R_scope.

Definition pscale (c : R) (p : poly) : poly := map (fun m => (c * fst m, snd m)) p.
Fixpoint eadd (e f : list nat) : list nat :=
  match e, f with a :: e, b :: f => (a + b)%nat :: eadd e f | _, _ => [] end.
Definition pmulm (m : R * list nat) (q : poly) : poly := map (fun m' => (fst m * fst m', eadd (snd m) (snd m'))) q.
Definition pmul (p q : poly) : poly := flat_map (fun m => pmulm m q) p.

Ltac nl := unfold peval, pnorm; cbn [app pmul flat_map pscale pmulm map]; rewrite ?rsuml_nil; ring.
Lemma peval_app : forall p q x, peval (p ++ q) x = peval p x + peval q x.
Proof.
  induction p as [|m p IH]; intros q x; [nl|].
  change ((m :: p) ++ q) with (m :: (p ++ q)). unfold peval in *. rewrite !rsuml_cons, IH. ring.
Qed.
Lemma pnorm_app : forall p q, pnorm (p ++ q) = pnorm p + pnorm q.
Proof.
  induction p as [|m p IH]; intros q; [nl|].
  change ((m :: p) ++ q) with (m :: (p ++ q)). unfold pnorm in *. rewrite !rsuml_cons, IH. ring.
Qed.
Lemma peval_scale : forall c p x, peval (pscale c p) x = c * peval p x.
Proof. intros c p x. induction p as [|m p IH]; unfold peval in *; cbn [pscale map]; [nl|]. rewrite !rsuml_cons. unfold pscale in IH. rewrite IH. cbn [fst snd]. ring. Qed.
Lemma pnorm_scale : forall c p, pnorm (pscale c p) = Rabs c * pnorm p.
Proof. intros c p. induction p as [|m p IH]; unfold pnorm in *; cbn [pscale map]; [nl|]. rewrite !rsuml_cons. unfold pscale in IH. rewrite IH. cbn [fst snd]. rewrite Rabs_mult. ring. Qed.

(* exponents bounded by b pointwise (which also fixes the number of variables) *)
Definition pbnd (b : list nat) (p : poly) : Prop := Forall (fun m => Forall2 le (snd m) b) p.
Lemma bnd_len : forall e b, Forall2 le e b -> length e = length b.
Proof. induction 1; cbn; congruence. Qed.
Lemma meval_add : forall e f x, length e = length f -> length x = length e -> meval (eadd e f) x = meval e x * meval f x.
Proof.
  induction e as [|a e IH]; intros [|b f] [|y x] H1 H2; try discriminate; cbn [eadd meval]; [ring|].
  rewrite IH by (cbn in *; lia). rewrite pow_add. ring.
Qed.
Lemma peval_mulm : forall b c m q x, Forall2 le (snd m) b -> pbnd c q -> length b = length c -> length x = length b ->
  peval (pmulm m q) x = fst m * meval (snd m) x * peval q x.
Proof.
  intros b c m q x Hm Hq L Lx. induction Hq as [|m' q H' Hq IH]; unfold peval in *; cbn [pmulm map]; [nl|].
  rewrite !rsuml_cons. unfold pmulm in IH. rewrite IH. cbn [fst snd].
  rewrite meval_add by (apply bnd_len in Hm, H'; lia). ring.
Qed.
Lemma peval_mul : forall b c p q x, pbnd b p -> pbnd c q -> length b = length c -> length x = length b ->
  peval (pmul p q) x = peval p x * peval q x.
Proof.
  intros b c p q x Hp Hq L Lx. induction Hp as [|m p Hm Hp IH]; [nl|].
  cbn [pmul flat_map]. rewrite peval_app. rewrite (peval_mulm b c) by assumption.
  unfold pmul in IH. rewrite IH. unfold peval. rewrite rsuml_cons. ring.
Qed.
Lemma pnorm_mul : forall p q, pnorm (pmul p q) = pnorm p * pnorm q.
Proof.
  intros p q. induction p as [|m p IH]; [nl|].
  cbn [pmul flat_map]. rewrite pnorm_app. unfold pmul in IH. rewrite IH.
  replace (pnorm (pmulm m q)) with (Rabs (fst m) * pnorm q). { unfold pnorm. rewrite rsuml_cons. ring. }
  clear. induction q as [|m' q IH]; unfold pnorm in *; cbn [pmulm map]; [nl|].
  rewrite !rsuml_cons. unfold pmulm in IH. rewrite <- IH. cbn [fst snd]. rewrite Rabs_mult. ring.
Qed.
Lemma le_add2 : forall e b f c, Forall2 le e b -> Forall2 le f c -> Forall2 le (eadd e f) (eadd b c).
Proof. intros e b f c H. revert f c. induction H; intros f c K; [constructor|]. destruct K; cbn; constructor; auto. lia. Qed.
Lemma pbnd_mul : forall b c p q, pbnd b p -> pbnd c q -> pbnd (eadd b c) (pmul p q).
Proof.
  intros b c p q Hp Hq. induction Hp as [|m p Hm Hp IH]; [constructor|].
  cbn [pmul flat_map]. apply Forall_app. split; [|exact IH].
  unfold pmulm. apply Forall_map. eapply Forall_impl; [|exact Hq]. intros m' H'. cbn. apply le_add2; assumption.
Qed.
Lemma pbnd_app : forall b p q, pbnd b p -> pbnd b q -> pbnd b (p ++ q).
Proof. intros. apply Forall_app. split; assumption. Qed.
Lemma pbnd_scale : forall b c p, pbnd b p -> pbnd b (pscale c p).
Proof. intros b c p H. unfold pscale. apply Forall_map. exact H. Qed.
Lemma pbnd_deg : forall b d p, Forall (fun a => (a < d)%nat) b -> pbnd b p -> pdeg (length b) d p.
Proof.
  intros b d p Hb Hp. eapply Forall_impl; [|exact Hp]. intros (c, e) He. cbn in *. split; [apply bnd_len; exact He|].
  clear -Hb He. induction He; [constructor|]. inversion Hb; subst. constructor; [lia|auto].
Qed.

(* the rows of the Jacobian as polynomials *)
Definition sg (n v : nat) : R :=
  let '(a, b, c) := hex_node n in match v with 0%nat => a | 1%nat => b | _ => c end.
Definition ev (v : nat) : list nat := match v with 0%nat => [1; 0; 0]%nat | 1%nat => [0; 1; 0]%nat | _ => [0; 0; 1]%nat end.
Definition lin (v : nat) (s : R) : poly := [(1, [0; 0; 0]%nat); (s, ev v)].
Definition oth (i : nat) : nat * nat := match i with 0%nat => (1, 2)%nat | 1%nat => (0, 2)%nat | _ => (0, 1)%nat end.
Definition pdN (n i : nat) : poly :=
  pscale (/ 8 * sg n i) (pmul (lin (fst (oth i)) (sg n (fst (oth i)))) (lin (snd (oth i)) (sg n (snd (oth i))))).
Definition pjac (pos : nat -> nat -> R) (i j : nat) : poly := flat_map (fun n => pscale (pos n j) (pdN n i)) (seq 0 8).
Definition rowb (i : nat) : list nat := match i with 0%nat => [0; 1; 1]%nat | 1%nat => [1; 0; 1]%nat | _ => [1; 1; 0]%nat end.

Lemma pdN_eval : forall r s t n i, (n < 8)%nat -> (i < 3)%nat -> peval (pdN n i) [r; s; t] = hex_dN r s t n i.
Proof.
  intros r s t n i Hn Hi. unfold pdN. rewrite peval_scale. unfold peval.
  do 3 (destruct i as [|i]; [do 8 (destruct n as [|n]; [cbn; decs; field|]); lia|]). lia.
Qed.
Lemma pdN_norm : forall n i, (n < 8)%nat -> (i < 3)%nat -> pnorm (pdN n i) = / 2.
Proof.
  intros n i Hn Hi. unfold pdN. rewrite pnorm_scale, pnorm_mul, Rabs_mult.
  assert (forall v, (v < 3)%nat -> Rabs (sg n v) = 1) as A.
  { intros v Hv. do 3 (destruct v as [|v]; [do 8 (destruct n as [|n]; [unfold sg; cbn; rewrite ?Rabs_R1; try reflexivity; rewrite Rabs_left; lra|]); lia|]). lia. }
  assert (forall v w, (w < 3)%nat -> pnorm (lin v (sg n w)) = 2) as B.
  { intros v w Hw. unfold pnorm, lin. rewrite !rsuml_cons, rsuml_nil. cbn [fst]. rewrite A by exact Hw. rewrite Rabs_R1. lra. }
  rewrite A by exact Hi. rewrite (Rabs_pos_eq (/ 8)) by lra.
  rewrite !B; [lra| |]; destruct i as [|[|[|i]]]; cbn; lia.
Qed.
Lemma lin_bnd : forall v s, pbnd (ev v) (lin v s).
Proof. intros v s. unfold lin. constructor; [|constructor; [|constructor]]; destruct v as [|[|v]]; cbn; repeat constructor. Qed.
Lemma pdN_bnd : forall n i, pbnd (rowb i) (pdN n i).
Proof.
  intros n i. apply pbnd_scale.
  replace (rowb i) with (eadd (ev (fst (oth i))) (ev (snd (oth i)))) by (destruct i as [|[|i]]; reflexivity).
  apply pbnd_mul; apply lin_bnd.
Qed.
Lemma pjac_bnd : forall pos i j, pbnd (rowb i) (pjac pos i j).
Proof.
  intros pos i j. unfold pjac. induction (seq 0 8) as [|n l IH]; [constructor|].
  cbn [flat_map]. apply pbnd_app; [apply pbnd_scale; apply pdN_bnd|exact IH].
Qed.
Lemma pjac_eval : forall pos r s t i j, (i < 3)%nat -> peval (pjac pos i j) [r; s; t] = jac 8 (hex_dN r s t) pos i j.
Proof.
  intros pos r s t i j Hi. unfold pjac, jac, rsumn.
  assert (forall n, In n (seq 0 8) -> (n < 8)%nat) as H by (intros n Hn; apply in_seq in Hn; lia).
  induction (seq 0 8) as [|n l IH]; [reflexivity|].
  cbn [flat_map]. rewrite peval_app, peval_scale, pdN_eval, rsuml_cons, IH; [ring| | |exact Hi].
  - intros m Hm; apply H; right; exact Hm.
  - apply H; left; reflexivity.
Qed.
Lemma pjac_norm : forall pos i j L, (i < 3)%nat -> (forall n, (n < 8)%nat -> Rabs (pos n j) <= L) -> pnorm (pjac pos i j) <= 4 * L.
Proof.
  intros pos i j L Hi HL. unfold pjac.
  assert (forall l, (forall n, In n l -> (n < 8)%nat) ->
    pnorm (flat_map (fun n => pscale (pos n j) (pdN n i)) l) <= INR (length l) * (L / 2)) as A.
  { induction l as [|n l IH]; intros H; [unfold pnorm; cbn [flat_map length INR]; rewrite rsuml_nil; lra|].
    cbn [flat_map]. rewrite pnorm_app, pnorm_scale, pdN_norm; [|apply H; left; reflexivity|exact Hi].
    change (length (n :: l)) with (S (length l)). rewrite S_INR.
    specialize (IH (fun m Hm => H m (or_intror Hm))).
    specialize (HL n (H n (or_introl eq_refl))). lra. }
  specialize (A (seq 0 8)). rewrite seq_length in A. cbn [INR] in A.
  eapply Rle_trans; [apply A|lra]. intros n Hn; apply in_seq in Hn; lia.
Qed.

Local Opaque pmul pjac pscale.
Definition pdet (pos : nat -> nat -> R) : poly :=
  let a i j := pjac pos i j in
  pmul (a 0 0)%nat (pmul (a 1 1)%nat (a 2 2)%nat) ++ pscale (-1) (pmul (a 0 0)%nat (pmul (a 1 2)%nat (a 2 1)%nat))
  ++ pscale (-1) (pmul (a 0 1)%nat (pmul (a 1 0)%nat (a 2 2)%nat)) ++ pmul (a 0 1)%nat (pmul (a 1 2)%nat (a 2 0)%nat)
  ++ pmul (a 0 2)%nat (pmul (a 1 0)%nat (a 2 1)%nat) ++ pscale (-1) (pmul (a 0 2)%nat (pmul (a 1 1)%nat (a 2 0)%nat)).
Lemma p3_bnd : forall pos i j k, pbnd [2; 2; 2]%nat (pmul (pjac pos 0 i) (pmul (pjac pos 1 j) (pjac pos 2 k))).
Proof.
  intros. change [2; 2; 2]%nat with (eadd (rowb 0) (eadd (rowb 1) (rowb 2))).
  apply pbnd_mul; [|apply pbnd_mul]; apply pjac_bnd.
Qed.
Lemma p3_eval : forall pos i j k r s t, peval (pmul (pjac pos 0 i) (pmul (pjac pos 1 j) (pjac pos 2 k))) [r; s; t]
  = jac 8 (hex_dN r s t) pos 0 i * (jac 8 (hex_dN r s t) pos 1 j * jac 8 (hex_dN r s t) pos 2 k).
Proof.
  intros.
  rewrite (peval_mul (rowb 0) (eadd (rowb 1) (rowb 2))); [|apply pjac_bnd|apply pbnd_mul; apply pjac_bnd|reflexivity|reflexivity].
  rewrite (peval_mul (rowb 1) (rowb 2)); [|apply pjac_bnd|apply pjac_bnd|reflexivity|reflexivity].
  rewrite !pjac_eval by lia. reflexivity.
Qed.
Lemma pdet_deg : forall pos, pdeg 3 4 (pdet pos).
Proof.
  intros pos. apply (pbnd_deg [2; 2; 2]%nat 4).
  - constructor; [lia|]. constructor; [lia|]. constructor; [lia|constructor].
  - unfold pdet. repeat apply pbnd_app; try apply pbnd_scale; apply p3_bnd.
Qed.
Lemma pdet_eval : forall pos r s t, peval (pdet pos) [r; s; t] = hex_det pos r s t.
Proof.
  intros. unfold pdet. rewrite !peval_app, !peval_scale, !p3_eval.
  unfold hex_det, jdet. cbn [mdet]. unfold det3.
  generalize (jac 8 (hex_dN r s t) pos). intros J. cbn. ring.
Qed.
Lemma pdet_norm : forall pos L, (forall n j, (n < 8)%nat -> (j < 3)%nat -> Rabs (pos n j) <= L) -> pnorm (pdet pos) <= 384 * L ^ 3.
Proof.
  intros pos L HL.
  assert (0 <= L) as L0. { eapply Rle_trans; [apply Rabs_pos|]. apply (HL 0%nat 0%nat); lia. }
  assert (forall i j, (i < 3)%nat -> (j < 3)%nat -> 0 <= pnorm (pjac pos i j) <= 4 * L) as N.
  { intros i j Hi Hj. split; [|apply pjac_norm; auto].
    unfold pnorm. clear. induction (pjac pos i j) as [|m p IH]; [rewrite rsuml_nil; lra|].
    rewrite rsuml_cons. pose proof (Rabs_pos (fst m)). lra. }
  assert (forall i j k, (i < 3)%nat -> (j < 3)%nat -> (k < 3)%nat ->
    pnorm (pmul (pjac pos 0 i) (pmul (pjac pos 1 j) (pjac pos 2 k))) <= 64 * L ^ 3) as P.
  { intros i j k Hi Hj Hk. rewrite !pnorm_mul.
    destruct (N 0%nat i), (N 1%nat j), (N 2%nat k); try lia.
    replace (64 * L ^ 3) with (4 * L * (4 * L * (4 * L))) by ring.
    apply Rmult_le_compat; [assumption| |assumption|].
    - apply Rmult_le_pos; assumption.
    - apply Rmult_le_compat; assumption. }
  unfold pdet. rewrite !pnorm_app, !pnorm_scale.
  replace (Rabs (-1)) with 1 by (rewrite Rabs_left; lra).
  pose proof (P 0 1 2)%nat. pose proof (P 0 2 1)%nat. pose proof (P 1 0 2)%nat.
  pose proof (P 1 2 0)%nat. pose proof (P 2 0 1)%nat. pose proof (P 2 1 0)%nat.
  repeat match goal with H : (?a < 3)%nat -> _ |- _ => specialize (H ltac:(lia)) end.
  repeat match goal with H : (?a < 3)%nat -> _ |- _ => specialize (H ltac:(lia)) end.
  repeat match goal with H : (?a < 3)%nat -> _ |- _ => specialize (H ltac:(lia)) end.
  lra.
Qed.

Lemma hex_vol_any : forall ord pos L, (2 <= ord)%nat ->
  (forall n j, (n < 8)%nat -> (j < 3)%nat -> Rabs (pos n j) <= L) ->
  exists V, is_int 3 (fun x => hex_det pos (nth 0 x 0) (nth 1 x 0) (nth 2 x 0)) V
    /\ Rabs (hex_volume ord pos - V) <= 384 * L ^ 3 / 10 ^ 15.
Proof.
  intros ord pos L Ho HL.
  assert (1 <= i_int ord < 3)%nat as Hk.
  { destruct (i_int_cases ord) as [(H & E) | [(H & E) | (H & E)]]; rewrite E; lia. }
  destruct (hex_accurate (i_int ord) (pdet pos)) as (V & H1 & H2); [lia| |].
  { eapply Forall_impl; [|exact (pdet_deg pos)]. intros m (A & B). split; [exact A|].
    eapply Forall_impl; [|exact B]. cbn beta. intros; lia. }
  exists V. split.
  - destruct H1 as (g & G1 & G2). exists g. split; [|exact G2].
    intros x. destruct (G1 x) as (h & K1 & K2). exists h. split; [|exact K2].
    intros y. destruct (K1 y) as (m & M1 & M2). exists m. split; [|exact M2].
    intros z. rewrite (M1 z). apply pdet_eval.
  - replace (hex_volume ord pos) with (hex_sum (i_int ord) (fun r s t => peval (pdet pos) [r; s; t])).
    + eapply Rle_trans; [exact H2|]. unfold Rdiv. apply Rmult_le_compat_r; [left; apply Rinv_0_lt_compat; lra|].
      apply pdet_norm. exact HL.
    + apply rsuml_ext. intros (((r, s), t), w) _. rewrite pdet_eval. reflexivity.
Qed.
