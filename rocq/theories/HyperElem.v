(* SOLID81: what update stores and what buildK returns. *)
From Coq Require Import Reals Lra Lia.
Set Warnings "-ambiguous-paths".
From Coquelicot Require Import Coquelicot.
From Verif Require Import Base RealBase MatModel AsmModel SpecAsm AsmLists MatProofs ElemModel SpecElem ElemBase HyperModel SpecHyper HyperProofs HyperMore.
Local Open Scope R_scope.

Lemma rsumn_app : forall a b f, rsumn (a + b) f = rsumn a f + rsumn b (fun k => f (a + k)%nat).
Proof.
  intros a b f. induction b as [|b IH].
  - rewrite Nat.add_0_r. change (rsumn 0 _) with 0. ring.
  - rewrite Nat.add_succ_r, !rsumn_last, IH. ring.
Qed.
Lemma rsumn_grid : forall a b f, rsumn (a * b) f = rsumn a (fun i => rsumn b (fun j => f (i * b + j)%nat)).
Proof.
  intros a b f. induction a as [|a IH]; [reflexivity|].
  rewrite rsumn_last, <- IH. replace (S a * b)%nat with (a * b + b)%nat by lia. rewrite rsumn_app. reflexivity.
Qed.
Lemma rs9 : forall f, rsumn 9 f = f 0%nat + f 1%nat + f 2%nat + f 3%nat + f 4%nat + f 5%nat + f 6%nat + f 7%nat + f 8%nat.
Proof. intros. unfold rsumn, rsuml. cbn. ring. Qed.

Definition bnl (nx : nat -> nat -> R) (k c : nat) : R := if (k / 3 =? c mod 3)%nat then nx (c / 3)%nat (k mod 3)%nat else 0.
Lemma B_NL_nth : forall nx k c, (k < 9)%nat -> (c < 24)%nat -> nth (k * 24 + c) (s81_B_NL nx) 0 = bnl nx k c.
Proof.
  intros nx k c Hk Hc. rewrite B_NL_eq. rewrite (nth_map_seq _ 216) by lia. cbv zeta.
  rewrite (Nat.div_add_l k 24 c) by lia. rewrite (Nat.div_small c) by lia.
  rewrite (Nat.add_comm (k * 24)), Nat.mod_add, (Nat.mod_small c) by lia. rewrite Nat.add_0_r. reflexivity.
Qed.
Lemma B_NL_length : forall nx, length (s81_B_NL nx) = 216%nat.
Proof. reflexivity. Qed.
(* the linear part: 2 L B_NL *)
Definition cL (l r : nat) : R :=
  match l, r with
  | 0%nat, 0%nat => 1
  | 1%nat, 1%nat => 1 | 1%nat, 3%nat => 1
  | 2%nat, 2%nat => 1 | 2%nat, 6%nat => 1
  | 3%nat, 4%nat => 1
  | 4%nat, 5%nat => 1 | 4%nat, 7%nat => 1
  | 5%nat, 8%nat => 1
  | _, _ => 0
  end.
Definition cO (O : nat -> R) (l r : nat) : R :=
  let i := (r / 3)%nat in
  match l, (r mod 3)%nat with
  | 0%nat, 0%nat => O (0 + i * 3)%nat
  | 1%nat, 0%nat => O (1 + i * 3)%nat | 1%nat, 1%nat => O (0 + i * 3)%nat
  | 2%nat, 0%nat => O (2 + i * 3)%nat | 2%nat, 2%nat => O (0 + i * 3)%nat
  | 3%nat, 1%nat => O (1 + i * 3)%nat
  | 4%nat, 1%nat => O (2 + i * 3)%nat | 4%nat, 2%nat => O (1 + i * 3)%nat
  | 5%nat, 2%nat => O (2 + i * 3)%nat
  | _, _ => 0
  end.
Definition blin (nx : nat -> nat -> R) (l c : nat) : R :=
  match l, (c mod 3)%nat with
  | 0%nat, 0%nat => 2 * nx (c / 3)%nat 0%nat
  | 1%nat, 0%nat => 2 * nx (c / 3)%nat 1%nat | 1%nat, 1%nat => 2 * nx (c / 3)%nat 0%nat
  | 2%nat, 0%nat => 2 * nx (c / 3)%nat 2%nat | 2%nat, 2%nat => 2 * nx (c / 3)%nat 0%nat
  | 3%nat, 1%nat => 2 * nx (c / 3)%nat 1%nat
  | 4%nat, 1%nat => 2 * nx (c / 3)%nat 2%nat | 4%nat, 2%nat => 2 * nx (c / 3)%nat 1%nat
  | 5%nat, 2%nat => 2 * nx (c / 3)%nat 2%nat
  | _, _ => 0
  end.
Lemma B_L_eq : forall nx, s81_B_L nx = map (fun q => blin nx (q / 24) (q mod 24)) (seq 0 144).
Proof. reflexivity. Qed.
Lemma B_L_nth : forall nx l c, (l < 6)%nat -> (c < 24)%nat -> nth (l * 24 + c) (s81_B_L nx) 0 = blin nx l c.
Proof.
  intros nx k c Hk Hc. rewrite B_L_eq. rewrite (nth_map_seq _ 144) by lia.
  rewrite (Nat.div_add_l k 24 c) by lia. rewrite (Nat.div_small c) by lia.
  rewrite (Nat.add_comm (k * 24)), Nat.mod_add, (Nat.mod_small c) by lia. rewrite Nat.add_0_r. reflexivity.
Qed.
Lemma blin_bnl : forall nx l c, (l < 6)%nat -> blin nx l c = 2 * rsumn 9 (fun r => cL l r * bnl nx r c).
Proof.
  intros nx l c Hl. rewrite rs9. unfold blin, bnl.
  assert (M : (c mod 3 < 3)%nat) by (apply Nat.mod_upper_bound; lia).
  case6 Hl; case3 M; cbn [cL Nat.div Nat.divmod fst Nat.eqb Nat.modulo snd Nat.sub]; ring.
Qed.
Lemma Omega_eq : forall O, s81_Omega O = map (fun q => cO O (q / 9) (q mod 9)) (seq 0 54).
Proof. reflexivity. Qed.
Lemma Omega_nth : forall O l r, (l < 6)%nat -> (r < 9)%nat -> nth (l * 9 + r) (s81_Omega O) 0 = cO O l r.
Proof.
  intros nx k c Hk Hc. rewrite Omega_eq. rewrite (nth_map_seq _ 54) by lia.
  rewrite (Nat.div_add_l k 9 c) by lia. rewrite (Nat.div_small c) by lia.
  rewrite (Nat.add_comm (k * 9)), Nat.mod_add, (Nat.mod_small c) by lia. rewrite Nat.add_0_r. reflexivity.
Qed.
Definition cS (S : nat -> R) (r q : nat) : R := if (r / 3 =? q / 3)%nat then m3 S (r mod 3) (q mod 3) else 0.
Lemma S_mat_nth : forall S r q, (r < 9)%nat -> (q < 9)%nat -> nth (sym_comp 9 r q) (s81_S S) 0 = cS S r q.
Proof.
  intros S r q Hr Hq.
  do 9 (destruct r as [|r]; [do 9 (destruct q as [|q]; [reflexivity|]); exfalso; lia|]); exfalso; lia.
Qed.

(* ---- update *)
Lemma bnl_sum : forall nx U k, (k < 9)%nat -> rsumn 24 (fun c => bnl nx k c * U c) = grad3 nx U (k / 3)%nat (k mod 3)%nat.
Proof.
  intros nx U k Hk. change 24%nat with (8 * 3)%nat. rewrite rsumn_grid. unfold grad3. apply rsumn_ext. intros n Hn.
  rewrite rs3. unfold bnl.
  rewrite !(Nat.add_comm (n * 3)), !Nat.mod_add, !Nat.div_add by lia.
  change (0 mod 3)%nat with 0%nat. change (1 mod 3)%nat with 1%nat. change (2 mod 3)%nat with 2%nat.
  change (0 / 3)%nat with 0%nat. change (1 / 3)%nat with 0%nat. change (2 / 3)%nat with 0%nat. rewrite !Nat.add_0_l.
  assert (M : (k / 3 < 3)%nat) by (apply Nat.div_lt_upper_bound; lia).
  rewrite (Nat.add_comm (k / 3)%nat). revert M. generalize (k / 3)%nat. intros d M. case3 M; cbn [Nat.eqb]; rewrite ?Nat.add_0_r, ?(Nat.add_comm (n * 3)); ring_simplify; reflexivity || ring.
Qed.
Lemma s81_update_ok : forall m nx U p, length U = 24%nat ->
  exists pt, s81_update m nx U p = Ok pt /\ length (ptO pt) = 9%nat /\ length (ptC pt) = 6%nat /\ length (ptS pt) = 6%nat /\
    (forall k, (k < 9)%nat -> arr (ptO pt) k = grad3 nx (arr U) (k / 3)%nat (k mod 3)%nat) /\
    ptC pt = s81_C (arr (ptO pt)) /\ ptS pt = getS_UP m defaultTensorComponents (arr (ptC pt)) p.
Proof.
  intros m nx U p L. unfold s81_update.
  rewrite (bv_R 9 24 (s81_B_NL nx) U 1 (repeat 0 9) (B_NL_length nx) L (repeat_length 0 9)).
  cbn [obind]. eexists. split; [reflexivity|]. cbn [ptO ptC ptS].
  split; [rewrite map_length; apply seq_length|]. split; [reflexivity|]. split; [reflexivity|].
  split; [|split; reflexivity].
  intros k Hk. unfold arr at 1. rewrite nth_map_seq by exact Hk. rewrite nth_repeat.
  rewrite (rsumn_ext 24 _ (fun c => bnl nx k c * arr U c)) by (intros c Hc; rewrite B_NL_nth by assumption; reflexivity).
  rewrite bnl_sum by exact Hk. ring.
Qed.

(* ---- buildK *)
Lemma btdb_acc : forall M N B D coef K0, length B = (M * N)%nat -> length D = tri M -> length K0 = tri N ->
  exists Ke, @matBTDBprod RNum M N B D coef K0 = Ok Ke /\ length Ke = tri N /\
    forall i j, (i < N)%nat -> (j < N)%nat -> nth (sym_comp N i j) Ke 0
      = nth (sym_comp N i j) K0 0 + coef * rsumn M (fun k => rsumn M (fun l => nth (k * N + i) B 0 * nth (sym_comp M k l) D 0 * nth (l * N + j) B 0)).
Proof.
  intros M N B D coef K0 LB LD LK.
  destruct (matBTDB_ok RRng M N B D LB LD coef K0 LK) as (Ke & E & L & W).
  exists Ke. split; [exact E|]. split; [etransitivity; [exact L|exact LK]|]. exact W.
Qed.
Lemma btv_acc : forall M N B V coef R0, length B = (M * N)%nat -> length V = M -> length R0 = N ->
  exists R', @matBTVprod RNum M N B V coef R0 = Ok R' /\ length R' = N /\
    forall i, (i < N)%nat -> nth i R' 0 = nth i R0 0 + coef * rsumn M (fun j => nth (j * N + i) B 0 * nth j V 0).
Proof. intros M N B V coef R0 LB LV LR. exact (matBTV_ok RRng M N B V coef R0 LB LV LR). Qed.
Lemma ab_acc : forall M1 N1 N2 A B coef R0, length A = (M1 * N1)%nat -> length B = (N1 * N2)%nat -> length R0 = (M1 * N2)%nat ->
  exists R', @matABprod RNum M1 N1 N2 A B coef R0 = Ok R' /\ length R' = (M1 * N2)%nat /\
    forall i j, (i < M1)%nat -> (j < N2)%nat ->
      nth (i * N2 + j) R' 0 = nth (i * N2 + j) R0 0 + coef * rsumn N1 (fun k => nth (i * N1 + k) A 0 * nth (k * N2 + j) B 0).
Proof. intros M1 N1 N2 A B coef R0 LA LB LR. exact (matAB_ok RRng M1 N1 N2 A B coef R0 LA LB LR). Qed.

(* M = L + Omega; matB = 2 M B_NL *)
Definition cM (O : nat -> R) (l r : nat) : R := cL l r + cO O l r.
Definition bmat (nx : nat -> nat -> R) (O : nat -> R) (l c : nat) : R := 2 * rsumn 9 (fun r => cM O l r * bnl nx r c).
(* the contribution of a point *)
Definition kuu (m : hyper) (p : R) (g : R * (nat -> nat -> R)) (pt : point) (c e : nat) : R :=
  let O := arr (ptO pt) in let C := arr (ptC pt) in let B := bmat (snd g) O in
  1 / 2 * fst g * rsumn 6 (fun k => rsumn 6 (fun l => B k c * D_comp m C p k l * B l e))
  + fst g * rsumn 9 (fun k => rsumn 9 (fun l => bnl (snd g) k c * cS (arr (ptS pt)) k l * bnl (snd g) l e)).
Definition kup (g : R * (nat -> nat -> R)) (pt : point) (c : nat) : R :=
  1 / 2 * fst g * rsumn 6 (fun l => bmat (snd g) (arr (ptO pt)) l c * Dp_comp (arr (ptC pt)) l).
Definition fu (g : R * (nat -> nat -> R)) (pt : point) (c : nat) : R :=
  - (1 / 2) * fst g * rsumn 6 (fun l => bmat (snd g) (arr (ptO pt)) l c * arr (ptS pt) l).

Lemma s81_point_ok : forall m p a g pt, length (mKuu a) = 300%nat -> length (mKup a) = 24%nat -> length (mFu a) = 24%nat ->
  length (ptS pt) = 6%nat ->
  exists a', s81_point m p a (g, pt) = Ok a' /\
    length (mKuu a') = 300%nat /\ length (mKup a') = 24%nat /\ length (mFu a') = 24%nat /\
    (forall c e, (c < 24)%nat -> (e < 24)%nat -> nth (sym_comp 24 c e) (mKuu a') 0 = nth (sym_comp 24 c e) (mKuu a) 0 + kuu m p g pt c e) /\
    (forall c, (c < 24)%nat -> nth c (mKup a') 0 = nth c (mKup a) 0 + kup g pt c) /\
    mKpp a' = mKpp a + - 1 / hK m * fst g /\
    (forall c, (c < 24)%nat -> nth c (mFu a') 0 = nth c (mFu a) 0 + fu g pt c) /\
    mFp a' = mFp a + - (J_C (arr (ptC pt)) - 1 - p / hK m) * fst g.
Proof.
  intros m p a [w nx] pt LK LP LF LS. unfold s81_point. cbn [fst snd].
  destruct (getDdDp_UP m defaultTensorComponents (arr (ptC pt)) p) as [Dd Dp] eqn:ED.
  assert (E : forall k, (k < 6)%nat -> nth k defaultTensorComponents 0%nat = k) by (intros k Hk; case6 Hk; reflexivity).
  assert (LD : length Dd = 21%nat).
  { replace Dd with (fst (getDdDp_UP m defaultTensorComponents (arr (ptC pt)) p)) by (rewrite ED; reflexivity). reflexivity. }
  assert (LDp : length Dp = 6%nat).
  { replace Dp with (snd (getDdDp_UP m defaultTensorComponents (arr (ptC pt)) p)) by (rewrite ED; reflexivity). reflexivity. }
  assert (HD : forall k l, (k < 6)%nat -> (l < 6)%nat -> nth (sym_comp 6 k l) Dd 0 = D_comp m (arr (ptC pt)) p k l).
  { intros k l Hk Hl. replace Dd with (fst (getDdDp_UP m defaultTensorComponents (arr (ptC pt)) p)) by (rewrite ED; reflexivity).
    change 6%nat with (length defaultTensorComponents). rewrite Dd_nth; [|repeat constructor|exact Hk|exact Hl]. rewrite !E by assumption. reflexivity. }
  assert (HDp : forall k, (k < 6)%nat -> nth k Dp 0 = Dp_comp (arr (ptC pt)) k).
  { intros k Hk. replace Dp with (snd (getDdDp_UP m defaultTensorComponents (arr (ptC pt)) p)) by (rewrite ED; reflexivity).
    rewrite Dp_nth by exact Hk. rewrite E by exact Hk. reflexivity. }
  destruct (ab_acc 6 9 24 (s81_Omega (arr (ptO pt))) (s81_B_NL nx) 2 (s81_B_L nx) eq_refl eq_refl eq_refl) as (B & EB & LB & WB).
  rewrite EB. cbn [obind].
  assert (HB : forall l c, (l < 6)%nat -> (c < 24)%nat -> nth (l * 24 + c) B 0 = bmat nx (arr (ptO pt)) l c).
  { intros l c Hl Hc. rewrite WB by assumption. rewrite B_L_nth, blin_bnl by assumption. unfold bmat.
    rewrite <- Rmult_plus_distr_l, <- rsumn_plus. f_equal. apply rsumn_ext. intros r Hr.
    rewrite Omega_nth, B_NL_nth by assumption. unfold cM. ring. }
  destruct (btdb_acc 6 24 B Dd (1 / 2 * w) (mKuu a) LB LD LK) as (K1 & E1 & L1 & W1). rewrite E1. cbn [obind].
  destruct (btdb_acc 9 24 (s81_B_NL nx) (s81_S (arr (ptS pt))) w K1 eq_refl eq_refl L1) as (K2 & E2 & L2 & W2). rewrite E2. cbn [obind].
  destruct (btv_acc 6 24 B (ptS pt) (- (1 / 2) * w) (mFu a) LB LS LF) as (F1 & E3 & L3 & W3). rewrite E3. cbn [obind].
  destruct (btv_acc 6 24 B Dp (1 / 2 * w) (mKup a) LB LDp LP) as (P1 & E4 & L4 & W4). rewrite E4. cbn [obind].
  eexists. split; [reflexivity|]. cbn [mKuu mKup mKpp mFu mFp].
  split; [exact L2|]. split; [exact L4|]. split; [exact L3|].
  split; [|split; [|split; [reflexivity|split; [|reflexivity]]]].
  - intros c e Hc He. rewrite W2, W1 by assumption. rewrite Rplus_assoc. f_equal. unfold kuu. cbn [fst snd]. f_equal; f_equal.
    + apply rsumn_ext. intros k Hk. apply rsumn_ext. intros l Hl. rewrite !HB, HD by assumption. reflexivity.
    + apply rsumn_ext. intros k Hk. apply rsumn_ext. intros l Hl. rewrite !B_NL_nth, S_mat_nth by assumption. reflexivity.
  - intros c Hc. rewrite W4 by exact Hc. f_equal. unfold kup. cbn [fst snd]. f_equal. apply rsumn_ext. intros k Hk.
    rewrite HB, HDp by assumption. reflexivity.
  - intros c Hc. rewrite W3 by exact Hc. f_equal. unfold fu. cbn [fst snd]. f_equal. apply rsumn_ext. intros k Hk.
    rewrite HB by assumption. reflexivity.
Qed.
Lemma s81_fold_ok : forall m p pts a, length (mKuu a) = 300%nat -> length (mKup a) = 24%nat -> length (mFu a) = 24%nat ->
  Forall (fun x => length (ptS (snd x)) = 6%nat) pts ->
  exists a', ofold (s81_point m p) pts a = Ok a' /\
    length (mKuu a') = 300%nat /\ length (mKup a') = 24%nat /\ length (mFu a') = 24%nat /\
    (forall c e, (c < 24)%nat -> (e < 24)%nat -> nth (sym_comp 24 c e) (mKuu a') 0 = nth (sym_comp 24 c e) (mKuu a) 0 + rsuml pts (fun x => kuu m p (fst x) (snd x) c e)) /\
    (forall c, (c < 24)%nat -> nth c (mKup a') 0 = nth c (mKup a) 0 + rsuml pts (fun x => kup (fst x) (snd x) c)) /\
    mKpp a' = mKpp a + rsuml pts (fun x => - 1 / hK m * fst (fst x)) /\
    (forall c, (c < 24)%nat -> nth c (mFu a') 0 = nth c (mFu a) 0 + rsuml pts (fun x => fu (fst x) (snd x) c)) /\
    mFp a' = mFp a + rsuml pts (fun x => - (J_C (arr (ptC (snd x))) - 1 - p / hK m) * fst (fst x)).
Proof.
  intros m p. induction pts as [|[g pt] pts IH]; intros a LK LP LF F.
  - exists a. cbn [ofold]. split; [reflexivity|]. repeat (split; [assumption|]).
    split; [|split; [|split; [|split]]]; intros; rewrite rsuml_nil; ring.
  - inversion F as [|? ? F1 F2]; subst. cbn [snd] in F1.
    destruct (s81_point_ok m p a g pt LK LP LF F1) as (a1 & E & L1 & L2 & L3 & W1 & W2 & W3 & W4 & W5).
    destruct (IH a1 L1 L2 L3 F2) as (a' & E' & M1 & M2 & M3 & V1 & V2 & V3 & V4 & V5).
    exists a'. cbn [ofold]. rewrite E. cbn [obind]. split; [exact E'|]. repeat (split; [assumption|]).
    split; [|split; [|split; [|split]]]; intros; rewrite rsuml_cons; cbn [fst snd].
    + rewrite V1, W1 by assumption. ring.
    + rewrite V2, W2 by assumption. ring.
    + rewrite V3, W3. ring.
    + rewrite V4, W4 by assumption. ring.
    + rewrite V5, W5. ring.
Qed.
