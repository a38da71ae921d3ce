(* The stiffness assembled by SOLID81 is the derivative of the residual it assembles. *)
From Coq Require Import Reals Lra Lia.
Set Warnings "-ambiguous-paths".
From Coquelicot Require Import Coquelicot.
From Verif Require Import Base RealBase MatModel AsmModel SpecAsm AsmLists MatProofs ElemModel SpecElem ElemBase HyperModel SpecHyper HyperProofs HyperMore HyperElem.
Local Open Scope R_scope.

Lemma d_suml : forall A (l : list A) (f : A -> R -> R) (d : A -> R) t, (forall a, In a l -> is_derive (f a) t (d a)) ->
  is_derive (fun s => rsuml l (fun a => f a s)) t (rsuml l d).
Proof.
  intros A l f d t H. induction l as [|a l IH].
  - apply (is_derive_ext (fun _ => 0)); [reflexivity|]. apply d_const.
  - rewrite rsuml_cons. apply (is_derive_ext (fun s => f a s + rsuml l (fun a => f a s))); [intros s; rewrite rsuml_cons; reflexivity|].
    apply d_plus; [apply H; left; reflexivity|]. apply IH. intros; apply H; right; assumption.
Qed.
Lemma d_sumn : forall n (f : nat -> R -> R) (d : nat -> R) t, (forall a, (a < n)%nat -> is_derive (f a) t (d a)) ->
  is_derive (fun s => rsumn n (fun a => f a s)) t (rsumn n d).
Proof. intros n f d t H. apply d_suml. intros a Ha. apply in_seq in Ha. apply H. lia. Qed.
Lemma d_scal : forall (c : R) (f : R -> R) (t d : R), is_derive f t d -> is_derive (fun s => c * f s) t (c * d).
Proof. intros c f t d H. eapply der_eq; [apply (d_mult (fun _ => c) f t 0 d); [apply d_const|exact H]|]. ring. Qed.
Lemma d_scalr : forall (c : R) (f : R -> R) (t d : R), is_derive f t d -> is_derive (fun s => f s * c) t (d * c).
Proof. intros c f t d H. eapply der_eq; [apply (d_mult f (fun _ => c) t d 0); [exact H|apply d_const]|]. ring. Qed.

Section Point.
  Variable (m : hyper) (w : R) (nx : nat -> nat -> R) (O : R -> nat -> R) (dO dU : nat -> R) (p : R -> R) (dp t : R).
  Hypothesis Hm : known m.
  Hypothesis HO : forall k, (k < 9)%nat -> is_derive (fun s => O s k) t (dO k).
  Hypothesis Hp : is_derive p t dp.
  Hypothesis HdO : forall k, (k < 9)%nat -> dO k = rsumn 24 (fun c => bnl nx k c * dU c).
  Let C s := arr (s81_C (O s)).
  Hypothesis Hd : 0 < det3 (m3 (C t)).
  Let dC (l : nat) : R := 2 * rsumn 9 (fun r => cM (O t) l r * dO r) / wt l.
  Let S s := S_comp m (C s) (p s).

  Lemma pt_curve : curve C t dC.
  Proof.
    pose proof (HO 0 ltac:(lia)) as A0. pose proof (HO 1 ltac:(lia)) as A1. pose proof (HO 2 ltac:(lia)) as A2.
    pose proof (HO 3 ltac:(lia)) as A3. pose proof (HO 4 ltac:(lia)) as A4. pose proof (HO 5 ltac:(lia)) as A5.
    pose proof (HO 6 ltac:(lia)) as A6. pose proof (HO 7 ltac:(lia)) as A7. pose proof (HO 8 ltac:(lia)) as A8.
    intros k Hk. unfold C, dC. case6 Hk; unfold arr, s81_C; cbn [nth pow];
      (eapply der_eq; [dv|]); rewrite rs9; unfold wt, cM, cL, cO;
      cbn [Nat.div Nat.divmod fst Nat.modulo snd Nat.sub Nat.mul Nat.add]; field.
  Qed.
  Lemma pt_wt : forall l, (l < 6)%nat -> wt l * dC l = rsumn 24 (fun c => bmat nx (O t) l c * dU c).
  Proof.
    intros l Hl. unfold dC. assert (W : wt l <> 0) by (case6 Hl; unfold wt; lra).
    transitivity (2 * rsumn 9 (fun r => cM (O t) l r * dO r)); [field; exact W|].
    unfold bmat. rewrite (rsumn_ext 24 _ (fun c => 2 * rsumn 9 (fun r => cM (O t) l r * (bnl nx r c * dU c)))).
    2: { intros c Hc. rewrite <- !rsumn_mul, <- rsumn_mulr. apply rsumn_ext. intros; ring. }
    rewrite rsumn_mul. f_equal. rewrite rsumn_swap. apply rsumn_ext. intros r Hr. rewrite rsumn_mul, HdO by exact Hr. reflexivity.
  Qed.
  Lemma pt_S : forall l, (l < 6)%nat -> is_derive (fun s => S s l) t
    (rsumn 6 (fun k => D_comp m (C t) (p t) l k * rsumn 24 (fun c => bmat nx (O t) k c * dU c)) + dp * Dp_comp (C t) l).
  Proof.
    intros l Hl. rewrite det_m3 in Hd. eapply der_eq; [apply (der_S m (known_good m Hm) C p t dC dp pt_curve Hp Hd l Hl)|].
    f_equal. unfold con. apply rsumn_ext. intros k Hk. rewrite <- pt_wt by exact Hk. ring.
  Qed.
  Lemma pt_B : forall l c, (l < 6)%nat -> is_derive (fun s => bmat nx (O s) l c) t (2 * rsumn 9 (fun r => cO dO l r * bnl nx r c)).
  Proof.
    intros l c Hl. unfold bmat. apply d_scal.
    apply (d_sumn 9 (fun r s => cM (O s) l r * bnl nx r c) (fun r => cO dO l r * bnl nx r c)). intros r Hr.
    apply (d_scalr (bnl nx r c) (fun s => cM (O s) l r)). unfold cM.
    eapply der_eq; [apply (d_plus (fun _ => cL l r) (fun s => cO (O s) l r) t 0 (cO dO l r)); [apply d_const|]|ring].
    assert (M : (r mod 3 < 3)%nat) by (apply Nat.mod_upper_bound; lia).
    assert (Q : (r / 3 < 3)%nat) by (apply Nat.div_lt_upper_bound; lia).
    unfold cO. revert M Q. generalize (r mod 3)%nat, (r / 3)%nat. intros a b M Q.
    case6 Hl; case3 M; (apply d_const || (apply HO; lia)).
  Qed.
  Lemma geo_part : forall S0 r, (r < 9)%nat -> rsumn 6 (fun l => cO dO l r * S0 l) = rsumn 9 (fun q => cS S0 r q * dO q).
  Proof.
    intros S0 r Hr. rewrite rs6, rs9.
    do 9 (destruct r as [|r]; [unfold cO, cS, m3; cbn [Nat.div Nat.divmod fst Nat.modulo snd Nat.sub Nat.mul Nat.add Nat.eqb comp6 Nat.min Nat.max]; ring|]).
    exfalso; lia.
  Qed.
  (* the point stored by update at parameter s *)
  Variable pt : R -> point.
  Hypothesis HptO : forall s k, (k < 9)%nat -> arr (ptO (pt s)) k = O s k.
  Hypothesis HptC : forall s, arr (ptC (pt s)) = C s.
  Hypothesis HptS : forall s k, (k < 6)%nat -> arr (ptS (pt s)) k = S s k.

  Lemma cO_ext : forall A B l r, (r < 9)%nat -> (forall k, (k < 9)%nat -> A k = B k) -> cO A l r = cO B l r.
  Proof.
    intros A B l r Hr E. assert (M : (r mod 3 < 3)%nat) by (apply Nat.mod_upper_bound; lia).
    assert (Q : (r / 3 < 3)%nat) by (apply Nat.div_lt_upper_bound; lia).
    unfold cO. revert M Q. generalize (r mod 3)%nat, (r / 3)%nat. intros a b M Q.
    case3 M; destruct l as [|[|[|[|[|[|l]]]]]]; try reflexivity; apply E; lia.
  Qed.
  Lemma bmat_pt : forall s l c, bmat nx (arr (ptO (pt s))) l c = bmat nx (O s) l c.
  Proof.
    intros s l c. unfold bmat. f_equal. apply rsumn_ext. intros r Hr. unfold cM.
    rewrite (cO_ext (arr (ptO (pt s))) (O s)); [reflexivity|exact Hr|]. apply HptO.
  Qed.
  Lemma pt_fu : forall c, is_derive (fun s => fu (w, nx) (pt s) c) t
    (- (rsumn 24 (fun e => kuu m (p t) (w, nx) (pt t) c e * dU e) + kup (w, nx) (pt t) c * dp)).
  Proof.
    intros c.
    apply (is_derive_ext (fun s => - (1 / 2) * w * rsumn 6 (fun l => bmat nx (O s) l c * S s l))).
    { intros s. unfold fu. cbn [fst snd]. f_equal. apply rsumn_ext. intros l Hl. rewrite bmat_pt, HptS by exact Hl. reflexivity. }
    eapply der_eq.
    { apply d_scal. apply (d_sumn 6 (fun l s => bmat nx (O s) l c * S s l)). intros l Hl.
      apply d_mult; [apply pt_B; exact Hl|apply pt_S; exact Hl]. }
    unfold kuu, kup. cbn [fst snd]. rewrite HptC. cbv zeta.
    rewrite (rsumn_ext 24 _ (fun e => 1 / 2 * w * (rsumn 6 (fun k => rsumn 6 (fun l => bmat nx (O t) k c * D_comp m (C t) (p t) k l * (bmat nx (O t) l e * dU e))))
      + w * rsumn 9 (fun k => rsumn 9 (fun l => bnl nx k c * cS (S t) k l * (bnl nx l e * dU e))))).
    2: { intros e He. rewrite Rmult_plus_distr_r, !Rmult_assoc. f_equal; f_equal; [f_equal|].
         - rewrite <- rsumn_mulr. apply rsumn_ext. intros k Hk. rewrite <- rsumn_mulr. apply rsumn_ext. intros l Hl. rewrite !bmat_pt. ring.
         - rewrite <- rsumn_mulr. apply rsumn_ext. intros k Hk. rewrite <- rsumn_mulr. apply rsumn_ext. intros l Hl.
           replace (cS (arr (ptS (pt t))) k l) with (cS (S t) k l); [ring|].
           unfold cS, m3. destruct (k / 3 =? l / 3)%nat; [|reflexivity]. rewrite HptS by apply comp6_lt. reflexivity. }
    rewrite (rsumn_plus 24), !(rsumn_mul 24).
    rewrite (rsumn_swap 24 6), (rsumn_swap 24 9).
    rewrite (rsumn_ext 6 (fun j => rsumn 24 _) (fun k => rsumn 6 (fun l => bmat nx (O t) k c * D_comp m (C t) (p t) k l * rsumn 24 (fun e => bmat nx (O t) l e * dU e)))).
    2: { intros k Hk. rewrite rsumn_swap. apply rsumn_ext. intros l Hl. rewrite rsumn_mul. reflexivity. }
    rewrite (rsumn_ext 9 (fun j => rsumn 24 _) (fun k => bnl nx k c * rsumn 6 (fun l => cO dO l k * S t l))).
    2: { intros k Hk. rewrite rsumn_swap, geo_part by exact Hk. rewrite <- rsumn_mul. apply rsumn_ext. intros l Hl. rewrite rsumn_mul, <- HdO by exact Hl. ring. }
    rewrite (rsumn_ext 6 (fun l => 2 * _ * _ + _) (fun l => 2 * rsumn 9 (fun r => cO dO l r * bnl nx r c * S t l)
       + (rsumn 6 (fun k => bmat nx (O t) l c * D_comp m (C t) (p t) l k * rsumn 24 (fun e => bmat nx (O t) k e * dU e)) + bmat nx (O t) l c * Dp_comp (C t) l * dp))).
    2: { intros l Hl. f_equal.
         - rewrite Rmult_assoc. f_equal. rewrite <- rsumn_mulr. reflexivity.
         - rewrite Rmult_plus_distr_l. f_equal; [|ring]. rewrite <- rsumn_mul. apply rsumn_ext. intros k Hk. ring. }
    rewrite !(rsumn_plus 6), (rsumn_mul 6), (rsumn_mulr 6).
    rewrite (rsumn_swap 6 9).
    rewrite (rsumn_ext 9 (fun k => bnl nx k c * _) (fun j => rsumn 6 (fun i => cO dO i j * bnl nx j c * S t i))).
    2: { intros k Hk. rewrite <- rsumn_mul. apply rsumn_ext. intros; ring. }
    rewrite (rsumn_ext 6 (fun l => bmat nx (arr (ptO (pt t))) l c * _) (fun a => bmat nx (O t) a c * Dp_comp (C t) a)).
    2: { intros l Hl. rewrite bmat_pt. reflexivity. }
    field.
  Qed.
  Lemma pt_J : is_derive (fun s => J_C (arr (ptC (pt s)))) t (rsumn 24 (fun e => 1 / 2 * rsumn 6 (fun l => bmat nx (O t) l e * Dp_comp (C t) l) * dU e)).
  Proof.
    apply (is_derive_ext (fun s => J_C (C s))); [intros s; rewrite HptC; reflexivity|].
    pose proof Hd as Hd'. rewrite det_m3 in Hd'.
    eapply der_eq; [apply (der_J C t dC pt_curve Hd')|].
    unfold con, Dp_comp. cbv zeta. change (IC_C (C t) 2) with (J_C (C t)).
    rewrite (rsumn_ext 24 _ (fun e => 1 / 2 * rsumn 6 (fun l => J_C (C t) * invC_C (C t) (J_C (C t)) l * (bmat nx (O t) l e * dU e)))).
    2: { intros e He. rewrite <- !rsumn_mul, <- rsumn_mulr. apply rsumn_ext. intros; ring. }
    rewrite rsumn_mul, rsumn_swap.
    rewrite (rsumn_ext 6 (fun j => rsumn 24 _) (fun l => J_C (C t) * (wt l * invC_C (C t) (J_C (C t)) l * dC l))).
    2: { intros l Hl. rewrite rsumn_mul, <- pt_wt by exact Hl. ring. }
    rewrite rsumn_mul. field.
  Qed.
End Point.

(* C of s81_C is F^T F *)
Definition gradO (O : nat -> R) : mat3 := fun i j => O (i * 3 + j)%nat.
Lemma s81_C_ok : forall O, meq (m3 (arr (s81_C O))) (cauchy_green (defgrad (gradO O))).
Proof.
  intros O i j Hi Hj. unfold m3, cauchy_green, mmul, mtr, defgrad, gradO, dlt, arr, s81_C. rewrite rs3.
  case3 Hi; case3 Hj; cbn [comp6 Nat.min Nat.max nth Nat.eqb Nat.mul Nat.add pow]; ring.
Qed.
Lemma s81_C_pos : forall O, det3 (defgrad (gradO O)) <> 0 -> 0 < det3 (m3 (arr (s81_C O))).
Proof.
  intros O H. rewrite (det3_ext _ _ (s81_C_ok O)). unfold cauchy_green. rewrite det_mul, det_tr.
  destruct (Rtotal_order (det3 (defgrad (gradO O))) 0) as [L|[L|L]]; nra.
Qed.

Definition dummy_mixed : mixed := mkMixed [] [] 0 [] 0.
Definition dummy_point : point := mkPoint [] [] [].
Definition s81_pt (m : hyper) (nx : nat -> nat -> R) (U : list R) (p : R) : point :=
  match s81_update m nx U p with Ok q => q | _ => dummy_point end.
Lemma s81_pt_ok : forall m nx U p, length U = 24%nat ->
  s81_update m nx U p = Ok (s81_pt m nx U p) /\ length (ptS (s81_pt m nx U p)) = 6%nat /\
  (forall k, (k < 9)%nat -> arr (ptO (s81_pt m nx U p)) k = rsumn 24 (fun c => bnl nx k c * arr U c)) /\
  ptC (s81_pt m nx U p) = s81_C (arr (ptO (s81_pt m nx U p))) /\
  (forall k, (k < 6)%nat -> arr (ptS (s81_pt m nx U p)) k = S_comp m (arr (ptC (s81_pt m nx U p))) p k).
Proof.
  intros m nx U p L. destruct (s81_update_ok m nx U p L) as (pt & E & L1 & L2 & L3 & H1 & H2 & H3).
  unfold s81_pt. rewrite E. repeat split; try assumption.
  - intros k Hk. rewrite H1, bnl_sum by exact Hk. reflexivity.
  - intros k Hk. rewrite H3. apply S_nth. exact Hk.
Qed.
Lemma s81_all_ok : forall m geo U p, length U = 24%nat ->
  s81_update_all m geo U p = Ok (map (fun g => (g, s81_pt m (snd g) U p)) geo).
Proof.
  intros m geo U p L. induction geo as [|g geo IH]; [reflexivity|].
  cbn [s81_update_all]. rewrite (proj1 (s81_pt_ok m (snd g) U p L)). cbn [obind]. rewrite IH. reflexivity.
Qed.
Lemma rsuml_map : forall A B (g : A -> B) (f : B -> R) l, rsuml (map g l) f = rsuml l (fun a => f (g a)).
Proof. intros A B g f l. induction l as [|a l IH]; [reflexivity|]. cbn [map]. rewrite !rsuml_cons, IH. reflexivity. Qed.

Definition s81_val m geo U p : mixed := match s81_run m geo U p with Ok a => a | _ => dummy_mixed end.
Lemma s81_val_ok : forall m geo U p, length U = 24%nat ->
  s81_run m geo U p = Ok (s81_val m geo U p) /\
  let a := s81_val m geo U p in
  let pt g := s81_pt m (snd g) U p in
    (forall c e, (c < 24)%nat -> (e < 24)%nat -> nth (sym_comp 24 c e) (mKuu a) 0 = rsuml geo (fun g => kuu m p g (pt g) c e)) /\
    (forall c, (c < 24)%nat -> nth c (mKup a) 0 = rsuml geo (fun g => kup g (pt g) c)) /\
    mKpp a = rsuml geo (fun g => - 1 / hK m * fst g) /\
    (forall c, (c < 24)%nat -> nth c (mFu a) 0 = rsuml geo (fun g => fu g (pt g) c)) /\
    mFp a = rsuml geo (fun g => - (J_C (arr (ptC (pt g))) - 1 - p / hK m) * fst g).
Proof.
  intros m geo U p L. unfold s81_val, s81_run. rewrite s81_all_ok by exact L. cbn [obind]. unfold s81_buildK.
  destruct (s81_fold_ok m p (map (fun g => (g, s81_pt m (snd g) U p)) geo) (mkMixed (repeat 0 300) (repeat 0 24) 0 (repeat 0 24) 0))
    as (a & E & L1 & L2 & L3 & W1 & W2 & W3 & W4 & W5); try apply repeat_length.
  { apply Forall_forall. intros x Hx. apply in_map_iff in Hx as (g & <- & _). cbn [snd]. apply s81_pt_ok. exact L. }
  rewrite E. split; [reflexivity|]. cbv zeta. cbn [mKuu mKup mKpp mFu mFp] in W1, W2, W3, W4, W5.
  split; [|split; [|split; [|split]]].
  - intros c e Hc He. rewrite W1, nth_repeat, rsuml_map by assumption. cbn [fst snd]. ring.
  - intros c Hc. rewrite W2, nth_repeat, rsuml_map by assumption. cbn [fst snd]. ring.
  - rewrite W3, rsuml_map. cbn [fst snd]. ring.
  - intros c Hc. rewrite W4, nth_repeat, rsuml_map by assumption. cbn [fst snd]. ring.
  - rewrite W5, rsuml_map. cbn [fst snd]. ring.
Qed.

Lemma s81_tangent : forall m geo (U : R -> list R) (p : R -> R) (dU : nat -> R) (dp t : R), known m -> hK m <> 0 ->
  (forall s, length (U s) = 24%nat) -> (forall e, (e < 24)%nat -> is_derive (fun s => nth e (U s) 0) t (dU e)) -> is_derive p t dp ->
  (forall g, In g geo -> det3 (defgrad (grad3 (snd g) (arr (U t)))) <> 0) ->
  exists r : R -> mixed, (forall s, s81_run m geo (U s) (p s) = Ok (r s)) /\
    (forall c, (c < 24)%nat -> is_derive (fun s => nth c (mFu (r s)) 0) t
       (- (rsumn 24 (fun e => nth (sym_comp 24 c e) (mKuu (r t)) 0 * dU e) + nth c (mKup (r t)) 0 * dp))) /\
    is_derive (fun s => mFp (r s)) t (- (rsumn 24 (fun e => nth e (mKup (r t)) 0 * dU e) + mKpp (r t) * dp)).
Proof.
  intros m geo U p dU dp t Hm HK L HU Hp HF.
  exists (fun s => s81_val m geo (U s) (p s)).
  split; [intros s; apply s81_val_ok, L|].
  pose (O (nx : nat -> nat -> R) s k := rsumn 24 (fun c => bnl nx k c * arr (U s) c)).
  pose (dO (nx : nat -> nat -> R) k := rsumn 24 (fun c => bnl nx k c * dU c)).
  assert (HO : forall nx k, is_derive (fun s => O nx s k) t (dO nx k)).
  { intros nx k. unfold O, dO. apply (d_sumn 24 (fun c s => bnl nx k c * arr (U s) c)). intros c Hc. apply d_scal. apply HU. exact Hc. }
  assert (HC : forall nx s, arr (ptC (s81_pt m nx (U s) (p s))) = arr (s81_C (O nx s))).
  { intros nx s. destruct (s81_pt_ok m nx (U s) (p s) (L s)) as (_ & _ & H1 & H2 & _). rewrite H2. f_equal.
    unfold s81_C. rewrite !H1 by lia. reflexivity. }
  assert (HD : forall g, In g geo -> 0 < det3 (m3 (arr (s81_C (O (snd g) t))))).
  { intros g Hg. apply s81_C_pos. intros Z. apply (HF g Hg). rewrite <- Z. apply det3_ext. intros i j Hi Hj. unfold defgrad. f_equal.
    unfold gradO, O. rewrite bnl_sum by lia. rewrite Nat.div_add_l, (Nat.div_small j) by lia.
    rewrite (Nat.add_comm (i * 3)), Nat.mod_add, (Nat.mod_small j) by lia. rewrite Nat.add_0_r. reflexivity. }
  destruct (s81_val_ok m geo (U t) (p t) (L t)) as (_ & T1 & T2 & T3 & _ & _). cbv zeta in T1, T2, T3.
  split.
  - intros c Hc.
    apply (is_derive_ext (fun s => rsuml geo (fun g => fu g (s81_pt m (snd g) (U s) (p s)) c))).
    { intros s. destruct (s81_val_ok m geo (U s) (p s) (L s)) as (_ & _ & _ & _ & W & _). symmetry. apply W, Hc. }
    eapply der_eq.
    { apply (d_suml _ geo (fun g s => fu g (s81_pt m (snd g) (U s) (p s)) c)
        (fun g => - (rsumn 24 (fun e => kuu m (p t) g (s81_pt m (snd g) (U t) (p t)) c e * dU e) + kup g (s81_pt m (snd g) (U t) (p t)) c * dp))).
      intros [w nx] Hg. cbn [snd].
      apply (pt_fu m w nx (O nx) (dO nx) dU p dp t Hm (fun k _ => HO nx k) Hp (fun k _ => eq_refl) (HD _ Hg)
               (fun s => s81_pt m nx (U s) (p s))).
      - intros s k Hk. apply (s81_pt_ok m nx (U s) (p s) (L s)). exact Hk.
      - intros s. apply HC.
      - intros s k Hk. destruct (s81_pt_ok m nx (U s) (p s) (L s)) as (_ & _ & _ & _ & W). rewrite W by exact Hk. rewrite HC. reflexivity. }
    cbv beta. rewrite T2 by exact Hc.
    rewrite (rsumn_ext 24 _ (fun e => rsuml geo (fun g => kuu m (p t) g (s81_pt m (snd g) (U t) (p t)) c e * dU e))).
    2: { intros e He. rewrite T1 by assumption. rewrite rsuml_mulr. reflexivity. }
    unfold rsumn. rewrite rsuml_swap. rewrite <- rsuml_mulr, <- rsuml_plus.
    replace (- rsuml geo (fun a : R * (nat -> nat -> R) => rsuml (seq 0 24) (fun b => kuu m (p t) a (s81_pt m (snd a) (U t) (p t)) c b * dU b) + kup a (s81_pt m (snd a) (U t) (p t)) c * dp))
      with (-1 * rsuml geo (fun a : R * (nat -> nat -> R) => rsuml (seq 0 24) (fun b => kuu m (p t) a (s81_pt m (snd a) (U t) (p t)) c b * dU b) + kup a (s81_pt m (snd a) (U t) (p t)) c * dp)) by ring.
    rewrite <- rsuml_mul. apply rsuml_ext. intros g _. ring.
  - apply (is_derive_ext (fun s => rsuml geo (fun g => - (J_C (arr (ptC (s81_pt m (snd g) (U s) (p s)))) - 1 - p s / hK m) * fst g))).
    { intros s. destruct (s81_val_ok m geo (U s) (p s) (L s)) as (_ & _ & _ & _ & _ & W). symmetry. exact W. }
    eapply der_eq.
    { apply (d_suml _ geo (fun g s => - (J_C (arr (ptC (s81_pt m (snd g) (U s) (p s)))) - 1 - p s / hK m) * fst g)
        (fun g => - (rsumn 24 (fun e => 1 / 2 * rsumn 6 (fun l => bmat (snd g) (O (snd g) t) l e * Dp_comp (arr (s81_C (O (snd g) t))) l) * dU e) - dp / hK m) * fst g)).
      intros [w nx] Hg. cbn [fst snd].
      pose proof (pt_J nx (O nx) (dO nx) dU t (fun k _ => HO nx k) (fun k _ => eq_refl) (HD _ Hg) (fun s => s81_pt m nx (U s) (p s)) (HC nx)) as Q.
      cbn [snd] in Q. assert (Hp' : is_derive (fun s => p s) t dp) by exact Hp. eapply der_eq; [dv|]. unfold Rdiv. ring. }
    rewrite T3.
    rewrite (rsumn_ext 24 _ (fun e => rsuml geo (fun g => kup g (s81_pt m (snd g) (U t) (p t)) e * dU e))).
    2: { intros e He. rewrite T2 by assumption. rewrite rsuml_mulr. reflexivity. }
    unfold rsumn at 3. rewrite rsuml_swap. rewrite <- rsuml_mulr, <- rsuml_plus.
    match goal with |- _ = - ?x => replace (- x) with (-1 * x) by ring end.
    rewrite <- rsuml_mul. apply rsuml_ext. intros [w nx] Hg. cbn [fst snd].
    change (rsuml (seq 0 24)) with (rsumn 24).
    rewrite (rsumn_ext 24 (fun a => kup _ _ _ * _) (fun e => w * (1 / 2 * rsumn 6 (fun l => bmat nx (O nx t) l e * Dp_comp (arr (s81_C (O nx t))) l) * dU e))).
    2: { intros e He. unfold kup. cbn [fst snd]. rewrite HC.
         rewrite (rsumn_ext 6 _ (fun l => bmat nx (O nx t) l e * Dp_comp (arr (s81_C (O nx t))) l)); [ring|].
         intros l Hl. rewrite (bmat_pt nx (O nx) (fun s => s81_pt m nx (U s) (p s))); [reflexivity|].
         intros s k Hk. apply (s81_pt_ok m nx (U s) (p s) (L s)). exact Hk. }
    rewrite rsumn_mul. unfold Rdiv. ring.
Qed.
