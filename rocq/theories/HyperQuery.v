(* Tensor, scalar and vector queries of SOLID81 and PLANE41. *)
From Coq Require Import Reals Lra Lia.
Set Warnings "-ambiguous-paths".
From Coquelicot Require Import Coquelicot.
From Verif Require Import Base RealBase MatModel AsmModel SpecAsm AsmLists MatProofs ElemModel SpecElem ElemBase HyperModel SpecHyper HyperProofs HyperMore HyperElem HyperTangent HyperPlane HyperBalance HyperBalance2.
Local Open Scope R_scope.

Lemma adds_map : forall t (f : nat -> R) scale A, length t = 6%nat ->
  (forall i j, (i < 3)%nat -> (j < 3)%nat -> f (comp6 i j) = m3 (arr t) i j + scale * A i j) ->
  adds t (map f (seq 0 6)) scale A.
Proof.
  intros t f scale A L H. split; [reflexivity|]. intros i j Hi Hj. rewrite <- H by assumption. unfold m3, arr.
  rewrite nth_map_seq by apply comp6_lt. reflexivity.
Qed.
Lemma comp6_sym : forall i j, (i < 3)%nat -> (j < 3)%nat -> comp6 i j = sym_comp 3 i j.
Proof. intros i j Hi Hj. case3 Hi; case3 Hj; reflexivity. Qed.
(* B^T D B for 3 x 3 matrices *)
Lemma btdb3 : forall B D coef t, length B = 9%nat -> length D = 6%nat -> length t = 6%nat ->
  exists t', @matBTDBprod RNum 3 3 B D coef t = Ok t' /\
    adds t t' coef (fun i j => rsumn 3 (fun k => rsumn 3 (fun l => arr B (k * 3 + i)%nat * m3 (arr D) k l * arr B (l * 3 + j)%nat))).
Proof.
  intros B D coef t LB LD Lt. destruct (btdb_acc 3 3 B D coef t LB LD Lt) as (t' & E & L & W). exists t'. split; [exact E|]. split; [exact L|].
  intros i j Hi Hj. unfold m3 at 1 2. unfold arr at 1 2. rewrite !comp6_sym by assumption. rewrite W by assumption. reflexivity.
Qed.
Lemma adds_ext : forall t t' scale A B, meq A B -> adds t t' scale A -> adds t t' scale B.
Proof. intros t t' scale A B H [L W]. split; [exact L|]. intros i j Hi Hj. rewrite W by assumption. rewrite H by assumption. reflexivity. Qed.
Lemma adds_scale : forall t t' s c A, adds t t' (s * c) A -> adds t t' c (fun i j => s * A i j).
Proof. intros t t' s c A [L W]. split; [exact L|]. intros i j Hi Hj. rewrite W by assumption. ring. Qed.

(* F C^-1 F^T = 1 *)
Lemma left_inv : forall A B, meq (mmul B A) dlt -> meq (mmul A B) dlt.
Proof.
  intros A B H.
  assert (DA : det3 B * det3 A = 1). { rewrite <- det_mul, (det3_ext _ _ H). unfold det3, dlt. cbn. ring. }
  pose proof (H 0%nat 0%nat ltac:(lia) ltac:(lia)) as H00. pose proof (H 0%nat 1%nat ltac:(lia) ltac:(lia)) as H01. pose proof (H 0%nat 2%nat ltac:(lia) ltac:(lia)) as H02.
  pose proof (H 1%nat 0%nat ltac:(lia) ltac:(lia)) as H10. pose proof (H 1%nat 1%nat ltac:(lia) ltac:(lia)) as H11. pose proof (H 1%nat 2%nat ltac:(lia) ltac:(lia)) as H12.
  pose proof (H 2%nat 0%nat ltac:(lia) ltac:(lia)) as H20. pose proof (H 2%nat 1%nat ltac:(lia) ltac:(lia)) as H21. pose proof (H 2%nat 2%nat ltac:(lia) ltac:(lia)) as H22.
  clear H. unfold mmul, det3, meq in *. rewrite !rs3 in *. cbv [dlt Nat.eqb] in *.
  (* the adjugate of B, times det A, is A *)
  set (a00 := A 0%nat 0%nat) in *. set (a01 := A 0%nat 1%nat) in *. set (a02 := A 0%nat 2%nat) in *.
  set (a10 := A 1%nat 0%nat) in *. set (a11 := A 1%nat 1%nat) in *. set (a12 := A 1%nat 2%nat) in *.
  set (a20 := A 2%nat 0%nat) in *. set (a21 := A 2%nat 1%nat) in *. set (a22 := A 2%nat 2%nat) in *.
  set (b00 := B 0%nat 0%nat) in *. set (b01 := B 0%nat 1%nat) in *. set (b02 := B 0%nat 2%nat) in *.
  set (b10 := B 1%nat 0%nat) in *. set (b11 := B 1%nat 1%nat) in *. set (b12 := B 1%nat 2%nat) in *.
  set (b20 := B 2%nat 0%nat) in *. set (b21 := B 2%nat 1%nat) in *. set (b22 := B 2%nat 2%nat) in *.
  set (dA := a00 * (a11 * a22 - a12 * a21) - a01 * (a10 * a22 - a12 * a20) + a02 * (a10 * a21 - a11 * a20)) in *.
  set (dB := b00 * (b11 * b22 - b12 * b21) - b01 * (b10 * b22 - b12 * b20) + b02 * (b10 * b21 - b11 * b20)) in *.
  assert (A00 : dB * a00 = b11 * b22 - b12 * b21). { transitivity ((b11 * b22 - b12 * b21) * (b00 * a00 + b01 * a10 + b02 * a20) - (b01 * b22 - b02 * b21) * (b10 * a00 + b11 * a10 + b12 * a20) + (b01 * b12 - b02 * b11) * (b20 * a00 + b21 * a10 + b22 * a20)); [unfold dB; ring|]. rewrite H00, H10, H20. ring. }
  assert (A01 : dB * a01 = - (b01 * b22 - b02 * b21)). { transitivity ((b11 * b22 - b12 * b21) * (b00 * a01 + b01 * a11 + b02 * a21) - (b01 * b22 - b02 * b21) * (b10 * a01 + b11 * a11 + b12 * a21) + (b01 * b12 - b02 * b11) * (b20 * a01 + b21 * a11 + b22 * a21)); [unfold dB; ring|]. rewrite H01, H11, H21. ring. }
  assert (A02 : dB * a02 = b01 * b12 - b02 * b11). { transitivity ((b11 * b22 - b12 * b21) * (b00 * a02 + b01 * a12 + b02 * a22) - (b01 * b22 - b02 * b21) * (b10 * a02 + b11 * a12 + b12 * a22) + (b01 * b12 - b02 * b11) * (b20 * a02 + b21 * a12 + b22 * a22)); [unfold dB; ring|]. rewrite H02, H12, H22. ring. }
  assert (A10 : dB * a10 = - (b10 * b22 - b12 * b20)). { transitivity (- (b10 * b22 - b12 * b20) * (b00 * a00 + b01 * a10 + b02 * a20) + (b00 * b22 - b02 * b20) * (b10 * a00 + b11 * a10 + b12 * a20) - (b00 * b12 - b02 * b10) * (b20 * a00 + b21 * a10 + b22 * a20)); [unfold dB; ring|]. rewrite H00, H10, H20. ring. }
  assert (A11 : dB * a11 = b00 * b22 - b02 * b20). { transitivity (- (b10 * b22 - b12 * b20) * (b00 * a01 + b01 * a11 + b02 * a21) + (b00 * b22 - b02 * b20) * (b10 * a01 + b11 * a11 + b12 * a21) - (b00 * b12 - b02 * b10) * (b20 * a01 + b21 * a11 + b22 * a21)); [unfold dB; ring|]. rewrite H01, H11, H21. ring. }
  assert (A12 : dB * a12 = - (b00 * b12 - b02 * b10)). { transitivity (- (b10 * b22 - b12 * b20) * (b00 * a02 + b01 * a12 + b02 * a22) + (b00 * b22 - b02 * b20) * (b10 * a02 + b11 * a12 + b12 * a22) - (b00 * b12 - b02 * b10) * (b20 * a02 + b21 * a12 + b22 * a22)); [unfold dB; ring|]. rewrite H02, H12, H22. ring. }
  assert (A20 : dB * a20 = b10 * b21 - b11 * b20). { transitivity ((b10 * b21 - b11 * b20) * (b00 * a00 + b01 * a10 + b02 * a20) - (b00 * b21 - b01 * b20) * (b10 * a00 + b11 * a10 + b12 * a20) + (b00 * b11 - b01 * b10) * (b20 * a00 + b21 * a10 + b22 * a20)); [unfold dB; ring|]. rewrite H00, H10, H20. ring. }
  assert (A21 : dB * a21 = - (b00 * b21 - b01 * b20)). { transitivity ((b10 * b21 - b11 * b20) * (b00 * a01 + b01 * a11 + b02 * a21) - (b00 * b21 - b01 * b20) * (b10 * a01 + b11 * a11 + b12 * a21) + (b00 * b11 - b01 * b10) * (b20 * a01 + b21 * a11 + b22 * a21)); [unfold dB; ring|]. rewrite H01, H11, H21. ring. }
  assert (A22 : dB * a22 = b00 * b11 - b01 * b10). { transitivity ((b10 * b21 - b11 * b20) * (b00 * a02 + b01 * a12 + b02 * a22) - (b00 * b21 - b01 * b20) * (b10 * a02 + b11 * a12 + b12 * a22) + (b00 * b11 - b01 * b10) * (b20 * a02 + b21 * a12 + b22 * a22)); [unfold dB; ring|]. rewrite H02, H12, H22. ring. }
  assert (NB : dB <> 0) by (intros Z; rewrite Z in DA; lra).
  intros i j Hi Hj. apply Rmult_eq_reg_l with dB; [|exact NB].
  cbv beta. rewrite rs3. rewrite !Rmult_plus_distr_l, <- !Rmult_assoc. clear DA H00 H01 H02 H10 H11 H12 H20 H21 H22 NB.
  case3 Hi; case3 Hj; cbv [dlt Nat.eqb]; fold a00 a01 a02 a10 a11 a12 a20 a21 a22 b00 b01 b02 b10 b11 b12 b20 b21 b22;
    rewrite ?A00, ?A01, ?A02, ?A10, ?A11, ?A12, ?A20, ?A21, ?A22; unfold dB; ring.
Qed.
Lemma F_Ci_F : forall C F, meq (m3 C) (cauchy_green F) -> 0 < det3 (m3 C) ->
  meq (mmul F (mmul (m3 (invC_C C (J_C C))) (mtr F))) dlt.
Proof.
  intros C F HC Hd. apply left_inv. intros i j Hi Hj.
  rewrite <- (inv_C' C Hd i j Hi Hj). unfold mmul. rewrite (rsumn_ext 3 _ (fun k => rsumn 3 (fun a => m3 (invC_C C (J_C C)) i a * (F k a * F k j)))).
  2: { intros k Hk. rewrite <- rsumn_mulr. apply rsumn_ext. intros; unfold mtr; ring. }
  rewrite rsumn_swap. apply rsumn_ext. intros a Ha. rewrite rsumn_mul, HC by assumption. reflexivity.
Qed.

(* ---- SOLID81: the queries at a stored point *)
Lemma q_TC : forall p pt scale t, length t = 6%nat -> exists t', s81_tensor p pt TC scale t = Ok t' /\ adds t t' scale (m3 (arr (ptC pt))).
Proof.
  intros p pt scale t Lt. cbn [s81_tensor]. eexists. split; [reflexivity|]. apply adds_map; [exact Lt|]. intros i j Hi Hj. unfold m3. change (nth (comp6 i j) t 0) with (arr t (comp6 i j)). ring.
Qed.
Lemma q_TE : forall p pt scale t, length t = 6%nat -> exists t', s81_tensor p pt TE scale t = Ok t' /\
  adds t t' scale (fun i j => (m3 (arr (ptC pt)) i j - dlt i j) / 2).
Proof.
  intros p pt scale t Lt. cbn [s81_tensor]. eexists. split; [reflexivity|]. apply adds_map; [exact Lt|]. intros i j Hi Hj.
  rewrite <- identity6 by assumption. unfold m3. change (nth (comp6 i j) t 0) with (arr t (comp6 i j)). field.
Qed.
Lemma q_PK2 : forall p pt scale t, length t = 6%nat -> exists t', s81_tensor p pt PK2 scale t = Ok t' /\
  adds t t' scale (fun i j => m3 (arr (ptS pt)) i j + p * J_C (arr (ptC pt)) * m3 (invC_C (arr (ptC pt)) (J_C (arr (ptC pt)))) i j).
Proof.
  intros p pt scale t Lt. cbn [s81_tensor]. eexists. split; [reflexivity|]. apply adds_map; [exact Lt|]. intros i j Hi Hj.
  unfold m3. change (nth (comp6 i j) t 0) with (arr t (comp6 i j)). ring.
Qed.
Lemma q_COUCHY : forall p pt scale t, length t = 6%nat -> J_C (arr (ptC pt)) <> 0 -> exists t', s81_tensor p pt COUCHY scale t = Ok t' /\
  adds t t' scale (fun i j => / J_C (arr (ptC pt)) * rsumn 3 (fun k => rsumn 3 (fun l => defgrad (gradO (arr (ptO pt))) i k *
    (m3 (arr (ptS pt)) k l + p * J_C (arr (ptC pt)) * m3 (invC_C (arr (ptC pt)) (J_C (arr (ptC pt)))) k l) * defgrad (gradO (arr (ptO pt))) j l))).
Proof.
  intros p pt scale t Lt HJ. cbn [s81_tensor].
  set (matF := [_; _; _; _; _; _; _; _; _]). set (matS := map _ (seq 0 6)). set (J := J_C (arr (ptC pt))) in *.
  destruct (btdb3 matF matS (1 / J * scale) t eq_refl eq_refl Lt) as (t' & E & W).
  exists t'. split; [exact E|]. apply adds_scale in W. eapply adds_ext; [|exact W].
  assert (EF : forall k i, (k < 3)%nat -> (i < 3)%nat -> arr matF (k * 3 + i)%nat = defgrad (gradO (arr (ptO pt))) i k).
  { intros k i Hk Hi. unfold defgrad, matF, gradO, dlt. case3 Hk; case3 Hi; unfold arr at 1; cbn [nth Nat.mul Nat.add]; cbv [Nat.eqb]; ring. }
  intros i j Hi Hj. cbv beta. unfold Rdiv. rewrite Rmult_1_l. f_equal. apply rsumn_ext. intros k Hk. apply rsumn_ext. intros l Hl. rewrite !EF by assumption.
  f_equal. f_equal. unfold m3, matS. unfold arr at 1. rewrite nth_map_seq by apply comp6_lt. reflexivity.
Qed.

Section S81.
  Variables (m : hyper) (nx : nat -> nat -> R) (U : list R) (p scale : R) (t : list R).
  Hypothesis LU : length U = 24%nat.
  Hypothesis Lt : length t = 6%nat.
  Let F := defgrad (grad3 nx (arr U)).
  Let pt := s81_pt m nx U p.
  Lemma s81_q : forall q, s81_query m nx U p q scale t = s81_tensor p pt q scale t.
  Proof. intros q. unfold s81_query. rewrite (proj1 (s81_pt_ok m nx U p LU)). reflexivity. Qed.
  Lemma s81_TC : exists t', s81_query m nx U p TC scale t = Ok t' /\ adds t t' scale (cauchy_green F).
  Proof.
    rewrite s81_q. destruct (q_TC p pt scale t Lt) as (t' & E & W). exists t'. split; [exact E|]. eapply adds_ext; [|exact W]. apply s81_cg. exact LU.
  Qed.
  Lemma s81_TE : exists t', s81_query m nx U p TE scale t = Ok t' /\ adds t t' scale (fun i j => (cauchy_green F i j - dlt i j) / 2).
  Proof.
    rewrite s81_q. destruct (q_TE p pt scale t Lt) as (t' & E & W). exists t'. split; [exact E|]. eapply adds_ext; [|exact W].
    intros i j Hi Hj. cbv beta. unfold pt. rewrite (s81_cg m nx U p LU) by assumption. reflexivity.
  Qed.
  Hypothesis HF : det3 F <> 0.
  Lemma s81_det : 0 < det3 (m3 (arr (ptC pt))).
  Proof.
    unfold pt. rewrite (det3_ext _ _ (s81_cg m nx U p LU)). unfold cauchy_green. rewrite det_mul, det_tr. fold F.
    destruct (Rtotal_order (det3 F) 0) as [L|[L|L]]; nra.
  Qed.
  Lemma s81_J : J_C (arr (ptC pt)) = Rabs (det3 F).
  Proof. exact (J_F _ _ (s81_cg m nx U p LU)). Qed.
  Lemma s81_PK2 : exists t' Ci, s81_query m nx U p PK2 scale t = Ok t' /\ meq (mmul Ci (cauchy_green F)) dlt /\
    adds t t' scale (fun i j => pk2 m F p i j + p * Rabs (det3 F) * Ci i j).
  Proof.
    rewrite s81_q. destruct (q_PK2 p pt scale t Lt) as (t' & E & W). exists t', (m3 (invC_C (arr (ptC pt)) (J_C (arr (ptC pt))))).
    split; [exact E|]. split.
    { intros i j Hi Hj. rewrite <- (inv_C' _ s81_det i j Hi Hj). unfold mmul. apply rsumn_ext. intros k Hk. f_equal. symmetry. apply (s81_cg m nx U p LU); assumption. }
    eapply adds_ext; [|exact W]. intros i j Hi Hj. cbv beta. rewrite <- s81_J. f_equal. apply (s81_S_F m nx U p LU); assumption.
  Qed.
  Lemma s81_COUCHY : 0 < det3 F -> exists t', s81_query m nx U p COUCHY scale t = Ok t' /\
    adds t t' scale (fun i j => cauchy F (pk2 m F p) i j + p * dlt i j).
  Proof.
    intros HP. rewrite s81_q. assert (HJ : J_C (arr (ptC pt)) = det3 F) by (rewrite s81_J; apply Rabs_pos_eq; lra).
    destruct (q_COUCHY p pt scale t Lt) as (t' & E & W); [rewrite HJ; lra|]. exists t'. split; [exact E|]. eapply adds_ext; [|exact W].
    intros i j Hi Hj. cbv beta.
    rewrite (rsumn_ext 3 _ (fun k => rsumn 3 (fun l => F i k * (pk2 m F p k l + p * J_C (arr (ptC pt)) * m3 (invC_C (arr (ptC pt)) (J_C (arr (ptC pt)))) k l) * F j l))).
    2: { intros k Hk. apply rsumn_ext. intros l Hl.
         assert (G : forall a b, (a < 3)%nat -> (b < 3)%nat -> defgrad (gradO (arr (ptO pt))) a b = F a b).
         { intros a b Ha Hb. unfold F, defgrad. f_equal. apply (s81_F m nx U p LU); assumption. }
         rewrite !G by assumption. f_equal. f_equal. f_equal. apply (s81_S_F m nx U p LU); assumption. }
    rewrite <- (F_Ci_F (arr (ptC pt)) F (s81_cg m nx U p LU) s81_det i j Hi Hj). revert HJ.
    generalize (m3 (invC_C (arr (ptC pt)) (J_C (arr (ptC pt))))) as Ci. generalize (J_C (arr (ptC pt))) as J. intros J Ci ->.
    unfold cauchy, mmul, mtr. generalize (pk2 m F p) as S. revert HP. generalize (det3 F) as d. intros d HP S.
    rewrite !rs3; try rewrite !rs3. field. lra.
  Qed.
End S81.

(* ---- PLANE41 *)
Section P41.
  Variables (m : hyper) (nx : nat -> nat -> R) (U : nat -> R) (p scale : R) (t : list R).
  Hypothesis Lt : length t = 6%nat.
  Let F := defgrad (grad2 nx U).
  Let C := p41_CVec (arr (p41_C (p41_O nx U))).
  Lemma p41_TC : exists t', p41_query m nx U p TC scale t = Ok t' /\ adds t t' scale (cauchy_green F).
  Proof.
    unfold p41_query. cbn [p41_tensor]. eexists. split; [reflexivity|]. apply adds_map; [exact Lt|]. intros i j Hi Hj.
    unfold F. rewrite <- p41_C_F by assumption. unfold m3. rewrite p41_C_eq. change (nth (comp6 i j) t 0) with (arr t (comp6 i j)). ring.
  Qed.
  Lemma p41_TE : exists t', p41_query m nx U p TE scale t = Ok t' /\ adds t t' scale (fun i j => (cauchy_green F i j - dlt i j) / 2).
  Proof.
    unfold p41_query. cbn [p41_tensor]. eexists. split; [reflexivity|]. apply adds_map; [exact Lt|]. intros i j Hi Hj.
    unfold F. rewrite <- p41_C_F, <- identity6 by assumption. unfold m3. rewrite p41_C_eq. change (nth (comp6 i j) t 0) with (arr t (comp6 i j)). field.
  Qed.
  Lemma p41_S_all : meq (m3 (arr (getS_UP m defaultTensorComponents C p))) (pk2 m F p).
  Proof.
    intros i j Hi Hj. change (stress m C p i j = pk2 m F p i j). rewrite stress_m3, (stress_F m C F p (p41_C_F nx U)) by apply comp6_lt.
    case3 Hi; case3 Hj; cbn [comp6 Nat.min Nat.max vec6]; try reflexivity; apply pk2_sym.
  Qed.
  Lemma p41_PK2 : exists t', p41_query m nx U p PK2 scale t = Ok t' /\ adds t t' scale (pk2 m F p).
  Proof.
    unfold p41_query. cbn [p41_tensor]. eexists. split; [reflexivity|]. apply adds_map; [exact Lt|]. intros i j Hi Hj.
    rewrite <- p41_S_all by assumption. unfold m3. rewrite p41_C_eq. fold C. change (nth (comp6 i j) t 0) with (arr t (comp6 i j)). ring.
  Qed.
  (* F^T S F instead of F S F^T, and without the factor scale *)
  Lemma p41_COUCHY : det3 F <> 0 -> exists t', p41_query m nx U p COUCHY scale t = Ok t' /\
    adds t t' 1 (cauchy (mtr F) (pk2 m F p)).
  Proof.
    intros HP. unfold p41_query. cbn [p41_tensor]. rewrite p41_C_eq. fold C.
    set (matF := [_; _; _; _; _; _; _; _; _]). cbv zeta.
    set (J := arr matF 0 * _ - _ + _).
    destruct (btdb3 matF (getS_UP m defaultTensorComponents C p) (1 / J) t eq_refl eq_refl Lt) as (t' & E & W).
    exists t'. split; [exact E|].
    assert (EF : forall k i, (k < 3)%nat -> (i < 3)%nat -> arr matF (k * 3 + i)%nat = F k i).
    { intros k i Hk Hi. unfold F, defgrad. rewrite <- gradP_F by assumption. unfold matF, gradP, dlt. rewrite !p41_O_nth by lia.
      case3 Hk; case3 Hi; cbv [arr nth Nat.mul Nat.add Nat.eqb Nat.ltb Nat.leb andb]; ring. }
    assert (EJ : J = det3 F).
    { unfold J, det3. rewrite <- !EF by lia. reflexivity. }
    rewrite <- (Rmult_1_r (1 / J)) in W. apply adds_scale in W. eapply adds_ext; [|exact W]. intros i j Hi Hj. cbv beta.
    rewrite (rsumn_ext 3 _ (fun k => rsumn 3 (fun l => F k i * pk2 m F p k l * F l j))).
    2: { intros k Hk. apply rsumn_ext. intros l Hl. rewrite !EF, p41_S_all by assumption. reflexivity. }
    rewrite EJ. unfold cauchy. rewrite det_tr. unfold mmul, mtr. rewrite !rs3; try rewrite !rs3. field. exact HP.
  Qed.
End P41.

(* GP_MEAN *)
Lemma mean_adds : forall P (get : P -> R -> list R -> outcome (list R)) (A : P -> mat3) pts scale t, length t = 6%nat ->
  (forall w q s t, In (w, q) pts -> length t = 6%nat -> exists t', get q s t = Ok t' /\ adds t t' s (A q)) ->
  exists t', mean_tensor get pts scale t = Ok t' /\
    adds t t' scale (fun i j => rsuml pts (fun wq => fst wq / rsuml pts fst * A (snd wq) i j)).
Proof.
  intros P get A pts scale t Lt H. unfold mean_tensor. cbv zeta. generalize (rsuml pts fst) as W. intros W.
  revert t Lt. induction pts as [|[w q] pts IH]; intros t Lt.
  - exists t. split; [reflexivity|]. split; [exact Lt|]. intros i j Hi Hj. rewrite rsuml_nil. ring.
  - cbn [ofold fst snd]. destruct (H w q (w / W * scale) t (or_introl eq_refl) Lt) as (t1 & E1 & L1 & W1). rewrite E1. cbn [obind].
    destruct (IH (fun w q s t I L => H w q s t (or_intror I) L) t1 L1) as (t' & E' & L' & W'). exists t'. split; [exact E'|]. split; [exact L'|].
    intros i j Hi Hj. rewrite W', W1, rsuml_cons by assumption. cbn [fst snd]. ring.
Qed.
