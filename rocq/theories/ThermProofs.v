(* Proofs about the thermal elements. *)
From Coq Require Import Reals Lra.
From Verif Require Import Base BaseProofs RealBase MatModel AsmModel SpecAsm MatProofs IsoModel SpecIso IsoProofs ElemModel SpecElem ElemBase ThermModel SpecTherm.
Local Open Scope R_scope.

Lemma nixj_B pos r s l i : (l < 2)%nat -> (i < 4)%nat -> nth (l * 4 + i) (quadth_B pos r s) 0 = quad_nixj pos r s i l.
Proof. intros Hl Hi. do 2 (destruct l as [|l]; [do 4 (destruct i as [|i]; [reflexivity|]); lia|]). lia. Qed.
Lemma D_entry k a b : (a < 2)%nat -> (b < 2)%nat -> nth (sym_comp 2 a b) (quadth_D k) 0 = k * dlt a b.
Proof. intros Ha Hb. change (quadth_D k) with [k; 0; k]. do 2 (destruct a as [|a]; [do 2 (destruct b as [|b]; [cbn; unfold dlt; cbn; ring|]); lia|]). lia. Qed.
Lemma ff_entry r s i : (i < 4)%nat -> nth i (quad_ff r s) 0 = quad_N r s i.
Proof. intros Hi. unfold quad_ff. apply nth_map_seq. exact Hi. Qed.
Lemma vaxpy_entry n a b c i : (i < n)%nat -> nth i (vaxpy n a b c) 0 = nth i a 0 + nth i b 0 * c.
Proof. intros Hi. unfold vaxpy. apply (nth_map_seq (fun i => nth i a 0 + nth i b 0 * c)). exact Hi. Qed.

Lemma quadth_fold k vf pos l : forall (Ke0 Fe0 : list R), length Ke0 = 10%nat -> length Fe0 = 4%nat ->
  exists Ke Fe : list R, ofold (fun KF q => let '(r, s, w) := q in
      let dWt := dec w * quad_det pos (dec r) (dec s) in
      Ke <- @matBTDBprod RNum 2 4 (quadth_B pos (dec r) (dec s)) (quadth_D k) dWt (fst KF) ;;
      Ok (Ke, if Req_EM_T vf 0 then snd KF else vaxpy 4 (snd KF) (quad_ff (dec r) (dec s)) (vf * dWt))) l (Ke0, Fe0) = Ok (Ke, Fe) /\
    length Ke = 10%nat /\ length Fe = 4%nat /\
    (forall i j, (i < 4)%nat -> (j < 4)%nat -> nth (sym_comp 4 i j) Ke 0 = nth (sym_comp 4 i j) Ke0 0 +
      rsuml l (fun q => let '(r, s, w) := q in dec w * (quad_det pos (dec r) (dec s) * (k * rsumn 2 (fun a => quad_nixj pos (dec r) (dec s) i a * quad_nixj pos (dec r) (dec s) j a))))) /\
    (forall i, (i < 4)%nat -> nth i Fe 0 = nth i Fe0 0 +
      rsuml l (fun q => let '(r, s, w) := q in dec w * (quad_det pos (dec r) (dec s) * (vf * quad_N (dec r) (dec s) i)))).
Proof.
  induction l as [|((r, s), w) l IH]; intros Ke0 Fe0 LK LF; cbn [ofold].
  - exists Ke0, Fe0. repeat split; auto; intros; rewrite rsuml_nil; ring.
  - destruct (matBTDB_ok RRng 2 4 (quadth_B pos (dec r) (dec s)) (quadth_D k) eq_refl eq_refl (dec w * quad_det pos (dec r) (dec s)) Ke0 LK) as (K1 & E1 & L1 & W1).
    cbn [fst snd]. change (matBTDBprod (K := RNum)) with (matBTDBprod (K := RRng)). rewrite E1. cbn [obind].
    set (F1 := if Req_EM_T vf 0 then Fe0 else vaxpy 4 Fe0 (quad_ff (dec r) (dec s)) (vf * (dec w * quad_det pos (dec r) (dec s)))).
    assert (LF1 : length F1 = 4%nat) by (unfold F1; destruct (Req_EM_T vf 0); auto).
    destruct (IH K1 F1 (eq_trans L1 LK) LF1) as (Ke & Fe & E & LE & LF' & WK & WF). exists Ke, Fe. split; [exact E|]. split; [exact LE|]. split; [exact LF'|]. split.
    + intros i j Hi Hj. rewrite (WK i j Hi Hj), rsuml_cons.
      pose proof (W1 i j Hi Hj) as Q.
      change (nth (sym_comp 4 i j) (K1 : list R) 0 = nth (sym_comp 4 i j) Ke0 0 + dec w * quad_det pos (dec r) (dec s) *
        rsumn 2 (fun a => rsumn 2 (fun b => nth (a * 4 + i) (quadth_B pos (dec r) (dec s)) 0 * nth (sym_comp 2 a b) (quadth_D k) 0 * nth (b * 4 + j) (quadth_B pos (dec r) (dec s)) 0))) in Q.
      rewrite Q. clear Q. rewrite Rplus_assoc. f_equal. f_equal.
      rewrite Rmult_assoc. do 2 f_equal. rewrite <- rsumn_mul. apply rsumn_ext. intros a Ha.
      transitivity (rsumn 2 (fun b => dlt a b * (quad_nixj pos (dec r) (dec s) i a * k * quad_nixj pos (dec r) (dec s) j b))).
      { apply rsumn_ext. intros b Hb. rewrite !nixj_B, D_entry by auto. ring. }
      rewrite rsumn_dlt by auto. ring.
    + intros i Hi. rewrite (WF i Hi), rsuml_cons, <- Rplus_assoc. f_equal. unfold F1. destruct (Req_EM_T vf 0) as [->|N]; [ring|].
      rewrite vaxpy_entry, ff_entry by auto. ring.
Qed.
Lemma nth_rep0 n i : nth i (repeat 0 n) 0 = 0.
Proof. apply nth_repeat. Qed.
Theorem quadth_ok ord k vf pos : exists Ke Fe : list R, quadth_K ord k vf pos = Ok (Ke, Fe) /\ length Ke = 10%nat /\ length Fe = 4%nat /\
  (forall i j, (i < 4)%nat -> (j < 4)%nat -> nth (sym_comp 4 i j) Ke 0 =
     quad_sum (i_int ord) (fun r s => quad_det pos r s * (k * rsumn 2 (fun a => quad_nixj pos r s i a * quad_nixj pos r s j a)))) /\
  (forall i, (i < 4)%nat -> nth i Fe 0 = quad_sum (i_int ord) (fun r s => quad_det pos r s * (vf * quad_N r s i))).
Proof.
  destruct (quadth_fold k vf pos (quad_quad (i_int ord)) (repeat 0 10) (repeat 0 4) eq_refl eq_refl) as (Ke & Fe & E & A & B & C & D).
  exists Ke, Fe. split; [exact E|]. split; auto. split; auto. split; intros.
  - rewrite C, nth_rep0 by auto. unfold quad_sum. ring.
  - rewrite D, nth_rep0 by auto. unfold quad_sum. ring.
Qed.
Lemma quad_sum_swap k n (f : nat -> R -> R -> R) : rsumn n (fun i => quad_sum k (f i)) = quad_sum k (fun r s => rsumn n (fun i => f i r s)).
Proof.
  unfold quad_sum, rsumn. rewrite rsuml_swap. apply rsuml_ext. intros ((r, s), w) _. now rewrite rsuml_mul.
Qed.
Lemma quad_sum_ext k f g : (forall r s, f r s = g r s) -> quad_sum k f = quad_sum k g.
Proof. intros H. apply rsuml_ext. intros ((r, s), w) _. now rewrite H. Qed.
Lemma quad_sum_mul k c f : quad_sum k (fun r s => c * f r s) = c * quad_sum k f.
Proof. unfold quad_sum. rewrite <- rsuml_mul. apply rsuml_ext. intros ((r, s), w) _. ring. Qed.
(* K T = sum of k det grad N . grad T *)
Lemma quadth_mul ord k vf pos Ke Fe T : quadth_K ord k vf pos = Ok (Ke, Fe) -> forall i, (i < 4)%nat ->
  kmul 4 Ke T i = quad_sum (i_int ord) (fun r s => quad_det pos r s * (k * rsumn 2 (fun a => quad_nixj pos r s i a * grad pos T r s a))).
Proof.
  intros E i Hi. destruct (quadth_ok ord k vf pos) as (Ke' & Fe' & E' & _ & _ & W & _). rewrite E in E'. injection E' as <- <-. unfold kmul.
  transitivity (rsumn 4 (fun j => quad_sum (i_int ord) (fun r s => nth j T 0 * (quad_det pos r s * (k * rsumn 2 (fun a => quad_nixj pos r s i a * quad_nixj pos r s j a)))))).
  { apply rsumn_ext. intros j Hj. rewrite W by auto. rewrite quad_sum_mul. ring. }
  rewrite quad_sum_swap. apply quad_sum_ext. intros r s. unfold grad. cbn [rsumn rsuml seq]. unfold rsumn, rsuml. cbn. ring.
Qed.
Lemma quadth_work ord k vf pos Ke Fe T V : quadth_K ord k vf pos = Ok (Ke, Fe) ->
  dot 4 (kmul 4 Ke T) V = k * quad_sum (i_int ord) (fun r s => quad_det pos r s * rsumn 2 (fun a => grad pos V r s a * grad pos T r s a)).
Proof.
  intros E. unfold dot.
  transitivity (rsumn 4 (fun i => quad_sum (i_int ord) (fun r s => nth i V 0 * (quad_det pos r s * (k * rsumn 2 (fun a => quad_nixj pos r s i a * grad pos T r s a)))))).
  { apply rsumn_ext. intros i Hi. rewrite (quadth_mul _ _ _ _ _ _ T E i Hi), quad_sum_mul. ring. }
  rewrite quad_sum_swap, <- quad_sum_mul. apply quad_sum_ext. intros r s. generalize (quad_det pos r s), (grad pos T r s). intros d G. unfold grad.
  unfold rsumn, rsuml. cbn. ring.
Qed.

(* ---- consequences for QUADTH ---- *)
Lemma w_pos k r s w : (k < 3)%nat -> In (r, s, w) (quad_quad k) -> 0 < dec w.
Proof.
  intros Hk H. assert (E : (0 < w)%Z).
  { do 3 (destruct k as [|k]; [cbn in H; repeat (destruct H as [H|H]; [injection H as <- <- <-; reflexivity|]); destruct H|]). lia. }
  unfold dec. apply Rdiv_lt_0_compat; apply IZR_lt; lia.
Qed.
Lemma quad_sum_nonneg ord pos f : good_quad ord pos -> (forall r s, 0 <= f r s) -> 0 <= quad_sum (i_int ord) (fun r s => quad_det pos r s * f r s).
Proof.
  intros G F. unfold quad_sum. unfold good_quad in G. rewrite Forall_forall in G.
  assert (W : forall r s w, In (r, s, w) (quad_quad (i_int ord)) -> 0 < dec w) by (intros r s w; apply w_pos, i_int_small).
  revert G W. generalize (quad_quad (i_int ord)). induction l as [|((r, s), w) l IH]; intros G W; [rewrite rsuml_nil; lra|]. rewrite rsuml_cons.
  apply Rplus_le_le_0_compat; [|apply IH; intros; [apply G|eapply W]; right; eauto].
  pose proof (W r s w (or_introl eq_refl)). assert (P : 0 < quad_det pos (dec r) (dec s)) by exact (G _ (or_introl eq_refl)). pose proof (F (dec r) (dec s)).
  apply Rmult_le_pos; [lra|]. apply Rmult_le_pos; lra.
Qed.
Lemma quad_sum_zero ord pos f : good_quad ord pos -> (forall r s, 0 <= f r s) -> quad_sum (i_int ord) (fun r s => quad_det pos r s * f r s) = 0 ->
  forall r s w, In (r, s, w) (quad_quad (i_int ord)) -> f (dec r) (dec s) = 0.
Proof.
  intros G F. unfold quad_sum. unfold good_quad in G. rewrite Forall_forall in G.
  assert (W : forall r s w, In (r, s, w) (quad_quad (i_int ord)) -> 0 < dec w) by (intros r s w; apply w_pos, i_int_small).
  revert G W. generalize (quad_quad (i_int ord)). induction l as [|((r, s), w) l IH]; intros G W; [easy|]. rewrite rsuml_cons. intros Z.
  pose proof (W r s w (or_introl eq_refl)) as Pw. assert (Pd : 0 < quad_det pos (dec r) (dec s)) by exact (G _ (or_introl eq_refl)). pose proof (F (dec r) (dec s)) as Pf.
  assert (A : 0 <= rsuml l (fun q => let '(r, s, w) := q in dec w * (quad_det pos (dec r) (dec s) * f (dec r) (dec s)))).
  { clear IH Z. assert (G' : forall q, In q l -> (let '(r, s, w) := q in 0 < quad_det pos (dec r) (dec s)) /\ (let '(r, s, w) := q in 0 < dec w)).
    { intros q Hq. split; [apply G; now right|]. destruct q as ((r', s'), w'). eapply W. right. exact Hq. }
    clear G W. induction l as [|((r', s'), w') l IH]; [rewrite rsuml_nil; lra|]. rewrite rsuml_cons. apply Rplus_le_le_0_compat.
    - assert (D1 : 0 < quad_det pos (dec r') (dec s')) by exact (proj1 (G' _ (or_introl eq_refl))). assert (D2 : 0 < dec w') by exact (proj2 (G' _ (or_introl eq_refl))). pose proof (F (dec r') (dec s')). apply Rmult_le_pos; [lra|]. apply Rmult_le_pos; lra.
    - apply IH. intros q Hq. apply G'. now right. }
  assert (B : 0 <= dec w * (quad_det pos (dec r) (dec s) * f (dec r) (dec s))) by (apply Rmult_le_pos; [lra|]; apply Rmult_le_pos; lra).
  intros r' s' w' [E|H].
  - injection E as <- <- <-. assert (C : dec w * (quad_det pos (dec r) (dec s) * f (dec r) (dec s)) = 0) by lra.
    apply Rmult_integral in C. destruct C as [C|C]; [lra|]. apply Rmult_integral in C. destruct C as [C|C]; lra.
  - eapply IH; eauto; [intros; apply G; now right|intros; eapply W; right; eauto|lra].
Qed.
Lemma sq2 a b : rsumn 2 (fun i => match i with 0%nat => a | _ => b end * match i with 0%nat => a | _ => b end) = a * a + b * b.
Proof. unfold rsumn, rsuml. cbn. ring. Qed.
Lemma grad2 pos T r s : rsumn 2 (fun a => grad pos T r s a * grad pos T r s a) = grad pos T r s 0%nat * grad pos T r s 0%nat + grad pos T r s 1%nat * grad pos T r s 1%nat.
Proof. unfold rsumn, rsuml. cbn. ring. Qed.
(* a field without gradient in the integration points of the second and third order is constant *)
Lemma grad_chain pos T r s : quad_det pos r s <> 0 -> (forall a, (a < 2)%nat -> grad pos T r s a = 0) ->
  forall i, (i < 2)%nat -> rsumn 4 (fun n => quad_dN r s n i * nth n T 0) = 0.
Proof.
  intros D G i Hi.
  transitivity (rsumn 4 (fun n => rsumn 2 (fun j => jac 4 (quad_dN r s) pos i j * (quad_nixj pos r s n j * nth n T 0)))).
  { apply rsumn_ext. intros n Hn. rewrite <- (chain_rule 4 2 (quad_dN r s) pos ltac:(lia) D n i Hi), <- rsumn_mulr. apply rsumn_ext. intros j Hj. unfold quad_nixj. ring. }
  rewrite rsumn_swap. apply rsumn_zero. intros j Hj. rewrite rsumn_mul. fold (grad pos T r s j). rewrite G by auto. ring.
Qed.
Lemma two_points a T : a <> 0 -> (forall r s, (r = a \/ r = - a) -> (s = a \/ s = - a) -> forall i, (i < 2)%nat -> rsumn 4 (fun n => quad_dN r s n i * nth n T 0) = 0) ->
  nth 1 T 0 = nth 0 T 0 /\ nth 2 T 0 = nth 0 T 0 /\ nth 3 T 0 = nth 0 T 0.
Proof.
  intros A H.
  pose proof (H a a (or_introl eq_refl) (or_introl eq_refl) 0%nat ltac:(lia)) as H1.
  pose proof (H a (-a) (or_introl eq_refl) (or_intror eq_refl) 0%nat ltac:(lia)) as H2.
  pose proof (H a a (or_introl eq_refl) (or_introl eq_refl) 1%nat ltac:(lia)) as H3.
  pose proof (H (-a) a (or_intror eq_refl) (or_introl eq_refl) 1%nat ltac:(lia)) as H4.
  unfold rsumn, rsuml in *. cbn [sumof seq quad_dN map fold_right] in *. cbn in H1, H2, H3, H4.
  generalize dependent (nth 0 T 0). generalize dependent (nth 1 T 0). generalize dependent (nth 2 T 0). generalize dependent (nth 3 T 0).
  intros t3 t2 t1 t0 H1 H2 H3 H4.
  assert (E1 : (t1 - t0) + (t2 - t3) = 0) by lra.
  assert (E2 : a * ((t2 - t3) - (t1 - t0)) = 0) by lra.
  assert (E3 : (t3 - t0) + (t2 - t1) = 0) by lra.
  assert (E4 : a * ((t2 - t1) - (t3 - t0)) = 0) by lra.
  apply Rmult_integral in E2, E4. destruct E2 as [E2|E2]; [lra|]. destruct E4 as [E4|E4]; [lra|]. lra.
Qed.
Theorem quadth_kernel ord k vf pos Ke Fe T : quadth_K ord k vf pos = Ok (Ke, Fe) -> good_quad ord pos -> 0 < k ->
  0 <= dot 4 (kmul 4 Ke T) T /\
  ((2 <= ord)%nat -> dot 4 (kmul 4 Ke T) T = 0 -> forall i, (i < 4)%nat -> nth i T 0 = nth 0 T 0).
Proof.
  intros E G Hk. rewrite (quadth_work _ _ _ _ _ _ T T E).
  assert (P : forall r s, 0 <= rsumn 2 (fun a => grad pos T r s a * grad pos T r s a)).
  { intros r s. rewrite grad2. pose proof (Rle_0_sqr (grad pos T r s 0%nat)). pose proof (Rle_0_sqr (grad pos T r s 1%nat)). unfold Rsqr in *. lra. }
  split. { apply Rmult_le_pos; [lra|]. now apply quad_sum_nonneg. }
  intros Ho Z. apply Rmult_integral in Z. destruct Z as [Z|Z]; [lra|].
  pose proof (quad_sum_zero ord pos _ G P Z) as Q. clear Z.
  assert (GZ : forall r s w, In (r, s, w) (quad_quad (i_int ord)) -> forall i, (i < 2)%nat -> rsumn 4 (fun n => quad_dN (dec r) (dec s) n i * nth n T 0) = 0).
  { intros r s w Hq. apply (grad_chain pos).
    - unfold good_quad in G. rewrite Forall_forall in G. assert (Pd : 0 < quad_det pos (dec r) (dec s)) by exact (G _ Hq). lra.
    - specialize (Q r s w Hq). cbv beta in Q. rewrite grad2 in Q.
      pose proof (Rle_0_sqr (grad pos T (dec r) (dec s) 0%nat)) as S0. pose proof (Rle_0_sqr (grad pos T (dec r) (dec s) 1%nat)) as S1. unfold Rsqr in *.
      assert (Z : grad pos T (dec r) (dec s) 0%nat * grad pos T (dec r) (dec s) 0%nat = 0) by lra.
      assert (Z' : grad pos T (dec r) (dec s) 1%nat * grad pos T (dec r) (dec s) 1%nat = 0) by lra.
      apply Rmult_integral in Z, Z'. intros a Ha. do 2 (destruct a as [|a]; [tauto|]). lia. }
  assert (NG : forall z, dec (- z) = - dec z) by (intros z; unfold dec; rewrite opp_IZR; field).
  assert (T3 : exists z w1 w2 w3 w4, (z <> 0)%Z /\ In (z, z, w1) (quad_quad (i_int ord)) /\ In (z, - z, w2)%Z (quad_quad (i_int ord)) /\ In (- z, z, w3)%Z (quad_quad (i_int ord)) /\ In (- z, - z, w4)%Z (quad_quad (i_int ord))).
  { destruct (i_int_cases ord) as [(H & I) | [(H & I) | (H & I)]]; [lia| |]; rewrite I.
    - exists 5773502691896258%Z. do 4 exists 10000000000000000%Z. split; [lia|]. cbn [quad_quad Z.opp]. repeat split; repeat (first [left; reflexivity | right]).
    - exists 7745966692414834%Z. do 4 exists 3086419753086420%Z. split; [lia|]. cbn [quad_quad Z.opp]. repeat split; repeat (first [left; reflexivity | right]). }
  destruct T3 as (z & w1 & w2 & w3 & w4 & NZ & I1 & I2 & I3 & I4).
  assert (DZ : dec z <> 0). { unfold dec. intros X. apply NZ. apply eq_IZR. apply Rmult_integral in X. destruct X as [X|X]; auto. exfalso. revert X. apply Rinv_neq_0_compat. apply not_0_IZR. lia. }
  destruct (two_points (dec z) T DZ) as (A & B & C).
  { intros r s Hr Hs i Hi. pose proof (GZ _ _ _ I1 i Hi) as J1. pose proof (GZ _ _ _ I2 i Hi) as J2. pose proof (GZ _ _ _ I3 i Hi) as J3. pose proof (GZ _ _ _ I4 i Hi) as J4.
    rewrite !NG in *. destruct Hr as [->| ->], Hs as [->| ->]; auto. }
  intros i Hi. do 4 (destruct i as [|i]; [auto|]). lia.
Qed.
