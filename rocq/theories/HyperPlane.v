(* PLANE41: what update stores; its stiffness is the derivative of its residual. *)
From Coq Require Import Reals Lra Lia.
Set Warnings "-ambiguous-paths".
From Coquelicot Require Import Coquelicot.
From Verif Require Import Base RealBase MatModel AsmModel SpecAsm AsmLists MatProofs ElemModel SpecElem ElemBase HyperModel SpecHyper HyperProofs HyperMore HyperElem HyperTangent.
Local Open Scope R_scope.

Lemma rs4 : forall f, rsumn 4 f = f 0%nat + f 1%nat + f 2%nat + f 3%nat.
Proof. intros. unfold rsumn, rsuml. cbn. ring. Qed.
Lemma four : forall k, (k < 4)%nat -> (k = 0 \/ k = 1 \/ k = 2 \/ k = 3)%nat.
Proof. intros; lia. Qed.
Ltac case4 H := apply four in H; destruct H as [-> | [-> | [-> | ->]]].
Definition cL4 (l r : nat) : R :=
  match l, r with 0%nat, 0%nat => 1 | 1%nat, 3%nat => 1 | 2%nat, 1%nat => 1 | 2%nat, 2%nat => 1 | _, _ => 0 end.
Definition cM4 (O : nat -> R) (l r : nat) : R := cL4 l r + p41_matO O l r.
Lemma matB_M : forall nx O l c, (l < 3)%nat -> p41_matB nx O l c = rsumn 4 (fun r => cM4 O l r * p41_Bomega nx r c).
Proof.
  intros nx O l c Hl. unfold p41_matB.
  assert (E : p41_B nx l c = rsumn 4 (fun r => cL4 l r * p41_Bomega nx r c)).
  { rewrite rs4. unfold p41_B, p41_Bomega. assert (M : (c mod 2 < 2)%nat) by (apply Nat.mod_upper_bound; lia).
    revert M. generalize (c mod 2)%nat. intros q M. assert (Q : (q = 0 \/ q = 1)%nat) by lia.
    case3 Hl; destruct Q as [-> | ->]; cbn [cL4]; ring. }
  rewrite E, <- rsumn_plus. apply rsumn_ext. intros r Hr. unfold cM4. ring.
Qed.
Lemma bom_sum : forall nx U k, (k < 4)%nat -> rsumn 8 (fun c => p41_Bomega nx k c * U c) = grad2 nx U (k / 2)%nat (k mod 2)%nat.
Proof.
  intros nx U k Hk. change 8%nat with (4 * 2)%nat. rewrite rsumn_grid. unfold grad2.
  assert (D : (k / 2 < 2)%nat) by (apply Nat.div_lt_upper_bound; lia). assert (M : (k mod 2 < 2)%nat) by (apply Nat.mod_upper_bound; lia).
  apply Nat.ltb_lt in D, M. rewrite D, M. cbn [andb]. apply rsumn_ext. intros n Hn.
  change (rsumn 2 (fun j => p41_Bomega nx k (n * 2 + j) * U (n * 2 + j)%nat)) with
    (p41_Bomega nx k (n * 2 + 0) * U (n * 2 + 0)%nat + (p41_Bomega nx k (n * 2 + 1) * U (n * 2 + 1)%nat + 0)).
  unfold p41_Bomega.
  rewrite !(Nat.add_comm (n * 2)), !Nat.mod_add, !Nat.div_add by lia.
  change (0 mod 2)%nat with 0%nat. change (1 mod 2)%nat with 1%nat. change (0 / 2)%nat with 0%nat. change (1 / 2)%nat with 0%nat.
  rewrite !Nat.add_0_l.
  case4 Hk; cbn [Nat.div Nat.divmod fst Nat.modulo snd Nat.sub]; cbv [Nat.div Nat.modulo Nat.divmod fst snd Nat.sub]; rewrite ?Nat.add_0_l, ?Nat.add_0_r; try (rewrite (Nat.add_comm (n * 2) 1)); ring.
Qed.
Definition p41_O (nx : nat -> nat -> R) (U : nat -> R) (k : nat) : R := rsumn 8 (fun c => p41_Bomega nx k c * U c).
Lemma p41_O_nth : forall m nx U p k, (k < 4)%nat -> arr (ptO (p41_update m nx U p)) k = p41_O nx U k.
Proof. intros m nx U p k Hk. unfold p41_update, arr. cbn [ptO]. rewrite nth_map_seq by exact Hk. reflexivity. Qed.
Lemma p41_C_eq : forall m nx U p, arr (ptC (p41_update m nx U p)) = arr (p41_C (p41_O nx U)).
Proof. reflexivity. Qed.
Lemma p41_S_nth : forall m nx U p k, (k < 3)%nat ->
  arr (ptS (p41_update m nx U p)) k = S_comp m (p41_CVec (arr (p41_C (p41_O nx U)))) p (nth k p41_components 0%nat).
Proof. intros m nx U p k Hk. case3 Hk; reflexivity. Qed.

(* the contribution of a point *)
Definition kuu4 (m : hyper) (p : R) (g : R * (nat -> nat -> R)) (O C S : nat -> R) (i j : nat) : R :=
  (rsumn 3 (fun l => rsumn 3 (fun k => p41_matB (snd g) O k i * D_comp m C p (nth k p41_components 0%nat) (nth l p41_components 0%nat)) * p41_matB (snd g) O l j) * 2
   + rsumn 4 (fun l => rsumn 4 (fun k => p41_Bomega (snd g) k i * p41_matS S k l) * p41_Bomega (snd g) l j)) * fst g.
Definition kup4 (g : R * (nat -> nat -> R)) (O C : nat -> R) (i : nat) : R :=
  rsumn 3 (fun k => p41_matB (snd g) O k i * Dp_comp C (nth k p41_components 0%nat)) * fst g.
Definition qe4 (g : R * (nat -> nat -> R)) (O S : nat -> R) (i : nat) : R :=
  rsumn 3 (fun k => p41_matB (snd g) O k i * S k) * fst g.
Lemma comp16_3 : forall k l, (k < 3)%nat -> (l < 3)%nat -> comp16 3 k l = sym_comp 3 k l.
Proof. intros k l Hk Hl. case3 Hk; case3 Hl; reflexivity. Qed.
Lemma p41_D : forall m C p k l, (k < 3)%nat -> (l < 3)%nat ->
  nth (comp16 3 k l) (fst (getDdDp_UP m p41_components C p)) 0 = D_comp m C p (nth k p41_components 0%nat) (nth l p41_components 0%nat).
Proof.
  intros m C p k l Hk Hl. rewrite comp16_3 by assumption. change 3%nat with (length p41_components).
  apply Dd_nth; [repeat constructor|exact Hk|exact Hl].
Qed.
Definition pC (pt : point) : nat -> R := p41_CVec (arr (ptC pt)).
Lemma p41_point_ok : forall m p a g pt,
  let a' := p41_point m p a (g, pt) in
    (forall i j, pKuu a' i j = pKuu a i j + kuu4 m p g (arr (ptO pt)) (pC pt) (arr (ptS pt)) i j) /\
    (forall i, pKup a' i = pKup a i + kup4 g (arr (ptO pt)) (pC pt) i) /\
    pKpp a' = pKpp a - 1 / hK m * fst g /\
    (forall i, pQe a' i = pQe a i + qe4 g (arr (ptO pt)) (arr (ptS pt)) i) /\
    pFp a' = pFp a + (J_C (pC pt) - 1 - p / hK m) * fst g.
Proof.
  intros m p a [w nx] pt. unfold p41_point. cbv zeta.
  destruct (getDdDp_UP m p41_components (p41_CVec (arr (ptC pt))) p) as [Dd Dp] eqn:ED.
  cbn [pKuu pKup pKpp pQe pFp fst snd].
  split; [|split; [|split; [reflexivity|split; [|reflexivity]]]].
  - intros i j. unfold kuu4. cbn [fst snd]. f_equal. f_equal. f_equal. f_equal. apply rsumn_ext. intros l Hl. f_equal.
    apply rsumn_ext. intros k Hk. f_equal.
    replace Dd with (fst (getDdDp_UP m p41_components (pC pt) p)) by (unfold pC; rewrite ED; reflexivity).
    apply p41_D; assumption.
  - intros i. unfold kup4. cbn [fst snd]. f_equal. f_equal. apply rsumn_ext. intros k Hk. f_equal.
    replace Dp with (snd (getDdDp_UP m p41_components (pC pt) p)) by (unfold pC; rewrite ED; reflexivity).
    apply (Dp_nth m p41_components (pC pt) p k). exact Hk.
  - intros i. reflexivity.
Qed.
Lemma p41_fold_ok : forall m p pts a,
  let a' := fold_left (p41_point m p) pts a in
    (forall i j, pKuu a' i j = pKuu a i j + rsuml pts (fun x => kuu4 m p (fst x) (arr (ptO (snd x))) (pC (snd x)) (arr (ptS (snd x))) i j)) /\
    (forall i, pKup a' i = pKup a i + rsuml pts (fun x => kup4 (fst x) (arr (ptO (snd x))) (pC (snd x)) i)) /\
    pKpp a' = pKpp a + rsuml pts (fun x => - 1 / hK m * fst (fst x)) /\
    (forall i, pQe a' i = pQe a i + rsuml pts (fun x => qe4 (fst x) (arr (ptO (snd x))) (arr (ptS (snd x))) i)) /\
    pFp a' = pFp a + rsuml pts (fun x => (J_C (pC (snd x)) - 1 - p / hK m) * fst (fst x)).
Proof.
  intros m p. induction pts as [|[g pt] pts IH]; intros a; cbv zeta.
  - cbn [fold_left]. split; [|split; [|split; [|split]]]; intros; rewrite rsuml_nil; ring.
  - cbn [fold_left].
    destruct (p41_point_ok m p a g pt) as (W1 & W2 & W3 & W4 & W5).
    destruct (IH (p41_point m p a (g, pt))) as (V1 & V2 & V3 & V4 & V5).
    split; [|split; [|split; [|split]]]; intros; rewrite rsuml_cons; cbn [fst snd].
    + rewrite V1, W1. ring.
    + rewrite V2, W2. ring.
    + rewrite V3, W3. unfold Rdiv. ring.
    + rewrite V4, W4. ring.
    + rewrite V5, W5. ring.
Qed.

Section Point4.
  Variable (m : hyper) (w : R) (nx : nat -> nat -> R) (U : R -> nat -> R) (dU : nat -> R) (p : R -> R) (dp t : R).
  Hypothesis Hm : known m.
  Hypothesis HU : forall c, (c < 8)%nat -> is_derive (fun s => U s c) t (dU c).
  Hypothesis Hp : is_derive p t dp.
  Let O s := p41_O nx (U s).
  Let dO := p41_O nx dU.
  Let C s := p41_CVec (arr (p41_C (O s))).
  Hypothesis Hd : 0 < det3 (m3 (C t)).
  Let S s k := S_comp m (C s) (p s) (nth k p41_components 0%nat).
  Let dE (l : nat) : R := rsumn 4 (fun r => cM4 (O t) l r * dO r).
  Let dC (k : nat) : R := match k with 0%nat => 2 * dE 0 | 1%nat => dE 2 | 3%nat => 2 * dE 1 | _ => 0 end.

  Lemma HO4 : forall k, is_derive (fun s => O s k) t (dO k).
  Proof. intros k. unfold O, dO, p41_O. apply (d_sumn 8 (fun c s => p41_Bomega nx k c * U s c)). intros c Hc. apply d_scal. apply HU. exact Hc. Qed.
  Lemma curve4 : curve C t dC.
  Proof.
    pose proof (HO4 0) as A0. pose proof (HO4 1) as A1. pose proof (HO4 2) as A2. pose proof (HO4 3) as A3.
    intros k Hk. unfold C, dC, dE. rewrite ?rs4. case6 Hk; unfold p41_CVec, arr, p41_C; cbn [nth];
      (eapply der_eq; [dv|]); unfold cM4; cbn [cL4 p41_matO]; ring.
  Qed.
  Lemma dE_B : forall l, (l < 3)%nat -> dE l = rsumn 8 (fun c => p41_matB nx (O t) l c * dU c).
  Proof.
    intros l Hl. unfold dE, dO, p41_O.
    rewrite (rsumn_ext 8 _ (fun c => rsumn 4 (fun r => cM4 (O t) l r * (p41_Bomega nx r c * dU c)))).
    2: { intros c Hc. rewrite matB_M, <- rsumn_mulr by exact Hl. apply rsumn_ext. intros; ring. }
    rewrite rsumn_swap. apply rsumn_ext. intros r Hr. rewrite rsumn_mul. reflexivity.
  Qed.
  Lemma S4 : forall l, (l < 3)%nat -> is_derive (fun s => S s l) t
    (rsumn 3 (fun k => 2 * D_comp m (C t) (p t) (nth l p41_components 0%nat) (nth k p41_components 0%nat) * dE k)
     + dp * Dp_comp (C t) (nth l p41_components 0%nat)).
  Proof.
    intros l Hl. rewrite det_m3 in Hd. assert (L : (nth l p41_components 0 < 6)%nat) by (case3 Hl; cbn; lia).
    eapply der_eq; [apply (der_S m (known_good m Hm) C p t dC dp curve4 Hp Hd _ L)|].
    f_equal. unfold con. rewrite rs6, rs3. unfold dC, wt. cbn [nth p41_components]. ring.
  Qed.
  Lemma B4 : forall l c, (l < 3)%nat -> is_derive (fun s => p41_matB nx (O s) l c) t (rsumn 4 (fun r => p41_matO dO l r * p41_Bomega nx r c)).
  Proof.
    pose proof (HO4 0) as A0. pose proof (HO4 1) as A1. pose proof (HO4 2) as A2. pose proof (HO4 3) as A3.
    intros l c Hl. unfold p41_matB.
    eapply der_eq; [apply (d_plus (fun _ => p41_B nx l c) (fun s => rsumn 4 (fun r => p41_matO (O s) l r * p41_Bomega nx r c)) t 0); [apply d_const|]|apply Rplus_0_l].
    apply (d_sumn 4 (fun r s => p41_matO (O s) l r * p41_Bomega nx r c)). intros r Hr. apply (d_scalr _ (fun s => p41_matO (O s) l r)).
    case3 Hl; case4 Hr; cbn [p41_matO]; first [assumption | apply d_const].
  Qed.
  Lemma geo4 : forall S0 r, (r < 4)%nat -> rsumn 3 (fun l => p41_matO dO l r * S0 l) = rsumn 4 (fun q => p41_matS S0 r q * dO q).
  Proof. intros S0 r Hr. rewrite rs3, rs4. case4 Hr; cbn [p41_matO p41_matS]; ring. Qed.
  Lemma q4 : forall c, is_derive (fun s => qe4 (w, nx) (O s) (S s) c) t
    (rsumn 8 (fun e => kuu4 m (p t) (w, nx) (O t) (C t) (S t) c e * dU e) + kup4 (w, nx) (O t) (C t) c * dp).
  Proof.
    intros c. unfold qe4, kuu4, kup4. cbn [fst snd].
    eapply der_eq.
    { apply d_scalr. apply (d_sumn 3 (fun k s => p41_matB nx (O s) k c * S s k)). intros k Hk.
      apply d_mult; [apply B4; exact Hk|apply S4; exact Hk]. }
    rewrite (rsumn_ext 8 _ (fun e => (rsumn 3 (fun l => rsumn 3 (fun k => p41_matB nx (O t) k c * D_comp m (C t) (p t) (nth k p41_components 0%nat) (nth l p41_components 0%nat)) * (p41_matB nx (O t) l e * dU e)) * 2
      + rsumn 4 (fun l => rsumn 4 (fun k => p41_Bomega nx k c * p41_matS (S t) k l) * (p41_Bomega nx l e * dU e))) * w)).
    2: { intros e He. transitivity ((rsumn 3 (fun l => rsumn 3 (fun k => p41_matB nx (O t) k c * D_comp m (C t) (p t) (nth k p41_components 0%nat) (nth l p41_components 0%nat)) * p41_matB nx (O t) l e) * dU e * 2
      + rsumn 4 (fun l => rsumn 4 (fun k => p41_Bomega nx k c * p41_matS (S t) k l) * p41_Bomega nx l e) * dU e) * w); [ring|].
      rewrite <- (rsumn_mulr 3), <- (rsumn_mulr 4). f_equal. f_equal; [f_equal|]; apply rsumn_ext; intros; ring. }
    rewrite (rsumn_mulr 8), (rsumn_plus 8), (rsumn_mulr 8), (rsumn_swap 8 3), (rsumn_swap 8 4).
    rewrite (rsumn_ext 3 (fun j => rsumn 8 _) (fun l => rsumn 3 (fun k => p41_matB nx (O t) k c * D_comp m (C t) (p t) (nth k p41_components 0%nat) (nth l p41_components 0%nat)) * dE l)).
    2: { intros l Hl. rewrite rsumn_mul, <- dE_B by exact Hl. reflexivity. }
    rewrite (rsumn_ext 4 (fun j => rsumn 8 _) (fun l => rsumn 4 (fun k => p41_Bomega nx k c * p41_matS (S t) k l) * dO l)).
    2: { intros l Hl. rewrite rsumn_mul. reflexivity. }
    rewrite (rsumn_ext 4 (fun l => rsumn 4 _ * dO l) (fun l => rsumn 4 (fun k => p41_Bomega nx k c * p41_matS (S t) k l * dO l))).
    2: { intros l Hl. rewrite rsumn_mulr. reflexivity. }
    rewrite (rsumn_swap 4 4).
    rewrite (rsumn_ext 4 (fun j => rsumn 4 _) (fun k => p41_Bomega nx k c * rsumn 3 (fun l => p41_matO dO l k * S t l))).
    2: { intros k Hk. rewrite geo4, <- rsumn_mul by exact Hk. apply rsumn_ext. intros; ring. }
    rewrite !rs3, !rs4, !rs3. ring.
  Qed.
  Lemma J4 : is_derive (fun s => J_C (C s)) t (rsumn 8 (fun e => rsumn 3 (fun k => p41_matB nx (O t) k e * Dp_comp (C t) (nth k p41_components 0%nat)) * dU e)).
  Proof.
    pose proof Hd as Hd'. rewrite det_m3 in Hd'.
    eapply der_eq; [apply (der_J C t dC curve4 Hd')|].
    rewrite (rsumn_ext 8 _ (fun e => rsumn 3 (fun k => Dp_comp (C t) (nth k p41_components 0%nat) * (p41_matB nx (O t) k e * dU e)))).
    2: { intros e He. rewrite <- rsumn_mulr. apply rsumn_ext. intros; ring. }
    rewrite rsumn_swap, rs3, !rsumn_mul, <- !dE_B by lia. cbn [nth p41_components]. unfold Dp_comp. cbv zeta. change (IC_C (C t) 2) with (J_C (C t)).
    unfold con. rewrite rs6. unfold dC, wt. field.
  Qed.
End Point4.

(* the displacement gradient in the vector O = [dU/dx; dU/dy; dV/dx; dV/dy] *)
Definition gradP (O : nat -> R) : mat3 := fun i j => if ((i <? 2) && (j <? 2))%nat then O (i * 2 + j)%nat else 0.
Lemma p41_C_ok : forall O, meq (m3 (p41_CVec (arr (p41_C O)))) (cauchy_green (defgrad (gradP O))).
Proof.
  intros O i j Hi Hj. unfold m3, cauchy_green, mmul, mtr, defgrad, gradP, dlt, arr, p41_C, p41_CVec. rewrite rs3.
  case3 Hi; case3 Hj; cbv [comp6 Nat.min Nat.max nth Nat.eqb Nat.mul Nat.add Nat.ltb Nat.leb andb]; ring.
Qed.
Lemma gradP_O : forall nx U i j, (i < 3)%nat -> (j < 3)%nat -> gradP (p41_O nx U) i j = grad2 nx U i j.
Proof.
  intros nx U i j Hi Hj. unfold gradP. destruct ((i <? 2) && (j <? 2))%nat eqn:E.
  - apply andb_prop in E. destruct E as [E1 E2]. apply Nat.ltb_lt in E1, E2. unfold p41_O. rewrite bom_sum by lia.
    rewrite Nat.div_add_l, (Nat.div_small j), Nat.add_0_r by lia. rewrite (Nat.add_comm (i * 2)), Nat.mod_add, (Nat.mod_small j) by lia. reflexivity.
  - unfold grad2. rewrite E. reflexivity.
Qed.
Lemma p41_C_F : forall nx U, meq (m3 (p41_CVec (arr (p41_C (p41_O nx U))))) (cauchy_green (defgrad (grad2 nx U))).
Proof.
  intros nx U i j Hi Hj. rewrite p41_C_ok by assumption. unfold cauchy_green, mmul, mtr, defgrad. apply rsumn_ext. intros k Hk.
  rewrite !gradP_O by assumption. reflexivity.
Qed.
Lemma p41_C_pos : forall nx U, det3 (defgrad (grad2 nx U)) <> 0 -> 0 < det3 (m3 (p41_CVec (arr (p41_C (p41_O nx U))))).
Proof.
  intros nx U H. rewrite (det3_ext _ _ (p41_C_F nx U)). unfold cauchy_green. rewrite det_mul, det_tr.
  destruct (Rtotal_order (det3 (defgrad (grad2 nx U))) 0) as [L|[L|L]]; nra.
Qed.
Section Eq4.
  Variables (m : hyper) (nx : nat -> nat -> R) (U : nat -> R) (p w : R).
  Let pt := p41_update m nx U p.
  Let O := p41_O nx U.
  Let C := p41_CVec (arr (p41_C O)).
  Let S k := S_comp m C p (nth k p41_components 0%nat).
  Lemma kuu4_eq : forall i j, kuu4 m p (w, nx) (arr (ptO pt)) (pC pt) (arr (ptS pt)) i j = kuu4 m p (w, nx) O C S i j.
  Proof. reflexivity. Qed.
  Lemma kup4_eq : forall i, kup4 (w, nx) (arr (ptO pt)) (pC pt) i = kup4 (w, nx) O C i.
  Proof. reflexivity. Qed.
  Lemma qe4_eq : forall i, qe4 (w, nx) (arr (ptO pt)) (arr (ptS pt)) i = qe4 (w, nx) O S i.
  Proof. reflexivity. Qed.
End Eq4.
Lemma p41_vals : forall m geo U p,
  let a := p41_sum m p (p41_update_all m geo U p) in
  let O g := p41_O (snd g) U in let C g := p41_CVec (arr (p41_C (O g))) in
  let S g k := S_comp m (C g) p (nth k p41_components 0%nat) in
    (forall i j, pKuu a i j = rsuml geo (fun g => kuu4 m p g (O g) (C g) (S g) i j)) /\
    (forall i, pKup a i = rsuml geo (fun g => kup4 g (O g) (C g) i)) /\
    pKpp a = rsuml geo (fun g => - 1 / hK m * fst g) /\
    (forall i, pQe a i = rsuml geo (fun g => qe4 g (O g) (S g) i)) /\
    pFp a = rsuml geo (fun g => (J_C (C g) - 1 - p / hK m) * fst g).
Proof.
  intros m geo U p. cbv zeta. unfold p41_sum, p41_update_all.
  destruct (p41_fold_ok m p (map (fun g => (g, p41_update m (snd g) U p)) geo) (mkMixed41 (fun _ _ => 0) (fun _ => 0) 0 (fun _ => 0) 0)) as (V1 & V2 & V3 & V4 & V5).
  split; [|split; [|split; [|split]]]; intros; rewrite ?V1, ?V2, ?V3, ?V4, ?V5, rsuml_map; cbn [pKuu pKup pKpp pQe pFp fst snd]; rewrite Rplus_0_l;
    apply rsuml_ext; intros [w nx] _; cbn [fst snd].
  - apply kuu4_eq.
  - apply kup4_eq.
  - reflexivity.
  - apply qe4_eq.
  - reflexivity.
Qed.

Lemma p41_tangent : forall m geo (U : R -> nat -> R) (p : R -> R) (dU : nat -> R) (dp t : R), known m -> hK m <> 0 ->
  (forall e, (e < 8)%nat -> is_derive (fun s => U s e) t (dU e)) -> is_derive p t dp ->
  (forall g, In g geo -> det3 (defgrad (grad2 (snd g) (U t))) <> 0) ->
  forall i, (i < 9)%nat -> is_derive (fun s => p41_Fe m (p s) (p41_update_all m geo (U s) (p s)) i) t
    (- rsumn 9 (fun j => p41_Ke m (p t) (p41_update_all m geo (U t) (p t)) i j * (if (j <? 8)%nat then dU j else dp))).
Proof.
  intros m geo U p dU dp t Hm HK HU Hp HF i Hi.
  assert (E9 : forall f, rsumn 9 f = rsumn 8 f + f 8%nat).
  { intros f. change 9%nat with (8 + 1)%nat. rewrite rsumn_app. f_equal. unfold rsumn, rsuml. cbn. ring. }
  rewrite E9. change (8 <? 8)%nat with false. cbv iota.
  rewrite (rsumn_ext 8 _ (fun j => p41_Ke m (p t) (p41_update_all m geo (U t) (p t)) i j * dU j)).
  2: { intros j Hj. apply Nat.ltb_lt in Hj. rewrite Hj. reflexivity. }
  destruct (p41_vals m geo (U t) (p t)) as (T1 & T2 & T3 & _ & _). cbv zeta in T1, T2, T3.
  unfold p41_Fe, p41_Ke. cbv zeta. destruct (i <? 8)%nat eqn:Ei.
  - change (8 <? 8)%nat with false. cbv iota.
    rewrite (rsumn_ext 8 _ (fun j => pKuu (p41_sum m (p t) (p41_update_all m geo (U t) (p t))) i j * dU j)).
    2: { intros j Hj. apply Nat.ltb_lt in Hj. rewrite Hj. reflexivity. }
    apply d_opp.
    apply (is_derive_ext (fun s => rsuml geo (fun g => qe4 g (p41_O (snd g) (U s)) (fun k => S_comp m (p41_CVec (arr (p41_C (p41_O (snd g) (U s))))) (p s) (nth k p41_components 0%nat)) i))).
    { intros s. destruct (p41_vals m geo (U s) (p s)) as (_ & _ & _ & W & _). symmetry. apply W. }
    eapply der_eq.
    { apply (d_suml _ geo _ (fun g => rsumn 8 (fun e => kuu4 m (p t) g (p41_O (snd g) (U t)) (p41_CVec (arr (p41_C (p41_O (snd g) (U t)))))
               (fun k => S_comp m (p41_CVec (arr (p41_C (p41_O (snd g) (U t))))) (p t) (nth k p41_components 0%nat)) i e * dU e)
             + kup4 g (p41_O (snd g) (U t)) (p41_CVec (arr (p41_C (p41_O (snd g) (U t))))) i * dp)).
      intros [w nx] Hg. cbn [snd]. apply q4; try assumption. apply p41_C_pos. exact (HF _ Hg). }
    rewrite rsuml_plus, T2, rsuml_mulr. f_equal.
    rewrite (rsumn_ext 8 _ (fun e => rsuml geo (fun g => kuu4 m (p t) g (p41_O (snd g) (U t)) (p41_CVec (arr (p41_C (p41_O (snd g) (U t)))))
               (fun k => S_comp m (p41_CVec (arr (p41_C (p41_O (snd g) (U t))))) (p t) (nth k p41_components 0%nat)) i e * dU e))).
    2: { intros e He. rewrite T1, <- rsuml_mulr. reflexivity. }
    unfold rsumn. rewrite rsuml_swap. reflexivity.
  - change (8 <? 8)%nat with false. cbv iota.
    rewrite (rsumn_ext 8 _ (fun j => pKup (p41_sum m (p t) (p41_update_all m geo (U t) (p t))) j * dU j)).
    2: { intros j Hj. apply Nat.ltb_lt in Hj. rewrite Hj. reflexivity. }
    apply d_opp.
    apply (is_derive_ext (fun s => rsuml geo (fun g => (J_C (p41_CVec (arr (p41_C (p41_O (snd g) (U s))))) - 1 - p s / hK m) * fst g))).
    { intros s. destruct (p41_vals m geo (U s) (p s)) as (_ & _ & _ & _ & W). symmetry. exact W. }
    eapply der_eq.
    { apply (d_suml _ geo (fun g s => (J_C (p41_CVec (arr (p41_C (p41_O (snd g) (U s))))) - 1 - p s / hK m) * fst g)
        (fun g => (rsumn 8 (fun e => rsumn 3 (fun k => p41_matB (snd g) (p41_O (snd g) (U t)) k e * Dp_comp (p41_CVec (arr (p41_C (p41_O (snd g) (U t))))) (nth k p41_components 0%nat)) * dU e) - dp / hK m) * fst g)).
      intros [w nx] Hg. cbn [fst snd].
      pose proof (J4 nx U dU t HU (p41_C_pos nx (U t) (HF _ Hg))) as Q.
      assert (Hp' : is_derive (fun s => p s) t dp) by exact Hp. eapply der_eq; [dv|]. unfold Rdiv. ring. }
    rewrite T3.
    rewrite (rsumn_ext 8 _ (fun e => rsuml geo (fun g => kup4 g (p41_O (snd g) (U t)) (p41_CVec (arr (p41_C (p41_O (snd g) (U t))))) e * dU e))).
    2: { intros e He. rewrite T2, <- rsuml_mulr. reflexivity. }
    unfold rsumn at 3. rewrite rsuml_swap. rewrite <- rsuml_mulr, <- rsuml_plus.
    apply rsuml_ext. intros [w nx] Hg. unfold kup4. cbn [fst snd].
    change (rsuml (seq 0 8)) with (rsumn 8).
    rewrite (rsumn_ext 8 (fun a => rsumn 3 _ * w * _) (fun e => rsumn 3 (fun k => p41_matB nx (p41_O nx (U t)) k e * Dp_comp (p41_CVec (arr (p41_C (p41_O nx (U t))))) (nth k p41_components 0%nat)) * dU e * w)).
    2: { intros e He. ring. }
    rewrite rsumn_mulr. unfold Rdiv. ring.
Qed.
