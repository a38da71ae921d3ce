(* C92-C95: thermal elements QUADTH and SurfaceLINETH *)
From Coq Require Import Reals Lra.
From Verif Require Import Base RealBase MatModel AsmModel SpecAsm IsoModel SpecIso IsoProofs ElemModel SpecElem ThermModel SpecTherm ThermProofs ThermMore.
Local Open Scope R_scope.

(* ---------------- C92 ---------------- *)
(* a linear temperature field gives in every corner the heat flow through the part of the boundary that belongs to it *)
Theorem C92_patch : forall ord k vf pos, good_quad ord pos -> exists Ke Fe, quadth_K ord k vf pos = Ok (Ke, Fe) /\
  forall c g i, (i < 4)%nat -> kmul 4 Ke (linear c g pos) i = quad_unit ord * (k * rsumn 2 (fun a => share pos i a * g a)).
Proof.
  intros ord k vf pos G. destruct (quadth_ok ord k vf pos) as (Ke & Fe & E & _). exists Ke, Fe. split; [exact E|]. intros c g. exact (quadth_patch _ _ _ _ _ _ c g E G).
Qed.
Print Assumptions C92_patch.
(* with positive conductivity, two or more points per side: semidefinite, and only constant fields dissipate nothing *)
Theorem C92_dissipation : forall ord k vf pos, good_quad ord pos -> 0 < k -> (2 <= ord)%nat -> exists Ke Fe, quadth_K ord k vf pos = Ok (Ke, Fe) /\
  forall T, 0 <= dot 4 (kmul 4 Ke T) T /\
    (dot 4 (kmul 4 Ke T) T = 0 <-> forall i, (i < 4)%nat -> nth i T 0 = nth 0 T 0).
Proof.
  intros ord k vf pos G Hk Ho. destruct (quadth_ok ord k vf pos) as (Ke & Fe & E & _). exists Ke, Fe. split; [exact E|]. intros T.
  destruct (quadth_kernel _ _ _ _ _ _ T E G Hk) as [P Z]. split; [exact P|]. split; [exact (Z Ho)|]. intros C.
  unfold dot. apply rsumn_zero. intros i Hi. replace (kmul 4 Ke T i) with 0; [ring|]. rewrite <- (quadth_const _ _ _ _ _ _ (nth 0 T 0) E G i Hi).
  unfold kmul. apply rsumn_ext. intros j Hj. rewrite (C j Hj). do 4 (destruct j as [|j]; [reflexivity|]). lia.
Qed.
Print Assumptions C92_dissipation.
(* the load is the source times the area; the capacity matrix stores rho c per area and degree, and is semidefinite *)
Theorem C92_totals : forall ord k vf rho c pos, exists Ke Fe, quadth_K ord k vf pos = Ok (Ke, Fe) /\ length Fe = 4%nat /\
  total 4 Fe = vf * (quad_unit ord * shoelace pos) /\
  (forall t, rsumn 4 (kmul 4 (quadth_C ord rho c pos) (repeat t 4)) = rho * c * t * (quad_unit ord * shoelace pos)) /\
  (forall T V, dot 4 (kmul 4 (quadth_C ord rho c pos) T) V = rho * c * quad_sum (i_int ord) (fun r s => quad_det pos r s * (field T r s * field V r s))) /\
  (good_quad ord pos -> 0 <= rho * c -> forall T, 0 <= dot 4 (kmul 4 (quadth_C ord rho c pos) T) T).
Proof.
  intros ord k vf rho c pos. destruct (quadth_ok ord k vf pos) as (Ke & Fe & E & _ & L & _). exists Ke, Fe. split; [exact E|]. split; [exact L|].
  split; [exact (quadth_total _ _ _ _ _ _ E)|]. split; [intros; apply quadth_C_total|]. split; [intros; apply quadth_C_work|]. intros; now apply quadth_C_nonneg.
Qed.
Print Assumptions C92_totals.
(* the unit square *)
Definition square (n i : nat) : R := match n, i with 1%nat, 0%nat => 1 | 2%nat, 0%nat => 1 | 2%nat, 1%nat => 1 | 3%nat, 1%nat => 1 | _, _ => 0 end.
Lemma square_good ord : good_quad ord square.
Proof.
  apply Forall_forall. intros ((r, s), w) _. unfold quad_det, jdet. cbn. unfold det2. cbn. unfold jac, rsumn, rsuml. cbn. decs. lra.
Qed.
Example C92_inhabited : good_quad 2 square /\ shoelace square = 1 /\ share square 0 0 = -1 / 2 /\ share square 2 1 = 1 / 2.
Proof. split; [apply square_good|]. split; [unfold shoelace; cbn; lra|]. split; unfold share; cbn; lra. Qed.

(* ---------------- C95 ---------------- *)
(* setIntegrationOrder(1): a field that is not constant passes no heat *)
Theorem C95_zigzag_refuted : ~ (forall ord k vf pos, good_quad ord pos -> 0 < k -> (1 <= ord <= 3)%nat -> forall Ke Fe, quadth_K ord k vf pos = Ok (Ke, Fe) ->
  forall T, dot 4 (kmul 4 Ke T) T = 0 -> forall i, (i < 4)%nat -> nth i T 0 = nth 0 T 0).
Proof.
  intros H. destruct (quadth_ok 1 1 0 square) as (Ke & Fe & E & _).
  assert (Z : dot 4 (kmul 4 Ke zigzag) zigzag = 0).
  { unfold dot. apply rsumn_zero. intros i Hi. rewrite (quadth_hourglass _ _ _ _ _ E i Hi). ring. }
  specialize (H 1%nat 1 0 square (square_good 1) ltac:(lra) ltac:(lia) Ke Fe E zigzag Z 1%nat ltac:(lia)). unfold zigzag in H. cbn in H. lra.
Qed.
Print Assumptions C95_zigzag_refuted.
(* it is so for every quadrangle *)
Theorem C95_every_shape_partial : forall k vf pos Ke Fe, quadth_K 1 k vf pos = Ok (Ke, Fe) -> forall i, (i < 4)%nat -> kmul 4 Ke zigzag i = 0.
Proof. exact quadth_hourglass. Qed.
Print Assumptions C95_every_shape_partial.

(* ---------------- C93 ---------------- *)
Theorem C93_matrix : forall ord flux htc e pos, apart pos ->
  let L := dist3 (pos 0%nat) (pos 1%nat) in
  exists Ke Fe : list R, lineth_K ord flux htc e pos = Ok (Ke, Fe) /\ length Ke = 3%nat /\ length Fe = 2%nat /\
  (forall i j, (i < 2)%nat -> (j < 2)%nat -> nth (sym_comp 2 i j) Ke 0 = htc * (L / 2) * line_sum (i_int ord) (fun r => line_N r i * line_N r j)) /\
  (forall i, (i < 2)%nat -> nth i Fe 0 = L / 2 * line_sum (i_int ord) (fun r => line_N r i * (flux + htc * (line_N r 0 * fst e + line_N r 1 * snd e)))).
Proof. exact lineth_ok. Qed.
Print Assumptions C93_matrix.
(* from order 2 on the integrals are those of the exact formula, up to the last decimal digit of the tables *)
Theorem C93_integrals : forall ord i j, (2 <= ord)%nat -> (i < 2)%nat -> (j < 2)%nat ->
  Rabs (line_sum (i_int ord) (fun r => line_N r i * line_N r j) - (if (i =? j)%nat then 2 / 3 else 1 / 3)) <= / 10 ^ 15.
Proof. exact line_exact. Qed.
Print Assumptions C93_integrals.
(* heat taken in by the body *)
Theorem C93_balance : forall ord flux htc e pos Ke Fe T, apart pos -> lineth_K ord flux htc e pos = Ok (Ke, Fe) ->
  total 2 Fe - rsumn 2 (kmul 2 Ke T) = dist3 (pos 0%nat) (pos 1%nat) * (flux + htc * ((fst e + snd e) / 2 - (nth 0 T 0 + nth 1 T 0) / 2)).
Proof. exact lineth_balance. Qed.
Print Assumptions C93_balance.
Theorem C93_rest : forall ord htc e pos Ke Fe, apart pos -> lineth_K ord 0 htc e pos = Ok (Ke, Fe) ->
  forall i, (i < 2)%nat -> kmul 2 Ke [fst e; snd e] i = nth i Fe 0.
Proof. exact lineth_rest. Qed.
Print Assumptions C93_rest.
(* coincident nodes with a load stop at an assertion *)
Theorem C93_coincident : forall ord flux htc e pos, (forall i, (i < 3)%nat -> pos 1%nat i = pos 0%nat i) -> flux <> 0 \/ htc <> 0 ->
  lineth_K ord flux htc e pos = UB.
Proof. exact lineth_zero. Qed.
Print Assumptions C93_coincident.
Example C93_inhabited : apart square /\ dist3 (square 0%nat) (square 1%nat) = 1.
Proof.
  split; [exists 0%nat; split; [lia|cbn; lra]|]. unfold dist3. cbn. match goal with |- sqrt ?x = 1 => replace x with 1 by ring end. apply sqrt_1.
Qed.

(* ---------------- C94 ---------------- *)
(* an environment temperature of zero at the second node is replaced by that of the first node *)
Theorem C94_zero_environment_refuted : ~ (forall e, line_pre e = e).
Proof. intros H. specialize (H (5, 0)). unfold line_pre in H. cbn in H. destruct (Req_EM_T 0 0) as [_|N]; [|lra]. injection H as H. lra. Qed.
Print Assumptions C94_zero_environment_refuted.
(* the heat balance with environment temperatures 5 and 0 is that of 5 and 5 *)
Theorem C94_wrong_heat_refuted : ~ (forall ord htc e pos Ke Fe, apart pos -> lineth_K ord 0 htc (line_pre e) pos = Ok (Ke, Fe) ->
  total 2 Fe = dist3 (pos 0%nat) (pos 1%nat) * (htc * ((fst e + snd e) / 2))).
Proof.
  intros H. destruct C93_inhabited as [A D]. destruct (lineth_ok 2 0 1 (line_pre (5, 0)) square A) as (Ke & Fe & E & _).
  pose proof (H 2%nat 1 (5, 0) square Ke Fe A E) as X. pose proof (lineth_balance _ _ _ _ _ _ _ [0; 0] A E) as Y.
  rewrite D in X, Y. rewrite (rsumn_zero 2) in Y by (intros i Hi; unfold kmul; apply rsumn_zero; intros [|[|j]] Hj; cbn; try lia; ring).
  unfold line_pre in X, Y. cbn [fst snd] in X, Y. destruct (Req_EM_T 0 0) as [_|N]; [|lra]. cbn [fst snd nth] in Y. lra.
Qed.
Print Assumptions C94_wrong_heat_refuted.
(* all other pairs are kept, and pre() may be called again *)
Theorem C94_kept_partial : forall e, (snd e <> 0 \/ snd e = fst e -> line_pre e = e) /\ line_pre (line_pre e) = line_pre e.
Proof. intros e. split; [apply line_pre_given|apply line_pre_idem]. Qed.
Print Assumptions C94_kept_partial.
