From Coq Require Import Reals Lra Psatz.
Set Warnings "-ambiguous-paths".
From Coquelicot Require Import Coquelicot.
From Verif Require Import Base RealBase MatModel MatElem IsoModel SpecIso.
Local Open Scope R_scope.

(* ---- shape functions *)
Lemma line_pou : forall r, rsumn 2 (line_N r) = 1.
Proof. intros; cbn; lra. Qed.
Lemma quad_pou : forall r s, rsumn 4 (quad_N r s) = 1.
Proof. intros; cbn; lra. Qed.
Lemma hex_pou : forall r s t, rsumn 8 (hex_N r s t) = 1.
Proof. intros; cbn; lra. Qed.

Lemma line_kron : forall m n, (m < 2)%nat -> (n < 2)%nat -> line_N (line_node m) n = dlt m n.
Proof.
  intros m n Hm Hn.
  do 2 (destruct m as [|m]; [do 2 (destruct n as [|n]; [cbn; lra|]); lia|]); lia.
Qed.
Lemma quad_kron : forall m n, (m < 4)%nat -> (n < 4)%nat ->
  quad_N (fst (quad_node m)) (snd (quad_node m)) n = dlt m n.
Proof.
  intros m n Hm Hn.
  do 4 (destruct m as [|m]; [do 4 (destruct n as [|n]; [cbn; lra|]); lia|]); lia.
Qed.
Lemma hex_kron : forall m n, (m < 8)%nat -> (n < 8)%nat ->
  hex_N (fst (fst (hex_node m))) (snd (fst (hex_node m))) (snd (hex_node m)) n = dlt m n.
Proof.
  intros m n Hm Hn.
  do 8 (destruct m as [|m]; [do 8 (destruct n as [|n]; [cbn; lra|]); lia|]); lia.
Qed.

Ltac deriv := auto_derive; [exact I | idtac].
Lemma line_der : forall r n, (n < 2)%nat -> is_derive (fun x => line_N x n) r (line_dN r n).
Proof. intros r n Hn. do 2 (destruct n as [|n]; [cbn; deriv; lra|]). lia. Qed.
Lemma quad_der : forall r s n, (n < 4)%nat ->
  is_derive (fun x => quad_N x s n) r (quad_dN r s n 0) /\ is_derive (fun y => quad_N r y n) s (quad_dN r s n 1).
Proof. intros r s n Hn. do 4 (destruct n as [|n]; [cbn; split; (deriv; lra)|]). lia. Qed.
Lemma hex_der : forall r s t n, (n < 8)%nat ->
  is_derive (fun x => hex_N x s t n) r (hex_dN r s t n 0)
  /\ is_derive (fun y => hex_N r y t n) s (hex_dN r s t n 1)
  /\ is_derive (fun z => hex_N r s z n) t (hex_dN r s t n 2).
Proof. intros r s t n Hn. do 8 (destruct n as [|n]; [unfold hex_N, hex_dN; split; [|split]; (deriv; lra)|]). lia. Qed.

(* ---- gradients of linear fields *)
Section Grad.
  Variables (nn dim : nat) (dN pos : nat -> nat -> R).
  Hypothesis Hdim : (1 <= dim <= 3)%nat.
  Hypothesis Hsum : forall i, (i < dim)%nat -> rsumn nn (fun nod => dN nod i) = 0.
  Hypothesis Hdet : jdet nn dim dN pos <> 0.

  Lemma jinv_jac : forall i j, (i < dim)%nat -> (j < dim)%nat ->
    rsumn dim (fun k => jinv nn dim dN pos i k * jac nn dN pos k j) = dlt i j.
  Proof. intros i j Hi Hj. exact (proj2 (minv_small RFld dim (jac nn dN pos) Hdim Hdet i j Hi Hj)). Qed.

  (* a linear field u(x) = c + Σ g_m x_m *)
  Lemma grad_exact : forall (c : R) (g : nat -> R) i, (i < dim)%nat ->
    rsumn nn (fun nod => nixj nn dim dN pos nod i * (c + rsumn dim (fun m => g m * pos nod m))) = g i.
  Proof.
    intros c g i Hi.
    transitivity (rsumn dim (fun j => jinv nn dim dN pos i j *
                    (c * rsumn nn (fun nod => dN nod j) + rsumn dim (fun m => jac nn dN pos j m * g m)))).
    - unfold nixj.
      transitivity (rsumn nn (fun nod => rsumn dim (fun j => jinv nn dim dN pos i j * dN nod j * (c + rsumn dim (fun m => g m * pos nod m))))).
      { apply rsumn_ext; intros. rewrite <- rsumn_mulr. reflexivity. }
      rewrite rsumn_swap. apply rsumn_ext. intros j Hj.
      rewrite <- (rsumn_mul nn c). 
      transitivity (jinv nn dim dN pos i j * rsumn nn (fun nod => c * dN nod j + rsumn dim (fun m => dN nod j * pos nod m * g m))).
      { rewrite <- rsumn_mul. apply rsumn_ext; intros k Hk.
        replace (rsumn dim (fun m => dN k j * pos k m * g m)) with (dN k j * rsumn dim (fun m => g m * pos k m)).
        { ring. } rewrite <- rsumn_mul. apply rsumn_ext; intros; ring. }
      f_equal. rewrite rsumn_plus. f_equal. rewrite rsumn_swap. apply rsumn_ext; intros m Hm.
      unfold jac. rewrite <- rsumn_mulr. reflexivity.
    - transitivity (rsumn dim (fun j => rsumn dim (fun m => jinv nn dim dN pos i j * jac nn dN pos j m * g m))).
      { apply rsumn_ext; intros j Hj. rewrite Hsum by assumption.
        replace (c * 0 + rsumn dim (fun m => jac nn dN pos j m * g m)) with (rsumn dim (fun m => jac nn dN pos j m * g m)) by ring.
        rewrite <- rsumn_mul. apply rsumn_ext; intros; ring. }
      rewrite rsumn_swap. transitivity (rsumn dim (fun m => dlt i m * g m)).
      { apply rsumn_ext; intros m Hm. rewrite rsumn_mulr. rewrite jinv_jac by assumption. reflexivity. }
      apply rsumn_dlt. exact Hi.
  Qed.
End Grad.

Lemma quad_dN_sum : forall r s i, (i < 2)%nat -> rsumn 4 (fun nod => quad_dN r s nod i) = 0.
Proof. intros r s i Hi. do 2 (destruct i as [|i]; [cbn; lra|]). lia. Qed.
Lemma hex_dN_sum : forall r s t i, (i < 3)%nat -> rsumn 8 (fun nod => hex_dN r s t nod i) = 0.
Proof. intros r s t i Hi. do 3 (destruct i as [|i]; [cbn; lra|]). lia. Qed.

Lemma quad_grad : forall pos r s, quad_det pos r s <> 0 ->
  forall c g i, (i < 2)%nat ->
  rsumn 4 (fun nod => quad_nixj pos r s nod i * (c + rsumn 2 (fun m => g m * pos nod m))) = g i.
Proof.
  intros pos r s H c g i Hi. apply (grad_exact 4 2 (quad_dN r s) pos); [lia| |exact H|exact Hi].
  intros; apply quad_dN_sum; assumption.
Qed.
Lemma hex_grad : forall pos r s t, hex_det pos r s t <> 0 ->
  forall c g i, (i < 3)%nat ->
  rsumn 8 (fun nod => hex_nixj pos r s t nod i * (c + rsumn 3 (fun m => g m * pos nod m))) = g i.
Proof.
  intros pos r s t H c g i Hi. apply (grad_exact 8 3 (hex_dN r s t) pos); [lia| |exact H|exact Hi].
  intros; apply hex_dN_sum; assumption.
Qed.

(* the global derivatives satisfy the chain rule: dN/dr_i = Σ_j J_ij dN/dx_j *)
Lemma chain_rule : forall nn dim dN pos, (1 <= dim <= 3)%nat -> jdet nn dim dN pos <> 0 ->
  forall nod i, (i < dim)%nat ->
  rsumn dim (fun j => jac nn dN pos i j * nixj nn dim dN pos nod j) = dN nod i.
Proof.
  intros nn dim dN pos Hd Hdet nod i Hi. unfold nixj.
  transitivity (rsumn dim (fun j => rsumn dim (fun k => jac nn dN pos i j * jinv nn dim dN pos j k * dN nod k))).
  { apply rsumn_ext; intros j Hj. rewrite <- rsumn_mul. apply rsumn_ext; intros; ring. }
  rewrite rsumn_swap. transitivity (rsumn dim (fun k => dlt i k * dN nod k)).
  { apply rsumn_ext; intros k Hk. rewrite rsumn_mulr.
    f_equal. exact (proj1 (minv_small RFld dim (jac nn dN pos) Hd Hdet i k Hi Hk)). }
  apply rsumn_dlt. exact Hi.
Qed.

(* ---- volumes *)
Lemma i_int_small : forall ord, (i_int ord < 3)%nat.
Proof. intros. unfold i_int. destruct (ord <? 1) eqn:A; destruct (3 <? _)%nat eqn:B; cbn; try lia. apply Nat.ltb_ge in A, B. lia. Qed.
Lemma i_int_1 : forall ord, (ord <= 1)%nat -> i_int ord = 0%nat.
Proof. intros [|[|ord]] H; [reflexivity|reflexivity|lia]. Qed.
Lemma i_int_3 : forall ord, (3 <= ord)%nat -> i_int ord = 2%nat.
Proof. intros [|[|[|[|ord]]]] H; try lia; reflexivity. Qed.
Lemma i_int_cases : forall ord, ((ord <= 1)%nat /\ i_int ord = 0%nat) \/ (ord = 2%nat /\ i_int ord = 1%nat) \/ ((3 <= ord)%nat /\ i_int ord = 2%nat).
Proof.
  intros [|[|[|ord]]]; [left|left|right; left|right; right]; (split; [lia|]); try reflexivity.
  apply i_int_3; lia.
Qed.

Lemma rlt_true : forall x y, x < y -> (if Rlt_dec x y then true else false) = true.
Proof. intros. destruct (Rlt_dec x y); [reflexivity|contradiction]. Qed.
Lemma rlt_false : forall x y, ~ x < y -> (if Rlt_dec x y then true else false) = false.
Proof. intros. destruct (Rlt_dec x y); [contradiction|reflexivity]. Qed.

Lemma vlen_pos : forall v, (exists i, (i < 3)%nat /\ v i <> 0) -> 0 < vlen 3 v.
Proof.
  intros v (i & Hi & Hv). apply sqrt_lt_R0. cbn.
  assert (0 < v i * v i) by nra.
  destruct i as [|[|[|i]]]; try lia; nra.
Qed.
Lemma vlen_zero : forall v, (forall i, (i < 3)%nat -> v i = 0) -> vlen 3 v = 0.
Proof.
  intros v H. unfold vlen. rewrite rsumn_zero; [apply sqrt_0|]. intros k Hk. rewrite H by exact Hk. ring.
Qed.

Lemma line_vol : forall ord pos, (exists i, (i < 3)%nat /\ pos 1%nat i <> pos 0%nat i) ->
  line_volume ord pos = Ok (vlen 3 (fun i => pos 1%nat i - pos 0%nat i)).
Proof.
  intros ord pos (i & Hi & Hne).
  assert (0 < line_det pos) as Hd.
  { unfold line_det. assert (0 < vlen 3 (fun i => pos 1%nat i - pos 0%nat i)); [|lra].
    apply vlen_pos. exists i. split; [exact Hi|]. lra. }
  unfold line_volume, line_weight. rewrite (rlt_true _ _ Hd).
  assert (vlen 3 (fun i => pos 1%nat i - pos 0%nat i) = 2 * line_det pos) as -> by (unfold line_det; lra).
  generalize (line_det pos). intros d.
  destruct (i_int_cases ord) as [(_ & E) | [(_ & E) | (_ & E)]]; rewrite E; cbn; cbv [asserting obind Nat.ltb Nat.leb]; f_equal; unfold dec; lra.
Qed.
Lemma vlen_dist : forall p q, vlen 3 (fun i => q i - p i) = dist3 p q.
Proof. intros. unfold vlen, dist3. f_equal. rewrite !rsumn_S. unfold rsumn. cbn [seq]. rewrite rsuml_nil. ring. Qed.
Lemma line_vol' : forall ord pos, (exists i, (i < 3)%nat /\ pos 1%nat i <> pos 0%nat i) ->
  line_volume ord pos = Ok (dist3 (pos 0%nat) (pos 1%nat)).
Proof. intros. rewrite <- vlen_dist. apply line_vol. assumption. Qed.
Lemma line_vol_zero : forall ord pos, (forall i, (i < 3)%nat -> pos 1%nat i = pos 0%nat i) -> line_volume ord pos = UB.
Proof.
  intros ord pos H.
  assert (line_det pos = 0) as Hd.
  { unfold line_det. rewrite vlen_zero; [ring|]. intros i Hi. rewrite H by exact Hi. ring. }
  unfold line_volume, line_weight. rewrite Hd, rlt_false by lra.
  destruct (i_int_cases ord) as [(_ & E) | [(_ & E) | (_ & E)]]; rewrite E; reflexivity.
Qed.

Lemma quad_det_eq : forall pos r s,
  quad_det pos r s = (shoelace pos
    + r * ((pos 1%nat 0%nat - pos 0%nat 0%nat) * (pos 2%nat 1%nat - pos 3%nat 1%nat) - (pos 2%nat 0%nat - pos 3%nat 0%nat) * (pos 1%nat 1%nat - pos 0%nat 1%nat)) / 2
    + s * ((pos 2%nat 1%nat - pos 1%nat 1%nat) * (pos 0%nat 0%nat - pos 3%nat 0%nat) - (pos 2%nat 0%nat - pos 1%nat 0%nat) * (pos 0%nat 1%nat - pos 3%nat 1%nat)) / 2) / 4.
Proof. intros. unfold quad_det, jdet, shoelace. cbn. unfold det2, jac. cbn. decs. field. Qed.

Lemma quad_vol : forall ord pos, quad_volume ord pos = quad_unit ord * shoelace pos.
Proof.
  intros ord pos. unfold quad_volume, quad_unit.
  transitivity (rsuml (quad_quad (i_int ord)) (fun q => let '(r, s, w) := q in dec w * (
   (shoelace pos
    + dec r * ((pos 1%nat 0%nat - pos 0%nat 0%nat) * (pos 2%nat 1%nat - pos 3%nat 1%nat) - (pos 2%nat 0%nat - pos 3%nat 0%nat) * (pos 1%nat 1%nat - pos 0%nat 1%nat)) / 2
    + dec s * ((pos 2%nat 1%nat - pos 1%nat 1%nat) * (pos 0%nat 0%nat - pos 3%nat 0%nat) - (pos 2%nat 0%nat - pos 1%nat 0%nat) * (pos 0%nat 1%nat - pos 3%nat 1%nat)) / 2) / 4))).
  { apply rsuml_ext. intros ((r, s), w) _. rewrite quad_det_eq. reflexivity. }
  generalize (shoelace pos). intros A.
  generalize ((pos 1%nat 0%nat - pos 0%nat 0%nat) * (pos 2%nat 1%nat - pos 3%nat 1%nat) - (pos 2%nat 0%nat - pos 3%nat 0%nat) * (pos 1%nat 1%nat - pos 0%nat 1%nat)). intros B.
  generalize ((pos 2%nat 1%nat - pos 1%nat 1%nat) * (pos 0%nat 0%nat - pos 3%nat 0%nat) - (pos 2%nat 0%nat - pos 1%nat 0%nat) * (pos 0%nat 1%nat - pos 3%nat 1%nat)). intros C.
  destruct (i_int_cases ord) as [(H & E) | [(H & E) | (H & E)]]; rewrite E.
  - replace (ord <=? 2)%nat with true by (symmetry; apply Nat.leb_le; lia). cbn. unfold dec. field.
  - subst. cbn. unfold dec. field.
  - replace (ord <=? 2)%nat with false by (symmetry; apply Nat.leb_gt; lia). cbn. unfold dec. field.
Qed.

Lemma hex_box_det : forall p a b c r s t, hex_det (box p a b c) r s t = triple a b c / 8.
Proof.
  intros. unfold hex_det, jdet.
  assert (forall i, (i < 3)%nat ->
    jac 8 (hex_dN r s t) (box p a b c) 0 i = a i / 2 /\ jac 8 (hex_dN r s t) (box p a b c) 1 i = b i / 2 /\
    jac 8 (hex_dN r s t) (box p a b c) 2 i = c i / 2) as H.
  { intros i _. unfold jac, box. cbn. decs. split; [|split]; field. }
  cbn [mdet]. unfold det3.
  destruct (H 0%nat) as (-> & -> & ->); [lia|].
  destruct (H 1%nat) as (-> & -> & ->); [lia|].
  destruct (H 2%nat) as (-> & -> & ->); [lia|].
  unfold triple. cbn. field.
Qed.
Lemma hex_vol : forall ord p a b c, hex_volume ord (box p a b c) = hex_unit ord * triple a b c.
Proof.
  intros ord p a b c. unfold hex_volume.
  transitivity (rsuml (quad_hex (i_int ord)) (fun q => dec (snd q)) * (triple a b c / 8)).
  { rewrite <- rsuml_mulr. apply rsuml_ext. intros (((r, s), t), w) _. rewrite hex_box_det. reflexivity. }
  unfold hex_unit.
  destruct (i_int_cases ord) as [(H & E) | [(H & E) | (H & E)]]; rewrite E.
  - replace (ord <=? 2)%nat with true by (symmetry; apply Nat.leb_le; lia). cbn. unfold dec. field.
  - subst. cbn. unfold dec. field.
  - replace (ord <=? 2)%nat with false by (symmetry; apply Nat.leb_gt; lia). cbn. unfold dec. field.
Qed.
