(* PLANE41: balance of the nodal forces, superposed rigid motions of the plane. *)
From Coq Require Import Reals Lra Lia.
Set Warnings "-ambiguous-paths".
From Coquelicot Require Import Coquelicot.
From Verif Require Import Base RealBase MatModel AsmModel SpecAsm AsmLists MatProofs ElemModel SpecElem ElemBase HyperModel SpecHyper HyperProofs HyperMore HyperElem HyperTangent HyperPlane HyperBalance.
Local Open Scope R_scope.

Lemma rs2 : forall f, rsumn 2 f = f 0%nat + f 1%nat.
Proof. intros. unfold rsumn, rsuml. cbn. ring. Qed.
Lemma two : forall k, (k < 2)%nat -> (k = 0 \/ k = 1)%nat.
Proof. intros; lia. Qed.
Ltac case2 H := apply two in H; destruct H as [-> | ->].
Definition plane (F : mat3) : Prop := F 0%nat 2%nat = 0 /\ F 1%nat 2%nat = 0 /\ F 2%nat 0%nat = 0 /\ F 2%nat 1%nat = 0 /\ F 2%nat 2%nat = 1.
Lemma plane_grad : forall nx U, plane (defgrad (grad2 nx U)).
Proof. intros. unfold plane, defgrad, grad2, dlt. cbv [Nat.eqb Nat.ltb Nat.leb andb]. repeat split; ring. Qed.
Definition emb (Q : mat3) : mat3 := fun i j => if ((i <? 2) && (j <? 2))%nat then Q i j else dlt i j.
Lemma emb_orth : forall Q, orthogonal 2 Q -> orthogonal 3 (emb Q).
Proof.
  intros Q H i j Hi Hj. rewrite rs3. pose proof (H 0%nat 0%nat ltac:(lia) ltac:(lia)) as H00. pose proof (H 0%nat 1%nat ltac:(lia) ltac:(lia)) as H01.
  pose proof (H 1%nat 0%nat ltac:(lia) ltac:(lia)) as H10. pose proof (H 1%nat 1%nat ltac:(lia) ltac:(lia)) as H11.
  rewrite rs2 in H00, H01, H10, H11. unfold dlt in *. cbv [Nat.eqb] in H00, H01, H10, H11.
  case3 Hi; case3 Hj; cbv [emb Nat.eqb Nat.ltb Nat.leb andb dlt]; nra.
Qed.
Section Plane.
  Variables (m : hyper) (geo : list (R * (nat -> nat -> R))) (X : nat -> nat -> R) (p : R).
  Hypothesis HX : forall g, In g geo -> reproduces 4 2 (snd g) X.
  Let Fo U := p41_Fe m p (p41_update_all m geo U p).
  Let gr (g : R * (nat -> nat -> R)) (U : nat -> R) := defgrad (grad2 (snd g) U).
  Lemma grad_x2 : forall g U i j, In g geo -> (i < 2)%nat -> (j < 2)%nat ->
    rsumn 4 (fun n => snd g n j * (X n i + U (n * 2 + i)%nat)) = gr g U i j.
  Proof.
    intros g U i j Hg Hi Hj. unfold gr, defgrad, grad2. rewrite <- (proj2 (HX g Hg) i j Hi Hj).
    apply Nat.ltb_lt in Hi, Hj. rewrite Hi, Hj. cbn [andb]. rewrite <- rsumn_plus. apply rsumn_ext. intros; ring.
  Qed.
  Lemma pk1_plane : forall g U i j, (i < 2)%nat -> (j < 2)%nat -> 
    rsumn 2 (fun k => pk1 m (gr g U) p j k * gr g U i k) = rsumn 2 (fun k => pk1 m (gr g U) p i k * gr g U j k).
  Proof.
    intros g U i j Hi Hj. pose proof (pk1_sym m (gr g U) p i j ltac:(lia) ltac:(lia)) as H.
    destruct (plane_grad (snd g) U) as (P1 & P2 & _). change (defgrad (grad2 (snd g) U)) with (gr g U) in P1, P2.
    rewrite !rs3 in H. rewrite !rs2.
    assert (Q : forall k, (k < 2)%nat -> gr g U k 2%nat = 0) by (intros k Hk; case2 Hk; assumption).
    rewrite !Q in H by assumption. lra.
  Qed.
  Lemma p41_balance : forall U,
    let f n i := Fo U (n * 2 + i)%nat in
    let x n i := X n i + U (n * 2 + i)%nat in
    (forall i, (i < 2)%nat -> rsumn 4 (fun n => f n i) = 0) /\
    rsumn 4 (fun n => x n 0%nat * f n 1%nat - x n 1%nat * f n 0%nat) = 0.
  Proof.
    intros U f x. destruct (p41_forces m geo U p) as (W & _). split.
    - intros i Hi. rewrite (rsumn_ext 4 _ (fun n => -1 * rsuml geo (fun g => fst g * rsumn 2 (fun j => pk1 m (gr g U) p i j * snd g n j)))).
      2: { intros n Hn. unfold f, Fo. rewrite W by assumption. unfold gr. ring. }
      rewrite rsumn_mul. unfold rsumn at 1. rewrite rsuml_swap. rewrite rsuml_zero; [ring|].
      intros g Hg. rewrite rsuml_mul. change (rsuml (seq 0 4)) with (rsumn 4). rewrite rsumn_swap.
      rewrite (rsumn_ext 2 _ (fun _ => 0)); [rewrite rs2; ring|]. intros j Hj. rewrite rsumn_mul, (proj1 (HX g Hg)) by exact Hj. ring.
    - assert (Q : forall i j, (i < 2)%nat -> (j < 2)%nat ->
        rsumn 4 (fun n => x n i * f n j) = - rsuml geo (fun g => fst g * rsumn 2 (fun k => pk1 m (gr g U) p j k * gr g U i k))).
      { intros i j Hi Hj.
        rewrite (rsumn_ext 4 _ (fun n => -1 * rsuml geo (fun g => fst g * rsumn 2 (fun k => pk1 m (gr g U) p j k * (snd g n k * x n i))))).
        2: { intros n Hn. unfold f, Fo. rewrite W by assumption. transitivity (-1 * (rsuml geo (fun g => fst g * rsumn 2 (fun j0 => pk1 m (gr g U) p j j0 * snd g n j0)) * x n i)); [unfold gr; ring|].
             f_equal. rewrite <- rsuml_mulr. apply rsuml_ext. intros g Hg. rewrite Rmult_assoc, <- rsumn_mulr. f_equal. apply rsumn_ext. intros; ring. }
        rewrite rsumn_mul. unfold rsumn at 1. rewrite rsuml_swap.
        match goal with |- -1 * ?a = - ?b => replace a with b; [ring|] end. apply rsuml_ext. intros g Hg. rewrite rsuml_mul. f_equal.
        change (rsuml (seq 0 4)) with (rsumn 4). rewrite rsumn_swap. apply rsumn_ext. intros k Hk. rewrite rsumn_mul. f_equal. symmetry. apply grad_x2; assumption. }
      rewrite (rsumn_ext 4 _ (fun n => x n 0%nat * f n 1%nat + -1 * (x n 1%nat * f n 0%nat))) by (intros; ring).
      rewrite rsumn_plus, rsumn_mul, !Q by lia.
      match goal with |- - ?a + -1 * - ?b = 0 => replace a with b; [ring|] end. apply rsuml_ext. intros g Hg. f_equal. apply pk1_plane; lia.
  Qed.
  Lemma grad_rot : forall Q c U U', (forall n i, (n < 4)%nat -> (i < 2)%nat ->
       X n i + U' (n * 2 + i)%nat = c i + rsumn 2 (fun k => Q i k * (X n k + U (n * 2 + k)%nat))) ->
    forall g, In g geo -> meq (gr g U') (mmul (emb Q) (gr g U)).
  Proof.
    intros Q c U U' HU g Hg.
    assert (H : forall i j, (i < 2)%nat -> (j < 2)%nat -> gr g U' i j = rsumn 2 (fun k => Q i k * gr g U k j)).
    { intros i j Hi Hj. rewrite <- grad_x2 by assumption.
      rewrite (rsumn_ext 4 _ (fun n => snd g n j * c i + rsumn 2 (fun k => Q i k * (snd g n j * (X n k + U (n * 2 + k)%nat))))).
      2: { intros n Hn. rewrite HU by assumption. rewrite !rs2. ring. }
      rewrite (rsumn_plus 4), rsumn_mulr, (proj1 (HX g Hg)), rsumn_swap by exact Hj. rewrite Rmult_0_l, Rplus_0_l.
      apply rsumn_ext. intros k Hk. rewrite rsumn_mul, grad_x2 by assumption. reflexivity. }
    destruct (plane_grad (snd g) U) as (P1 & P2 & P3 & P4 & P5). destruct (plane_grad (snd g) U') as (R1 & R2 & R3 & R4 & R5).
    change (defgrad (grad2 (snd g) U)) with (gr g U) in *. change (defgrad (grad2 (snd g) U')) with (gr g U') in *.
    intros i j Hi Hj. unfold mmul. rewrite rs3. 
    case3 Hi; case3 Hj; rewrite ?P1, ?P2, ?P3, ?P4, ?P5, ?R1, ?R2, ?R3, ?R4, ?R5, ?H, ?rs2 by lia; cbv [emb Nat.eqb Nat.ltb Nat.leb andb dlt]; ring.
  Qed.
  Lemma p41_objective : forall Q c U U', orthogonal 2 Q ->
    (forall n i, (n < 4)%nat -> (i < 2)%nat ->
       X n i + U' (n * 2 + i)%nat = c i + rsumn 2 (fun k => Q i k * (X n k + U (n * 2 + k)%nat))) ->
    (forall n i, (n < 4)%nat -> (i < 2)%nat -> Fo U' (n * 2 + i)%nat = rsumn 2 (fun k => Q i k * Fo U (n * 2 + k)%nat)) /\
    Fo U' 8%nat = Fo U 8%nat.
  Proof.
    intros Q c U U' HQ HU. pose proof (emb_orth Q HQ) as HQ3. pose proof (grad_rot Q c U U' HU) as HF.
    destruct (p41_forces m geo U p) as (W & V). destruct (p41_forces m geo U' p) as (W' & V'). split.
    - intros n i Hn Hi. unfold Fo. rewrite W' by assumption.
      rewrite (rsumn_ext 2 (fun k => Q i k * _) (fun k => -1 * rsuml geo (fun g => Q i k * (fst g * rsumn 2 (fun j => pk1 m (gr g U) p k j * snd g n j))))).
      2: { intros k Hk. rewrite W, rsuml_mul by assumption. unfold gr. ring. }
      rewrite rsumn_mul. unfold rsumn at 2. rewrite rsuml_swap.
      match goal with |- - ?a = -1 * ?b => replace b with a; [ring|] end. apply rsuml_ext. intros g Hg. change (rsuml (seq 0 2)) with (rsumn 2).
      change (defgrad (grad2 (snd g) U')) with (gr g U').
      rewrite (rsumn_ext 2 (fun j => pk1 m (gr g U') p i j * _) (fun j => rsumn 3 (fun k => emb Q i k * pk1 m (gr g U) p k j) * snd g n j)).
      2: { intros j Hj. rewrite (rot_pk1 m p (emb Q) _ _ HQ3 (HF g Hg)) by lia. reflexivity. }
      rewrite !rs2, !rs3, ?rs2. case2 Hi; cbv [emb Nat.eqb Nat.ltb Nat.leb andb dlt]; ring.
    - unfold Fo. rewrite V, V'. f_equal. apply rsuml_ext. intros g Hg. change (defgrad (grad2 (snd g) U)) with (gr g U).
      rewrite <- (det_rotF (emb Q) _ _ HQ3 (HF g Hg)). reflexivity.
  Qed.
End Plane.
Lemma p41_rigid : forall m geo X, (forall g, In g geo -> reproduces 4 2 (snd g) X) ->
  forall Q c U, orthogonal 2 Q ->
    (forall n i, (n < 4)%nat -> (i < 2)%nat -> X n i + U (n * 2 + i)%nat = c i + rsumn 2 (fun k => Q i k * X n k)) ->
    forall k, (k < 9)%nat -> p41_Fe m 0 (p41_update_all m geo U 0) k = 0.
Proof.
  intros m geo X HX Q c U HQ HU k Hk. pose proof (emb_orth Q HQ) as HQ3.
  assert (Z : orthogonal 3 dlt). { intros i j Hi Hj. rewrite rs3. case3 Hi; case3 Hj; cbv [dlt Nat.eqb]; ring. }
  assert (R : forall l, (l < 9)%nat -> p41_Fe m 0 (p41_update_all m geo (fun _ => 0) 0) l = 0).
  { intros l Hl. destruct (p41_forces m geo (fun _ => 0) 0) as (W & V).
    assert (G : forall nx, meq (defgrad (grad2 nx (fun _ => 0))) dlt).
    { intros nx i j Hi Hj. unfold defgrad, grad2. destruct ((i <? 2) && (j <? 2))%nat; [|ring]. rewrite rs4. ring. }
    assert (O : forall nx, orthogonal 3 (defgrad (grad2 nx (fun _ => 0)))).
    { intros nx i j Hi Hj. rewrite <- (Z i j Hi Hj). apply rsumn_ext. intros q Hq. rewrite !G by assumption. reflexivity. }
    destruct (Nat.eq_dec l 8) as [->|N].
    - rewrite V, rsuml_zero; [ring|]. intros g Hg. rewrite det_rot by apply O. unfold Rdiv. ring.
    - rewrite (Nat.div_mod l 2), (Nat.mul_comm 2) by lia.
      assert (K : (l / 2 < 4)%nat) by (apply Nat.div_lt_upper_bound; lia). assert (M : (l mod 2 < 2)%nat) by (apply Nat.mod_upper_bound; lia).
      rewrite W by assumption. rewrite rsuml_zero; [ring|]. intros g Hg.
      rewrite (rsumn_ext 2 _ (fun _ => 0)); [rewrite rs2; ring|]. intros j Hj. rewrite pk1_rot by (try lia; apply O). ring. }
  destruct (p41_objective m geo X 0 HX Q c (fun _ => 0) U HQ) as (A & B).
  { intros n i Hn Hi. rewrite HU by assumption. f_equal. apply rsumn_ext. intros; ring. }
  destruct (Nat.eq_dec k 8) as [->|N].
  - rewrite B. apply R. lia.
  - rewrite (Nat.div_mod k 2), (Nat.mul_comm 2) by lia.
    assert (K : (k / 2 < 4)%nat) by (apply Nat.div_lt_upper_bound; lia). assert (M : (k mod 2 < 2)%nat) by (apply Nat.mod_upper_bound; lia).
    rewrite A by assumption. rewrite (rsumn_ext 2 _ (fun _ => 0)); [rewrite rs2; ring|]. intros j Hj. rewrite R by lia. ring.
Qed.
