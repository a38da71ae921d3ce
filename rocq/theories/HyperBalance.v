(* Nodal forces of SOLID81 and PLANE41 in terms of the first Piola-Kirchhoff stress; balance, superposed rigid motions. *)
From Coq Require Import Reals Lra Lia.
Set Warnings "-ambiguous-paths".
From Coquelicot Require Import Coquelicot.
From Verif Require Import Base RealBase MatModel AsmModel SpecAsm AsmLists MatProofs ElemModel SpecElem ElemBase HyperModel SpecHyper HyperProofs HyperMore HyperElem HyperTangent HyperPlane.
Local Open Scope R_scope.

Lemma six_m3 : forall (C : nat -> R) A k, meq (m3 C) A -> (k < 6)%nat -> C k = vec6 A k.
Proof. intros C A k H Hk. case6 Hk; cbn [vec6]; rewrite <- H by lia; reflexivity. Qed.
Lemma S_comp_ext : forall m C C' p k, (forall k, (k < 6)%nat -> C k = C' k) -> (k < 6)%nat -> S_comp m C p k = S_comp m C' p k.
Proof.
  intros m C C' p k H Hk.
  assert (I : forall i, (i < 3)%nat -> IC_C C i = IC_C C' i).
  { intros i Hi. case3 Hi; unfold IC_C, J_C; rewrite !H by lia; reflexivity. }
  assert (Q : forall J, invC_C C J k = invC_C C' J k).
  { intros J. case6 Hk; unfold invC_C; rewrite !H by lia; reflexivity. }
  unfold S_comp, hA, hB. cbv zeta. rewrite !(I 2%nat), !(I 1%nat), !(I 0%nat), Q, (H k Hk) by lia. reflexivity.
Qed.
Lemma stress_F : forall m C F p, meq (m3 C) (cauchy_green F) -> forall k, (k < 6)%nat -> S_comp m C p k = vec6 (pk2 m F p) k.
Proof.
  intros m C F p H k Hk. rewrite (S_comp_ext m C (vec6 (cauchy_green F)) p k) by (try exact Hk; intros; apply six_m3; assumption).
  unfold pk2. case6 Hk; cbn [vec6]; rewrite stress_m3; reflexivity.
Qed.
Lemma cg_ext : forall F F', meq F F' -> meq (cauchy_green F) (cauchy_green F').
Proof. intros F F' H i j Hi Hj. unfold cauchy_green, mmul, mtr. apply rsumn_ext. intros k Hk. rewrite !H by assumption. reflexivity. Qed.

(* ---- SOLID81 *)
Lemma cM_FS : forall O S i j, (i < 3)%nat -> (j < 3)%nat ->
  rsumn 6 (fun l => cM O l (i * 3 + j) * S l) = rsumn 3 (fun k => defgrad (gradO O) i k * m3 S k j).
Proof.
  intros O S i j Hi Hj. rewrite rs6, rs3. unfold cM, defgrad, gradO, m3.
  case3 Hi; case3 Hj; cbv [cL cO Nat.div Nat.divmod fst Nat.modulo snd Nat.sub Nat.mul Nat.add dlt Nat.eqb comp6 Nat.min Nat.max]; ring.
Qed.
Lemma fu_P : forall w nx pt n i, (n < 8)%nat -> (i < 3)%nat ->
  fu (w, nx) pt (n * 3 + i) = - (w * rsumn 3 (fun j => rsumn 3 (fun k => defgrad (gradO (arr (ptO pt))) i k * m3 (arr (ptS pt)) k j) * nx n j)).
Proof.
  intros w nx pt n i Hn Hi. unfold fu, bmat. cbn [fst snd].
  rewrite (rsumn_ext 6 _ (fun l => rsumn 3 (fun j => 2 * (cM (arr (ptO pt)) l (i * 3 + j) * arr (ptS pt) l * nx n j)))).
  2: { intros l Hl. change 9%nat with (3 * 3)%nat. rewrite rsumn_grid.
       assert (B : forall i' j, (j < 3)%nat -> bnl nx (i' * 3 + j) (n * 3 + i) = if (i' =? i)%nat then nx n j else 0).
       { intros i' j Hj. unfold bnl. rewrite !Nat.div_add_l, !(Nat.div_small _ 3) by lia. rewrite !(Nat.add_comm (_ * 3)), !Nat.mod_add, !(Nat.mod_small _ 3), !Nat.add_0_r by lia. reflexivity. }
       rewrite (rsumn_ext 3 (fun i0 => rsumn 3 _) (fun i' => if (i' =? i)%nat then rsumn 3 (fun j => cM (arr (ptO pt)) l (i * 3 + j) * nx n j) else 0)).
       2: { intros i' Hi'. destruct (Nat.eqb_spec i' i) as [->|N].
            - apply rsumn_ext. intros j Hj. rewrite B, Nat.eqb_refl by exact Hj. reflexivity.
            - rewrite (rsumn_ext 3 _ (fun _ => 0)); [rewrite rs3; ring|]. intros j Hj. rewrite B by exact Hj. apply Nat.eqb_neq in N. rewrite N. ring. }
       rewrite rs3. rewrite !rs3. case3 Hi; cbn [Nat.eqb]; ring. }
  rewrite rsumn_swap.
  rewrite (rsumn_ext 3 (fun j => rsumn 6 _) (fun j => 2 * (rsumn 3 (fun k => defgrad (gradO (arr (ptO pt))) i k * m3 (arr (ptS pt)) k j) * nx n j))).
  2: { intros j Hj. rewrite <- cM_FS, <- rsumn_mulr, <- rsumn_mul by assumption. apply rsumn_ext. intros; ring. }
  rewrite rsumn_mul. field.
Qed.
Lemma s81_F : forall m nx U p, length U = 24%nat -> meq (gradO (arr (ptO (s81_pt m nx U p)))) (grad3 nx (arr U)).
Proof.
  intros m nx U p L i j Hi Hj. unfold gradO. rewrite (proj1 (proj2 (proj2 (s81_pt_ok m nx U p L)))) by lia. rewrite bnl_sum by lia.
  rewrite Nat.div_add_l, (Nat.div_small j), Nat.add_0_r by lia. rewrite (Nat.add_comm (i * 3)), Nat.mod_add, (Nat.mod_small j) by lia. reflexivity.
Qed.
Lemma s81_cg : forall m nx U p, length U = 24%nat -> meq (m3 (arr (ptC (s81_pt m nx U p)))) (cauchy_green (defgrad (grad3 nx (arr U)))).
Proof.
  intros m nx U p L i j Hi Hj. destruct (s81_pt_ok m nx U p L) as (_ & _ & _ & E & _). rewrite E, s81_C_ok by assumption.
  apply cg_ext; [|exact Hi|exact Hj]. intros a b Ha Hb. unfold defgrad. rewrite (s81_F m nx U p L) by assumption. reflexivity.
Qed.
Lemma s81_S_F : forall m nx U p, length U = 24%nat -> meq (m3 (arr (ptS (s81_pt m nx U p)))) (pk2 m (defgrad (grad3 nx (arr U))) p).
Proof.
  intros m nx U p L i j Hi Hj. unfold m3 at 1. rewrite (proj2 (proj2 (proj2 (proj2 (s81_pt_ok m nx U p L))))) by apply comp6_lt.
  rewrite (stress_F m _ _ p (s81_cg m nx U p L)) by apply comp6_lt. unfold pk2. case3 Hi; case3 Hj; cbn [comp6 Nat.min Nat.max vec6]; rewrite !stress_m3; reflexivity.
Qed.
Lemma s81_forces : forall m geo U p, length U = 24%nat ->
  exists r, s81_run m geo U p = Ok r /\
    (forall n i, (n < 8)%nat -> (i < 3)%nat -> nth (n * 3 + i) (mFu r) 0
       = - rsuml geo (fun g => fst g * rsumn 3 (fun j => pk1 m (defgrad (grad3 (snd g) (arr U))) p i j * snd g n j))) /\
    mFp r = - rsuml geo (fun g => fst g * (Rabs (det3 (defgrad (grad3 (snd g) (arr U)))) - 1 - p / hK m)).
Proof.
  intros m geo U p L. destruct (s81_val_ok m geo U p L) as (E & _ & _ & _ & W & V). cbv zeta in W, V.
  exists (s81_val m geo U p). split; [exact E|]. split.
  - intros n i Hn Hi. rewrite W by lia.
    match goal with |- _ = - ?x => replace (- x) with (-1 * x) by ring end. rewrite <- rsuml_mul. apply rsuml_ext. intros [w nx] _. cbn [fst snd].
    rewrite fu_P by assumption. rewrite (rsumn_ext 3 _ (fun j => pk1 m (defgrad (grad3 nx (arr U))) p i j * nx n j)); [ring|].
    intros j Hj. f_equal. unfold pk1, mmul. apply rsumn_ext. intros k Hk. rewrite (s81_S_F m nx U p L) by assumption. f_equal.
    unfold defgrad. rewrite (s81_F m nx U p L) by assumption. reflexivity.
  - rewrite V. match goal with |- _ = - ?x => replace (- x) with (-1 * x) by ring end. rewrite <- rsuml_mul. apply rsuml_ext. intros [w nx] _. cbn [fst snd].
    rewrite (J_F _ _ (s81_cg m nx U p L)). ring.
Qed.

(* ---- PLANE41 *)
Lemma cM4_FS : forall O S i j, (i < 2)%nat -> (j < 2)%nat ->
  rsumn 3 (fun l => cM4 O l (i * 2 + j) * vec6 S (nth l p41_components 0%nat)) = rsumn 2 (fun k => defgrad (gradP O) i k * m3 (vec6 S) k j).
Proof.
  intros O S i j Hi Hj. rewrite rs3. change (rsumn 2 ?f) with (f 0%nat + (f 1%nat + 0)). unfold cM4, defgrad, gradP, m3.
  assert (Ii : (i = 0 \/ i = 1)%nat) by lia. assert (Ij : (j = 0 \/ j = 1)%nat) by lia.
  destruct Ii as [-> | ->]; destruct Ij as [-> | ->]; cbv [cL4 p41_matO Nat.mul Nat.add dlt Nat.eqb comp6 Nat.min Nat.max Nat.ltb Nat.leb andb nth p41_components vec6]; ring.
Qed.
Lemma qe_P : forall w nx O S n i, (n < 4)%nat -> (i < 2)%nat ->
  qe4 (w, nx) O (fun k => vec6 S (nth k p41_components 0%nat)) (n * 2 + i) = w * rsumn 2 (fun j => rsumn 2 (fun k => defgrad (gradP O) i k * m3 (vec6 S) k j) * nx n j).
Proof.
  intros w nx O S n i Hn Hi. unfold qe4. cbn [fst snd].
  rewrite (rsumn_ext 3 _ (fun l => rsumn 2 (fun j => cM4 O l (i * 2 + j) * vec6 S (nth l p41_components 0%nat) * nx n j))).
  2: { intros l Hl. rewrite matB_M by exact Hl.
       rewrite rs4. change (rsumn 2 ?f) with (f 0%nat + (f 1%nat + 0)). unfold p41_Bomega.
       rewrite !(Nat.add_comm (n * 2)), !Nat.mod_add, !Nat.div_add, (Nat.div_small i), (Nat.mod_small i), Nat.add_0_l by lia.
       assert (Ii : (i = 0 \/ i = 1)%nat) by lia. destruct Ii as [-> | ->]; cbn [Nat.mul Nat.add]; ring. }
  rewrite rsumn_swap. rewrite Rmult_comm. f_equal. apply rsumn_ext. intros j Hj. rewrite <- cM4_FS, <- rsumn_mulr by assumption. reflexivity.
Qed.
Lemma gradP_F : forall nx U, meq (gradP (p41_O nx U)) (grad2 nx U).
Proof. intros nx U i j Hi Hj. apply gradP_O; assumption. Qed.
Lemma p41_forces : forall m geo U p,
  (forall n i, (n < 4)%nat -> (i < 2)%nat -> p41_Fe m p (p41_update_all m geo U p) (n * 2 + i)
     = - rsuml geo (fun g => fst g * rsumn 2 (fun j => pk1 m (defgrad (grad2 (snd g) U)) p i j * snd g n j))) /\
  p41_Fe m p (p41_update_all m geo U p) 8 = - rsuml geo (fun g => fst g * (Rabs (det3 (defgrad (grad2 (snd g) U))) - 1 - p / hK m)).
Proof.
  intros m geo U p. destruct (p41_vals m geo U p) as (_ & _ & _ & W & V). cbv zeta in W, V. unfold p41_Fe. cbv zeta. split.
  - intros n i Hn Hi. assert (L : (n * 2 + i <? 8)%nat = true) by (apply Nat.ltb_lt; lia). rewrite L, W. f_equal. apply rsuml_ext. intros [w nx] _. cbn [fst snd].
    assert (Q : forall k, (k < 3)%nat -> S_comp m (p41_CVec (arr (p41_C (p41_O nx U)))) p (nth k p41_components 0%nat)
                    = vec6 (pk2 m (defgrad (grad2 nx U)) p) (nth k p41_components 0%nat)).
    { intros k Hk. apply stress_F; [apply p41_C_F|]. case3 Hk; cbn; lia. }
    transitivity (qe4 (w, nx) (p41_O nx U) (fun k => vec6 (pk2 m (defgrad (grad2 nx U)) p) (nth k p41_components 0%nat)) (n * 2 + i)).
    { unfold qe4. cbn [fst snd]. f_equal. apply rsumn_ext. intros k Hk. rewrite Q by exact Hk. reflexivity. }
    rewrite qe_P by assumption. f_equal. apply rsumn_ext. intros j Hj. f_equal. unfold pk1, mmul.
    rewrite (rsumn_last 2). replace (defgrad (grad2 nx U) i 2%nat) with 0.
    2: { unfold defgrad, grad2, dlt. assert (Ii : (i = 0 \/ i = 1)%nat) by lia. destruct Ii as [-> | ->]; cbv [Nat.eqb Nat.ltb Nat.leb andb]; ring. }
    rewrite Rmult_0_l, Rplus_0_r. apply rsumn_ext. intros k Hk. f_equal.
    + unfold defgrad. rewrite gradP_F by lia. reflexivity.
    + unfold pk2. assert (Ik : (k = 0 \/ k = 1)%nat) by lia. assert (Ij : (j = 0 \/ j = 1)%nat) by lia.
      destruct Ik as [-> | ->]; destruct Ij as [-> | ->]; unfold m3; cbn [comp6 Nat.min Nat.max vec6]; rewrite !stress_m3; reflexivity.
  - change (8 <? 8)%nat with false. cbv iota. rewrite V. f_equal. apply rsuml_ext. intros [w nx] _. cbn [fst snd].
    rewrite (J_F _ _ (p41_C_F nx U)). ring.
Qed.

(* ---- first Piola-Kirchhoff stress: symmetry of P F^T, superposed rotations, rest *)
Lemma m3_vec6 : forall A, (forall i j, A i j = A j i) -> meq (m3 (vec6 A)) A.
Proof. intros A H i j Hi Hj. case3 Hi; case3 Hj; unfold m3; cbn [comp6 Nat.min Nat.max vec6]; try reflexivity; apply H. Qed.
Lemma pk2_sym : forall m F p i j, pk2 m F p i j = pk2 m F p j i.
Proof. intros. unfold pk2, stress, m3. f_equal. unfold comp6. rewrite Nat.min_comm, Nat.max_comm. reflexivity. Qed.
Lemma pk1_sym : forall m F p i j, (i < 3)%nat -> (j < 3)%nat ->
  rsumn 3 (fun k => pk1 m F p j k * F i k) = rsumn 3 (fun k => pk1 m F p i k * F j k).
Proof.
  intros m F p i j Hi Hj. unfold pk1, mmul. rewrite !rs3; try rewrite !rs3.
  rewrite (pk2_sym m F p 1 0), (pk2_sym m F p 2 0), (pk2_sym m F p 2 1). ring.
Qed.
Lemma pk2_ext : forall m F F' p, meq (cauchy_green F) (cauchy_green F') -> meq (pk2 m F p) (pk2 m F' p).
Proof.
  intros m F F' p H i j Hi Hj. unfold pk2. rewrite !stress_m3. apply S_comp_ext; [|apply comp6_lt].
  intros k Hk. case6 Hk; cbn [vec6]; apply H; lia.
Qed.
Lemma rot_cg : forall Q F F', orthogonal 3 Q -> meq F' (mmul Q F) -> meq (cauchy_green F') (cauchy_green F).
Proof.
  intros Q F F' HQ HF i j Hi Hj. rewrite (cg_ext _ _ HF i j Hi Hj). unfold cauchy_green, mtr, mmul.
  transitivity (rsumn 3 (fun a => rsumn 3 (fun b => F a i * F b j * rsumn 3 (fun k => Q k a * Q k b)))).
  - rewrite !rs3; try rewrite !rs3. ring.
  - rewrite (rsumn_ext 3 _ (fun a => F a i * F a j)); [reflexivity|]. intros a Ha.
    rewrite (rsumn_ext 3 _ (fun b => F a i * F b j * dlt a b)).
    2: { intros b Hb. rewrite HQ by assumption. reflexivity. }
    rewrite rs3. unfold dlt. case3 Ha; cbn [Nat.eqb]; ring.
Qed.
Lemma rot_pk1 : forall m p Q F F', orthogonal 3 Q -> meq F' (mmul Q F) -> forall i j, (i < 3)%nat -> (j < 3)%nat ->
  pk1 m F' p i j = rsumn 3 (fun k => Q i k * pk1 m F p k j).
Proof.
  intros m p Q F F' HQ HF i j Hi Hj. unfold pk1, mmul.
  rewrite (rsumn_ext 3 _ (fun k => rsumn 3 (fun a => Q i a * F a k) * pk2 m F p k j)).
  2: { intros k Hk. rewrite HF by assumption. f_equal. apply pk2_ext; try assumption. apply (rot_cg Q); assumption. }
  rewrite !rs3; try rewrite !rs3. ring.
Qed.
Lemma cg_id : forall F, orthogonal 3 F -> meq (cauchy_green F) dlt.
Proof. intros F H i j Hi Hj. exact (H i j Hi Hj). Qed.
Lemma pk1_rot : forall m F i j, orthogonal 3 F -> (i < 3)%nat -> (j < 3)%nat -> pk1 m F 0 i j = 0.
Proof.
  intros m F i j H Hi Hj. unfold pk1, mmul. rewrite (rsumn_ext 3 _ (fun _ => 0)); [rewrite rs3; ring|]. intros k Hk.
  replace (pk2 m F 0 k j) with 0; [ring|]. unfold pk2. rewrite stress_m3.
  rewrite (S_comp_ext m _ mI); [|intros l Hl; case6 Hl; cbn [vec6 mI]; rewrite (cg_id F H) by lia; reflexivity|apply comp6_lt].
  rewrite <- stress_m3, stress_ref by assumption. ring.
Qed.
Lemma det_rot : forall F, orthogonal 3 F -> Rabs (det3 F) = 1.
Proof.
  intros F H. assert (D : det3 F * det3 F = 1).
  { rewrite <- (det_tr F) at 1. rewrite <- det_mul. change (mmul (mtr F) F) with (cauchy_green F). rewrite (det3_ext _ _ (cg_id F H)). unfold det3, dlt. cbn. ring. }
  unfold Rabs. destruct (Rcase_abs (det3 F)); nra.
Qed.
Lemma det_rotF : forall Q F F', orthogonal 3 Q -> meq F' (mmul Q F) -> Rabs (det3 F') = Rabs (det3 F).
Proof. intros Q F F' HQ HF. rewrite (det3_ext _ _ HF), det_mul, Rabs_mult, det_rot by exact HQ. ring. Qed.

(* ---- SOLID81 *)
Section Solid.
  Variables (m : hyper) (geo : list (R * (nat -> nat -> R))) (X : nat -> nat -> R) (p : R).
  Hypothesis HX : forall g, In g geo -> reproduces 8 3 (snd g) X.
  Lemma grad_x : forall g U i j, In g geo -> (i < 3)%nat -> (j < 3)%nat ->
    rsumn 8 (fun n => snd g n j * (X n i + U (n * 3 + i)%nat)) = defgrad (grad3 (snd g) U) i j.
  Proof.
    intros g U i j Hg Hi Hj. unfold defgrad, grad3. rewrite <- (proj2 (HX g Hg) i j Hi Hj), <- rsumn_plus. apply rsumn_ext. intros; ring.
  Qed.
  Lemma s81_balance : forall U r, length U = 24%nat -> s81_run m geo U p = Ok r ->
    let f n i := nth (n * 3 + i) (mFu r) 0 in
    let x n i := X n i + arr U (n * 3 + i)%nat in
    (forall i, (i < 3)%nat -> rsumn 8 (fun n => f n i) = 0) /\
    (forall i j, (i < 3)%nat -> (j < 3)%nat -> rsumn 8 (fun n => x n i * f n j - x n j * f n i) = 0).
  Proof.
    intros U r L E f x. destruct (s81_forces m geo U p L) as (r' & E' & W & _). rewrite E in E'. injection E' as <-. split.
    - intros i Hi. rewrite (rsumn_ext 8 _ (fun n => -1 * rsuml geo (fun g => fst g * rsumn 3 (fun j => pk1 m (defgrad (grad3 (snd g) (arr U))) p i j * snd g n j)))).
      2: { intros n Hn. unfold f. rewrite W by assumption. ring. }
      rewrite rsumn_mul. unfold rsumn at 1. rewrite rsuml_swap. rewrite rsuml_zero; [ring|].
      intros g Hg. rewrite rsuml_mul. change (rsuml (seq 0 8)) with (rsumn 8). rewrite rsumn_swap.
      rewrite (rsumn_ext 3 _ (fun _ => 0)); [rewrite rs3; ring|]. intros j Hj. rewrite rsumn_mul, (proj1 (HX g Hg)) by exact Hj. ring.
    - assert (Q : forall i j, (i < 3)%nat -> (j < 3)%nat ->
        rsumn 8 (fun n => x n i * f n j) = - rsuml geo (fun g => fst g * rsumn 3 (fun k => pk1 m (defgrad (grad3 (snd g) (arr U))) p j k * defgrad (grad3 (snd g) (arr U)) i k))).
      { intros i j Hi Hj.
        rewrite (rsumn_ext 8 _ (fun n => -1 * rsuml geo (fun g => fst g * rsumn 3 (fun k => pk1 m (defgrad (grad3 (snd g) (arr U))) p j k * (snd g n k * x n i))))).
        2: { intros n Hn. unfold f. rewrite W by assumption. transitivity (-1 * (rsuml geo (fun g => fst g * rsumn 3 (fun j0 => pk1 m (defgrad (grad3 (snd g) (arr U))) p j j0 * snd g n j0)) * x n i)); [ring|].
             f_equal. rewrite <- rsuml_mulr. apply rsuml_ext. intros g Hg. rewrite Rmult_assoc, <- rsumn_mulr. f_equal. apply rsumn_ext. intros; ring. }
        rewrite rsumn_mul. unfold rsumn at 1. rewrite rsuml_swap.
        match goal with |- -1 * ?a = - ?b => replace a with b; [ring|] end. apply rsuml_ext. intros g Hg. rewrite rsuml_mul. f_equal.
        change (rsuml (seq 0 8)) with (rsumn 8). rewrite rsumn_swap. apply rsumn_ext. intros k Hk. rewrite rsumn_mul. f_equal. symmetry. apply grad_x; assumption. }
      intros i j Hi Hj. rewrite (rsumn_ext 8 _ (fun n => x n i * f n j + -1 * (x n j * f n i))) by (intros; ring).
      rewrite rsumn_plus, rsumn_mul, !Q by assumption.
      match goal with |- - ?a + -1 * - ?b = 0 => replace a with b; [ring|] end. apply rsuml_ext. intros g Hg. f_equal. apply pk1_sym; assumption.
  Qed.
  Lemma s81_objective : forall Q c U U' r r', orthogonal 3 Q -> length U = 24%nat -> length U' = 24%nat ->
    (forall n i, (n < 8)%nat -> (i < 3)%nat ->
       X n i + arr U' (n * 3 + i)%nat = c i + rsumn 3 (fun k => Q i k * (X n k + arr U (n * 3 + k)%nat))) ->
    s81_run m geo U p = Ok r -> s81_run m geo U' p = Ok r' ->
    (forall n i, (n < 8)%nat -> (i < 3)%nat -> nth (n * 3 + i) (mFu r') 0 = rsumn 3 (fun k => Q i k * nth (n * 3 + k) (mFu r) 0)) /\
    mFp r' = mFp r.
  Proof.
    intros Q c U U' r r' HQ L L' HU E E'.
    destruct (s81_forces m geo U p L) as (r1 & E1 & W & V). rewrite E in E1. injection E1 as <-.
    destruct (s81_forces m geo U' p L') as (r2 & E2 & W' & V'). rewrite E' in E2. injection E2 as <-.
    assert (HF : forall g, In g geo -> meq (defgrad (grad3 (snd g) (arr U'))) (mmul Q (defgrad (grad3 (snd g) (arr U))))).
    { intros g Hg i j Hi Hj. rewrite <- grad_x by assumption.
      rewrite (rsumn_ext 8 _ (fun n => snd g n j * c i + rsumn 3 (fun k => Q i k * (snd g n j * (X n k + arr U (n * 3 + k)%nat))))).
      2: { intros n Hn. rewrite HU by assumption. rewrite !rs3. ring. }
      rewrite (rsumn_plus 8), rsumn_mulr, (proj1 (HX g Hg)), rsumn_swap by exact Hj. unfold mmul. rewrite Rmult_0_l, Rplus_0_l.
      apply rsumn_ext. intros k Hk. rewrite rsumn_mul, grad_x by assumption. reflexivity. }
    split.
    - intros n i Hn Hi. rewrite W' by assumption.
      rewrite (rsumn_ext 3 _ (fun k => -1 * rsuml geo (fun g => Q i k * (fst g * rsumn 3 (fun j => pk1 m (defgrad (grad3 (snd g) (arr U))) p k j * snd g n j))))).
      2: { intros k Hk. rewrite W, rsuml_mul by assumption. ring. }
      rewrite rsumn_mul. unfold rsumn at 2. rewrite rsuml_swap.
      match goal with |- - ?a = -1 * ?b => replace b with a; [ring|] end. apply rsuml_ext. intros g Hg. change (rsuml (seq 0 3)) with (rsumn 3).
      rewrite (rsumn_ext 3 _ (fun j => rsumn 3 (fun k => Q i k * pk1 m (defgrad (grad3 (snd g) (arr U))) p k j) * snd g n j)).
      2: { intros j Hj. rewrite (rot_pk1 m p Q _ _ HQ (HF g Hg)) by assumption. reflexivity. }
      rewrite !rs3; try rewrite !rs3. ring.
    - rewrite V, V'. f_equal. apply rsuml_ext. intros g Hg. rewrite (det_rotF Q _ _ HQ (HF g Hg)). reflexivity.
  Qed.
End Solid.
Lemma s81_rigid : forall m geo X, (forall g, In g geo -> reproduces 8 3 (snd g) X) ->
  forall Q c U r, orthogonal 3 Q -> length U = 24%nat ->
    (forall n i, (n < 8)%nat -> (i < 3)%nat -> X n i + arr U (n * 3 + i)%nat = c i + rsumn 3 (fun k => Q i k * X n k)) ->
    s81_run m geo U 0 = Ok r ->
    (forall k, (k < 24)%nat -> nth k (mFu r) 0 = 0) /\ mFp r = 0.
Proof.
  intros m geo X HX Q c U r HQ L HU E. destruct (s81_forces m geo U 0 L) as (r1 & E1 & W & V). rewrite E in E1. injection E1 as <-.
  assert (HF : forall g, In g geo -> orthogonal 3 (defgrad (grad3 (snd g) (arr U)))).
  { intros g Hg. assert (H : meq (defgrad (grad3 (snd g) (arr U))) Q).
    { intros i j Hi Hj. rewrite <- (grad_x geo X HX g (arr U) i j Hg Hi Hj).
      rewrite (rsumn_ext 8 _ (fun n => snd g n j * c i + rsumn 3 (fun k => Q i k * (snd g n j * X n k)))).
      2: { intros n Hn. rewrite HU by assumption. rewrite !rs3. ring. }
      rewrite (rsumn_plus 8), rsumn_mulr, (proj1 (HX g Hg)), rsumn_swap by exact Hj.
      rewrite (rsumn_ext 3 _ (fun k => Q i k * dlt k j)). 2: { intros k Hk. rewrite rsumn_mul, (proj2 (HX g Hg)) by assumption. reflexivity. }
      rewrite rs3. unfold dlt. case3 Hj; cbn [Nat.eqb]; ring. }
    intros i j Hi Hj. rewrite <- (HQ i j Hi Hj). apply rsumn_ext. intros k Hk. rewrite !H by assumption. reflexivity. }
  split.
  - intros k Hk. rewrite (Nat.div_mod k 3), (Nat.mul_comm 3) by lia.
    assert (K : (k / 3 < 8)%nat) by (apply Nat.div_lt_upper_bound; lia). assert (M : (k mod 3 < 3)%nat) by (apply Nat.mod_upper_bound; lia).
    rewrite W by assumption. rewrite rsuml_zero; [ring|]. intros g Hg.
    rewrite (rsumn_ext 3 _ (fun _ => 0)); [rewrite rs3; ring|]. intros j Hj. rewrite pk1_rot by (try assumption; apply HF, Hg). ring.
  - rewrite V. rewrite rsuml_zero; [ring|]. intros g Hg. rewrite det_rot by apply HF, Hg. unfold Rdiv. ring.
Qed.
