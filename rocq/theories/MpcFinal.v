(* The generated equations are the linearised rigid body constraints. *)
From Coq Require Import Reals Lra Lia Psatz.
Set Warnings "-ambiguous-paths".
From Coquelicot Require Import Coquelicot.
From Verif Require Import Base BaseProofs RealBase HyperProofs AsmModel MpcModel SpecMpc MpcProofs MpcDer MpcSmall.
Local Open Scope R_scope.

Ltac eqR := match goal with |- @eq _ ?a ?b => change (@eq R a b) end.
(* ---- the loops *)
Lemma aget_mid : forall A (p : list A) x q, aget (p ++ x :: q) (length p) = Ok x.
Proof. intros. apply aget_nth_error. rewrite nth_error_app2 by lia. rewrite Nat.sub_diag. reflexivity. Qed.
Lemma aset_mid : forall A (p : list A) x q y, aset (p ++ x :: q) (length p) y = Ok (p ++ y :: q).
Proof.
  intros. rewrite aset_ok by (rewrite app_length; cbn; lia). f_equal.
  induction p as [|a p IH]; [reflexivity|]. cbn. rewrite IH. reflexivity.
Qed.
Lemma Forall2_app' : forall A B (P : A -> B -> Prop) l1 l2 m, Forall2 P (l1 ++ l2) m ->
  exists m1 m2, m = m1 ++ m2 /\ Forall2 P l1 m1 /\ Forall2 P l2 m2.
Proof. intros. apply Forall2_app_inv_l in H. destruct H as (m1 & m2 & A1 & A2 & ->). eauto. Qed.

Lemma rb_C_ext : forall a b i j, (forall k, (k < 3)%nat -> a k = b k) -> (i < 3)%nat -> (j < 3)%nat -> rb_C a i j = rb_C b i j.
Proof.
  intros a b i j E Hi Hj. unfold rb_C, rb_theta0Mat. assert (vnorm a = vnorm b) as -> by (unfold vnorm; rewrite !E by lia; reflexivity).
  rewrite !E by lia. reflexivity.
Qed.
Lemma rb_cDeriv_ext : forall a b i j l, (forall k, (k < 3)%nat -> a k = b k) -> (i < 3)%nat -> (j < 3)%nat -> (l < 3)%nat ->
  rb_cDeriv a i j l = rb_cDeriv b i j l.
Proof.
  intros a b i j l E Hi Hj Hl. unfold rb_cDeriv, rb_theta0Mat. assert (vnorm a = vnorm b) as -> by (unfold vnorm; rewrite !E by lia; reflexivity).
  rewrite !E by lia. reflexivity.
Qed.

Section Loop.
  Variables (pos X : nat -> nat -> R) (r : rigid).
  Let m := rb_master r.
  Let th := rotv X m.
  Let w := transv X m.
  Definition rb_new (s d : nat) : mpc RNum :=
    rb_entry m s d (rb_b th w (fun i => pos s i - pos m i) (X s d) d) (rb_rot th (fun i => pos s i - pos m i) d).

  Definition v3 (f : nat -> R) (i : nat) : R := match i with 0%nat => f 0%nat | 1%nat => f 1%nat | _ => f 2%nat end.

  Let body (n : nat) (th' w' pq : nat -> R) (s : nat) := fun (coll : list (mpc RNum)) (jd : nat * nat) =>
          let '(j, d) := jd in
          i <- rb_axis d ;;
          let k := (n * length (rb_dofs r) + j)%nat in
          m <- aget coll k ;;
          u <- Ok (X s d) ;;
          ts <- set_coefs (@mp_terms RNum m) (rb_rot th' pq i) ;;
          aset coll k (@mkMpc RNum (rb_b th' w' pq u i) ts).

  Lemma inner : forall n s th' w' l j0 pre mids post,
    (forall k, (k < 3)%nat -> th' k = th k) -> (forall k, (k < 3)%nat -> w' k = w k) ->
    Forall (fun d => (d < 3)%nat) l ->
    Forall2 (fun d e => exists b c, e = rb_entry m s d b c) l mids ->
    length pre = (n * length (rb_dofs r) + j0)%nat ->
    ofold (body n th' w' (fun i => pos s i - pos m i) s) (combine (seq j0 (length l)) l) (pre ++ mids ++ post)
    = Ok (pre ++ map (rb_new s) l ++ post).
  Proof.
    intros n s th' w' l. induction l as [|d l IH]; intros j0 pre mids post Et Ew Hl F Lp.
    - inversion F; subst. reflexivity.
    - inversion F as [|? e ? mids' (b & c & He) F']; subst. inversion Hl as [|? ? Hd Hl']; subst.
      cbn [length seq combine ofold]. unfold body at 1. rewrite <- Lp.
      assert (rb_axis d = Ok d) as -> by (c3 Hd; reflexivity). cbn [obind app].
      rewrite aget_mid. cbn [obind]. unfold rb_entry. cbn [mp_terms set_coefs obind].
      rewrite aset_mid. cbn [obind].
      replace (pre ++ _ :: mids' ++ post) with ((pre ++ [rb_new s d]) ++ mids' ++ post).
      + rewrite IH; try assumption.
        * rewrite <- app_assoc. reflexivity.
        * rewrite app_length. cbn. lia.
      + rewrite <- app_assoc. cbn [app]. do 2 f_equal. unfold rb_new, rb_entry. f_equal.
        * unfold rb_b. rewrite Ew by assumption. rewrite !(rb_C_ext th' th) by (try assumption; lia). reflexivity.
        * unfold rb_rot. rewrite !(rb_cDeriv_ext th' th) by (try assumption; lia). reflexivity.
  Qed.

  Lemma rb_update_ok : forall coll, rb_shape r coll -> Forall (fun d => (d < 3)%nat) (rb_dofs r) ->
    rb_update (fun n => Ok (pos n)) (fun n d => Ok (X n d)) r coll
    = Ok (map (fun sd => rb_new (fst sd) (snd sd)) (list_prod (rb_slaves r) (rb_dofs r))).
  Proof.
    intros coll Sh Hd. unfold rb_update, vec3. cbn [obind].
    set (th' := fun i : nat => match i with 0%nat => _ | 1%nat => _ | _ => _ end).
    set (w' := fun i : nat => match i with 0%nat => _ | 1%nat => _ | _ => _ end).
    assert (Et : forall k, (k < 3)%nat -> th' k = th k) by (intros k Hk; c3 Hk; reflexivity).
    assert (Ew : forall k, (k < 3)%nat -> w' k = w k) by (intros k Hk; c3 Hk; reflexivity).
    unfold rb_shape in Sh. fold m in Sh. clearbody th' w'.
    cut (forall l n0 pre coll, Forall2 (fun sd e => exists b c, e = rb_entry m (fst sd) (snd sd) b c) (list_prod l (rb_dofs r)) coll ->
      length pre = (n0 * length (rb_dofs r))%nat ->
      ofold (fun (coll : list (mpc RNum)) ns => let '(n, s) := ns in
          sp <- Ok (pos s) ;;
          let pq i := sp i - pos m i in
          ofold (body n th' w' pq s) (combine (seq 0 (length (rb_dofs r))) (rb_dofs r)) coll)
        (combine (seq n0 (length l)) l) (pre ++ coll)
      = Ok (pre ++ map (fun sd => rb_new (fst sd) (snd sd)) (list_prod l (rb_dofs r)))).
    { intros Q. specialize (Q (rb_slaves r) 0%nat [] coll Sh eq_refl). exact Q. }
    clear coll Sh. intros l. induction l as [|s l IH]; intros n0 pre coll F Lp.
    - cbn in F. inversion F; subst. reflexivity.
    - cbn [list_prod] in F. apply Forall2_app' in F. destruct F as (c1 & c2 & -> & F1 & F2).
      cbn [length seq combine ofold obind].
      assert (F1' : Forall2 (fun d e => exists b c, e = rb_entry m s d b c) (rb_dofs r) c1).
      { clear - F1. revert c1 F1. induction (rb_dofs r) as [|d ds IHd]; intros c1 F1; cbn in F1; inversion F1; subst; constructor; auto. }
      rewrite (inner n0 s th' w' (rb_dofs r) 0 pre c1 c2) by (try assumption; lia). cbn [obind].
      rewrite app_assoc. etransitivity; [apply (IH (S n0) (pre ++ map (rb_new s) (rb_dofs r)) c2); [assumption|rewrite app_length, map_length; lia]|].
      cbn [list_prod]. rewrite map_app, map_map. cbn [fst snd]. rewrite app_assoc. reflexivity.
  Qed.
End Loop.

Lemma rb_pre_shape : forall r, rb_shape r (rb_pre r).
Proof.
  intros r. unfold rb_shape, rb_pre. induction (rb_slaves r) as [|s l IH]; [constructor|].
  cbn [list_prod flat_map]. apply Forall2_app; [|exact IH]. clear. induction (rb_dofs r) as [|d ds IH]; [constructor|].
  cbn. constructor; [|exact IH]. exists 0, (fun _ => 0). reflexivity.
Qed.
Lemma rb_new_shape : forall pos X r, rb_shape r (map (fun sd => rb_new pos X r (fst sd) (snd sd)) (list_prod (rb_slaves r) (rb_dofs r))).
Proof.
  intros pos X r. unfold rb_shape. induction (list_prod _ _) as [|sd l IH]; [constructor|]. cbn. constructor; [|exact IH].
  unfold rb_new. eauto.
Qed.

(* ---- one equation *)
Lemma rs3' : forall f, rsumn 3 f = f 0%nat + f 1%nat + f 2%nat.
Proof. exact rs3. Qed.

Section Eq.
  Variables (pos X : nat -> nat -> R) (r : rigid) (s d : nat).
  Hypothesis Hd : (d < 3)%nat.
  Let m := rb_master r.
  Let th := rotv X m.
  Let e := rb_new pos X r s d.
  Let pq := fun i => pos s i - pos m i.

  Lemma lhs_eq : forall D, mpc_lhs e D = D s d - D m d + rsumn 3 (fun l => rb_rot th pq d l * D m (3 + l)%nat).
  Proof.
    intros D. unfold mpc_lhs, e, rb_new, rb_entry. cbn [mp_terms]. rewrite !rsuml_cons, rsuml_nil, rs3. cbn [fst snd Nat.add].
    fold m th pq. ring.
  Qed.
  Lemma b_eq : mp_b e = - gap pos m s d X + rsumn 3 (fun j => (rb_C th d j - rotation th d j) * pq j).
  Proof.
    unfold e, rb_new, rb_entry, rb_b, gap, rigid_disp. cbn [mp_b]. rewrite !rs3. rewrite !Imat_dlt by (try assumption; lia).
    fold m th pq. unfold transv. unfold pq. eqR. ring.
  Qed.
  Lemma gap_der : forall Xc t0 D (dR : nat -> R), through X Xc t0 D ->
    (forall j, (j < 3)%nat -> is_derive (fun t : R => rotation (rotv (Xc t) m) d j) t0 (dR j)) ->
    is_derive (fun t : R => gap pos m s d (Xc t)) t0 (D s d - D m d - rsumn 3 (fun j => dR j * pq j)).
  Proof.
    intros Xc t0 D dR (E & Cv) HR. unfold gap, rigid_disp.
    pose proof (Cv s d) as H1. pose proof (Cv m d) as H2.
    pose proof (HR 0%nat ltac:(lia)) as R0. pose proof (HR 1%nat ltac:(lia)) as R1. pose proof (HR 2%nat ltac:(lia)) as R2.
    unfold transv.
    apply (is_derive_ext (fun t => Xc t s d - (Xc t m d + ((rotation (rotv (Xc t) m) d 0 - dlt d 0) * pq 0%nat
       + (rotation (rotv (Xc t) m) d 1 - dlt d 1) * pq 1%nat + (rotation (rotv (Xc t) m) d 2 - dlt d 2) * pq 2%nat)))).
    { intros t. rewrite rs3. reflexivity. }
    eapply der_eq; [dv|]. rewrite rs3. ring.
  Qed.
  Lemma rot_curve : forall Xc t0 D, through X Xc t0 D -> forall k, (k < 3)%nat -> is_derive (fun t : R => rotv (Xc t) m k) t0 (D m (3 + k)%nat).
  Proof. intros Xc t0 D (E & Cv) k Hk. apply Cv. Qed.
  Lemma rotv_at : forall Xc t0 D, through X Xc t0 D -> forall k, rotv (Xc t0) m k = th k.
  Proof. intros Xc t0 D (E & Cv) k. unfold rotv. apply E. Qed.
  Lemma vnorm_ext : forall a b, (forall k, a k = b k) -> vnorm a = vnorm b.
  Proof. intros a b E. unfold vnorm. rewrite !E. reflexivity. Qed.
  Lemma cd_ext : forall k a b i j l, (forall k, a k = b k) -> cd k a i j l = cd k b i j l.
  Proof.
    intros k a b i j l E. unfold cd. assert (skew a i j = skew b i j) as ->.
    { unfold skew. destruct i as [|[|[|?]]], j as [|[|[|?]]]; rewrite ?E; reflexivity. }
    rewrite !E. reflexivity.
  Qed.
  Lemma gap_der_rot : forall Xc t0 D, through X Xc t0 D -> vnorm th <> 0 ->
    is_derive (fun t : R => gap pos m s d (Xc t)) t0
      (D s d - D m d - rsumn 3 (fun j => rsumn 3 (fun l => cd (ex_coefs (vnorm th)) th d j l * D m (3 + l)%nat) * pq j)).
  Proof.
    intros Xc t0 D T N.
    apply (gap_der Xc t0 D (fun j => rsumn 3 (fun l => cd (ex_coefs (vnorm th)) th d j l * D m (3 + l)%nat))); [exact T|].
    intros j Hj. pose proof (rotv_at _ _ _ T) as Ea. pose proof (vnorm_ext _ _ Ea) as En.
    assert (N' : vnorm (rotv (Xc t0) m) <> 0) by (rewrite En; assumption).
    eapply der_eq; [apply (d_rotation (fun t => rotv (Xc t) m) t0 (fun l => D m (3 + l)%nat) (rot_curve _ _ _ T) d j Hd Hj N')|].
    cbv beta. rewrite En. apply rsumn_ext. intros l Hl. rewrite (cd_ext _ _ _ _ _ _ Ea). reflexivity.
  Qed.
  Lemma gap_der_zero : forall Xc t0 D, through X Xc t0 D -> vnorm th = 0 ->
    is_derive (fun t : R => gap pos m s d (Xc t)) t0
      (D s d - D m d - rsumn 3 (fun j => rsumn 3 (fun l => LeviCivita d l j * D m (3 + l)%nat) * pq j)).
  Proof.
    intros Xc t0 D T N.
    apply (gap_der Xc t0 D (fun j => rsumn 3 (fun l => LeviCivita d l j * D m (3 + l)%nat))); [exact T|].
    intros j Hj. pose proof (rotv_at _ _ _ T) as Ea. pose proof (vnorm_ext _ _ Ea) as En.
    assert (N' : vnorm (rotv (Xc t0) m) = 0) by (rewrite En; assumption).
    apply (d_rotation0 (fun t => rotv (Xc t) m) t0 (fun l => D m (3 + l)%nat) (rot_curve _ _ _ T) d j Hd Hj N').
  Qed.
  Lemma lhs_exact : forall D c, (forall j l, (j < 3)%nat -> (l < 3)%nat -> rb_cDeriv th d j l = c j l) ->
    D s d - D m d - rsumn 3 (fun j => rsumn 3 (fun l => c j l * D m (3 + l)%nat) * pq j) = mpc_lhs e D.
  Proof. intros D c E. rewrite lhs_eq, !rs3. unfold rb_rot. rewrite !E by lia. ring. Qed.

  Lemma equation_large : small_angle <= vnorm th -> newton_equation pos m s d X e.
  Proof.
    intros L. assert (N : vnorm th <> 0) by (unfold small_angle in L; lra). split.
    - rewrite b_eq. rewrite rsumn_zero; [eqR; ring|]. intros j Hj. rewrite rb_C_large by assumption. ring.
    - intros Xc t0 D T. eapply der_eq; [exact (gap_der_rot Xc t0 D T N)|]. apply lhs_exact.
      intros j l Hj Hl. rewrite rb_cDeriv_cd by assumption. rewrite rb_coefs_large by assumption. reflexivity.
  Qed.
  Lemma equation_zero : vnorm th = 0 -> newton_equation pos m s d X e.
  Proof.
    intros N. split.
    - rewrite b_eq. rewrite rsumn_zero; [eqR; ring|]. intros j Hj. rewrite rb_C_zero by assumption. ring.
    - intros Xc t0 D T. eapply der_eq; [exact (gap_der_zero Xc t0 D T N)|]. apply lhs_exact.
      intros j l Hj Hl. assert (Z : forall k, (k < 3)%nat -> th k = 0) by (apply norm_0; assumption).
      rewrite rb_cDeriv_cd by assumption. unfold cd, rb_coefs. destruct (Rlt_dec (vnorm th) small_angle) as [_|n]; [|unfold small_angle in n; lra].
      cbn [k1 k2 k3 k4]. rewrite !Z by assumption. ring.
  Qed.
  Lemma sum_bound : forall (f : nat -> R) B, (forall j, (j < 3)%nat -> Rabs (f j) <= B) ->
    Rabs (rsumn 3 (fun j => f j * pq j)) <= B * arm pos m s.
  Proof.
    intros f B Hf. unfold arm. rewrite !rs3. fold (pq 0%nat) (pq 1%nat) (pq 2%nat).
    eapply Rle_trans; [apply add_le; [apply add_le|]; apply mul_le;
      [apply Hf; lia|apply Rle_refl|apply Hf; lia|apply Rle_refl|apply Hf; lia|apply Rle_refl]|]. lra.
  Qed.
  Lemma equation_small : 0 < vnorm th < small_angle -> near_newton_equation (2 / 10 ^ 10) (2 / 10 ^ 7) pos m s d X e.
  Proof.
    intros Ht. assert (N : vnorm th <> 0) by lra. pose proof Ht as Ht'. unfold small_angle in Ht'. set (t := vnorm th) in *. split.
    - rewrite b_eq. replace (- gap pos m s d X + rsumn 3 (fun j => (rb_C th d j - rotation th d j) * pq j) - - gap pos m s d X)
        with (rsumn 3 (fun j => (rb_C th d j - rotation th d j) * pq j)) by ring.
      apply sum_bound. intros j Hj. eapply Rle_trans; [apply small_C; assumption|]. fold t.
      assert (t ^ 3 <= (1 / 1000) ^ 3) by (apply pow_incr; lra). lra.
    - intros Xc t0 D T. eexists. split; [exact (gap_der_rot Xc t0 D T N)|]. rewrite lhs_eq.
      replace (D s d - D m d + rsumn 3 (fun l => rb_rot th pq d l * D m (3 + l)%nat) -
        (D s d - D m d - rsumn 3 (fun j => rsumn 3 (fun l => cd (ex_coefs (vnorm th)) th d j l * D m (3 + l)%nat) * pq j)))
        with (rsumn 3 (fun j => (- rsumn 3 (fun l => (rb_cDeriv th d j l - cd (ex_coefs (vnorm th)) th d j l) * D m (3 + l)%nat)) * pq j)).
      2:{ rewrite !rs3. unfold rb_rot. ring. }
      replace (2 / 10 ^ 7 * arm pos m s * rsumn 3 (fun l => Rabs (D m (3 + l)%nat)))
        with ((2 / 10 ^ 7 * rsumn 3 (fun l => Rabs (D m (3 + l)%nat))) * arm pos m s) by ring.
      apply sum_bound. intros j Hj. rewrite Rabs_Ropp.
      assert (B : forall l, (l < 3)%nat -> Rabs (rb_cDeriv th d j l - cd (ex_coefs (vnorm th)) th d j l) <= 2 / 10 ^ 7).
      { intros l Hl. eapply Rle_trans; [apply small_cd; assumption|]. fold t.
        assert (t ^ 2 <= (1 / 1000) ^ 2) by (apply pow_incr; lra). lra. }
      rewrite !rs3. eapply Rle_trans; [apply add_le; [apply add_le|]; apply mul_le;
        [apply B; lia|apply Rle_refl|apply B; lia|apply Rle_refl|apply B; lia|apply Rle_refl]|]. lra.
  Qed.
End Eq.

(* ---- other DoF types *)
Lemma inner_fatal : forall pos X (r : rigid) s n th w l j0 pre mids post,
  ~ Forall (fun d => (d < 3)%nat) l ->
  Forall2 (fun d e => exists b c, e = rb_entry (rb_master r) s d b c) l mids ->
  length pre = (n * length (rb_dofs r) + j0)%nat ->
  ofold (fun (coll : list (mpc RNum)) (jd : nat * nat) =>
          let '(j, d) := jd in
          i <- rb_axis d ;;
          let k := (n * length (rb_dofs r) + j)%nat in
          m <- aget coll k ;;
          u <- Ok (X s d) ;;
          ts <- set_coefs (@mp_terms RNum m) (rb_rot th pos i) ;;
          aset coll k (@mkMpc RNum (rb_b th w pos u i) ts)) (combine (seq j0 (length l)) l) (pre ++ mids ++ post) = Fatal.
Proof.
  intros pos X r s n th w l. induction l as [|d l IH]; intros j0 pre mids post N F Lp.
  - exfalso. apply N. constructor.
  - inversion F as [|? e ? mids' (b & c & He) F']; subst. cbn [length seq combine ofold].
    destruct (Nat.lt_ge_cases d 3) as [Hd|Hd].
    + assert (rb_axis d = Ok d) as -> by (c3 Hd; reflexivity). cbn [obind app]. rewrite <- Lp.
      rewrite aget_mid. cbn [obind]. unfold rb_entry. cbn [mp_terms set_coefs obind]. rewrite aset_mid. cbn [obind].
      match goal with |- ofold _ _ (pre ++ ?x :: mids' ++ post) = _ => replace (pre ++ x :: mids' ++ post) with ((pre ++ [x]) ++ mids' ++ post) by (rewrite <- app_assoc; reflexivity) end.
      apply IH; [|assumption|rewrite app_length; cbn; lia]. intros A. apply N. constructor; assumption.
    + assert (rb_axis d = Fatal) as -> by (destruct d as [|[|[|d]]]; [lia|lia|lia|reflexivity]). reflexivity.
Qed.
Lemma rb_update_fatal : forall pos X r coll, rb_shape r coll -> rb_slaves r <> [] -> ~ Forall (fun d => (d < 3)%nat) (rb_dofs r) ->
  rb_update (fun n => Ok (pos n)) (fun n d => Ok (X n d)) r coll = Fatal.
Proof.
  intros pos X r coll Sh Ns Nd. unfold rb_update, vec3. cbn [obind]. unfold rb_shape in Sh.
  destruct (rb_slaves r) as [|s l]; [congruence|]. cbn [length seq combine ofold obind list_prod] in *.
  apply Forall2_app' in Sh. destruct Sh as (c1 & c2 & -> & F1 & F2).
  assert (F1' : Forall2 (fun d e => exists b c, e = rb_entry (rb_master r) s d b c) (rb_dofs r) c1).
  { clear - F1. revert c1 F1. induction (rb_dofs r) as [|d ds IHd]; intros c1 F1; cbn in F1; inversion F1; subst; constructor; auto. }
  match goal with |- obind ?a _ = _ => assert (a = Fatal) as ->; [|reflexivity] end.
  apply (inner_fatal (fun i => pos s i - pos (rb_master r) i) X r s 0 _ _ (rb_dofs r) 0 [] c1 c2 Nd F1' eq_refl).
Qed.

(* ---- small angles: not a rotation *)
Definition tiny (i : nat) : R := match i with 0%nat => 1 / 2000 | _ => 0 end.
Lemma tiny_norm : vnorm tiny = 1 / 2000.
Proof. unfold vnorm, tiny. replace (1 / 2000 * (1 / 2000) + 0 * 0 + 0 * 0) with ((1 / 2000) * (1 / 2000)) by ring. apply sqrt_square. lra. Qed.
Lemma tiny_C : forall i j, (i < 3)%nat -> (j < 3)%nat -> rb_C tiny i j = rot_form (cos (1 / 2000)) 1 (1 / 2) tiny i j.
Proof.
  intros i j Hi Hj. rewrite rb_C_form by assumption. rewrite tiny_norm. unfold rb_coefs, small_angle.
  destruct (Rlt_dec (1 / 2000) (1 / 1000)); [reflexivity|lra].
Qed.
Lemma tiny_not_orth : gram (rb_C tiny) 1 1 <> 1.
Proof.
  unfold gram. rewrite rs3, !tiny_C by lia. unfold rot_form, tiny. cbn [skew]. dlts.
  pose proof (sin2_cos2 (1 / 2000)) as A. unfold Rsqr in A. pose proof (sin_lt_x (1 / 2000) ltac:(lra)) as B.
  assert (C : 0 < sin (1 / 2000)) by (apply sin_gt_0; [lra|pose proof PI_2'; lra]). nra.
Qed.
Definition X_tiny (n d : nat) : R := match n, d with 1%nat, 3%nat => 1 / 2000 | _, _ => 0 end.
Definition pos_arm (n i : nat) : R := match n, i with 2%nat, 1%nat => 1 | _, _ => 0 end.
Definition rb_tiny : rigid := mkRigid 1 [2%nat] [2%nat].
Lemma tiny_wrong_b : mp_b (rb_new pos_arm X_tiny rb_tiny 2 2) <> - gap pos_arm 1 2 2 X_tiny.
Proof.
  rewrite b_eq by lia. cbn [rb_tiny rb_master].
  assert (E : forall k, (k < 3)%nat -> rotv X_tiny 1 k = tiny k) by (intros k Hk; c3 Hk; reflexivity).
  rewrite rs3. rewrite !(rb_C_ext (rotv X_tiny 1) tiny) by (try exact E; lia). rewrite !tiny_C by lia.
  assert (R21 : rotation (rotv X_tiny 1) 2 1 = sin (1 / 2000)).
  { rewrite rotation_form by lia. assert (vnorm (rotv X_tiny 1) = 1 / 2000) as -> by (rewrite <- tiny_norm; unfold vnorm; rewrite !E by lia; reflexivity).
    unfold rot_form. cbn [skew k1 k2 ex_coefs]. rewrite (E 0%nat), (E 1%nat), (E 2%nat) by lia. unfold tiny. dlts. cbv beta iota. field. }
  rewrite R21. unfold rot_form, pos_arm, tiny. cbn [skew]. dlts.
  pose proof (sin_lt_x (1 / 2000) ltac:(lra)) as B.
  match goal with |- ?a <> ?b => change (~ (@eq R a b)) end. lra.
Qed.

Lemma gram_large : forall th i j, (i < 3)%nat -> (j < 3)%nat -> small_angle <= vnorm th -> gram (rb_C th) i j = dlt i j.
Proof.
  intros th i j Hi Hj H. unfold gram. rewrite <- (rotation_orth th i j Hi Hj). apply rsumn_ext. intros k Hk.
  rewrite !rb_C_large by assumption. reflexivity.
Qed.
Lemma det_large : forall th, small_angle <= vnorm th -> det33 (rb_C th) = 1.
Proof. intros th H. rewrite <- (rotation_det th). unfold det33. rewrite !rb_C_large by (try assumption; lia). reflexivity. Qed.

(* ---- the statements *)
Lemma rb_equations : forall pos X r coll, rb_shape r coll -> Forall (fun d => (d < 3)%nat) (rb_dofs r) ->
  exists coll', rb_update (fun n => Ok (pos n)) (fun n d => Ok (X n d)) r coll = Ok coll' /\ rb_shape r coll'
  /\ forall k s d, nth_error (list_prod (rb_slaves r) (rb_dofs r)) k = Some (s, d) ->
       exists e, nth_error coll' k = Some e
         /\ (vnorm (rotv X (rb_master r)) = 0 \/ small_angle <= vnorm (rotv X (rb_master r)) -> newton_equation pos (rb_master r) s d X e)
         /\ (0 < vnorm (rotv X (rb_master r)) < small_angle -> near_newton_equation (2 / 10 ^ 10) (2 / 10 ^ 7) pos (rb_master r) s d X e)
         /\ (forall D, D s d = D (rb_master r) d -> (forall l, (l < 3)%nat -> D (rb_master r) (3 + l)%nat = 0) -> mpc_lhs e D = 0).
Proof.
  intros pos X r coll Sh Hd. eexists. split; [apply rb_update_ok; assumption|]. split; [apply rb_new_shape|].
  intros k s d Hk. exists (rb_new pos X r s d).
  assert (Hd' : (d < 3)%nat).
  { apply nth_error_In in Hk. apply in_prod_iff in Hk. rewrite Forall_forall in Hd. apply Hd. apply Hk. }
  split; [rewrite nth_error_map, Hk; reflexivity|]. split; [|split].
  - intros [Z|L]; [apply equation_zero; assumption|apply equation_large; assumption].
  - intros H. apply equation_small; assumption.
  - intros D E Z. rewrite lhs_eq by assumption. rewrite E. rewrite rsumn_zero; [eqR; ring|]. intros l Hl. rewrite Z by assumption. ring.
Qed.
