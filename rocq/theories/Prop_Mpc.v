(* C65: the equations of RigidBodyMpc are the linearised rigid body constraints. *)
From Coq Require Import Reals Lra Lia.
Set Warnings "-ambiguous-paths".
From Coquelicot Require Import Coquelicot.
From Verif Require Import Base RealBase AsmModel MpcModel SpecMpc MpcProofs MpcSmall MpcFinal.
Local Open Scope R_scope.

(* update() on the equations made by pre() or by an earlier update() *)
Theorem C65_equations : forall pos X r coll, rb_shape r coll -> Forall (fun d => (d < 3)%nat) (rb_dofs r) ->
  exists coll', rb_update (fun n => Ok (pos n)) (fun n d => Ok (X n d)) r coll = Ok coll' /\ rb_shape r coll'
  /\ forall k s d, nth_error (list_prod (rb_slaves r) (rb_dofs r)) k = Some (s, d) ->
       exists e, nth_error coll' k = Some e
         /\ (vnorm (rotv X (rb_master r)) = 0 \/ small_angle <= vnorm (rotv X (rb_master r)) -> newton_equation pos (rb_master r) s d X e)
         /\ (0 < vnorm (rotv X (rb_master r)) < small_angle -> near_newton_equation (2 / 10 ^ 10) (2 / 10 ^ 7) pos (rb_master r) s d X e)
         /\ (forall D, D s d = D (rb_master r) d -> (forall l, (l < 3)%nat -> D (rb_master r) (3 + l)%nat = 0) -> mpc_lhs e D = 0).
Proof. exact rb_equations. Qed.
Print Assumptions C65_equations.
Theorem C65_pre : forall r, rb_shape r (rb_pre r).
Proof. exact rb_pre_shape. Qed.
Print Assumptions C65_pre.

Example C65_inhabited : rb_shape rb_tiny (rb_pre rb_tiny) /\ Forall (fun d => (d < 3)%nat) (rb_dofs rb_tiny)
  /\ exists k s d, nth_error (list_prod (rb_slaves rb_tiny) (rb_dofs rb_tiny)) k = Some (s, d).
Proof. split; [apply rb_pre_shape|]. split; [repeat constructor|]. exists 0%nat, 2%nat, 2%nat. reflexivity. Qed.

(* a DoF other than UX, UY, UZ stops the program *)
Theorem C65_other_dofs : forall pos X r coll, rb_shape r coll -> rb_slaves r <> [] -> ~ Forall (fun d => (d < 3)%nat) (rb_dofs r) ->
  rb_update (fun n => Ok (pos n)) (fun n d => Ok (X n d)) r coll = Fatal.
Proof. exact rb_update_fatal. Qed.
Print Assumptions C65_other_dofs.
Example C65_other_inhabited : let r := mkRigid 1 [2%nat] [0; 3]%nat in
  rb_shape r (rb_pre r) /\ rb_slaves r <> [] /\ ~ Forall (fun d => (d < 3)%nat) (rb_dofs r).
Proof.
  cbn. split; [apply rb_pre_shape|]. split; [discriminate|]. intros A. inversion A as [|? ? _ B]; subst. inversion B; subst. lia.
Qed.

(* the matrix is a rotation from the threshold on *)
Theorem C65_rotation : forall th, small_angle <= vnorm th ->
  (forall i j, (i < 3)%nat -> (j < 3)%nat -> rb_C th i j = rotation th i j /\ gram (rb_C th) i j = dlt i j) /\ det33 (rb_C th) = 1.
Proof.
  intros th H. split; [|exact (det_large th H)]. intros i j Hi Hj. split; [exact (rb_C_large th i j Hi Hj H)|exact (gram_large th i j Hi Hj H)].
Qed.
Print Assumptions C65_rotation.
Example C65_rotation_inhabited : small_angle <= vnorm (fun i => match i with 0%nat => 1 | _ => 0 end).
Proof. unfold small_angle, vnorm. replace (1 * 1 + 0 * 0 + 0 * 0) with 1 by ring. rewrite sqrt_1. lra. Qed.
(* what "rotation" means: orthogonal, determinant 1, fixes its axis, angles add up *)
Theorem C65_rotation_spec : forall th,
  (forall i j, (i < 3)%nat -> (j < 3)%nat -> gram (rotation th) i j = dlt i j) /\ det33 (rotation th) = 1
  /\ (forall i, (i < 3)%nat -> rsumn 3 (fun j => rotation th i j * th j) = th i)
  /\ (forall x y i j, (i < 3)%nat -> (j < 3)%nat ->
       rsumn 3 (fun k => rotation (fun l => x * th l) i k * rotation (fun l => y * th l) k j) = rotation (fun l => (x + y) * th l) i j).
Proof. intros th. exact (conj (rotation_orth th) (conj (rotation_det th) (conj (rotation_axis th) (rotation_group th)))). Qed.
Print Assumptions C65_rotation_spec.
(* below the threshold it is one only up to |th|^3/5 *)
Theorem C84_small_rotation_partial : forall th i j, (i < 3)%nat -> (j < 3)%nat -> 0 < vnorm th < small_angle ->
  Rabs (rb_C th i j - rotation th i j) <= vnorm th ^ 3 / 5.
Proof. exact small_C. Qed.
Print Assumptions C84_small_rotation_partial.
Theorem C84_small_rotation_refuted : exists th, 0 < vnorm th < small_angle /\ gram (rb_C th) 1 1 <> 1.
Proof. exists tiny. split; [rewrite tiny_norm; unfold small_angle; lra|exact tiny_not_orth]. Qed.
Print Assumptions C84_small_rotation_refuted.
Theorem C84_small_equation_refuted : exists pos X r s d, (d < 3)%nat /\ In (s, d) (list_prod (rb_slaves r) (rb_dofs r))
  /\ rb_update (fun n => Ok (pos n)) (fun n d => Ok (X n d)) r (rb_pre r) = Ok [rb_new pos X r s d]
  /\ ~ newton_equation pos (rb_master r) s d X (rb_new pos X r s d).
Proof.
  exists pos_arm, X_tiny, rb_tiny, 2%nat, 2%nat. split; [lia|]. split; [left; reflexivity|]. split.
  - exact (rb_update_ok pos_arm X_tiny rb_tiny _ (rb_pre_shape _) (Forall_cons (P := fun d => (d < 3)%nat) _ (le_n 3) (Forall_nil _))).
  - intros [A _]. exact (tiny_wrong_b A).
Qed.
Print Assumptions C84_small_equation_refuted.
