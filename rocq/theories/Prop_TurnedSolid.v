(* C155: the direction of a structure of bars and tetrahedra does not matter *)
From Coq Require Import Reals Lra Lia.
From Verif Require Import Base BaseProofs RealBase MatModel SparseModel BlockModel DofModel SpecDof AsmModel SpecAsm AsmFinal SolveModel SpecSolve GaussModel SpecGauss GaussProofs
  IsoModel SpecIso ElemModel SpecElem ElemBase ElemProofs SpecBal BalProofs BalMore StructModel SpecStruct StructProofs StructFinal StructMore TrussProofs HeatCases SpecTurned TurnedProofs TurnedHeat
  SpecTurnedSolid TurnedSolid Prop_Turned.
Import SolveModel.
Local Open Scope R_scope.
Local Open Scope list_scope.

(* ---------------- C155 ---------------- *)
Theorem C155_structure : forall big big' (u u' : nat -> list R), (forall n, length (u n) = n) -> (forall n, length (u' n) = n) ->
  forall nn Q c pos pos' ms loads fixes loads' fixes' st st' rs rs',
  rotation Q -> turned_nodes Q c (flat_map m_nodes ms) pos pos' -> turned_supports Q fixes fixes' ->
  (forall n, turned_values Q (total_load (K := RNum) loads) (total_load (K := RNum) loads') n) ->
  struct_ok nn pos ms loads fixes -> struct_ok nn pos' ms loads' fixes' -> plain_fixes big fixes -> plain_fixes big' fixes' -> Forall new ms ->
  struct_solve big (gauss_slv (K := RG) u) nn pos ms loads fixes = Ok (st, rs) ->
  struct_solve big' (gauss_slv (K := RG) u') nn pos' ms loads' fixes' = Ok (st', rs') ->
  (forall n, s_node ms n -> turned_values Q (disp st) (disp st') n /\ turned_values Q (ext st) (ext st') n) /\ Forall2 (turned_result Q) rs rs'.
Proof.
  intros big big' u u' HU HU' nn Q c pos pos' ms loads fixes loads' fixes' st st' rs rs' A B C D E F G H I J K.
  exact (structure_turned big big' u u' HU HU' nn Q c pos pos' ms loads fixes loads' fixes' st st' rs rs' A B C D E F G H I J K).
Qed.
Print Assumptions C155_structure.

(* the four tetrahedra of C120, turned by the angle of the 3-4-5 triangle *)
Definition Qz : nat -> nat -> R := about_z (3 / 5) (4 / 5).
Definition tstar (n i : nat) : R := 0 + turn Qz (star_pos n) i.
Lemma tstar_nodes ns : turned_nodes Qz (fun _ => 0) ns star_pos tstar.
Proof. intros n i _ _. reflexivity. Qed.
Lemma tstar_ok f : struct_ok 5 tstar star_solid [] (outer3 f [1; 2; 3; 4]%nat).
Proof.
  destruct (solid_star_ok f) as [M L F E C]. split; auto. rewrite Forall_forall in M |- *. intros m Hm. destruct (M m Hm) as (A1 & A2 & A3). split; [exact A1|]. split; [exact A2|].
  apply solid_member in Hm as (a & b & c & d & H & ->). cbn [m_nodes] in *. cbv zeta in *. destruct A3 as [A3 A4]. split; [exact A3|].
  rewrite <- tet_vol_eq in *. rewrite (tet_vol_turned Qz (fun _ => 0) z_rotation 4 (at_nodes star_pos [a; b; c; d])); [exact A4| |lia]. intros n j _ _. reflexivity.
Qed.
Lemma tstar_solved big u f : (forall n, length (u n) = n) ->
  exists st rs, struct_solve big (gauss_slv (K := RG) u) 5 tstar star_solid [] (outer3 f [1; 2; 3; 4]%nat) = Ok (st, rs).
Proof.
  intros HU. pose proof (tstar_ok f) as OK. destruct (struct_run big u HU 5 tstar star_solid [] _ OK) as (b & B & [[LF _]|(st & rs & _ & H)]); [exfalso|eauto].
  destruct (struct_good 5 tstar star_solid [] _ b OK B) as [GL DN].
  destruct (refused RG RG_laws big u HU 5 _ _ _ [] _ GL DN ltac:(vm_compute; lia) LF) as (w & W0 & (k & Hk & Fk & Wk) & WF).
  assert (exists w0 : key -> R, w0 = w) as (w0 & EW) by (exists w; reflexivity).
  set (v := fun k : key => match k with (KNode, n, i) => rsumn 3 (fun j => Qz j i * w0 (KNode, n, j)) | _ => 0 end).
  assert (TV : forall n, turned_values Qz v w0 n).
  { intros n i Hi. unfold turn, at_node, v. rewrite !r3. destruct i as [|[|[|]]]; try lia; cbn [Qz about_z]; field. }
  assert (Z : forall x i, (1 <= x <= 4)%nat -> (i < 3)%nat -> v (KNode, x, i) = 0).
  { assert (Z : forall x i, (1 <= x <= 4)%nat -> (i < 3)%nat -> w0 (KNode, x, i) = 0).
    { intros x i Hx Hi. rewrite EW. apply W0; [rewrite solid_fix by assumption; discriminate|]. apply s_keys. split; [apply solid_node; lia|exact Hi]. }
    intros x i Hx Hi. unfold v. rewrite r3, !(Z x) by lia. ring. }
  set (S := fun t => 7 / 3 * v (KNode, 5%nat, t) + 1 / 3 * (v (KNode, 5%nat, 0%nat) + v (KNode, 5%nat, 1%nat) + v (KNode, 5%nat, 2%nat))).
  assert (SS : forall t, (t < 3)%nat -> @sumof RNum _ (fun m => mstiff star_pos v m 5 t) star_solid = S t).
  { intros t Ht. rewrite (sumR_ext _ (star_force (fun i => v (KNode, 5%nat, i)) t)).
    - unfold star_solid, star_nodes. cbn [map]. rewrite !sumR_cons, sumR_nil. req. unfold star_force, S. rewrite !r3. unfold hat_grad. cbn [m_nodes Nat.eqb].
      destruct t as [|[|[|t]]]; try lia; cbn [Nat.eqb]; lra.
    - intros m Hm. pose proof solid_all as M. rewrite Forall_forall in M. destruct (build_ok 5 star_pos m (M m Hm)) as (m' & c & E & _).
      rewrite <- (star_stiff m m' c 0%nat t v Hm E Ht Z). symmetry. apply (member_forces 5 star_pos m m' c 0%nat 5 t v (M m Hm)); [|exact E|exact Ht].
      destruct (solid_member m Hm) as (p & q & r & s & _ & ->). split; reflexivity. }
  assert (Q : forall t, (t < 3)%nat -> Rabs (turn Qz S t) < / 10 ^ 20).
  { intros t Ht. specialize (WF (KNode, 5%nat, t)). rewrite s_keys in WF. specialize (WF (conj (proj2 (solid_node 5) ltac:(lia)) Ht) (solid_free f t)).
    cbn [RG glt gabs gtiny gn] in WF. unfold Rltb in WF. destruct (Rlt_dec _ _) as [Q|]; [|discriminate].
    rewrite <- EW in Q. rewrite (contribs_sum 5 tstar star_solid b _ (fun m => turn Qz (fun j => mstiff star_pos v m 5 j) t) (sk_members _ _ _ _ _ OK) B) in Q.
    - rewrite turn_sum in Q. match type of Q with Rabs ?x < _ => match goal with |- Rabs ?y < _ => replace y with x; [exact Q|] end end.
      unfold turn. apply rsumn_ext. intros j Hj. rewrite SS by exact Hj. reflexivity.
    - intros en m m' c Hm E. pose proof (sk_members _ _ _ _ _ OK) as M. rewrite Forall_forall in M.
      etransitivity; [apply (member_forces 5 tstar m m' c en 5 t w0 (M m Hm)); [|exact E|exact Ht]|].
      + destruct (solid_member m Hm) as (p & q & r & s & _ & ->). split; reflexivity.
      + apply (mstiff_turned Qz (fun _ => 0) z_rotation); [apply tstar_nodes|intros n _; apply TV|exact Ht]. }
  apply s_keys in Hk. destruct k as [[[|] n] t]; [destruct Hk|]. destruct Hk as [Hn Ht]. apply solid_node in Hn.
  destruct (Nat.eq_dec n 5) as [->|N]; [|rewrite solid_fix in Fk by lia; discriminate].
  pose proof (Q 0%nat ltac:(lia)) as Q0. pose proof (Q 1%nat ltac:(lia)) as Q1. pose proof (Q 2%nat ltac:(lia)) as Q2. apply Rabs_def2 in Q0, Q1, Q2. clear Q. pose proof tiny1 as T1.
  assert (T2 : / 10 ^ 20 < / 100) by (apply Rinv_lt_contravar; lra).
  set (e := / 10 ^ 20) in *. clearbody e. change (gn RG) with RNum in *. cbn [RNum r1] in Wk. rewrite <- EW, (TV 5%nat t Ht) in Wk.
  unfold turn, at_node in Q0, Q1, Q2, Wk. rewrite r3 in Q0, Q1, Q2, Wk. cbn [Qz about_z] in Q0, Q1, Q2. unfold S in *. clear - Q0 Q1 Q2 Wk T2 Ht.
  destruct t as [|[|[|t]]]; try lia; cbn [Qz about_z] in Wk; lra.
Qed.
(* the outer nodes held at a field, the same field turned for the turned body *)
Definition field (n t : nat) : R := INR (n * n + t).
Example C155_example : let fixes := outer3 field [1; 2; 3; 4]%nat in let fixes' := outer3 (fun n => turn Qz (field n)) [1; 2; 3; 4]%nat in
  rotation Qz /\ turned_nodes Qz (fun _ => 0) (flat_map m_nodes star_solid) star_pos tstar /\ turned_supports Qz fixes fixes' /\
  (forall n, turned_values Qz (total_load (K := RNum) []) (total_load (K := RNum) []) n) /\
  struct_ok 5 star_pos star_solid [] fixes /\ struct_ok 5 tstar star_solid [] fixes' /\ plain_fixes (fun _ => true) fixes /\ plain_fixes (fun _ => true) fixes' /\ Forall new star_solid /\
  exists st rs st' rs', struct_solve (fun _ => true) (gauss_slv (K := RG) (repeat 0)) 5 star_pos star_solid [] fixes = Ok (st, rs) /\
    struct_solve (fun _ => true) (gauss_slv (K := RG) (repeat 0)) 5 tstar star_solid [] fixes' = Ok (st', rs').
Proof.
  cbv zeta. split; [exact z_rotation|]. split; [apply tstar_nodes|]. split; [|split; [|split; [apply solid_star_ok|split; [apply tstar_ok|split; [discriminate|split; [discriminate|split]]]]]].
  - intros n i Hi. destruct (le_lt_dec 1 n) as [H1|H1]; [destruct (le_lt_dec n 4) as [H4|H4]|].
    + rewrite solid_fix by lia. exists (field n). split; [|reflexivity]. intros j Hj _. rewrite solid_fix by lia. reflexivity.
    + destruct n as [|[|[|[|[|n]]]]]; try lia. destruct i as [|[|[|]]]; try lia; intros j Hj _; destruct j as [|[|[|]]]; try lia; reflexivity.
    + destruct n; [|lia]. destruct i as [|[|[|]]]; try lia; intros j Hj _; destruct j as [|[|[|]]]; try lia; reflexivity.
  - intros n i Hi. unfold turn. rewrite r3. unfold at_node, total_load. cbn. req. ring.
  - apply Forall_forall. intros m Hm. apply solid_member in Hm as (a & b & c & d & _ & ->). split; reflexivity.
  - destruct (solid_star_solved (fun _ => true) (repeat 0) field (@repeat_length R 0)) as (st & rs & E). destruct (tstar_solved (fun _ => true) (repeat 0) (fun n => turn Qz (field n)) (@repeat_length R 0)) as (st' & rs' & E').
    exists st, rs, st', rs'. split; [exact E|exact E'].
Qed.
