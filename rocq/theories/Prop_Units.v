(* C156: the units of length and force do not matter *)
From Coq Require Import Reals Lra Lia.
From Verif Require Import Base BaseProofs RealBase MatModel SparseModel BlockModel DofModel SpecDof AsmModel SpecAsm AsmFinal SolveModel SpecSolve GaussModel SpecGauss GaussProofs
  IsoModel SpecIso ElemModel SpecElem ElemBase ElemProofs SpecBal BalProofs BalMore StructModel SpecStruct StructProofs StructFinal StructMore TrussProofs HeatCases SpecTurned TurnedProofs TurnedHeat
  SpecTurnedSolid TurnedSolid Prop_Bal Prop_Turned Prop_TurnedSolid SpecUnits UnitsProofs.
Import SolveModel.
Local Open Scope R_scope.
Local Open Scope list_scope.

(* ---------------- C156 ---------------- *)
Theorem C156_structure : forall big big' (u u' : nat -> list R), (forall n, length (u n) = n) -> (forall n, length (u' n) = n) ->
  forall nn nn' l f pos pos' ms loads fixes loads' fixes' st st' rs rs',
  0 < l -> scaled_nodes l (flat_map m_nodes ms) pos pos' -> scaled_supports l fixes fixes' ->
  (forall k, (total_load (K := RNum) loads' k : R) = f * total_load (K := RNum) loads k) ->
  struct_ok nn pos ms loads fixes -> struct_ok nn' pos' (map (in_units l f) ms) loads' fixes' -> plain_fixes big fixes -> plain_fixes big' fixes' -> Forall new ms ->
  struct_solve big (gauss_slv (K := RG) u) nn pos ms loads fixes = Ok (st, rs) ->
  struct_solve big' (gauss_slv (K := RG) u') nn' pos' (map (in_units l f) ms) loads' fixes' = Ok (st', rs') ->
  (forall n i, s_node ms n -> (i < 3)%nat -> disp st' (KNode, n, i) = l * disp st (KNode, n, i) /\ ext st' (KNode, n, i) = f * ext st (KNode, n, i)) /\
  Forall2 (result_in_units l f) rs rs'.
Proof.
  intros big big' u u' HU HU' nn nn' l f pos pos' ms loads fixes loads' fixes' st st' rs rs' A B C D E F G H I J K.
  exact (structure_units big big' u u' HU HU' nn nn' l f pos pos' ms loads fixes loads' fixes' st st' rs rs' A B C D E F G H I J K).
Qed.
Print Assumptions C156_structure.

(* the three bars of C154, lengths by 2 and forces by 3 *)
Definition tri2 : list member := map (in_units 2 3) tri.
Definition tri2_pos (n i : nat) : R := 2 * tri_pos 1 0 n i.
Lemma tri2_key n t : (1 <= n <= 4)%nat -> (t < 3)%nat -> s_key tri2 (KNode, n, t).
Proof. intros Hn Ht. split; [apply units_node; exact (proj1 (tri_key n t Hn Ht))|exact Ht]. Qed.
Lemma tri2_ok x y : struct_ok 4 tri2_pos tri2 (tri_loads x y) tri_fixes.
Proof.
  apply struct_small.
  - assert (D : forall n, In n [1; 2; 3]%nat -> exists i, (i < 3)%nat /\ at_nodes tri2_pos [n; 4]%nat 1 i <> at_nodes tri2_pos [n; 4]%nat 0 i).
    { intros n Hn. unfold at_nodes, tri2_pos. cbn [nth]. destruct Hn as [<-|[<-|[<-|[]]]]; [exists 0%nat|exists 1%nat|exists 2%nat]; (split; [lia|]); cbn [tri_pos]; lra. }
    unfold tri2, tri. cbn [map in_units].
    repeat (apply Forall_cons; [|]); [| | |apply Forall_nil]; unfold m_ok; cbn [m_nodes]; (split; [repeat constructor; cbn; intuition discriminate|]); (split; [repeat constructor|]); apply D; cbn; auto.
  - cbn [tri_loads]; repeat (apply Forall_cons; [apply tri2_key; cbn; lia|]); apply Forall_nil.
  - cbn [map tri_fixes]; repeat (apply Forall_cons; [apply tri2_key; cbn; lia|]); apply Forall_nil.
  - exists (KNode, 4, 0)%nat. split; [apply tri2_key; lia|]. cbn. intros F. decompose [or] F; discriminate || assumption.
  - vm_compute. lia.
Qed.
Lemma tri2_solves big (u : nat -> list R) x y : (forall n, length (u n) = n) ->
  exists st rs, struct_solve big (gauss_slv (K := RG) u) 4 tri2_pos tri2 (tri_loads x y) tri_fixes = Ok (st, rs).
Proof.
  intros HU. destruct (C113_ends big u HU _ _ _ _ _ (tri2_ok x y)) as [F|G]; [exfalso|exact G].
  destruct (C113_truss_refused big u HU _ _ _ _ _ (tri2_ok x y) ltac:(repeat constructor) ltac:(vm_compute; lia) F) as (w & W0 & (k & Hk & Fk & Wk) & WF).
  assert (Z : forall n t, (1 <= n <= 3)%nat -> (t < 3)%nat -> w (KNode, n, t) = 0).
  { intros n t Hn Ht. apply W0; [|apply tri2_key; lia]. destruct n as [|[|[|[|]]]]; try lia; destruct t as [|[|[|]]]; try lia; discriminate. }
  assert (K0 : exists i, (i < 3)%nat /\ k = (KNode, 4, i)%nat).
  { destruct k as [[[|] n] t]; [destruct Hk|]. destruct Hk as [(m & Hm & Hn) Ht]. exists t. split; [exact Ht|].
    destruct Hm as [<-|[<-|[<-|[]]]]; destruct Hn as [<-|[<-|[]]]; try reflexivity; destruct t as [|[|[|]]]; try lia; discriminate Fk. }
  destruct K0 as (i & Hi & ->).
  specialize (WF 4%nat i (proj1 (tri2_key 4 0 ltac:(lia) ltac:(lia))) Hi Fk).
  assert (D : forall n, (1 <= n <= 3)%nat -> dist3 (tri2_pos n) (tri2_pos 4) = 2).
  { intros n Hn. unfold dist3, tri2_pos. transitivity (sqrt (2 * 2)); [|apply sqrt_square; lra]. f_equal. destruct n as [|[|[|[|]]]]; try lia; cbn [tri_pos]; ring. }
  unfold tri2, tri in WF. cbn [map in_units] in WF. rewrite !sumR_cons, sumR_nil in WF. cbn [pull bar_stress stretch] in WF. unfold axis, at_nodes in WF. cbn [nth Nat.eqb] in WF.
  rewrite !r3, !D in WF by lia. rewrite !(Z 1%nat), !(Z 2%nat), !(Z 3%nat) in WF by lia.
  match type of WF with Rabs ?a < _ => replace a with (3 / 2 * w (KNode, 4, i)%nat) in WF end.
  - rewrite Wk in WF. rewrite Rabs_right in WF; lra.
  - destruct i as [|[|[|]]]; try lia; unfold tri2_pos; cbn [tri_pos]; req; field.
Qed.
Example C156_example : scaled_nodes 2 (flat_map m_nodes tri) (tri_pos 1 0) tri2_pos /\ scaled_supports 2 tri_fixes tri_fixes /\
  (forall k, (total_load (K := RNum) (tri_loads 3 6) k : R) = 3 * total_load (K := RNum) (tri_loads 1 2) k) /\ Forall new tri /\
  forall big (u : nat -> list R), (forall n, length (u n) = n) -> plain_fixes big tri_fixes /\ exists st rs st' rs',
    struct_solve big (gauss_slv (K := RG) u) 4 (tri_pos 1 0) tri (tri_loads 1 2) tri_fixes = Ok (st, rs) /\
    struct_solve big (gauss_slv (K := RG) u) 4 tri2_pos (map (in_units 2 3) tri) (tri_loads 3 6) tri_fixes = Ok (st', rs') /\
    disp st' (KNode, 4, 1)%nat = 2 * disp st (KNode, 4, 1)%nat.
Proof.
  assert (A : scaled_nodes 2 (flat_map m_nodes tri) (tri_pos 1 0) tri2_pos) by (intros n i _ _; reflexivity).
  assert (B : scaled_supports 2 tri_fixes tri_fixes).
  { intros k. destruct (last_fix tri_fixes k) as [y|] eqn:E; [|reflexivity]. rewrite (tri_zero k y E). f_equal. change (@eq R 0 (2 * 0)). ring. }
  assert (C : forall k, (total_load (K := RNum) (tri_loads 3 6) k : R) = 3 * total_load (K := RNum) (tri_loads 1 2) k).
  { intros [[[|] n] i]; unfold total_load, tri_loads, pin; [cbn; req; ring|]. destruct n as [|[|[|[|[|n]]]]]; destruct i as [|[|i]]; cbn; req; ring. }
  split; [exact A|]. split; [exact B|]. split; [exact C|]. split; [repeat constructor|].
  intros big u HU. assert (PF : plain_fixes big tri_fixes) by (intros k y Hk _; eapply tri_zero; eauto). split; [exact PF|].
  destruct (tri_solves big u 1 0 1 2 HU ltac:(lra)) as (st & rs & E1). destruct (tri2_solves big u 3 6 HU) as (st' & rs' & E2).
  exists st, rs, st', rs'. split; [exact E1|]. split; [exact E2|].
  destruct (C156_structure big big u u HU HU 4 4 2 3 _ _ tri _ _ _ _ st st' rs rs' ltac:(lra) A B C (tri_ok 1 0 1 2 ltac:(lra)) (tri2_ok 3 6) PF PF ltac:(repeat constructor) E1 E2) as [V _].
  exact (proj1 (V 4%nat 1%nat (proj1 (tri_key 4 0 ltac:(lia) ltac:(lia))) ltac:(lia))).
Qed.

(* the four tetrahedra of C120, lengths by 2 and forces by 3 *)
Definition ustar (n i : nat) : R := 2 * star_pos n i.
Definition ustar_solid : list member := map (in_units 2 3) star_solid.
Lemma ustar_nodes ns : scaled_nodes 2 ns star_pos ustar.
Proof. intros n i _ _. reflexivity. Qed.
Lemma ustar_node n : s_node ustar_solid n <-> (1 <= n <= 5)%nat.
Proof. unfold ustar_solid. rewrite units_node. apply solid_node. Qed.
Lemma star_new : Forall new star_solid.
Proof. apply Forall_forall. intros m Hm. apply solid_member in Hm as (a & b & c & d & _ & ->). split; reflexivity. Qed.
Lemma ustar_ok f : struct_ok 5 ustar ustar_solid [] (outer3 f [1; 2; 3; 4]%nat).
Proof.
  destruct (solid_star_ok f) as [M L F E C]. split.
  - apply Forall_map. rewrite Forall_forall in M |- *. intros m Hm. destruct (M m Hm) as (A1 & A2 & A3). apply solid_member in Hm as (a & b & c & d & H & ->).
    cbn [in_units m_nodes] in *. cbv zeta in *. split; [exact A1|]. split; [exact A2|]. destruct A3 as [A3 A4]. split; [exact A3|].
    rewrite <- tet_vol_eq in *. rewrite (vol_u 2 (at_nodes star_pos [a; b; c; d])); [|intros n j _ _; reflexivity]. apply Rmult_integral_contrapositive_currified; [lra|exact A4].
  - constructor.
  - eapply Forall_impl; [|exact F]. intros x. cbv beta. destruct (bc_key x) as [[[|] n] i]; [intros A; exact A|]. intros [A B]. split; [apply units_node, A|exact B].
  - exists (KNode, 5, 0)%nat. split; [split; [apply ustar_node; lia|cbn; lia]|]. cbn. intros G. decompose [or] G; discriminate || assumption.
  - exact C.
Qed.
Lemma ustar_solved big u f : (forall n, length (u n) = n) ->
  exists st rs, struct_solve big (gauss_slv (K := RG) u) 5 ustar ustar_solid [] (outer3 f [1; 2; 3; 4]%nat) = Ok (st, rs).
Proof.
  intros HU. pose proof (ustar_ok f) as OK. destruct (struct_run big u HU 5 ustar ustar_solid [] _ OK) as (b & B & [[LF _]|(st & rs & _ & H)]); [exfalso|eauto].
  destruct (struct_good 5 ustar ustar_solid [] _ b OK B) as [GL DN].
  destruct (refused RG RG_laws big u HU 5 _ _ _ [] _ GL DN ltac:(vm_compute; lia) LF) as (w & W0 & (k & Hk & Fk & Wk) & WF).
  assert (exists w0 : key -> R, w0 = w) as (w0 & EW) by (exists w; reflexivity).
  set (v := fun k : key => / 2 * w0 k).
  assert (TV : forall ns, scaled_at 2 ns v w0) by (intros ns n i _ _; unfold v; field).
  assert (Z : forall x i, (1 <= x <= 4)%nat -> (i < 3)%nat -> v (KNode, x, i) = 0).
  { intros x i Hx Hi. unfold v. rewrite EW. rewrite W0; [change (/ 2 * 0 = 0); ring|rewrite solid_fix by assumption; discriminate|]. apply s_keys. split; [apply ustar_node; lia|exact Hi]. }
  set (S := fun t => 7 / 3 * v (KNode, 5%nat, t) + 1 / 3 * (v (KNode, 5%nat, 0%nat) + v (KNode, 5%nat, 1%nat) + v (KNode, 5%nat, 2%nat))).
  assert (SS : forall t, (t < 3)%nat -> @sumof RNum _ (fun m => mstiff star_pos v m 5 t) star_solid = S t).
  { intros t Ht. rewrite (sumR_ext _ (star_force (fun i => v (KNode, 5%nat, i)) t)).
    - unfold star_solid, star_nodes. cbn [map]. rewrite !sumR_cons, sumR_nil. req. unfold star_force, S. rewrite !r3. unfold hat_grad. cbn [m_nodes Nat.eqb].
      destruct t as [|[|[|t]]]; try lia; cbn [Nat.eqb]; lra.
    - intros m Hm. pose proof solid_all as M. rewrite Forall_forall in M. destruct (build_ok 5 star_pos m (M m Hm)) as (m' & c & E & _).
      rewrite <- (star_stiff m m' c 0%nat t v Hm E Ht Z). symmetry. apply (member_forces 5 star_pos m m' c 0%nat 5 t v (M m Hm)); [|exact E|exact Ht].
      destruct (solid_member m Hm) as (p & q & r & s & _ & ->). split; reflexivity. }
  assert (Q : forall t, (t < 3)%nat -> Rabs (3 * S t) < / 10 ^ 20).
  { intros t Ht. specialize (WF (KNode, 5%nat, t)). rewrite s_keys in WF. specialize (WF (conj (proj2 (ustar_node 5) ltac:(lia)) Ht) (solid_free f t)).
    cbn [RG glt gabs gtiny gn] in WF. unfold Rltb in WF. destruct (Rlt_dec _ _) as [Q|]; [|discriminate].
    rewrite <- EW in Q. rewrite (contribs_sum 5 ustar ustar_solid b _ (fun m => mstiff ustar w0 m 5 t) (sk_members _ _ _ _ _ OK) B) in Q.
    - unfold ustar_solid in Q. rewrite sum_map in Q. rewrite (sumR_ext _ (fun m => 3 * mstiff star_pos v m 5 t)) in Q.
      + rewrite sum_scale, SS in Q by exact Ht. exact Q.
      + intros m Hm. apply (mstiff_u 2 3 ltac:(lra)); [apply ustar_nodes|apply TV|exact Ht].
    - intros en m m' c Hm E. pose proof (sk_members _ _ _ _ _ OK) as M. pose proof (units_new 2 3 _ star_new) as N. rewrite Forall_forall in M, N.
      apply (member_forces 5 ustar m m' c en 5 t w0 (M m Hm) (N m Hm) E Ht). }
  apply s_keys in Hk. destruct k as [[[|] n] t]; [destruct Hk|]. destruct Hk as [Hn Ht]. apply ustar_node in Hn.
  destruct (Nat.eq_dec n 5) as [->|N]; [|rewrite solid_fix in Fk by lia; discriminate].
  pose proof (Q 0%nat ltac:(lia)) as Q0. pose proof (Q 1%nat ltac:(lia)) as Q1. pose proof (Q 2%nat ltac:(lia)) as Q2. apply Rabs_def2 in Q0, Q1, Q2. clear Q.
  assert (T2 : / 10 ^ 20 < / 100) by (apply Rinv_lt_contravar; lra).
  set (e := / 10 ^ 20) in *. clearbody e. change (gn RG) with RNum in *. cbn [RNum r1] in Wk. rewrite <- EW in Wk.
  unfold S, v in *. clear - Q0 Q1 Q2 Wk T2 Ht.
  destruct t as [|[|[|t]]]; try lia; lra.
Qed.
Example C156_example_tetrahedra : let fixes := outer3 field [1; 2; 3; 4]%nat in let fixes' := outer3 (fun n t => 2 * field n t) [1; 2; 3; 4]%nat in
  scaled_nodes 2 (flat_map m_nodes star_solid) star_pos ustar /\ scaled_supports 2 fixes fixes' /\
  struct_ok 5 star_pos star_solid [] fixes /\ struct_ok 5 ustar (map (in_units 2 3) star_solid) [] fixes' /\ Forall new star_solid /\
  exists st rs st' rs', struct_solve (fun _ => true) (gauss_slv (K := RG) (repeat 0)) 5 star_pos star_solid [] fixes = Ok (st, rs) /\
    struct_solve (fun _ => true) (gauss_slv (K := RG) (repeat 0)) 5 ustar (map (in_units 2 3) star_solid) [] fixes' = Ok (st', rs').
Proof.
  cbv zeta. split; [apply ustar_nodes|]. split; [|split; [apply solid_star_ok|split; [apply ustar_ok|split; [apply star_new|]]]].
  - intros [[[|] n] i]; [reflexivity|]. destruct n as [|[|[|[|[|n]]]]]; destruct i as [|[|[|i]]]; reflexivity.
  - destruct (solid_star_solved (fun _ => true) (repeat 0) field (@repeat_length R 0)) as (st & rs & E). destruct (ustar_solved (fun _ => true) (repeat 0) (fun n t => 2 * field n t) (@repeat_length R 0)) as (st' & rs' & E').
    exists st, rs, st', rs'. split; [exact E|exact E'].
Qed.
