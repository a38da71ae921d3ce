(* C123-C127: heat conduction in time *)
From Coq Require Import Reals Lra Lia.
From Verif Require Import Base BaseProofs RealBase SparseModel BlockModel DofModel SpecDof AsmModel SpecAsm SolveModel SpecSolve GaussModel SpecGauss TransModel SpecTrans SpecTransKeys
  IsoModel SpecIso ElemModel SpecElem ThermModel SpecTherm StructModel SpecStruct StructFinal HeatModel SpecHeat HeatFinal HeatCases HeatTransModel SpecHeatTrans HeatTransFinal HeatTransLaws HeatTransCases.
Local Open Scope R_scope.

Definition always (v : R) : bool := true.
Lemma always_big v : always v = false -> v = 0.
Proof. discriminate. Qed.
Definition at_node (n : nat) (q : R) : list (bc RNum) := [mkBC (K := RNum) n TEMP q].
Lemma plate_load htc e n q : In n [1; 2; 3; 4]%nat -> Forall (fun l => h_key (map th_m (plate htc e)) (bc_key (K := RNum) l)) (at_node n q).
Proof. intros H. constructor; [|constructor]. split; [|reflexivity]. exists (HQuad 2 1 0 1 2 3 4). split; [now left|exact H]. Qed.

(* ---------------- C123 ---------------- *)
(* no prescribed temperatures: the heat stored by the rate that a step works with is what the sources, the edges and the loads give
   at the temperatures at the end of the step *)
Theorem C123_rate : forall big, (forall v, big v = false -> v = 0) -> forall nn pos xs loads, heat_ok nn pos (map th_m xs) loads [] -> Forall (fun x => plane (th_m x)) xs ->
  forall cfg : trset RG, (tr_alpha cfg : R) <> 0 -> (tr_dt cfg : R) <> 0 -> forall slv, exact_solver slv -> forall fuel g Rl s0 log,
  heat_trans big slv fuel cfg nn pos xs loads [] = Ok (g, Rl, s0, log) ->
  each_step (fun st st' => stored pos xs (rate cfg g st st') = input pos xs loads (mU g st')) s0 log.
Proof. intros; eapply run_rate; eauto. Qed.
Print Assumptions C123_rate.
(* nothing given and nothing exchanged: the heat stored stays the same *)
Theorem C123_insulated : forall big, (forall v, big v = false -> v = 0) -> forall nn pos xs loads, heat_ok nn pos (map th_m xs) loads [] -> Forall (fun x => plane (th_m x)) xs ->
  forall cfg : trset RG, (tr_alpha cfg : R) <> 0 -> (tr_dt cfg : R) <> 0 -> forall slv, exact_solver slv -> forall fuel g Rl s0 log,
  heat_trans big slv fuel cfg nn pos xs loads [] = Ok (g, Rl, s0, log) ->
  (tr_delta cfg : R) <> 0 -> Forall isolated (map th_m xs) -> input pos xs loads (fun _ => 0) = 0 ->
  Forall (fun st => stored pos xs (mU g st) = stored pos xs (mU g s0)) log.
Proof. intros; eapply run_insulated; eauto. Qed.
Print Assumptions C123_insulated.
(* with the default equation solver a run is a result, a fatal error or a run that does not end *)
Theorem C123_ends : forall big nn pos xs loads fixes, heat_ok nn pos (map th_m xs) loads fixes -> Forall (fun x => plane (th_m x)) xs ->
  forall (cfg : trset RG) (u : nat -> list R), (forall n, length (u n) = n) -> (forall v, big v = false -> v = 0) -> (tr_alpha cfg : R) <> 0 -> (tr_dt cfg : R) <> 0 -> forall fuel,
  heat_trans big (gauss_slv (K := RG) u) fuel cfg nn pos xs loads fixes = Fatal \/ heat_trans big (gauss_slv (K := RG) u) fuel cfg nn pos xs loads fixes = Loop \/
  exists r, heat_trans big (gauss_slv (K := RG) u) fuel cfg nn pos xs loads fixes = Ok r.
Proof. exact heat_trans_ends. Qed.
Print Assumptions C123_ends.
(* a plate with an edge that exchanges heat runs through any number of steps *)
Example C123_example : forall htc e q n init, (0 < n)%nat -> 0 <= htc ->
  heat_ok 4 plate_pos (map th_m (plate htc e)) (at_node 3 q) [] /\ Forall (fun x => plane (th_m x)) (plate htc e) /\
  exact_solver (K := RNum) (gauss_slv (K := RG) (repeat 0)) /\ (tr_dt (steps n init) : R) = 1 /\
  exists g Rl s0 log, heat_trans always (gauss_slv (K := RG) (repeat 0)) n (steps n init) 4 plate_pos (plate htc e) (at_node 3 q) [] = Ok (g, Rl, s0, log) /\ length log = n.
Proof.
  intros htc e q n init Hn Hh. split; [apply plate_ok, plate_load; cbn; lia|]. split; [repeat constructor|]. split; [apply gs_exact, repeat_length|].
  split; [now apply steps_dt|]. apply (plate_runs always always_big (repeat 0)); [apply repeat_length|exact Hn|exact Hh|apply plate_load; cbn; lia].
Qed.
(* heat 5 given at one corner and taken at another *)
Example C123_kept : Forall isolated (map th_m (plate 0 7)) /\ input plate_pos (plate 0 7) (at_node 3 5 ++ at_node 1 (-5)) (fun _ => 0) = 0.
Proof.
  split; [repeat constructor|]. unfold input, plate. rewrite !sum_cons. unfold at_node. cbn [app]. rewrite !sum_cons.
  repeat match goal with |- context [@sumof RNum _ ?f []] => change (@sumof RNum _ f []) with 0 end. cbn [th_m source_at fst snd bc_val].
  set (a := quad_unit 2 * _). set (b := dist3 _ _). set (c := (_ / 2 - _ / 2)).
  change (0 * a + (b * (0 + 0 * c) + 0) + (5 + (-5 + 0)) = 0). ring.
Qed.

(* ---------------- C124 ---------------- *)
(* default alpha and delta, a constant flow of heat into a body without exchange: after n + 1 steps the body has stored the heat of n + 1/2 steps *)
Theorem C124_lag : forall big, (forall v, big v = false -> v = 0) -> forall nn pos xs loads, heat_ok nn pos (map th_m xs) loads [] -> Forall (fun x => plane (th_m x)) xs ->
  forall cfg : trset RG, (tr_alpha cfg : R) = 1 / 4 -> (tr_delta cfg : R) = 1 / 2 -> (tr_dt cfg : R) <> 0 -> forall slv, exact_solver slv -> forall fuel g Rl s0 log,
  heat_trans big slv fuel cfg nn pos xs loads [] = Ok (g, Rl, s0, log) -> Forall isolated (map th_m xs) ->
  forall n st, nth_error log n = Some st ->
  stored pos xs (mU g st) = stored pos xs (mU g s0) + input pos xs loads (fun _ => 0) * (tr_dt cfg * (INR n + 1 / 2)).
Proof. intros big BIG nn pos xs loads OK PL cfg HA HE HD slv EX fuel g Rl s0 log HS IS. eapply run_lag; eauto. rewrite HA; lra. Qed.
Print Assumptions C124_lag.
(* the heat given in the time that has passed is not the heat stored *)
Theorem C124_stored_refuted : exists nn pos xs (loads : list (bc RNum)) (cfg : trset RG), heat_ok nn pos (map th_m xs) loads [] /\ Forall (fun x => plane (th_m x)) xs /\ Forall isolated (map th_m xs) /\
  (tr_alpha cfg : R) = 1 / 4 /\ (tr_delta cfg : R) = 1 / 2 /\ exists g Rl s0 log,
  heat_trans always (gauss_slv (K := RG) (repeat 0)) 10 cfg nn pos xs loads [] = Ok (g, Rl, s0, log) /\ length log = 10%nat /\
  forall n st, nth_error log n = Some st -> stored pos xs (mU g st) <> stored pos xs (mU g s0) + input pos xs loads (fun _ => 0) * (tr_dt cfg * INR (S n)).
Proof.
  assert (LO : Forall (fun l => h_key (map th_m (plate 0 0)) (bc_key (K := RNum) l)) (at_node 3 1)) by (apply plate_load; cbn; lia).
  destruct (plate_runs always always_big (repeat 0) (@repeat_length R 0) 0 0 (at_node 3 1) 10 0 ltac:(lia) ltac:(lra) LO) as (g & Rl & s0 & log & E & L).
  exists 4%nat, plate_pos, (plate 0 0), (at_node 3 1), (steps 10 0). split; [now apply plate_ok|]. split; [repeat constructor|]. split; [repeat constructor|]. split; [reflexivity|]. split; [reflexivity|].
  exists g, Rl, s0, log. split; [exact E|]. split; [exact L|]. intros n st Hn. rewrite (steps_dt 10 0) by lia.
  rewrite (C124_lag always always_big 4 plate_pos (plate 0 0) (at_node 3 1) (plate_ok 0 0 _ LO) ltac:(repeat constructor) (steps 10 0) eq_refl eq_refl
    ltac:(rewrite steps_dt by lia; lra) _ (gs_exact (repeat 0) (@repeat_length R 0)) 10 g Rl s0 log E ltac:(repeat constructor) n st Hn).
  rewrite (steps_dt 10 0) by lia. assert (Q : input plate_pos (plate 0 0) (at_node 3 1) (fun _ => 0) = 1).
  { unfold input, plate. rewrite !sum_cons. unfold at_node. rewrite !sum_cons.
    repeat match goal with |- context [@sumof RNum _ ?f []] => change (@sumof RNum _ f []) with 0 end. cbn [th_m source_at fst snd bc_val].
    set (a := quad_unit 2 * _). set (b := dist3 _ _). set (c := (_ / 2 - _ / 2)).
    change (0 * a + (b * (0 + 0 * c) + 0) + (1 + 0) = 1). ring. }
  rewrite Q, S_INR. generalize (stored plate_pos (plate 0 0) (mU g s0)). intros v. generalize (INR n). intros m H.
  change (v + 1 * (1 * (m + 1 / 2)) = v + 1 * (1 * (m + 1))) in H. lra.
Qed.
Print Assumptions C124_stored_refuted.

(* ---------------- C125 ---------------- *)
(* a body that starts at the temperature of its surroundings keeps it *)
Theorem C125_rest : forall big, (forall v, big v = false -> v = 0) -> forall nn pos xs, heat_ok nn pos (map th_m xs) [] [] -> Forall (fun x => plane (th_m x)) xs ->
  forall cfg : trset RG, (tr_alpha cfg : R) <> 0 -> (tr_dt cfg : R) <> 0 -> forall u : nat -> list R, (forall n, length (u n) = n) -> forall fuel g Rl s0 log,
  heat_trans big (gauss_slv (K := RG) u) fuel cfg nn pos xs [] [] = Ok (g, Rl, s0, log) ->
  forall e, Forall (settled e) (map th_m xs) -> (tr_init cfg : R) = e ->
  Forall (fun st => forall k, h_key (map th_m xs) k -> mU g st k = e) log.
Proof. intros big BIG nn pos xs OK PL cfg HA HD u HU fuel g Rl s0 log HS e SE IN. eapply run_rest; eauto. now apply gs_exact. Qed.
Print Assumptions C125_rest.
Example C125_example : forall htc e n, (0 < n)%nat -> 0 <= htc -> Forall (settled e) (map th_m (plate htc e)) /\ heat_ok 4 plate_pos (map th_m (plate htc e)) [] [] /\
  exists g Rl s0 log, heat_trans always (gauss_slv (K := RG) (repeat 0)) n (steps n e) 4 plate_pos (plate htc e) [] [] = Ok (g, Rl, s0, log) /\ length log = n.
Proof.
  intros htc e n Hn Hh. split; [constructor; [reflexivity|constructor; [cbn; auto|constructor]]|]. split; [apply plate_ok; constructor|].
  apply (plate_runs always always_big (repeat 0)); [apply repeat_length|exact Hn|exact Hh|constructor].
Qed.

(* ---------------- C126 ---------------- *)
(* default alpha and delta, steps of any length, surroundings and prescribed temperatures zero: the temperatures never grow in the measure of the heat capacity *)
Theorem C126_decay : forall big, (forall v, big v = false -> v = 0) -> forall nn pos xs fixes, heat_ok nn pos (map th_m xs) [] fixes -> Forall (fun x => plane (th_m x)) xs ->
  forall cfg : trset RG, (tr_alpha cfg : R) = 1 / 4 -> (tr_delta cfg : R) = 1 / 2 -> 0 < tr_dt cfg -> forall slv, exact_solver slv -> forall fuel g Rl s0 log,
  heat_trans big slv fuel cfg nn pos xs [] fixes = Ok (g, Rl, s0, log) ->
  (forall k y, last_fix fixes k = Some y -> y = 0) -> Forall cools (map th_m xs) -> Forall capacious xs ->
  each_step (fun st st' => warmth pos xs (mU g st') <= warmth pos xs (mU g st)) s0 log.
Proof.
  intros big BIG nn pos xs fixes OK PL cfg HA HE HD slv EX fuel g Rl s0 log HS F0 CO CA.
  eapply run_decay; eauto; [rewrite HA; lra|]. intros H. rewrite H in HD. exact (Rlt_irrefl 0 HD).
Qed.
Print Assumptions C126_decay.
Example C126_example : forall htc n init, (0 < n)%nat -> 0 <= htc -> Forall cools (map th_m (plate htc 0)) /\ Forall capacious (plate htc 0) /\
  heat_ok 4 plate_pos (map th_m (plate htc 0)) [] [] /\
  exists g Rl s0 log, heat_trans always (gauss_slv (K := RG) (repeat 0)) n (steps n init) 4 plate_pos (plate htc 0) [] [] = Ok (g, Rl, s0, log) /\ length log = n.
Proof.
  intros htc n init Hn Hh. split; [constructor; [cbn; lra|constructor; [cbn; lra|constructor]]|]. split; [constructor; [unfold capacious; cbn; lra|constructor; [unfold capacious; cbn; lra|constructor]]|].
  split; [apply plate_ok; constructor|]. apply (plate_runs always always_big (repeat 0)); [apply repeat_length|exact Hn|exact Hh|constructor].
Qed.

(* ---------------- C127 ---------------- *)
(* quadrangles that start at e, with e prescribed at nodes: unless all temperatures are prescribed, the body leaves the temperature e *)
Theorem C127_departs : forall big, (forall v, big v = false -> v = 0) -> forall nn pos xs fixes, heat_ok nn pos (map th_m xs) [] fixes -> Forall (fun x => plane (th_m x)) xs ->
  forall cfg : trset RG, (tr_alpha cfg : R) <> 0 -> (tr_dt cfg : R) <> 0 -> forall slv, exact_solver slv -> forall fuel g Rl s0 log,
  heat_trans big slv fuel cfg nn pos xs [] fixes = Ok (g, Rl, s0, log) ->
  forall e, Forall conducting (map th_m xs) -> (tr_init cfg : R) = e -> e <> 0 -> (forall k y, last_fix fixes k = Some y -> y = e) ->
  (exists m a b, In m (map th_m xs) /\ In a (h_nodes m) /\ In b (h_nodes m) /\ last_fix fixes (KNode, a, TEMP) <> None /\ last_fix fixes (KNode, b, TEMP) = None) ->
  log <> [] -> exists st k, In st log /\ h_key (map th_m xs) k /\ last_fix fixes k = None /\ mU g st k <> e.
Proof. intros; eapply run_held; eauto. Qed.
Print Assumptions C127_departs.
(* a square plate that starts at 20 degrees with one corner held at 20 degrees *)
Theorem C127_held_refuted : exists nn pos xs (fixes : list (bc RNum)) (cfg : trset RG), heat_ok nn pos (map th_m xs) [] fixes /\ Forall (fun x => plane (th_m x)) xs /\ Forall conducting (map th_m xs) /\
  (tr_init cfg : R) = 20 /\ (forall k y, last_fix fixes k = Some y -> y = 20) /\ exists g Rl s0 log,
  heat_trans always (gauss_slv (K := RG) (repeat 0)) 10 cfg nn pos xs [] fixes = Ok (g, Rl, s0, log) /\
  exists st k, In st log /\ h_key (map th_m xs) k /\ last_fix fixes k = None /\ mU g st k <> 20.
Proof.
  destruct (bare_runs always always_big (repeat 0) (@repeat_length R 0) 20 10 20 ltac:(lia)) as (g & Rl & s0 & log & E & L).
  exists 4%nat, plate_pos, bare, (outer (fun _ => 20) [1]%nat), (steps 10 20).
  assert (CD : Forall conducting (map th_m bare)) by (constructor; [cbn; repeat split; lra || lia|constructor]).
  assert (FE : forall k y, last_fix (outer (fun _ => 20) [1]%nat) k = Some y -> y = 20).
  { intros k y H. unfold last_fix, outer in H. cbn [map fold_left bc_val] in H. destruct (key_dec _ k) in H; congruence. }
  split; [apply bare_ok|]. split; [repeat constructor|]. split; [exact CD|]. split; [reflexivity|]. split; [exact FE|].
  exists g, Rl, s0, log. split; [exact E|].
  refine (C127_departs always always_big 4 plate_pos bare _ (bare_ok 20) ltac:(repeat constructor) (steps 10 20) ltac:(cbn; lra) ltac:(rewrite steps_dt by lia; lra) _
    (gs_exact (repeat 0) (@repeat_length R 0)) 10 g Rl s0 log E 20 CD eq_refl ltac:(lra) FE _ ltac:(destruct log; discriminate)).
  exists (HQuad 2 1 0 1 2 3 4), 1%nat, 2%nat. split; [now left|]. split; [now left|]. split; [right; now left|]. split; [cbn; discriminate|reflexivity].
Qed.
Print Assumptions C127_held_refuted.
