(* Heat conduction in time: what every run obeys *)
From Coq Require Import Reals Lra Lia.
From Verif Require Import Base BaseProofs RealBase MatModel SparseModel BlockModel DofModel SpecDof NumberingProofs AsmModel SpecAsm AsmLists AsmProofs AsmRun AsmFinal
  SolveModel SpecSolve GaussModel SpecGauss GaussProofs IsoModel SpecIso IsoProofs ElemModel SpecElem ElemBase ElemProofs ElemMore ThermModel SpecTherm ThermProofs ThermMore
  SpecBal BalProofs BalMore StructModel SpecStruct StructProofs StructFinal StructMore HeatModel SpecHeat PartProofs HeatProofs HeatFinal HeatMore
  TransModel SpecTrans TransProofs SpecTransKeys TransKeys HeatTransModel SpecHeatTrans HeatTransProofs HeatTransFinal.
Local Open Scope R_scope.

Lemma each_nth {K : Num} (P : TransModel.motion K -> TransModel.motion K -> Prop) (I : nat -> TransModel.motion K -> Prop) s log :
  each_step P s log -> forall m, I m s -> (forall n st st', I n st -> P st st' -> I (S n) st') -> forall n st, nth_error log n = Some st -> I (S m + n)%nat st.
Proof.
  revert s. induction log as [|s' log IH]; intros s H m Hm HI n st E; [destruct n; discriminate|]. destruct H as [H1 H2]. destruct n as [|n].
  - injection E as <-. rewrite Nat.add_0_r. exact (HI _ _ _ Hm H1).
  - specialize (IH s' H2 (S m) (HI _ _ _ Hm H1) HI n st E). replace (S m + S n)%nat with (S (S m) + n)%nat by lia. exact IH.
Qed.
Lemma each_all {K : Num} (P : TransModel.motion K -> TransModel.motion K -> Prop) (I : TransModel.motion K -> Prop) s log :
  each_step P s log -> I s -> (forall st st', I st -> P st st' -> I st') -> Forall I log.
Proof.
  revert s. induction log as [|s' log IH]; intros s H Hs HI; [constructor|]. destruct H as [H1 H2]. pose proof (HI _ _ Hs H1). constructor; eauto.
Qed.
Lemma each_impl {K : Num} (P Q : TransModel.motion K -> TransModel.motion K -> Prop) (I : TransModel.motion K -> Prop) s log :
  each_step P s log -> I s -> (forall st st', I st -> P st st' -> I st' /\ Q st st') -> each_step Q s log.
Proof.
  revert s. induction log as [|s' log IH]; intros s H Hs HI; [exact Logic.I|]. destruct H as [H1 H2]. destruct (HI _ _ Hs H1). split; eauto.
Qed.
Lemma sum_each {A} (f : A -> R) l : (forall x, In x l -> 0 <= f x) -> @sumof RNum _ f l = 0 -> forall x, In x l -> f x = 0.
Proof.
  induction l as [|y l IH]; intros H E x Hx; [destruct Hx|]. rewrite sum_cons in E.
  assert (0 <= f y) by (apply H; now left). assert (0 <= @sumof RNum _ f l) by (apply sum_le; intros; apply H; now right).
  assert (@sumof RNum _ f l = 0) by lra. destruct Hx as [<-|Hx]; [lra|]. apply IH; auto. intros; apply H; now right.
Qed.
Lemma capacity_ext_r pos xs v w w' : (forall k, h_key (map th_m xs) k -> w k = w' k) -> capacity pos xs v w = capacity pos xs v w'.
Proof. intros H. rewrite (capacity_sym _ _ v w), (capacity_sym _ _ v w'). now apply capacity_ext. Qed.
Lemma capacity_nonneg nn pos xs v : Forall (h_ok nn pos) (map th_m xs) -> Forall capacious xs -> 0 <= capacity pos xs v v.
Proof.
  intros M C. rewrite Forall_forall in M, C. apply sum_le. intros x Hx. unfold cap_work. specialize (C x Hx). unfold capacious in C. pose proof (M (th_m x) (in_map _ _ _ Hx)) as (_ & _ & D).
  destruct (th_m x) as [|ord k vf a b c d|]; try lra. apply Rmult_le_pos; [exact C|]. apply (quad_sum_nonneg ord _ (fun r s => field _ r s * field _ r s)); [exact D|]. intros; apply Rle_0_sqr.
Qed.

Section Laws.
  Variable big : R -> bool.
  Hypothesis BIG : forall v, big v = false -> v = 0.
  Variables (nn : nat) (pos : nat -> nat -> R) (xs : list thermal) (loads fixes : list (bc RNum)).
  Notation ms := (map th_m xs).
  Hypothesis OK : heat_ok nn pos ms loads fixes.
  Hypothesis PL : Forall (fun x => plane (th_m x)) xs.
  Variable cfg : trset RG.
  Hypothesis HA : tr_alpha cfg <> 0.
  Hypothesis HD : (tr_dt cfg : R) <> 0.
  Variable slv : eqsolver RNum.
  Hypothesis EX : exact_solver slv.
  Variables (fuel : nat) (g : gst RNum) (Rl : list R) (s0 : TransModel.motion RNum) (log : list (TransModel.motion RNum)).
  Hypothesis HS : heat_trans big slv fuel cfg nn pos xs loads fixes = Ok (g, Rl, s0, log).
  Notation dt := (tr_dt cfg : R).

  (* prescribed temperatures zero, or none *)
  Lemma force_free ks u w : h_built pos ms ks -> (forall k, h_key ms k -> last_fix fixes k <> None -> u k = 0) ->
    @sumof RNum _ (force_work (free fixes u) w) (contribs (map h_nodes ms) (map (fun c => [c]) ks)) = @sumof RNum _ (force_work u w) (contribs (map h_nodes ms) (map (fun c => [c]) ks)).
  Proof.
    intros B Z. destruct (h_damp_each pos xs PL) as (cs & _ & B'). destruct (heat_good nn pos xs loads fixes OK ks cs B B') as (GT & _).
    apply sumR_ext. intros [[en nodes] c] Hx. unfold force_work. apply sumR_ext. intros p _. refine (f_equal2 Rmult _ eq_refl). cbn [elem_force elem_stiff]. refine (f_equal2 Rminus _ eq_refl).
    apply sumR_ext. intros q Hq. apply in_seq in Hq. refine (f_equal2 Rmult eq_refl _). unfold free.
    destruct (last_fix fixes _) eqn:E; [|reflexivity]. symmetry. apply Z; [|congruence]. apply keys_are.
    destruct (gr_K _ _ _ _ _ _ _ _ GT) as [_ G]. destruct (G _ _ _ Hx) as [_ GK]. rewrite Forall_forall in GK. apply GK, nth_In. lia.
  Qed.

  (* ---- no prescribed temperatures: heat *)
  Section Heat.
    Hypothesis F0 : fixes = [].
    Lemma nofix k : last_fix fixes k = None.
    Proof. rewrite F0. reflexivity. Qed.
    Lemma known_rate ks cs st st' : h_built pos ms ks -> h_damped pos xs cs -> known xs loads fixes cfg ks cs g st st' ->
      stored pos xs (rate cfg g st st') = input pos xs loads (mU g st').
    Proof.
      intros B B' Kn. pose proof (flow_work nn pos xs loads fixes OK ks cs B B' (mU g st') (rate cfg g st st') (fun _ => 1)) as W.
      rewrite (force_free ks _ _ B) in W by (intros k _ N; now rewrite nofix in N). rewrite (source_total nn pos xs loads fixes OK ks B), capacity_stored in W.
      rewrite (sumR_ext _ (fun k => total_load loads k)) in W by (intros; apply Rmult_1_r). rewrite (loads_total nn pos xs loads fixes OK) in W.
      unfold input. rewrite <- (sum_map (source_at pos (mU g st')) th_m xs).
      assert (Q := W ltac:(intros k _ N; now rewrite nofix in N) (kn_flow _ _ _ _ _ _ _ _ _ Kn)). lra.
    Qed.
    Theorem run_rate : each_step (fun st st' => stored pos xs (rate cfg g st st') = input pos xs loads (mU g st')) s0 log.
    Proof.
      destruct (heat_run big nn pos xs loads fixes OK PL cfg slv BIG EX HA HD fuel g Rl s0 log HS) as (ks & cs & B & B' & _ & ST & _).
      apply (each_impl _ _ (fun _ => True) _ _ ST Logic.I). intros st st' _ Kn. split; [exact Logic.I|]. exact (known_rate ks cs st st' B B' Kn).
    Qed.
    Lemma stored_lin a b v w : stored pos xs (fun k => a * v k + b * w k) = a * stored pos xs v + b * stored pos xs w.
    Proof. rewrite <- !capacity_stored. apply capacity_lin. Qed.
    Lemma stored_ext v w : (forall k, h_key ms k -> v k = w k) -> stored pos xs v = stored pos xs w.
    Proof. intros H. rewrite <- !capacity_stored. now apply capacity_ext. Qed.
    Lemma stored_lin3 a b c u v w : stored pos xs (fun k => a * u k + b * v k + c * w k) = a * stored pos xs u + b * stored pos xs v + c * stored pos xs w.
    Proof.
      rewrite (stored_ext _ (fun k => 1 * (fun k => a * u k + b * v k) k + c * w k)) by (intros; ring). rewrite stored_lin, stored_lin. ring.
    Qed.
    (* heat flows of a step, in terms of stored heat *)
    Lemma known_stored ks cs st st' : known xs loads fixes cfg ks cs g st st' ->
      stored pos xs (mU g st') = stored pos xs (mU g st) + dt * stored pos xs (mV g st) + dt * dt * ((1 / 2 - tr_alpha cfg) * stored pos xs (mA g st) + tr_alpha cfg * stored pos xs (mA g st')) /\
      stored pos xs (mV g st') = stored pos xs (mV g st) + dt * ((1 - tr_delta cfg) * stored pos xs (mA g st') + tr_delta cfg * stored pos xs (mA g st)) /\
      stored pos xs (rate cfg g st st') = stored pos xs (mV g st) + dt * ((1 - tr_delta cfg) * stored pos xs (mA g st) + tr_delta cfg * stored pos xs (mA g st')).
    Proof.
      intros Kn. split; [|split].
      - rewrite (stored_ext _ (fun k => 1 * (fun k => 1 * mU g st k + dt * mV g st k + dt * dt * (1 / 2 - tr_alpha cfg) * mA g st k) k + dt * dt * tr_alpha cfg * mA g st' k)).
        + rewrite stored_lin, stored_lin3. ring.
        + intros k Hk. rewrite (kn_U _ _ _ _ _ _ _ _ _ Kn k Hk). req. ring.
      - rewrite (stored_ext _ (fun k => 1 * mV g st k + dt * (1 - tr_delta cfg) * mA g st' k + dt * tr_delta cfg * mA g st k)).
        + rewrite stored_lin3. ring.
        + intros k Hk. rewrite (kn_V _ _ _ _ _ _ _ _ _ Kn k Hk). req. ring.
      - rewrite (stored_ext _ (fun k => 1 * mV g st k + dt * (1 - tr_delta cfg) * mA g st k + dt * tr_delta cfg * mA g st' k)).
        + rewrite stored_lin3. ring.
        + intros k Hk. unfold rate. req. ring.
    Qed.
    Lemma stored_zero v : (forall k, h_key ms k -> v k = 0) -> stored pos xs v = 0.
    Proof. intros H. rewrite (stored_ext v (fun k => 0 * v k + 0 * v k)) by (intros; rewrite H by assumption; req; ring). rewrite stored_lin. ring. Qed.
    (* no exchange that depends on the temperature *)
    Lemma input_const v : Forall isolated ms -> input pos xs loads v = input pos xs loads (fun _ => 0).
    Proof.
      intros IS. unfold input. f_equal. apply sumR_ext. intros x Hx. rewrite Forall_forall in IS. specialize (IS (th_m x) (in_map _ _ _ Hx)). unfold source_at.
      destruct (th_m x) as [| |ord flux htc e a b]; try reflexivity. cbn [isolated] in IS. subst htc. ring.
    Qed.
    Theorem run_insulated : tr_delta cfg <> 0 -> Forall isolated ms -> input pos xs loads (fun _ => 0) = 0 -> Forall (fun st => stored pos xs (mU g st) = stored pos xs (mU g s0)) log.
    Proof.
      intros HDe IS Q0. destruct (heat_run big nn pos xs loads fixes OK PL cfg slv BIG EX HA HD fuel g Rl s0 log HS) as (ks & cs & B & B' & S0 & ST & _).
      assert (G : Forall (fun st => stored pos xs (mU g st) = stored pos xs (mU g s0) /\ stored pos xs (mV g st) = 0 /\ stored pos xs (mA g st) = 0) log).
      - apply (each_all _ _ _ _ ST).
        + split; [reflexivity|]. split; apply stored_zero; intros k Hk; apply S0, Hk.
        + intros st st' (I1 & I2 & I3) Kn. destruct (known_stored ks cs st st' Kn) as (E1 & E2 & E3). rewrite (known_rate ks cs st st' B B' Kn), input_const, Q0 in E3 by exact IS.
          rewrite I1, I2, I3 in *. assert (A0 : stored pos xs (mA g st') = 0).
          { apply Rmult_eq_reg_l with (dt * tr_delta cfg); [|now apply Rmult_integral_contrapositive_currified]. set (x := stored pos xs (mA g st')) in *. set (d := tr_delta cfg : R) in *. set (h := tr_dt cfg : R) in *.
            replace (h * d * 0) with 0 by ring. rewrite E3. ring. }
          rewrite A0 in *. split; [rewrite E1; ring|]. split; [rewrite E2; ring|reflexivity].
      - eapply Forall_impl; [|exact G]. cbn. tauto.
    Qed.
    (* the defaults of the solver *)
    Hypothesis DA : (tr_alpha cfg : R) = 1 / 4.
    Hypothesis DD : (tr_delta cfg : R) = 1 / 2.
    Theorem run_lag : Forall isolated ms -> forall n st, nth_error log n = Some st ->
      stored pos xs (mU g st) = stored pos xs (mU g s0) + input pos xs loads (fun _ => 0) * (dt * (INR n + 1 / 2)).
    Proof.
      intros IS. destruct (heat_run big nn pos xs loads fixes OK PL cfg slv BIG EX HA HD fuel g Rl s0 log HS) as (ks & cs & B & B' & S0 & ST & _).
      set (Q := input pos xs loads (fun _ => 0)). intros n st E.
      enough (G : (fun m st => stored pos xs (mV g st) = (if (m =? 0)%nat then 0 else Q) /\
         stored pos xs (mU g st) = stored pos xs (mU g s0) + Q * (dt * (if (m =? 0)%nat then 0 else INR m - 1 / 2))) (1 + n)%nat st).
      { destruct G as [_ G]. cbn [Nat.add Nat.eqb] in G. rewrite G, S_INR. set (h := tr_dt cfg : R). req. field. }
      refine (each_nth _ (fun m st => stored pos xs (mV g st) = (if (m =? 0)%nat then 0 else Q) /\
         stored pos xs (mU g st) = stored pos xs (mU g s0) + Q * (dt * (if (m =? 0)%nat then 0 else INR m - 1 / 2))) s0 log ST 0%nat _ _ n st E).
      - cbn [Nat.eqb]. split; [apply stored_zero; intros k Hk; apply S0, Hk|]. set (h := tr_dt cfg : R). req. ring.
      - intros m s s' [I1 I2] Kn. destruct (known_stored ks cs s s' Kn) as (E1 & E2 & E3). rewrite (known_rate ks cs s s' B B' Kn), input_const in E3 by exact IS. fold Q in E3.
        rewrite DA, DD in *. cbn [Nat.eqb]. set (h := tr_dt cfg : R) in *. set (u := stored pos xs (mU g s)) in *. set (v := stored pos xs (mV g s)) in *. set (a := stored pos xs (mA g s)) in *.
        set (u' := stored pos xs (mU g s')) in *. set (v' := stored pos xs (mV g s')) in *. set (a' := stored pos xs (mA g s')) in *.
        assert (V' : v' = Q) by lra. split; [exact V'|].
        assert (U' : u' = u + h / 2 * (v + v')) by (rewrite E1, E2; field). rewrite U', V', I1, I2. destruct m as [|m].
        + cbn [Nat.eqb]. change (INR 1) with 1. field.
        + cbn [Nat.eqb]. rewrite (S_INR (S m)). field.
    Qed.
  End Heat.

  (* ---- surroundings of temperature zero: decay *)
  Section Decay.
    Hypothesis L0 : loads = [].
    Hypothesis F0 : forall k y, last_fix fixes k = Some y -> y = 0.
    Hypothesis CO : Forall cools ms.
    Hypothesis CA : Forall capacious xs.
    Hypothesis DA : (tr_alpha cfg : R) = 1 / 4.
    Hypothesis DD : (tr_delta cfg : R) = 1 / 2.
    Hypothesis DP : 0 < dt.
    Theorem run_decay : each_step (fun st st' => warmth pos xs (mU g st') <= warmth pos xs (mU g st)) s0 log.
    Proof.
      destruct (heat_run big nn pos xs loads fixes OK PL cfg slv BIG EX HA HD fuel g Rl s0 log HS) as (ks & cs & B & B' & S0 & ST & _).
      set (cap := capacity pos xs). set (con := conduct xs ks).
      assert (ext1 : forall v v' w, (forall k, h_key ms k -> v k = v' k) -> cap v w = cap v' w) by (intros; now apply capacity_ext).
      (* C v + K u = 0 on the fields w that vanish where the temperature is prescribed *)
      set (bal := fun st => forall w, (forall k, h_key ms k -> last_fix fixes k <> None -> w k = 0) -> cap (mV g st) w + con (mU g st) w = 0).
      set (fixd := fun st => forall k, h_key ms k -> last_fix fixes k <> None -> mU g st k = 0).
      apply (each_impl (known xs loads fixes cfg ks cs g) _ (fun st => fixd st /\ ((forall k, h_key ms k -> mV g st k = 0) \/ bal st)) _ _ ST).
      - split; [|left; intros k Hk; apply S0, Hk]. intros k Hk Nk. destruct (S0 k Hk) as [-> _]. destruct (last_fix fixes k) as [y|] eqn:E; [|congruence]. now apply (F0 k).
      - intros st st' [FX BV] Kn.
        assert (FX' : fixd st') by (intros k Hk Nk; rewrite (kn_fix _ _ _ _ _ _ _ _ _ Kn k Hk Nk); now apply FX).
        assert (VR : forall k, h_key ms k -> rate cfg g st st' k = mV g st' k).
        { intros k Hk. rewrite (kn_V _ _ _ _ _ _ _ _ _ Kn k Hk). unfold rate. rewrite DD. set (h := tr_dt cfg : R). req. field. }
        assert (BL : bal st').
        { intros w W0. pose proof (flow_work nn pos xs loads fixes OK ks cs B B' (mU g st') (rate cfg g st st') w W0 (kn_flow _ _ _ _ _ _ _ _ _ Kn)) as W.
          rewrite (force_free ks _ _ B FX'), (force_conduct0 big nn pos xs loads fixes OK ks B _ _ CO) in W. unfold cap. rewrite <- (capacity_ext pos xs _ _ w VR). fold con in W. rewrite W.
          rewrite (sumof_zero RRng); [reflexivity|]. intros k _. rewrite L0. unfold total_load. cbn. apply Rmult_0_l. }
        split; [split; [exact FX'|right; exact BL]|].
        assert (UU : forall k, h_key ms k -> mU g st' k = 1 * mU g st k + dt / 2 * (mV g st k + mV g st' k)).
        { intros k Hk. rewrite (kn_U _ _ _ _ _ _ _ _ _ Kn k Hk), (kn_V _ _ _ _ _ _ _ _ _ Kn k Hk), DA, DD. set (h := tr_dt cfg : R). req. field. }
        assert (P0 : forall v, 0 <= cap v v) by (intros; apply (capacity_nonneg nn); [apply OK|exact CA]).
        assert (Q0 : forall v, 0 <= con v v) by (intros; exact (conduct_nonneg big nn pos xs loads fixes OK ks B v CO)).
        change (warmth pos xs (mU g st')) with (cap (mU g st') (mU g st')). change (warmth pos xs (mU g st)) with (cap (mU g st) (mU g st)).
        set (U := mU g st) in *. set (U' := mU g st') in *. set (V := mV g st) in *. set (V' := mV g st') in *. set (h := tr_dt cfg : R) in *.
        destruct BV as [V0|BV].
        + (* the first step *)
          assert (E1 : cap U' U' = cap U U' + h / 2 * cap V' U').
          { transitivity (cap (fun k => 1 * U k + h / 2 * V' k) U'); [apply ext1; intros k Hk; rewrite (UU k Hk), (V0 k Hk); req; ring|]. unfold cap. rewrite capacity_lin. ring. }
          pose proof (BL U' FX') as E2. change (cap V' U' + con U' U' = 0) in E2. pose proof (P0 (fun k => 1 * U k + (-1) * U' k)) as E3. unfold cap in E3. rewrite capacity_lin, !(capacity_sym pos xs _ (fun k => 1 * U k + -1 * U' k)), !capacity_lin in E3.
          fold cap in E3. assert (SY : cap U U' = cap U' U) by apply capacity_sym. pose proof (Q0 U') as E4. assert (E5 : h / 2 * cap V' U' <= 0).
          { assert (0 <= h / 2 * con U' U') by (apply Rmult_le_pos; lra). assert (h / 2 * (cap V' U' + con U' U') = 0) by (rewrite E2; ring). lra. }
          lra.
        + set (w := fun k => 1 * U k + 1 * U' k).
          assert (W0 : forall k, h_key ms k -> last_fix fixes k <> None -> w k = 0) by (intros k Hk Nk; unfold w, U, U'; rewrite (FX k Hk Nk), (FX' k Hk Nk); req; ring).
          pose proof (BL w W0) as E1. pose proof (BV w W0) as E2. change (cap V' w + con U' w = 0) in E1. change (cap V w + con U w = 0) in E2. pose proof (Q0 w) as E3.
          assert (E4 : con w w = con U w + con U' w) by (unfold con, w at 1; rewrite conduct_lin; ring).
          assert (E5 : cap U' w = cap U w + h / 2 * (cap V w + cap V' w)).
          { transitivity (cap (fun k => 1 * U k + h / 2 * (fun k => 1 * V k + 1 * V' k) k) w); [apply ext1; intros k Hk; rewrite (UU k Hk); req; ring|]. unfold cap. rewrite capacity_lin, capacity_lin. ring. }
          assert (E6 : forall z, cap z w = cap z U + cap z U').
          { intros z. unfold cap. rewrite (capacity_sym pos xs z w). unfold w. rewrite capacity_lin, (capacity_sym pos xs U z), (capacity_sym pos xs U' z). ring. }
          assert (SY : cap U U' = cap U' U) by apply capacity_sym.
          rewrite (E6 U), (E6 U') in E5. assert (0 <= h / 2 * con w w) by (apply Rmult_le_pos; lra). assert (h / 2 * (cap V w + cap V' w) = - (h / 2 * con w w)) by (replace (cap V w + cap V' w) with (- con w w) by lra; ring). lra.
    Qed.
  End Decay.

  Lemma elem_keys ks cs : h_built pos ms ks -> h_damped pos xs cs -> forall en nodes c q,
    In (en, nodes, c) (contribs (K := RNum) (map h_nodes ms) (map (fun c => [c]) ks)) \/ In (en, nodes, c) (contribs (K := RNum) (map h_nodes ms) cs) ->
    (q < length (ckeys en nodes c))%nat -> h_key ms (nth q (ckeys en nodes c) dkey).
  Proof.
    intros B B' en nodes c q Hx Hq. destruct (heat_good nn pos xs loads fixes OK ks cs B B') as (GT & _). apply keys_are.
    destruct Hx as [Hx|Hx]; [destruct (gr_K _ _ _ _ _ _ _ _ GT) as [_ G]|destruct (gr_C _ _ _ _ _ _ _ _ GT) as [_ G]];
      destruct (G _ _ _ Hx) as [_ GK]; rewrite Forall_forall in GK; now apply GK, nth_In.
  Qed.
  Lemma stiff_on_scale ks cs c v w k : h_built pos ms ks -> h_damped pos xs cs -> (forall x, h_key ms x -> v x = c * w x) ->
    @sumof RNum _ (stiff_on (K := RNum) v k) (contribs (map h_nodes ms) cs) = c * @sumof RNum _ (stiff_on (K := RNum) w k) (contribs (map h_nodes ms) cs).
  Proof.
    intros B B' H. rewrite <- sum_scale. apply sumR_ext. intros [[en nodes] x] Hx. unfold stiff_on. rewrite <- sum_scale. apply sumR_ext. intros p Hp.
    destruct (key_dec _ k); [|symmetry; apply Rmult_0_r]. cbn [elem_stiff]. rewrite <- sum_scale. apply sumR_ext. intros q Hq. apply in_seq in Hq.
    rewrite (H _ (elem_keys ks cs B B' en nodes x q (or_intror Hx) (proj2 Hq))). set (m := SpecAsm.cmat _ _ _ _). set (y := w _). change (m * (c * y) = c * (m * y)). ring.
  Qed.
  Lemma force_on_ext ks v w k : h_built pos ms ks -> (forall x, h_key ms x -> v x = w x) ->
    @sumof RNum _ (force_on (K := RNum) v k) (contribs (map h_nodes ms) (map (fun c => [c]) ks)) = @sumof RNum _ (force_on (K := RNum) w k) (contribs (map h_nodes ms) (map (fun c => [c]) ks)).
  Proof.
    intros B H. destruct (h_damp_each pos xs PL) as (cs & _ & B'). apply sumR_ext. intros [[en nodes] x] Hx. unfold force_on. apply sumR_ext. intros p Hp.
    destruct (key_dec _ k); [|reflexivity]. cbn [elem_force elem_stiff]. refine (f_equal2 Rminus _ eq_refl). apply sumR_ext. intros q Hq. apply in_seq in Hq.
    refine (f_equal2 Rmult eq_refl _). apply H. exact (elem_keys ks cs B B' en nodes x q (or_introl Hx) (proj2 Hq)).
  Qed.
  (* ---- everything at one temperature *)
  Theorem run_rest u e : slv = gauss_slv (K := RG) u -> (forall n, length (u n) = n) -> fixes = [] -> loads = [] -> Forall (settled e) ms -> (tr_init cfg : R) = e ->
    Forall (fun st => forall k, h_key ms k -> mU g st k = e) log.
  Proof.
    intros SL HU F0 L0 SE IN. destruct (heat_run big nn pos xs loads fixes OK PL cfg slv BIG EX HA HD fuel g Rl s0 log HS) as (ks & cs & B & B' & S0 & ST & UQ).
    destruct log as [|l1 log'] eqn:EL; [constructor|]. rewrite <- EL in *. specialize (UQ u SL HU ltac:(rewrite EL; discriminate)).
    enough (G : Forall (fun st => forall k, h_key ms k -> mU g st k = e /\ mV g st k = 0 /\ mA g st k = 0) log) by (eapply Forall_impl; [|exact G]; cbn; intros st H k Hk; apply H, Hk).
    apply (each_all _ _ _ _ ST).
    - intros k Hk. destruct (S0 k Hk) as (-> & H). split; [|exact H]. rewrite F0. exact IN.
    - intros st st' I0 Kn. set (w := fun k => mU g st' k - e). set (nw := coefs (K := RG) (tr_alpha cfg) (tr_delta cfg) (tr_dt cfg)).
      assert (A' : forall k, h_key ms k -> mA g st' k = na0 nw * w k).
      { intros k Hk. rewrite (kn_A _ _ _ _ _ _ _ _ _ Kn k Hk). destruct (I0 k Hk) as (-> & -> & ->). fold nw. unfold w.
        set (x := mU g st' k). change ((x - e) * na0 nw - 0 * na2 nw - 0 * na3 nw = na0 nw * (x - e)). ring. }
      assert (R' : forall k, h_key ms k -> rate cfg g st st' k = na1 nw * w k).
      { intros k Hk. unfold rate. rewrite (A' k Hk). destruct (I0 k Hk) as (_ & -> & ->).
        assert (N : (na1 nw : R) = na7 nw * na0 nw) by exact (rcoef1 _ (tr_delta cfg) _ HA HD). assert (N7 : (na7 nw : R) = tr_delta cfg * tr_dt cfg) by reflexivity.
        rewrite N, N7. set (h := tr_dt cfg : R). set (d := tr_delta cfg : R). set (x := w k). change (0 + h * ((1 - d) * 0 + d * (na0 nw * x)) = d * h * na0 nw * x). ring. }
      assert (W0 : forall k, h_key ms k -> w k = 0).
      { apply UQ.
        - intros k N. rewrite F0 in N. exfalso. now apply N.
        - intros k Hk Nk. pose proof (kn_flow _ _ _ _ _ _ _ _ _ Kn k (proj2 (keys_are xs k) Hk) Nk) as F.
          rewrite (stiff_on_scale ks cs (na1 nw) _ w k B B' R') in F.
          rewrite (force_on_ext ks _ (fun x => (fun _ => e) x + w x) k B) in F by (intros x Hx; unfold free; rewrite F0; unfold w; cbn [last_fix]; set (y := mU g st' x); symmetry; apply (Rplus_minus e y)).
          assert (FA : @sumof RNum _ (force_on (K := RNum) (fun x => e + w x) k) (contribs (map h_nodes ms) (map (fun c => [c]) ks)) =
            0 + @sumof RNum _ (stiff_on (K := RNum) w k) (contribs (map h_nodes ms) (map (fun c => [c]) ks))).
          { rewrite <- (settled_on nn pos xs loads fixes OK ks B e k Hk SE), sum_add. apply sumR_ext. intros x _. apply (force_affine_on (fun _ => e) w). }
          rewrite FA, L0 in F.
          unfold step_free. fold nw. etransitivity; [|exact F]. refine (f_equal2 Rplus eq_refl _). symmetry. apply Rplus_0_l. }
      intros k Hk. pose proof (W0 k Hk) as Wk. pose proof (A' k Hk) as Ak. rewrite Wk in Ak. rewrite Rmult_0_r in Ak. unfold w in Wk.
      split; [apply Rminus_diag_uniq; exact Wk|]. split; [|exact Ak]. rewrite (kn_V _ _ _ _ _ _ _ _ _ Kn k Hk), Ak. destruct (I0 k Hk) as (_ & -> & ->). set (h := tr_dt cfg : R). set (d := tr_delta cfg : R).
      change (0 + h * ((1 - d) * 0 + d * 0) = 0). ring.
  Qed.
  (* ---- prescribed temperatures: they are taken for zero *)
  Theorem run_held e : loads = [] -> Forall conducting ms -> (tr_init cfg : R) = e -> e <> 0 -> (forall k y, last_fix fixes k = Some y -> y = e) ->
    (exists m a b, In m ms /\ In a (h_nodes m) /\ In b (h_nodes m) /\ last_fix fixes (KNode, a, TEMP) <> None /\ last_fix fixes (KNode, b, TEMP) = None) ->
    log <> [] -> exists st k, In st log /\ h_key ms k /\ last_fix fixes k = None /\ mU g st k <> e.
  Proof.
    intros L0 CD IN NE FE (m & a & b & Hm & Ha & Hb & Na & Nb) NL. destruct (heat_run big nn pos xs loads fixes OK PL cfg slv BIG EX HA HD fuel g Rl s0 log HS) as (ks & cs & B & B' & S0 & ST & _).
    destruct log as [|st log'] eqn:EL; [congruence|]. destruct ST as [Kn _].
    assert (I0 : forall k, h_key ms k -> mU g s0 k = e /\ mV g s0 k = 0 /\ mA g s0 k = 0).
    { intros k Hk. destruct (S0 k Hk) as (-> & H). split; [|exact H]. destruct (last_fix fixes k) as [y|] eqn:E; [now apply (FE k)|exact IN]. }
    assert (DEC : (exists k, In k (reg_keys (flat_map h_regs ms)) /\ last_fix fixes k = None /\ mU g st k <> e) \/ forall k, In k (reg_keys (flat_map h_regs ms)) -> last_fix fixes k = None -> mU g st k = e).
    { induction (reg_keys (flat_map h_regs ms)) as [|x l IH]; [right; intros k []|]. destruct IH as [(k & Hk & H)|IH]; [left; exists k; split; [now right|exact H]|].
      destruct (last_fix fixes x) as [y|] eqn:E.
      - right. intros k [<-|Hk] Nk; [congruence|]. now apply IH.
      - destruct (Req_EM_T (mU g st x) e) as [Q|Q].
        + right. intros k [<-|Hk] Nk; [exact Q|]. now apply IH.
        + left. exists x. split; [now left|]. auto. }
    destruct DEC as [(k & Hk & H1 & H2)|ALL]; [exists st, k; split; [now left|]; split; [now apply keys_are|auto]|exfalso].
    assert (UA : forall k, h_key ms k -> mU g st k = e).
    { intros k Hk. destruct (last_fix fixes k) as [y|] eqn:E; [rewrite (kn_fix _ _ _ _ _ _ _ _ _ Kn k Hk) by congruence; apply I0, Hk|]. apply ALL; [now apply keys_are|exact E]. }
    assert (AA : forall k, h_key ms k -> mA g st k = 0).
    { intros k Hk. rewrite (kn_A _ _ _ _ _ _ _ _ _ Kn k Hk), (UA k Hk). destruct (I0 k Hk) as (-> & -> & ->). set (nw := coefs _ _ _). change ((e - e) * na0 nw - 0 * na2 nw - 0 * na3 nw = 0). ring. }
    set (w := fun k => match last_fix fixes k with None => 1 | Some _ => 0 end).
    pose proof (flow_work nn pos xs loads fixes OK ks cs B B' (mU g st) (rate cfg g s0 st) w) as W.
    rewrite (sumof_zero RRng (fun k => total_load loads k * w k)) in W by (intros k _; rewrite L0; apply Rmult_0_l).
    assert (W1 : forall k, h_key ms k -> last_fix fixes k <> None -> w k = 0) by (intros k _ N; unfold w; destruct (last_fix fixes k); [reflexivity|congruence]).
    specialize (W W1 (kn_flow _ _ _ _ _ _ _ _ _ Kn)). 
    assert (C0 : capacity pos xs (rate cfg g s0 st) w = 0).
    { rewrite (capacity_ext pos xs _ (fun k => 0 * w k + 0 * w k)); [rewrite capacity_lin; ring|]. intros k Hk. unfold rate. rewrite (AA k Hk). destruct (I0 k Hk) as (_ & -> & ->). req. ring. }
    assert (CD' : Forall cools ms).
    { eapply Forall_impl; [|exact CD]. intros [| |]; cbn; tauto. }
    rewrite C0, (force_conduct0 big nn pos xs loads fixes OK ks B _ _ CD') in W.
    assert (EC : conduct xs ks (free fixes (mU g st)) w = e * conduct xs ks w w).
    { unfold conduct. rewrite <- sum_scale. apply sumR_ext. intros [[en nodes] x] Hx. unfold stiff_work. rewrite <- sum_scale. apply sumR_ext. intros p _. cbn [elem_stiff].
      transitivity ((e * @sumof RNum _ (fun q => SpecAsm.cmat (K := RNum) (cdim nodes x) x p q * w (nth q (ckeys en nodes x) dkey)) (seq 0 (length (ckeys en nodes x)))) * w (nth p (x_keys (K := RNum) (en, nodes, x)) dkey)).
      - refine (f_equal2 Rmult _ eq_refl). rewrite <- sum_scale. apply sumR_ext. intros q Hq. apply in_seq in Hq.
        pose proof (elem_keys ks cs B B' en nodes x q (or_introl Hx) (proj2 Hq)) as Hk. unfold free, w.
        generalize (SpecAsm.cmat (K := RNum) (cdim nodes x) x p q). intros y. change (car RNum) with R in y. destruct (last_fix fixes (nth q (ckeys en nodes x) dkey)).
        + transitivity 0; [apply Rmult_0_r|]. symmetry. etransitivity; [exact (f_equal (Rmult e) (Rmult_0_r y))|apply Rmult_0_r].
        + rewrite (UA _ Hk). etransitivity; [apply Rmult_comm|]. refine (f_equal (Rmult e) _). symmetry. apply Rmult_1_r.
      - apply Rmult_assoc. }
    rewrite EC in W. assert (WW : conduct xs ks w w = 0).
    { apply Rmult_eq_reg_l with e; [|exact NE]. rewrite Rmult_0_r. etransitivity; [symmetry; apply Rplus_0_l|exact W]. }
    (* the element with both kinds of nodes *)
    rewrite <- (force_conduct0 big nn pos xs loads fixes OK ks B _ _ CD') in WW.
    pose proof (Forall2_len _ _ _ B) as LB. rewrite <- (h_mesh ms ks LB), <- (h_ks ms ks LB), p_contribs in WW.
    assert (PF : forall i p, In p (h_parts ms ks) -> force_work w w (pform i p) = force_work w w (pform 0 p)).
    { intros i p Hp. destruct (h_in pos ms ks p B Hp) as (m' & c & Hm' & E & ->). destruct (built_told nn pos ms loads fixes OK m' c Hm' E) as (HO & Ke & Fe & T).
      pose proof (p_keys _ _ _ (to_part _ _ _ _ _ _ T)) as PK. cbn [fst snd] in PK. unfold force_work. cbn [pform fst snd x_keys elem_force elem_stiff]. rewrite !PK. reflexivity. }
    rewrite (forms_sum _ (fun p => force_work w w (pform 0 p)) _ PF) in WW.
    assert (PP : forall m' c, In m' ms -> h_build pos m' = Ok c -> 0 <= force_work w w (pform 0 (h_nodes m', c)) /\
      (force_work w w (pform 0 (h_nodes m', c)) = 0 -> forall x y, In x (h_nodes m') -> In y (h_nodes m') -> w (KNode, x, TEMP) = w (KNode, y, TEMP))).
    { intros m' c Hm' E. destruct (built_told nn pos ms loads fixes OK m' c Hm' E) as ((_ & _ & D) & Ke & Fe & T). change (force_work w w (pform 0 (h_nodes m', c))) with (heat_work_of w w m' c).
      rewrite (told_heat nn pos m' c Ke Fe w w T). rewrite Forall_forall in CD. specialize (CD m' Hm'). pose proof (to_who _ _ _ _ _ _ T) as W'.
      destruct m' as [|ord k vf n1 n2 n3 n4|]; [destruct CD| |destruct CD]. cbn [h_nodes length conducting] in *. destruct CD as (Hk & -> & HO).
      set (T0 := h_values w (HQuad ord k 0 n1 n2 n3 n4)).
      rewrite (rsumn_ext 4 _ (fun q => kmul 4 Ke T0 q * nth q T0 0)).
      2:{ intros q Hq. destruct (quadth_ok ord k 0 (at_nodes pos [n1; n2; n3; n4])) as (Ke' & Fe' & E' & _ & _ & _ & WF). rewrite W' in E'. injection E' as <- <-. rewrite WF by exact Hq.
          unfold quad_sum. rewrite rsuml_zero; [ring|]. intros ((r, s), w') _. ring. }
      destruct (quadth_kernel _ _ _ _ _ _ T0 W' D Hk) as [K1 K2]. split; [exact K1|]. intros Z x y Hx Hy.
      specialize (K2 HO Z). assert (X : forall x, In x [n1; n2; n3; n4] -> w (KNode, x, TEMP) = nth 0 T0 0); [|now rewrite (X x Hx), (X y Hy)].
      intros z Hz. cbn [In] in Hz. destruct Hz as [<-|[<-|[<-|[<-|[]]]]]; [reflexivity|exact (K2 1%nat ltac:(lia))|exact (K2 2%nat ltac:(lia))|exact (K2 3%nat ltac:(lia))]. }
    destruct (h_has pos ms ks m B Hm) as (c & Hp & Em).
    assert (Z : force_work w w (pform 0 (h_nodes m, c)) = 0).
    { apply (sum_each (fun p => force_work w w (pform 0 p)) (h_parts ms ks)); [|exact WW|exact Hp]. intros p Hp'. destruct (h_in pos ms ks p B Hp') as (m' & c' & Hm' & E & ->). apply (PP m' c' Hm' E). }
    pose proof (proj2 (PP m c Hm Em) Z a b Ha Hb) as Q. unfold w in Q. rewrite Nb in Q. destruct (last_fix fixes (KNode, a, TEMP)); [|congruence]. apply R1_neq_R0. now symmetry.
  Qed.
End Laws.
