(* Bodies whose steps the default equation solver solves *)
From Coq Require Import Reals Lra Lia.
From Verif Require Import Base BaseProofs RealBase MatModel SparseModel BlockModel DofModel SpecDof NumberingProofs AsmModel SpecAsm AsmLists AsmProofs AsmRun AsmFinal
  SolveModel SpecSolve GaussModel SpecGauss GaussProofs IsoModel SpecIso IsoProofs ElemModel SpecElem ElemBase ElemProofs ElemMore ThermModel SpecTherm ThermProofs ThermMore
  SpecBal BalProofs BalMore StructModel SpecStruct StructProofs StructFinal StructMore HeatModel SpecHeat PartProofs HeatProofs HeatFinal HeatMore HeatCases NonlinModel
  TransModel SpecTrans TransProofs SpecTransKeys TransKeys HeatTransModel SpecHeatTrans HeatTransProofs HeatTransFinal HeatTransLaws.
Local Open Scope R_scope.

Lemma lineth_nonneg' ord flux htc e pos Ke Fe T : apart pos -> 0 <= htc -> lineth_K ord flux htc e pos = Ok (Ke, Fe) -> 0 <= dot 2 (kmul 2 Ke T) T.
Proof.
  intros A H E. destruct (lineth_ok ord flux htc e pos A) as (Ke' & Fe' & E' & _ & _ & WK & _). rewrite E in E'. injection E' as <- <-.
  assert (D : 0 < dist3 (pos 0%nat) (pos 1%nat)) by (pose proof (apart_pos _ A) as Q; rewrite det_dist in Q; lra).
  unfold dot, kmul. rewrite !sum2, !WK by lia. set (L := dist3 _ _) in *.
  apply Rle_trans with (htc * (L / 2) * line_sum (i_int ord) (fun r => (line_N r 0 * nth 0 T 0 + line_N r 1 * nth 1 T 0) * (line_N r 0 * nth 0 T 0 + line_N r 1 * nth 1 T 0))).
  - apply Rmult_le_pos; [apply Rmult_le_pos; lra|]. unfold line_sum. apply (sum_le (A := Z * Z)). intros (r, w) Hq.
    apply Rmult_le_pos; [left; exact (line_w_pos _ _ _ (i_int_small ord) Hq)|apply Rle_0_sqr].
  - apply Req_le. unfold line_sum. induction (quad_line (i_int ord)) as [|(r, w) l IH]; [rewrite !rsuml_nil; ring|]. rewrite !rsuml_cons.
    rewrite Rmult_plus_distr_l, IH. ring.
Qed.
Definition dissipative (m : hmember) : Prop := match m with HTet _ _ _ _ _ => False | HQuad _ k _ _ _ _ _ => 0 < k | HLine _ _ htc _ _ _ => 0 <= htc end.
Lemma conduct_pos nn pos xs loads fixes ks v : heat_ok nn pos (map th_m xs) loads fixes -> h_built pos (map th_m xs) ks -> Forall dissipative (map th_m xs) -> 0 <= conduct xs ks v v.
Proof.
  intros OK BK CO. unfold conduct. set (ms := map th_m xs) in *. pose proof (Forall2_len _ _ _ BK) as LB. rewrite <- (h_mesh ms ks LB), <- (h_ks ms ks LB), p_contribs.
  rewrite (forms_sum _ (fun p => stiff_work (K := RNum) v v (pform 0 p))).
  - rewrite Forall_forall in CO. apply sum_le. intros p Hp.
    destruct (h_in pos ms ks p BK Hp) as (m & c & Hm & E & ->). destruct (built_told nn pos ms loads fixes OK m c Hm E) as ((_ & _ & D) & Ke & Fe & T).
    assert (EW : stiff_work (K := RNum) v v (pform 0 (h_nodes m, c)) = dot (length (h_nodes m)) (kmul (length (h_nodes m)) Ke (h_values v m)) (h_values v m)).
    { unfold stiff_work. rewrite (told_keys _ _ _ _ _ _ T), tkeys_length. unfold dot, rsumn at 1, rsuml at 1. apply sumR_ext. intros q Hq. apply in_seq in Hq.
      rewrite tkey by apply Hq. rewrite values_nth by apply Hq. refine (f_equal2 Rmult _ eq_refl). exact (to_stiff _ _ _ _ _ _ T v q (proj2 Hq)). }
    rewrite EW. specialize (CO m Hm). pose proof (to_who _ _ _ _ _ _ T) as W. destruct m as [|ord k vf n1 n2 n3 n4|ord flux htc et n1 n2]; [destruct CO| |]; cbn [h_nodes length dissipative] in *.
    + apply (quadth_kernel _ _ _ _ _ _ _ W D CO).
    + exact (lineth_nonneg' ord flux htc _ _ Ke Fe _ D CO W).
  - intros i p Hp. destruct (h_in pos ms ks p BK Hp) as (m & c & Hm & E & ->). destruct (built_told nn pos ms loads fixes OK m c Hm E) as (HO & Ke & Fe & T).
    pose proof (p_keys _ _ _ (to_part _ _ _ _ _ _ T)) as PK. cbn [fst snd] in PK. unfold stiff_work. cbn [pform fst snd x_keys elem_stiff]. rewrite !PK. reflexivity.
Qed.

(* the loop over the instants *)
Lemma loop_total {K : GNum} (step : TransModel.motion K -> outcome (TransModel.motion K)) (I : TransModel.motion K -> Prop) :
  (forall s, I s -> exists s', step s = Ok s' /\ I s') -> forall fuel cur dt t1 s log l, I s -> instants fuel cur dt t1 = Ok l ->
  exists log', time_loop fuel step cur dt t1 s log = Ok log' /\ length log' = (length log + length l)%nat.
Proof.
  intros HS. induction fuel as [|fuel IH]; intros cur dt t1 s log l Hs HI; cbn [time_loop instants] in *; destruct (glt t1 cur); try discriminate.
  - injection HI as <-. exists log. split; [reflexivity|]. symmetry. apply Nat.add_0_r.
  - injection HI as <-. exists log. split; [reflexivity|]. symmetry. apply Nat.add_0_r.
  - apply obind_ok in HI as (r & E & HI). injection HI as <-. destruct (HS s Hs) as (s' & -> & Hs'). cbn [obind].
    destruct (IH _ _ _ _ (log ++ [s']) _ Hs' E) as (log' & -> & L). exists log'. split; [reflexivity|]. rewrite L, app_length. rewrite <- Nat.add_assoc. reflexivity.
Qed.
Lemma instants_R (dt t1 : R) m : 0 < dt -> forall (cur : R) fuel, (m <= fuel)%nat -> t1 = cur + dt * INR m - dt ->
  exists l, instants (K := RG) fuel cur dt t1 = Ok l /\ length l = m.
Proof.
  intros HD. induction m as [|m IH]; intros cur fuel HF E.
  - assert (G : glt (g := RG) t1 cur = true) by (cbn; unfold Rltb; destruct (Rlt_dec t1 cur) as [|N]; [reflexivity|]; exfalso; apply N; rewrite E; cbn; lra).
    exists []. destruct fuel; cbn [instants]; rewrite G; split; reflexivity.
  - destruct fuel as [|fuel]; [lia|]. assert (G : glt (g := RG) t1 cur = false).
    { cbn. unfold Rltb. destruct (Rlt_dec t1 cur) as [N|]; [|reflexivity]. exfalso. rewrite S_INR in E. pose proof (pos_INR m). assert (0 <= dt * INR m) by (apply Rmult_le_pos; lra). lra. }
    destruct (IH (cur + dt) fuel ltac:(lia)) as (l & El & Ll); [rewrite E, S_INR; ring|].
    exists (cur :: l). split; [|exact (f_equal S Ll)]. cbn [instants]. rewrite G.
    match goal with |- obind ?e _ = _ => replace e with (Ok (A := list RG) l) by (symmetry; exact El) end. reflexivity.
Qed.

Lemma sum_bound {A} (f h : A -> R) p l : (forall x, In x l -> f x <= p * (1 + h x)) -> @sumof RNum _ f l <= p * (INR (length l) + @sumof RNum _ h l).
Proof.
  induction l as [|x l IH]; intros H; [cbn; lra|]. rewrite !sum_cons. cbn [length]. rewrite S_INR. specialize (IH ltac:(intros; apply H; now right)). specialize (H x ltac:(now left)).
  generalize dependent (@sumof RNum _ f l). generalize dependent (@sumof RNum _ h l). intros b a IH. change (f x + a <= p * (INR (length l) + 1 + (h x + b))).
  change (a <= p * (INR (length l) + b)) in IH. lra.
Qed.
Section Solved.
  Variable big : R -> bool.
  Hypothesis BIG : forall v, big v = false -> v = 0.
  Variable u : nat -> list R.
  Hypothesis HU : forall n, length (u n) = n.
  Variables (nn : nat) (pos : nat -> nat -> R) (xs : list thermal) (loads fixes : list (bc RNum)).
  Notation ms := (map th_m xs).
  Hypothesis OK : heat_ok nn pos ms loads fixes.
  Hypothesis PL : Forall (fun x => plane (th_m x)) xs.
  Hypothesis DS : Forall dissipative ms.
  Variable cfg : trset RG.
  Hypothesis HA : 0 < (tr_alpha cfg : R).
  Hypothesis HDe : 0 < (tr_delta cfg : R).
  Hypothesis HD : 0 < (tr_dt cfg : R).
  Hypothesis LE : (length (temp_nodes ms) < 1000)%nat.
  Variable mu : R.
  Let na : R := tr_delta cfg / (tr_alpha cfg * tr_dt cfg).
  Hypothesis CC : forall w, mu * @sumof RNum _ (fun n => w (KNode, n, TEMP) * w (KNode, n, TEMP)) (temp_nodes ms) <= capacity pos xs w w.
  Hypothesis BD : / 10 ^ 20 * (INR (length (temp_nodes ms)) + 1) < 2 * na * mu.
  Lemma heat_makes fuel l : instants (K := RG) fuel (radd (tr_time0 cfg) (tr_dt cfg)) (tr_dt cfg) (tr_time1 cfg) = Ok l ->
    exists g Rl s0 log, heat_trans big (gauss_slv (K := RG) u) fuel cfg nn pos xs loads fixes = Ok (g, Rl, s0, log) /\ length log = length l.
  Proof.
    intros HI. destruct (heat_unfold big nn pos xs loads fixes OK PL cfg) as (ks & cs & B & B' & EU). rewrite EU.
    destruct (heat_good nn pos xs loads fixes OK ks cs B B') as (GT & DK & DC & OC). set (mesh := map h_nodes ms) in *. set (regs := flat_map h_regs ms) in *.
    destruct (trans_started RG RG_laws nn mesh regs _ cs loads fixes GT cfg big) as (s & g & Rl & s0 & Km & M22 & C22 & SD & RUN). rewrite RUN.
    set (nw := coefs (K := RG) (tr_alpha cfg) (tr_delta cfg) (tr_dt cfg)) in *.
    set (step := trans_step (K := RG) big (gauss_slv (K := RG) u) nw g Km M22 C22 Rl) in *.
    assert (HA0 : (tr_alpha cfg : R) <> 0) by (apply Rgt_not_eq; exact HA). assert (HD0 : (tr_dt cfg : R) <> 0) by (apply Rgt_not_eq; exact HD).
    pose proof (calm0 RG RG_laws nn mesh regs _ cs loads fixes cfg s g Rl s0 Km M22 C22 SD) as C0.
    assert (STEP : forall st, calm RG s st -> exists st', step st = Ok st' /\ calm RG s st').
    { intros st C. destruct (step_gauss RG RG_laws nn mesh regs _ cs loads fixes GT cfg big s g Rl s0 Km M22 C22 SD u HU st (proj1 C)) as [F|[st' E]].
      - exfalso. destruct (step_refused RG RG_laws nn mesh regs _ cs loads fixes GT DK DC OC cfg big s g Rl s0 Km M22 C22 SD u HU st) as (w & W0 & (k & Hk & Fk & Wk) & WF).
        { unfold regs. rewrite heat_keys, map_length. exact LE. } { apply C. } { exact F. }
        change (key -> R) in w.
        set (S := @sumof RNum _ (fun k => w k * w k) (reg_keys regs)).
        assert (ES : S = @sumof RNum _ (fun n => w (KNode, n, TEMP) * w (KNode, n, TEMP)) (temp_nodes ms)) by (unfold S, regs; rewrite heat_keys, sum_map; reflexivity).
        assert (S1 : 1 <= S).
        { unfold S. assert (NN : forall x, In x (reg_keys regs) -> 0 <= w x * w x) by (intros; apply Rle_0_sqr). revert Hk NN. generalize (reg_keys regs). induction l0 as [|x l0 IH]; intros Hx NN; [destruct Hx|]. rewrite sum_cons. destruct Hx as [->|Hx].
          - assert (0 <= @sumof RNum _ (fun k => w k * w k) l0) by (apply sum_le; intros; apply NN; now right). change (w k = 1) in Wk. rewrite Wk. lra.
          - assert (0 <= w x * w x) by (apply NN; now left). specialize (IH Hx ltac:(intros; apply NN; now right)). lra. }
        assert (EQ : @sumof RNum _ (fun k => step_free (K := RNum) mesh (map (fun c => [c]) ks) cs (na1 nw) w k * w k) (reg_keys regs) = na * capacity pos xs w w + conduct xs ks w w).
        { rewrite <- (cap_total pos xs cs B'). unfold conduct. fold mesh. rewrite <- (stiff_total mesh regs cs w w (gr_C _ _ _ _ _ _ _ _ GT)), <- (stiff_total mesh regs _ w w (gr_K _ _ _ _ _ _ _ _ GT)).
          rewrite <- sum_scale, sum_add. apply sumR_ext. intros x _. unfold step_free. set (a := @sumof RNum _ _ _). set (b := @sumof RNum _ _ _). set (y := w x). change ((na * a + b) * y = na * (a * y) + b * y). ring. }
        pose proof (conduct_pos nn pos xs loads fixes ks w OK B DS) as CP. specialize (CC w). rewrite <- ES in CC.
        assert (UP : @sumof RNum _ (fun k => step_free (K := RNum) mesh (map (fun c => [c]) ks) cs (na1 nw) w k * w k) (reg_keys regs) <= / 10 ^ 20 / 2 * (INR (length (temp_nodes ms)) + S)).
        { assert (LN : length (temp_nodes ms) = length (reg_keys regs)) by (unfold regs; rewrite heat_keys, map_length; reflexivity). rewrite LN.
          assert (TT : forall x, In x (reg_keys regs) -> step_free (K := RNum) mesh (map (fun c => [c]) ks) cs (na1 nw) w x * w x <= / 10 ^ 20 / 2 * (1 + w x * w x)).
          { intros x Hx. assert (TP : 0 < / 10 ^ 20) by (apply Rinv_0_lt_compat; lra). destruct (last_fix fixes x) as [y|] eqn:Fx.
            - assert (Z : w x = 0) by (apply W0; [intros X; pose proof (eq_trans (eq_sym X) Fx) as Y; discriminate Y|exact Hx]). rewrite Z. set (q := step_free _ _ _ _ _ _). change (q * 0 <= / 10 ^ 20 / 2 * (1 + 0 * 0)). lra.
            - specialize (WF x Hx Fx). cbn [RG glt gabs gtiny gn] in WF. unfold Rltb in WF. destruct (Rlt_dec _ _) as [Q|]; [|discriminate].
              set (q := step_free (K := RNum) mesh (map (fun c => [c]) ks) cs (na1 nw) w x). change (Rabs q < / 10 ^ 20) in Q. set (y := w x : R). change (q * y <= / 10 ^ 20 / 2 * (1 + y * y)).
              set (t := / 10 ^ 20) in *. apply Rabs_def2 in Q as [Q1 Q2].
              assert (0 <= (y - 1) * (y - 1)) by apply Rle_0_sqr. assert (0 <= (y + 1) * (y + 1)) by apply Rle_0_sqr.
              destruct (Rle_dec 0 y) as [P|P].
              + assert (q * y <= t * y) by (apply Rmult_le_compat_r; lra). assert (t * y <= t * ((1 + y * y) / 2)) by (apply Rmult_le_compat_l; lra). lra.
              + assert (q * y <= t * - y) by (assert (0 <= (t + q) * - y) by (apply Rmult_le_pos; lra); lra). assert (t * - y <= t * ((1 + y * y) / 2)) by (apply Rmult_le_compat_l; lra). lra. }
          exact (sum_bound _ (fun k => w k * w k) _ _ TT). }
        rewrite EQ in UP. assert (NP : 0 < na) by (unfold na; apply Rdiv_lt_0_compat; [exact HDe|apply Rmult_lt_0_compat; assumption]).
        assert (Q1 : na * (mu * S) <= na * capacity pos xs w w) by (apply Rmult_le_compat_l; [lra|exact CC]).
        set (N := INR (length (temp_nodes ms))) in *. set (t := / 10 ^ 20) in *. assert (N0 : 0 <= N) by apply pos_INR. assert (T0 : 0 < t) by (apply Rinv_0_lt_compat; lra).
        assert (Q2 : t / 2 * (N + S) <= t / 2 * ((N + 1) * S)).
        { apply Rmult_le_compat_l; [lra|]. assert (0 <= N * (S - 1)) by (apply Rmult_le_pos; lra). lra. }
        assert (Q3 : t / 2 * ((N + 1) * S) < na * mu * S) by (replace (t / 2 * ((N + 1) * S)) with (t * (N + 1) / 2 * S) by field; apply Rmult_lt_compat_r; lra).
        lra.
      - exists st'. split; [exact E|]. destruct (step_flow RG RG_laws nn mesh regs _ cs loads fixes GT DK DC OC cfg big s g Rl s0 Km M22 C22 SD (gauss_slv (K := RG) u) st st' BIG (gs_exact u HU)
        (rcoef1 _ _ _ HA0 HD0) (rcoef4 _ _ _ HA0 HD0) (rcoef5 _ _ _ HA0) C E) as (C' & _). exact C'. }
    destruct (loop_total step (calm RG s) STEP fuel _ _ _ _ [] _ C0 HI) as (log & E & L). exists g, Rl, s0, log. split; [|exact L].
    match goal with |- obind ?e _ = _ => replace e with (Ok log) by (symmetry; exact E) end. reflexivity.
  Qed.
End Solved.

(* the unit square with an edge *)
Definition plate_pos (n i : nat) : R :=
  match i with 0%nat => match n with 2%nat | 3%nat => 1 | _ => 0 end | 1%nat => match n with 3%nat | 4%nat => 1 | _ => 0 end | _ => 0 end.
Definition plate (htc e : R) : list thermal := [(HQuad 2 1 0 1 2 3 4, 1, 1); (HLine 1 0 htc (e, e) 1 2, 0, 0)].
Definition bare : list thermal := [(HQuad 2 1 0 1 2 3 4, 1, 1)].
Definition steps (n : nat) (init : R) : trset RG := mkTr (K := RG) n (1 / 4) (1 / 2) 0 (INR n) init.
Definition gp : R := dec 5773502691896258.
Lemma gp_neg : dec (-5773502691896258) = - gp.
Proof. unfold gp, dec. lra. Qed.
Lemma dec1 : dec 10000000000000000 = 1.
Proof. unfold dec. lra. Qed.
Lemma gp_big : 57 / 100 <= gp.
Proof. unfold gp, dec. lra. Qed.
Lemma plate_det r s : quad_det (at_nodes plate_pos [1; 2; 3; 4]%nat) r s = / 4.
Proof. unfold quad_det, jdet, mdet, at_nodes, plate_pos. cbn. lra. Qed.
Lemma square_sum T : / 40 * (nth 0 T 0 * nth 0 T 0 + nth 1 T 0 * nth 1 T 0 + nth 2 T 0 * nth 2 T 0 + nth 3 T 0 * nth 3 T 0) <= quad_sum 1 (fun r s => / 4 * (field T r s * field T r s)).
Proof.
  assert (E : quad_sum 1 (fun r s => / 4 * (field T r s * field T r s)) = / 4 * (field T (- gp) (- gp) * field T (- gp) (- gp) + field T gp (- gp) * field T gp (- gp) + field T gp gp * field T gp gp + field T (- gp) gp * field T (- gp) gp)).
  { unfold quad_sum. cbn [quad_quad]. rewrite !rsuml_cons, rsuml_nil, gp_neg, dec1. fold gp. ring. }
  rewrite E. clear E. unfold field. rewrite !rs4. unfold quad_N.
  set (w1 := nth 0 T 0). set (w2 := nth 1 T 0). set (w3 := nth 2 T 0). set (w4 := nth 3 T 0).
  set (a := (w1 + w2 + w3 + w4) / 4). set (b := (w2 + w3 - w1 - w4) / 4). set (c := (w3 + w4 - w1 - w2) / 4). set (d := (w1 + w3 - w2 - w4) / 4).
  replace w1 with (a - b - c + d) by (unfold a, b, c, d; field). replace w2 with (a + b - c - d) by (unfold a, b, c, d; field).
  replace w3 with (a + b + c + d) by (unfold a, b, c, d; field). replace w4 with (a - b + c - d) by (unfold a, b, c, d; field). clearbody a b c d. clear w1 w2 w3 w4.
  pose proof gp_big as G. set (g := gp) in *. assert (G2 : 1 / 3 - 1 / 100 <= g * g) by nra. assert (G4 : 1 / 10 <= g * g * (g * g)) by nra.
  clearbody g. replace 0.25 with (/ 4) by lra. match goal with |- _ <= ?r => replace r with (a * a + g * g * (b * b) + g * g * (c * c) + g * g * (g * g) * (d * d)) by field end.
  match goal with |- ?l <= _ => replace l with (/ 10 * (a * a) + / 10 * (b * b) + / 10 * (c * c) + / 10 * (d * d)) by field end.
  assert (0 <= a * a) by apply Rle_0_sqr. 
  assert (/ 10 * (b * b) <= g * g * (b * b)) by (apply Rmult_le_compat_r; [apply Rle_0_sqr|lra]).
  assert (/ 10 * (c * c) <= g * g * (c * c)) by (apply Rmult_le_compat_r; [apply Rle_0_sqr|lra]).
  assert (/ 10 * (d * d) <= g * g * (g * g) * (d * d)) by (apply Rmult_le_compat_r; [apply Rle_0_sqr|lra]). lra.
Qed.
Lemma quad_fine : h_ok 4 plate_pos (HQuad 2 1 0 1 2 3 4).
Proof.
  split; [repeat constructor; cbn; intuition discriminate|]. split; [repeat constructor; lia|].
  apply Forall_forall. intros [[r s] w] _. cbn [h_nodes]. rewrite plate_det. lra.
Qed.
Lemma edge_fine htc e : h_ok 4 plate_pos (HLine 1 0 htc e 1 2).
Proof.
  split; [repeat constructor; cbn; intuition discriminate|]. split; [repeat constructor; lia|].
  exists 0%nat. split; [lia|]. unfold at_nodes. cbn. lra.
Qed.
Lemma plate_ok htc e loads : Forall (fun l => h_key (map th_m (plate htc e)) (bc_key (K := RNum) l)) loads -> heat_ok 4 plate_pos (map th_m (plate htc e)) loads [].
Proof.
  intros LO. apply heat_small; [|exact LO|constructor| |vm_compute; lia].
  - constructor; [apply quad_fine|]. constructor; [apply edge_fine|constructor].
  - exists (KNode, 1%nat, TEMP). split; [split; [exists (HQuad 2 1 0 1 2 3 4); split; [now left|now left]|reflexivity]|]. intros [].
Qed.
Lemma bare_ok e : heat_ok 4 plate_pos (map th_m bare) [] (outer (fun _ => e) [1]%nat).
Proof.
  apply heat_small; [|constructor| | |vm_compute; lia].
  - constructor; [apply quad_fine|constructor].
  - constructor; [|constructor]. split; [|reflexivity]. exists (HQuad 2 1 0 1 2 3 4). split; [now left|now left].
  - exists (KNode, 2%nat, TEMP). split; [split; [exists (HQuad 2 1 0 1 2 3 4); split; [now left|right; now left]|reflexivity]|]. cbn. intros [H|[]]. discriminate.
Qed.
Lemma quad_cap pos w x : th_m x = HQuad 2 1 0 1 2 3 4 -> th_rho x = 1 -> th_c x = 1 -> pos = plate_pos ->
  / 40 * @sumof RNum _ (fun n => w (KNode, n, TEMP) * w (KNode, n, TEMP)) [1; 2; 3; 4]%nat <= cap_work pos w w x.
Proof.
  intros E1 E2 E3 ->. unfold cap_work. rewrite E1, E2, E3. cbn [h_nodes]. change (i_int 2) with 1%nat.
  rewrite (quad_sum_ext 1 _ (fun r s => / 4 * (field (h_values w (HQuad 2 1 0 1 2 3 4)) r s * field (h_values w (HQuad 2 1 0 1 2 3 4)) r s))) by (intros; rewrite plate_det; reflexivity).
  pose proof (square_sum (h_values w (HQuad 2 1 0 1 2 3 4))) as Q. cbn [h_values h_nodes map nth] in Q. rewrite !sum_cons. match goal with |- context [@sumof RNum _ ?f []] => change (@sumof RNum _ f []) with 0 end.
  eapply Rle_trans; [|rewrite Rmult_1_l, Rmult_1_l; exact Q]. apply Req_le.
  set (a := w _). set (b := w (KNode, 2%nat, TEMP)). set (c := w (KNode, 3%nat, TEMP)). set (d := w (KNode, 4%nat, TEMP)).
  change (/ 40 * (a * a + (b * b + (c * c + (d * d + 0)))) = / 40 * (a * a + b * b + c * c + d * d)). ring.
Qed.
Lemma gnat_R n : gnat (K := RG) n = INR n.
Proof. induction n as [|n IH]; [reflexivity|]. rewrite S_INR. cbn [gnat]. now rewrite IH. Qed.
Lemma steps_dt n init : (0 < n)%nat -> (tr_dt (steps n init) : R) = 1.
Proof. intros H. unfold tr_dt, steps. cbn. rewrite gnat_R. field. apply not_0_INR. lia. Qed.
Lemma steps_instants n init : (0 < n)%nat -> exists l, instants (K := RG) n (radd (tr_time0 (steps n init)) (tr_dt (steps n init))) (tr_dt (steps n init)) (tr_time1 (steps n init)) = Ok l /\ length l = n.
Proof.
  intros H. rewrite (steps_dt n init H). apply (instants_R 1 _ n); [lra|lia|]. unfold steps. cbn [tr_time0 tr_time1]. change (INR n = 0 + 1 + 1 * INR n - 1). ring.
Qed.
Lemma tiny5 : / 10 ^ 20 * (INR 4 + 1) < 2 * (1 / 2 / (1 / 4 * 1)) * / 40.
Proof. pose proof tiny1. replace (INR 4 + 1) with 5 by (cbn; ring). assert (/ 10 ^ 20 < / 100) by (apply Rinv_lt_contravar; lra). lra. Qed.
Section Runs.
  Variable big : R -> bool.
  Hypothesis BIG : forall v, big v = false -> v = 0.
  Variable u : nat -> list R.
  Hypothesis HU : forall n, length (u n) = n.
  Lemma plate_runs htc e loads n init : (0 < n)%nat -> 0 <= htc -> Forall (fun l => h_key (map th_m (plate htc e)) (bc_key (K := RNum) l)) loads ->
    exists g Rl s0 log, heat_trans big (gauss_slv (K := RG) u) n (steps n init) 4 plate_pos (plate htc e) loads [] = Ok (g, Rl, s0, log) /\ length log = n.
  Proof.
    intros Hn Hh LO. destruct (steps_instants n init Hn) as (l & El & Ll).
    destruct (heat_makes big BIG u HU 4 plate_pos (plate htc e) loads [] (plate_ok htc e loads LO) ltac:(repeat constructor) ltac:(constructor; [cbn; lra|constructor; [exact Hh|constructor]]) (steps n init)
      ltac:(cbn; lra) ltac:(cbn; lra) ltac:(rewrite steps_dt by exact Hn; lra) ltac:(vm_compute; lia) (/ 40)) with (fuel := n) (l := l) as (g & Rl & s0 & log & E & L).
    - intros w. unfold capacity, plate. rewrite !sum_cons. match goal with |- context [@sumof RNum _ ?f []] => change (@sumof RNum _ f []) with 0 end.
      match goal with |- context [cap_work plate_pos w w (HLine ?a ?b ?c ?d ?x ?y, 0, 0)] => change (cap_work plate_pos w w (HLine a b c d x y, 0, 0)) with 0 end.
      eapply Rle_trans; [|apply Req_le; symmetry; etransitivity; [exact (f_equal (Rplus _) (Rplus_0_l 0))|apply Rplus_0_r]].
      eapply Rle_trans; [|apply (quad_cap plate_pos w (HQuad 2 1 0 1 2 3 4, 1, 1)); reflexivity]. apply Req_le.
      change (temp_nodes (map th_m [(HQuad 2 1 0 1 2 3 4, 1, 1); (HLine 1 0 htc (e, e) 1 2, 0, 0)])) with [3; 4; 1; 2]%nat.
      rewrite !sum_cons. match goal with |- context [@sumof RNum _ ?f []] => change (@sumof RNum _ f []) with 0 end.
      set (a := w _). set (b := w (KNode, 4%nat, TEMP)). set (c := w (KNode, 1%nat, TEMP)). set (d := w (KNode, 2%nat, TEMP)).
      change (/ 40 * (a * a + (b * b + (c * c + (d * d + 0)))) = / 40 * (c * c + (d * d + (a * a + (b * b + 0))))). ring.
    - rewrite steps_dt by exact Hn. exact tiny5.
    - exact El.
    - exists g, Rl, s0, log. split; [exact E|]. now rewrite L.
  Qed.
  Lemma bare_runs e n init : (0 < n)%nat ->
    exists g Rl s0 log, heat_trans big (gauss_slv (K := RG) u) n (steps n init) 4 plate_pos bare [] (outer (fun _ => e) [1]%nat) = Ok (g, Rl, s0, log) /\ length log = n.
  Proof.
    intros Hn. destruct (steps_instants n init Hn) as (l & El & Ll).
    destruct (heat_makes big BIG u HU 4 plate_pos bare [] _ (bare_ok e) ltac:(repeat constructor) ltac:(constructor; [cbn; lra|constructor]) (steps n init)
      ltac:(cbn; lra) ltac:(cbn; lra) ltac:(rewrite steps_dt by exact Hn; lra) ltac:(vm_compute; lia) (/ 40)) with (fuel := n) (l := l) as (g & Rl & s0 & log & E & L).
    - intros w. unfold capacity, bare. rewrite !sum_cons. match goal with |- context [@sumof RNum _ ?f []] => change (@sumof RNum _ f []) with 0 end.
      eapply Rle_trans; [|apply Req_le; symmetry; apply Rplus_0_r].
      apply (quad_cap plate_pos w (HQuad 2 1 0 1 2 3 4, 1, 1)); reflexivity.
    - rewrite steps_dt by exact Hn. exact tiny5.
    - exact El.
    - exists g, Rl, s0, log. split; [exact E|]. now rewrite L.
  Qed.
End Runs.
