(* Heat conduction in time: stored heat, equilibrium, decay *)
From Coq Require Import Reals Lra Lia.
From Verif Require Import Base BaseProofs RealBase MatModel SparseModel BlockModel DofModel SpecDof NumberingProofs AsmModel SpecAsm AsmLists AsmProofs AsmRun AsmFinal
  SolveModel SpecSolve GaussModel SpecGauss GaussProofs IsoModel SpecIso IsoProofs ElemModel SpecElem ElemBase ElemProofs ElemMore ThermModel SpecTherm ThermProofs ThermMore
  SpecBal BalProofs BalMore StructModel SpecStruct StructProofs StructFinal StructMore HeatModel SpecHeat PartProofs HeatProofs HeatFinal HeatMore
  TransModel SpecTrans TransProofs SpecTransKeys TransKeys HeatTransModel SpecHeatTrans HeatTransProofs.
Local Open Scope R_scope.

(* ---- the coefficients *)
Section Coefs.
  Variables alpha delta dt : R.
  Hypothesis HA : alpha <> 0.
  Hypothesis HD : dt <> 0.
  Notation c := (coefs (K := RG) alpha delta dt).
  Lemma rcoef1 : (na1 c : R) = na7 c * na0 c.
  Proof. cbn. field. auto. Qed.
  Lemma rcoef4 : (na4 c : R) = na7 c * na2 c - 1.
  Proof. cbn. field. auto. Qed.
  Lemma rcoef5 : (na5 c : R) = na7 c * na3 c - na6 c.
  Proof. cbn. field. auto. Qed.
  Lemma coef_U (u u' v a a' : R) : a' = (u' - u) * na0 c - v * na2 c - a * na3 c -> u' = u + dt * v + dt * dt * ((1 / 2 - alpha) * a + alpha * a').
  Proof. cbn. intros ->. field. auto. Qed.
End Coefs.

Section Heat.
  Variable big : R -> bool.
  Variables (nn : nat) (pos : nat -> nat -> R) (xs : list thermal) (loads fixes : list (bc RNum)).
  Notation ms := (map th_m xs).
  Notation mesh := (map h_nodes ms).
  Notation regs := (flat_map h_regs ms).
  Hypothesis OK : heat_ok nn pos ms loads fixes.
  Hypothesis PL : Forall (fun x => plane (th_m x)) xs.
  Variable cfg : trset RG.

  Section Built.
  Variables (ks : list (contrib RNum)) (cs : list (list (contrib RNum))).
  Hypothesis BK : h_built pos ms ks.
  Hypothesis BC : h_damped pos xs cs.
  Notation kk := (map (fun c => [c]) ks).
  Lemma cs_len : length cs = length xs.
  Proof. symmetry. exact (Forall2_len _ _ _ BC). Qed.
  Lemma ks_len : length ks = length xs.
  Proof. pose proof (Forall2_len _ _ _ BK) as L. rewrite map_length in L. now symmetry. Qed.
  Lemma in_damped en nodes c : In (en, nodes, c) (contribs (K := RNum) mesh cs) -> exists x l, In x xs /\ h_damp pos x = Ok l /\ In c l /\ nodes = h_nodes (th_m x).
  Proof.
    intros H. apply (in_contribs RRng) in H as (l & Hl & -> & Hc). pose proof (in_combine_l _ _ _ _ Hl) as Hs. apply in_seq in Hs. rewrite map_length, map_length in Hs.
    assert (G : forall (m : list thermal) (cc : list (list (contrib RNum))) st, Forall2 (fun x l => h_damp pos x = Ok l) m cc -> In (en, l) (combine (seq st (length m)) cc) ->
      exists x, nth_error m (en - st) = Some x /\ h_damp pos x = Ok l /\ (st <= en)%nat).
    { induction m as [|x m IH]; intros cc st F I; inversion F as [|? l0 ? cc' Ex F']; subst; [destruct I|]. cbn [length seq combine] in I. destruct I as [E|I].
      - injection E as <- <-. exists x. rewrite Nat.sub_diag. auto.
      - destruct (IH _ _ F' I) as (y & E1 & E2 & E3). exists y. replace (en - st)%nat with (S (en - S st)) by lia. cbn. split; [exact E1|]. split; [exact E2|lia]. }
    rewrite !map_length in Hl. destruct (G xs cs 1%nat BC Hl) as (x & E1 & E2 & E3). exists x, l. split; [eapply nth_error_In; exact E1|]. split; [exact E2|]. split; [exact Hc|].
    unfold nodes_of. rewrite map_map. apply nth_error_nth. now rewrite nth_error_map, E1.
  Qed.
  Lemma key_of x n : In x xs -> In n (h_nodes (th_m x)) -> In (KNode, n, TEMP) (reg_keys regs).
  Proof.
    intros Hx Hn. rewrite heat_keys. apply in_map_iff. exists n. split; [reflexivity|]. apply nodup_In, in_flat_map. exists (th_m x). split; [now apply in_map|exact Hn].
  Qed.
  Lemma keys_are k : In k (reg_keys regs) <-> h_key ms k.
  Proof.
    rewrite heat_keys, in_map_iff. unfold temp_nodes. split.
    - intros (n & <- & H). apply nodup_In, in_flat_map in H as (m & Hm & Hn). split; [exists m; auto|reflexivity].
    - destruct k as [[[|] n] t]; [intros []|]. intros [(m & Hm & Hn) ->]. exists n. split; [reflexivity|]. apply nodup_In, in_flat_map. eauto.
  Qed.
  Lemma heat_good : good_trans (K := RNum) nn mesh regs kk cs [] loads fixes /\ distinct_nodes (K := RNum) mesh kk /\ distinct_nodes (K := RNum) mesh cs /\ only_C (K := RNum) cs.
  Proof.
    pose proof (Forall2_len _ _ _ BK) as LB. pose proof (h_parts_ok nn pos ms loads fixes ks OK BK) as PO.
    destruct (parts_good temps temps_nd temps_in nn (h_parts ms ks) loads fixes PO) as [[P C G O LD] DN]. rewrite h_mesh, h_ks, h_pregs in * by exact LB.
    assert (CT : Forall (Forall (fun c => ctarget c = TC)) cs /\ Forall (Forall (fun c => NoDup (ctypes c))) cs).
    { split; apply Forall_forall; intros l Hl; apply Forall_forall; intros c Hc.
      - clear -BC Hl Hc. induction BC as [|x l0 xs' cs' E F IH]; [destruct Hl|]. destruct Hl as [<-|Hl]; [|now apply IH]. apply (h_damp_ok _ _ _ E). exact Hc.
      - clear -BC Hl Hc. induction BC as [|x l0 xs' cs' E F IH]; [destruct Hl|]. destruct Hl as [<-|Hl]; [|now apply IH].
        destruct (proj2 (h_damp_ok _ _ _ E) c Hc) as (_ & _ & -> & _). exact temps_nd. }
    split; [split; try assumption|split; [exact DN|split; [split; [apply DN|apply CT]|apply CT]]].
    - split; [rewrite !map_length; apply cs_len|]. intros en nodes c Hx. destruct (in_damped _ _ _ Hx) as (x & l & Hx' & E & Hc & ->).
      destruct (proj2 (h_damp_ok _ _ _ E) c Hc) as (K1 & _ & _ & K4). split; [exact K4|]. rewrite K1. apply Forall_forall. intros k Hk.
      unfold node_keys in Hk. apply in_flat_map in Hk as (n & Hn & Hk). destruct Hk as [<-|[]]. now apply (key_of x).
    - eapply Forall_impl; [|exact (proj1 CT)]. intros l H. eapply Forall_impl; [|exact H]. cbn. intros c ->. discriminate.
  Qed.
  Lemma cap_total v w : @sumof RNum _ (stiff_work (K := RNum) v w) (contribs mesh cs) = capacity pos xs v w.
  Proof.
    rewrite (contribs_sum mesh cs _ (fun nodes c => stiff_work (K := RNum) v w (0%nat, nodes, c))).
    - unfold capacity. clear OK BK PL. induction BC as [|x l xs' cs' E F IH]; [reflexivity|]. cbn [map combine]. rewrite !sum_cons. cbn [fst snd]. rewrite (h_damp_work _ _ _ v w E).
      f_equal. apply IH. exact F.
    - rewrite !map_length. apply cs_len.
    - intros en nodes c Hx. destruct (in_damped _ _ _ Hx) as (x & l & Hx' & E & Hc & ->). destruct (proj2 (h_damp_ok _ _ _ E) c Hc) as (K1 & _).
      unfold stiff_work. cbn [x_keys elem_stiff]. rewrite !K1. reflexivity.
  Qed.
  (* the conducting elements *)
  Definition heat_work_of (v w : key -> R) (m : hmember) (c : contrib RNum) : R := force_work v w (0%nat, h_nodes m, c).
  Lemma force_sum v w (f : hmember -> R) : (forall m c Ke Fe, In m ms -> h_ok nn pos m -> told nn pos m c Ke Fe -> heat_work_of v w m c = f m) ->
    @sumof RNum _ (force_work v w) (contribs mesh kk) = @sumof RNum _ f ms.
  Proof.
    intros H. pose proof (Forall2_len _ _ _ BK) as LB.
    rewrite <- (h_mesh ms ks LB), <- (h_ks ms ks LB), p_contribs.
    rewrite (forms_sum _ (fun p => force_work v w (pform 0 p))).
    - apply (h_sum pos ms ks _ f BK). intros m c Hm E. destruct (built_told nn pos ms loads fixes OK m c Hm E) as (HO & Ke & Fe & T). exact (H m c Ke Fe Hm HO T).
    - intros i p Hp. destruct (h_in pos ms ks p BK Hp) as (m & c & Hm & E & ->). destruct (built_told nn pos ms loads fixes OK m c Hm E) as (HO & Ke & Fe & T).
      pose proof (p_keys _ _ _ (to_part _ _ _ _ _ _ T)) as PK. cbn [fst snd] in PK. unfold force_work. cbn [pform fst snd x_keys elem_force elem_stiff]. rewrite !PK. reflexivity.
  Qed.
  Lemma told_heat m c Ke Fe v w : told nn pos m c Ke Fe -> heat_work_of v w m c =
    rsumn (length (h_nodes m)) (fun q => (kmul (length (h_nodes m)) Ke (h_values v m) q - nth q Fe 0) * nth q (h_values w m) 0).
  Proof.
    intros T. unfold heat_work_of, force_work. pose proof (told_keys _ _ _ _ _ _ T) as TK. change (x_keys (K := RNum) (0%nat, h_nodes m, c)) with (x_keys (K := RNum) (pform 0 (h_nodes m, c))). rewrite TK, tkeys_length.
    unfold rsumn, rsuml. apply sumR_ext. intros q Hq. apply in_seq in Hq. rewrite tkey by apply Hq. rewrite values_nth by apply Hq.
    refine (f_equal2 Rmult _ eq_refl). exact (told_force _ _ _ _ _ _ v q T (proj2 Hq)).
  Qed.
  Lemma source_total v : @sumof RNum _ (force_work v (fun _ => 1)) (contribs mesh kk) = - @sumof RNum _ (source_at pos v) ms.
  Proof.
    rewrite <- sum_opp. apply force_sum. intros m c Ke Fe Hm (_ & _ & D) T. rewrite (told_heat m c Ke Fe v _ T).
    transitivity (rsumn (length (h_nodes m)) (kmul (length (h_nodes m)) Ke (h_values v m)) - total (length (h_nodes m)) Fe).
    { unfold total. rewrite <- rsumn_minus. apply rsumn_ext. intros q Hq. rewrite values_nth by exact Hq. ring. }
    pose proof (to_who _ _ _ _ _ _ T) as W. cbn zeta in W, D.
    destruct m as [k a b c0 d|ord k vf a b c0 d|ord flux htc e a b]; cbn [h_nodes length source_at] in *.
    - destruct W as [W ->]. rewrite (closed_rows 4) by (intros; eapply tet1_const; eauto). unfold total. rewrite rsumn_zero; [ring|]. intros [|i]; reflexivity.
    - rewrite (closed_rows 4) by (intros; eapply quadth_const; eauto). rewrite (quadth_total _ _ _ _ _ _ W). ring.
    - pose proof (lineth_balance ord flux htc (line_pre e) (at_nodes pos [a; b]) Ke Fe (h_values v (HLine ord flux htc e a b)) D W) as Q.
      apply Ropp_eq_compat in Q. etransitivity; [etransitivity; [|exact Q]; ring|]. reflexivity.
  Qed.
  (* the force of the elements is affine in the temperatures *)
  Lemma force_affine v y w x : force_work (fun k => v k + y k) w x = force_work v w x + stiff_work (K := RNum) y w x.
  Proof.
    destruct x as [[en nodes] c]. unfold force_work, stiff_work. rewrite sum_add. apply sumR_ext. intros p _. cbn [elem_force elem_stiff].
    transitivity ((@sumof RNum _ (fun q => SpecAsm.cmat (K := RNum) (cdim nodes c) c p q * v (nth q (ckeys en nodes c) dkey)) (seq 0 (length (ckeys en nodes c))) +
      @sumof RNum _ (fun q => SpecAsm.cmat (K := RNum) (cdim nodes c) c p q * y (nth q (ckeys en nodes c) dkey)) (seq 0 (length (ckeys en nodes c))) -
      SpecAsm.cvec (K := RNum) (cdim nodes c) c p) * w (nth p (x_keys (K := RNum) (en, nodes, c)) dkey)).
    - refine (f_equal2 Rmult _ eq_refl). refine (f_equal2 Rminus _ eq_refl). rewrite sum_add. apply sumR_ext. intros q _. apply Rmult_plus_distr_l.
    - set (a := @sumof RNum _ _ _). set (b := @sumof RNum _ _ _). set (f := SpecAsm.cvec _ _ _). set (z := w _). change ((a + b - f) * z = (a - f) * z + b * z). ring.
  Qed.
  Lemma force_affine_on v y k x : force_on (K := RNum) (fun k => v k + y k) k x = force_on (K := RNum) v k x + stiff_on (K := RNum) y k x.
  Proof.
    destruct x as [[en nodes] c]. unfold force_on, stiff_on. rewrite sum_add. apply sumR_ext. intros p _. destruct (key_dec _ k); [|symmetry; apply Rplus_0_l]. cbn [elem_force elem_stiff].
    transitivity (@sumof RNum _ (fun q => SpecAsm.cmat (K := RNum) (cdim nodes c) c p q * v (nth q (ckeys en nodes c) dkey)) (seq 0 (length (ckeys en nodes c))) +
      @sumof RNum _ (fun q => SpecAsm.cmat (K := RNum) (cdim nodes c) c p q * y (nth q (ckeys en nodes c) dkey)) (seq 0 (length (ckeys en nodes c))) -
      SpecAsm.cvec (K := RNum) (cdim nodes c) c p).
    - refine (f_equal2 Rminus _ eq_refl). rewrite sum_add. apply sumR_ext. intros q _. apply Rmult_plus_distr_l.
    - set (a := @sumof RNum _ _ _). set (b := @sumof RNum _ _ _). set (f := SpecAsm.cvec _ _ _). change (a + b - f = a - f + b). ring.
  Qed.
  Lemma stiff_lin a b v y w x : stiff_work (K := RNum) (fun k => a * v k + b * y k) w x = a * stiff_work (K := RNum) v w x + b * stiff_work (K := RNum) y w x.
  Proof.
    destruct x as [[en nodes] c]. unfold stiff_work. rewrite <- !sum_scale, sum_add. apply sumR_ext. intros p _. cbn [elem_stiff].
    transitivity ((a * @sumof RNum _ (fun q => SpecAsm.cmat (K := RNum) (cdim nodes c) c p q * v (nth q (ckeys en nodes c) dkey)) (seq 0 (length (ckeys en nodes c))) +
      b * @sumof RNum _ (fun q => SpecAsm.cmat (K := RNum) (cdim nodes c) c p q * y (nth q (ckeys en nodes c) dkey)) (seq 0 (length (ckeys en nodes c)))) * w (nth p (x_keys (K := RNum) (en, nodes, c)) dkey)).
    - refine (f_equal2 Rmult _ eq_refl). rewrite <- !sum_scale, sum_add. apply sumR_ext. intros q _. set (m := SpecAsm.cmat _ _ _ _). change (m * (a * v (nth q (ckeys en nodes c) dkey) + b * y (nth q (ckeys en nodes c) dkey)) = a * (m * v (nth q (ckeys en nodes c) dkey)) + b * (m * y (nth q (ckeys en nodes c) dkey))). ring.
    - set (A := @sumof RNum _ _ _). set (B := @sumof RNum _ _ _). set (z := w _). change ((a * A + b * B) * z = a * (A * z) + b * (B * z)). ring.
  Qed.
  Definition conduct (v w : key -> R) : R := @sumof RNum _ (stiff_work (K := RNum) v w) (contribs mesh kk).
  Lemma conduct_lin a b v y w : conduct (fun k => a * v k + b * y k) w = a * conduct v w + b * conduct y w.
  Proof. unfold conduct. rewrite <- !sum_scale, sum_add. apply sumR_ext. intros x _. apply stiff_lin. Qed.
  Lemma force_conduct v y w : @sumof RNum _ (force_work (fun k => v k + y k) w) (contribs mesh kk) = @sumof RNum _ (force_work v w) (contribs mesh kk) + conduct y w.
  Proof. unfold conduct. rewrite sum_add. apply sumR_ext. intros x _. apply force_affine. Qed.
  Lemma settled_work e w : Forall (settled e) ms -> @sumof RNum _ (force_work (fun _ => e) w) (contribs mesh kk) = 0.
  Proof.
    intros S. rewrite Forall_forall in S. transitivity (@sumof RNum _ (fun _ : hmember => 0) ms); [|apply (sumof_zero RRng); reflexivity].
    apply force_sum. intros m c Ke Fe Hm HO T. rewrite (told_heat m c Ke Fe _ w T). apply rsumn_zero. intros q Hq. rewrite const_values.
    rewrite (told_const nn pos e m c Ke Fe HO T (S m Hm) q Hq). ring.
  Qed.
  Lemma settled_on e k : h_key ms k -> Forall (settled e) ms -> @sumof RNum _ (force_on (K := RNum) (fun _ => e) k) (contribs mesh kk) = 0.
  Proof.
    intros Hk S. destruct k as [[[|] n] t]; [destruct Hk|]. destruct Hk as [_ ->]. rewrite Forall_forall in S. pose proof (Forall2_len _ _ _ BK) as LB.
    rewrite <- (h_mesh ms ks LB), <- (h_ks ms ks LB), p_contribs.
    rewrite (forms_sum _ (fun p => force_on (K := RNum) (fun _ => e) (KNode, n, TEMP) (pform 0 p))).
    - rewrite (h_sum pos ms ks _ (fun _ => 0) BK); [apply (sumof_zero RRng); reflexivity|].
      intros m c Hm E. destruct (built_told nn pos ms loads fixes OK m c Hm E) as (H & Ke & Fe & T). rewrite (told_on nn pos m c Ke Fe _ n T). apply rsumn_zero. intros l Hl.
      destruct (_ =? n)%nat; [|reflexivity]. rewrite const_values. exact (told_const nn pos e m c Ke Fe H T (S m Hm) l Hl).
    - intros i p Hp. destruct (h_in pos ms ks p BK Hp) as (m & c & Hm & E & ->). destruct (built_told nn pos ms loads fixes OK m c Hm E) as (HO & Ke & Fe & T).
      pose proof (p_keys _ _ _ (to_part _ _ _ _ _ _ T)) as PK. cbn [fst snd] in PK. unfold force_on. cbn [pform fst snd x_keys elem_force elem_stiff]. rewrite !PK. reflexivity.
  Qed.
  Lemma cools_settled : Forall cools ms -> Forall (settled 0) ms.
  Proof. intros C. eapply Forall_impl; [|exact C]. intros [| |]; cbn; [tauto|tauto|]. intros (-> & _ & H1 & H2). auto. Qed.
  Lemma force_conduct0 v w : Forall cools ms -> @sumof RNum _ (force_work v w) (contribs mesh kk) = conduct v w.
  Proof.
    intros C. rewrite <- (Rplus_0_l (conduct v w)), <- (settled_work 0 w (cools_settled C)), <- force_conduct. apply sumR_ext. intros [[en nodes] c] _.
    unfold force_work. apply sumR_ext. intros p _. refine (f_equal2 Rmult _ eq_refl). cbn [elem_force elem_stiff]. refine (f_equal2 Rminus _ eq_refl). apply sumR_ext. intros q _.
    refine (f_equal2 Rmult eq_refl _). symmetry. apply Rplus_0_l.
  Qed.
  (* conduction and convection towards zero never add to the squares *)
  Lemma conduct_nonneg v : Forall cools ms -> 0 <= conduct v v.
  Proof.
    intros CO. rewrite <- force_conduct0 by exact CO. pose proof (Forall2_len _ _ _ BK) as LB. rewrite <- (h_mesh ms ks LB), <- (h_ks ms ks LB), p_contribs.
    rewrite (forms_sum _ (fun p => force_work v v (pform 0 p))).
    - rewrite Forall_forall in CO. apply sum_le. intros p Hp.
      destruct (h_in pos ms ks p BK Hp) as (m & c & Hm & E & ->). destruct (built_told nn pos ms loads fixes OK m c Hm E) as ((_ & _ & D) & Ke & Fe & T).
      change (force_work v v (pform 0 (h_nodes m, c))) with (heat_work_of v v m c). rewrite (told_heat m c Ke Fe v v T).
      replace (rsumn (length (h_nodes m)) (fun q => (kmul (length (h_nodes m)) Ke (h_values v m) q - nth q Fe 0) * nth q (h_values v m) 0))
        with (dot (length (h_nodes m)) (kmul (length (h_nodes m)) Ke (h_values v m)) (h_values v m) - rsumn (length (h_nodes m)) (fun i => nth i Fe 0 * nth i (h_values v m) 0)).
      2:{ unfold dot. rewrite <- rsumn_minus. apply rsumn_ext. intros; ring. }
      specialize (CO m Hm). pose proof (to_who _ _ _ _ _ _ T) as W. destruct m as [|ord k vf n1 n2 n3 n4|ord flux htc et n1 n2]; [destruct CO| |]; cbn [h_nodes length cools] in *.
      + destruct CO as [Hk ->]. rewrite (rsumn_zero 4).
        * rewrite Rminus_0_r. apply (quadth_kernel _ _ _ _ _ _ (h_values v (HQuad ord k 0 n1 n2 n3 n4)) W D Hk).
        * intros i Hi. destruct (quadth_ok ord k 0 (at_nodes pos [n1; n2; n3; n4])) as (Ke' & Fe' & E' & _ & _ & _ & WF). rewrite W in E'. injection E' as <- <-. rewrite WF by exact Hi.
          unfold quad_sum. rewrite rsuml_zero; [ring|]. intros ((r, s), w) _. ring.
      + destruct CO as (-> & Hh & E1 & E2). assert (EP : line_pre et = (0, 0)).
        { destruct et as [a b]. cbn [fst snd] in *. subst. unfold line_pre. cbn [fst snd]. destruct (Req_EM_T 0 0); reflexivity. }
        rewrite EP in W. rewrite (rsumn_zero 2).
        * rewrite Rminus_0_r. exact (lineth_nonneg ord htc (0, 0) _ Ke Fe _ D Hh W).
        * intros i Hi. rewrite <- (lineth_rest ord htc (0, 0) _ Ke Fe D W i Hi). unfold kmul. rewrite sum2. cbn [nth fst snd]. ring.
    - intros i p Hp. destruct (h_in pos ms ks p BK Hp) as (m & c & Hm & E & ->). destruct (built_told nn pos ms loads fixes OK m c Hm E) as (HO & Ke & Fe & T).
      pose proof (p_keys _ _ _ (to_part _ _ _ _ _ _ T)) as PK. cbn [fst snd] in PK. unfold force_work. cbn [pform fst snd x_keys elem_force elem_stiff]. rewrite !PK. reflexivity.
  Qed.
  (* all loads *)
  Lemma loads_total : @sumof RNum _ (fun k => total_load loads k) (reg_keys regs) = @sumof RNum _ (fun l => bc_val (K := RNum) l) loads.
  Proof.
    unfold total_load. rewrite (sumof_swap RRng). apply sumR_ext. intros l Hl. apply (key_delta RRng (bc_key l) (fun _ => bc_val l)); [apply NoDup_nodup|].
    apply keys_are. pose proof (hk_loads _ _ _ _ _ OK) as LO. rewrite Forall_forall in LO. now apply LO.
  Qed.
  (* the equations of a step on a temperature field w *)
  Lemma flow_work u v w : (forall k, h_key ms k -> last_fix fixes k <> None -> w k = 0) -> flow_holds (K := RNum) mesh regs kk cs loads fixes u v ->
    capacity pos xs v w + @sumof RNum _ (force_work (free fixes u) w) (contribs mesh kk) = @sumof RNum _ (fun k => total_load loads k * w k) (reg_keys regs).
  Proof.
    intros W0 F. destruct heat_good as (GT & _). rewrite <- cap_total. rewrite <- (stiff_total mesh regs cs v w (gr_C _ _ _ _ _ _ _ _ GT)), <- (force_total mesh regs kk _ w (gr_K _ _ _ _ _ _ _ _ GT)).
    rewrite sum_add. apply sumR_ext. intros k Hk. destruct (last_fix fixes k) as [y|] eqn:E.
    - rewrite W0 by (try apply keys_are; congruence). req. ring.
    - rewrite <- (F k Hk E). symmetry. apply Rmult_plus_distr_r.
  Qed.
  End Built.

  (* ---- the run *)
  Notation dt := (tr_dt cfg : R).
  Notation nw := (coefs (K := RG) (tr_alpha cfg) (tr_delta cfg) (tr_dt cfg)).
  Definition flows (ks : list (contrib RNum)) (cs : list (list (contrib RNum))) (u v : key -> R) : Prop :=
    flow_holds (K := RNum) mesh regs (map (fun c => [c]) ks) cs loads fixes u v.
  Lemma flows_ext ks cs u v v' : (forall k, v k = v' k) -> flows ks cs u v -> flows ks cs u v'.
  Proof.
    intros H F k Hk E. rewrite <- (F k Hk E). refine (f_equal2 Rplus _ eq_refl). apply sumR_ext. intros [[en nodes] c] _. unfold stiff_on. apply sumR_ext. intros p _.
    destruct (key_dec _ k); [|reflexivity]. cbn [elem_stiff]. apply sumR_ext. intros q _. refine (f_equal2 Rmult eq_refl _). symmetry. apply H.
  Qed.
  (* what is known of a step *)
  Record known ks cs (g : gst RNum) (st st' : TransModel.motion RNum) : Prop := {
    kn_U : forall k, h_key ms k -> mU g st' k = mU g st k + dt * mV g st k + dt * dt * ((1 / 2 - tr_alpha cfg) * mA g st k + tr_alpha cfg * mA g st' k);
    kn_V : forall k, h_key ms k -> mV g st' k = mV g st k + dt * ((1 - tr_delta cfg) * mA g st' k + tr_delta cfg * mA g st k);
    kn_A : forall k, h_key ms k -> mA g st' k = (mU g st' k - mU g st k) * na0 nw - mV g st k * na2 nw - mA g st k * na3 nw;
    kn_fix : forall k, h_key ms k -> last_fix fixes k <> None -> mU g st' k = mU g st k;
    kn_flow : flows ks cs (mU g st') (rate cfg g st st') }.
  Definition unique ks cs : Prop := forall w : key -> R, (forall k, last_fix fixes k <> None -> h_key ms k -> w k = 0) ->
    (forall k, h_key ms k -> last_fix fixes k = None -> step_free (K := RNum) mesh (map (fun c => [c]) ks) cs (na1 nw) w k = 0) -> forall k, h_key ms k -> w k = 0.
  Definition at_start (g : gst RNum) (s0 : TransModel.motion RNum) : Prop :=
    forall k, h_key ms k -> mU g s0 k = match last_fix fixes k with Some v => v | None => tr_init cfg end /\ mV g s0 k = 0 /\ mA g s0 k = 0.

  Lemma heat_unfold : exists ks cs, h_built pos ms ks /\ h_damped pos xs cs /\ forall slv fuel, heat_trans big slv fuel cfg nn pos xs loads fixes =
    trans_solve (K := RG) fuel cfg big slv nn mesh regs (map (fun c => [c]) ks) cs [] loads fixes.
  Proof.
    destruct (heat_each nn pos ms loads fixes OK) as (ks & E & B). destruct (h_damp_each pos xs PL) as (cs & E' & B'). exists ks, cs. split; [exact B|]. split; [exact B'|].
    intros slv fuel. unfold heat_trans. rewrite E. cbn [obind]. rewrite E'. reflexivity.
  Qed.
  Lemma heat_run slv : (forall v, big v = false -> v = 0) -> exact_solver slv -> tr_alpha cfg <> 0 -> dt <> 0 ->
    forall fuel g Rl s0 log, heat_trans big slv fuel cfg nn pos xs loads fixes = Ok (g, Rl, s0, log) ->
    exists ks cs, h_built pos ms ks /\ h_damped pos xs cs /\ at_start g s0 /\ each_step (known ks cs g) s0 log /\
      forall u, slv = gauss_slv (K := RG) u -> (forall n, length (u n) = n) -> log <> [] -> unique ks cs.
  Proof.
    intros BIG EX HA HD fuel g Rl s0 log HS. destruct heat_unfold as (ks & cs & B & B' & EU). rewrite EU in HS. exists ks, cs. split; [exact B|]. split; [exact B'|].
    destruct (heat_good ks cs B B') as (GT & DK & DC & OC).
    destruct (trans_started RG RG_laws nn mesh regs _ cs loads fixes GT cfg big) as (s & g' & R' & s0' & Km & M22 & C22 & SD & RUN).
    rewrite RUN in HS. apply obind_ok in HS as (log' & HL & HS). injection HS as -> -> -> ->.
    pose proof (g_is RG RG_laws nn mesh regs _ cs loads fixes cfg s g Rl s0 Km M22 C22 SD) as GI. change (g_num (K := RNum) g = s) in GI.
    set (step := trans_step (K := RG) big slv nw g Km M22 C22 Rl) in *.
    assert (STEP : forall st st', calm RG s st -> step st = Ok st' -> calm RG s st' /\ known ks cs g st st').
    { intros st st' C E. destruct (step_flow RG RG_laws nn mesh regs _ cs loads fixes GT DK DC OC cfg big s g Rl s0 Km M22 C22 SD slv st st' BIG EX
        (rcoef1 _ _ _ HA HD) (rcoef4 _ _ _ HA HD) (rcoef5 _ _ _ HA) C E) as (C' & H1 & H2 & H3 & H4). split; [exact C'|].
      assert (HA' : forall k, h_key ms k -> mA g st' k = (mU g st' k - mU g st k) * na0 nw - mV g st k * na2 nw - mA g st k * na3 nw).
      { intros k Hk. apply H2, keys_are, Hk. }
      split.
      - intros k Hk. apply (coef_U (tr_alpha cfg) (tr_delta cfg) dt HA HD). exact (HA' k Hk).
      - intros k Hk. etransitivity; [exact (H3 k (proj2 (keys_are k) Hk))|]. cbn. set (x := mV g st k). set (y := mA g st' k). set (z := mA g st k). 
        change (x + y * (dt * (1 - tr_delta cfg)) + z * (tr_delta cfg * dt) = x + dt * ((1 - tr_delta cfg) * y + tr_delta cfg * z)). ring.
      - exact HA'.
      - intros k Hk. apply H1, keys_are, Hk.
      - refine (flows_ext ks cs _ _ _ _ H4). intros k. unfold rate. cbn. set (x := mV g st k). set (y := mA g st' k). set (z := mA g st k).
        change (x + y * (tr_delta cfg * dt) + z * (dt * (1 - tr_delta cfg)) = x + dt * ((1 - tr_delta cfg) * z + tr_delta cfg * y)). ring. }
    pose proof (calm0 RG RG_laws nn mesh regs _ cs loads fixes cfg s g Rl s0 Km M22 C22 SD) as C0.
    split; [|split].
    - intros k Hk. apply keys_are in Hk. unfold mU, mV, mA. rewrite GI. split; [exact (sd_U _ _ _ _ _ _ _ _ _ _ _ _ _ _ _ _ _ SD k Hk)|].
      pose proof (sd_V _ _ _ _ _ _ _ _ _ _ _ _ _ _ _ _ _ SD) as QV. pose proof (sd_A _ _ _ _ _ _ _ _ _ _ _ _ _ _ _ _ _ SD) as QA. unfold vget.
      split; [etransitivity; [exact (f_equal (fun l => nth (eqn s k - 1) l 0) QV)|]|etransitivity; [exact (f_equal (fun l => nth (eqn s k - 1) l 0) QA)|]]; apply nth_repeat.
    - destruct (loop_runs RG step _ _ STEP fuel _ _ _ _ _ _ C0 HL) as (new & E & Q & _). cbn [app] in E. subst new. exact Q.
    - intros u -> HU NE w W0 W1 k Hk. destruct log as [|st log]; [congruence|].
      assert (E : step s0 = Ok st).
      { destruct fuel as [|fuel]; cbn [time_loop] in HL; destruct (glt _ _); try discriminate. apply obind_ok in HL as (s' & E & HL). rewrite E.
        destruct (loop_runs RG step _ _ STEP fuel _ _ _ _ _ _ (proj1 (STEP _ _ C0 E)) HL) as (new & Q & _). injection Q as Q _. rewrite Q. reflexivity. }
      apply (step_held RG RG_laws nn mesh regs _ cs loads fixes GT DK DC OC cfg big s g Rl s0 Km M22 C22 SD u HU s0 st (proj1 C0) E w).
      + intros x Nx Hx. apply W0; [exact Nx|now apply keys_are].
      + intros x Hx Nx. apply W1; [now apply keys_are|exact Nx].
      + now apply keys_are.
  Qed.
  Theorem heat_trans_ends u : (forall n, length (u n) = n) -> (forall v, big v = false -> v = 0) -> tr_alpha cfg <> 0 -> dt <> 0 -> forall fuel,
    heat_trans big (gauss_slv (K := RG) u) fuel cfg nn pos xs loads fixes = Fatal \/ heat_trans big (gauss_slv (K := RG) u) fuel cfg nn pos xs loads fixes = Loop \/
    exists r, heat_trans big (gauss_slv (K := RG) u) fuel cfg nn pos xs loads fixes = Ok r.
  Proof.
    intros HU BIG HA HD fuel. destruct heat_unfold as (ks & cs & B & B' & EU). rewrite EU.
    destruct (heat_good ks cs B B') as (GT & DK & DC & OC).
    destruct (trans_started RG RG_laws nn mesh regs _ cs loads fixes GT cfg big) as (s & g & Rl & s0 & Km & M22 & C22 & SD & RUN). rewrite RUN.
    set (step := trans_step (K := RG) big (gauss_slv u) nw g Km M22 C22 Rl) in *.
    assert (STEP : forall st st', calm RG s st -> step st = Ok st' -> calm RG s st' /\ True).
    { intros st st' C E. destruct (step_flow RG RG_laws nn mesh regs _ cs loads fixes GT DK DC OC cfg big s g Rl s0 Km M22 C22 SD (gauss_slv u) st st' BIG (gs_exact u HU)
        (rcoef1 _ _ _ HA HD) (rcoef4 _ _ _ HA HD) (rcoef5 _ _ _ HA) C E) as (C' & _). auto. }
    pose proof (calm0 RG RG_laws nn mesh regs _ cs loads fixes cfg s g Rl s0 Km M22 C22 SD) as C0.
    destruct (loop_ends RG step (calm RG s) (fun _ _ => True) STEP
      (fun st C => step_gauss RG RG_laws nn mesh regs _ cs loads fixes GT cfg big s g Rl s0 Km M22 C22 SD u HU st (proj1 C)) fuel
      (tr_time0 cfg + tr_dt cfg) (tr_dt cfg) (tr_time1 cfg) s0 [] C0) as [E|[E|[l E]]].
    - left. match goal with |- obind ?e _ = _ => replace e with (@Fatal (list (TransModel.motion RG))) by (symmetry; exact E) end. reflexivity.
    - right; left. match goal with |- obind ?e _ = _ => replace e with (@Loop (list (TransModel.motion RG))) by (symmetry; exact E) end. reflexivity.
    - right; right. exists (g, Rl, s0, l). match goal with |- obind ?e _ = _ => replace e with (Ok l) by (symmetry; exact E) end. reflexivity.
  Qed.
End Heat.
