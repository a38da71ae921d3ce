(* Elements with a constant stiffness in NonlinearFESolver *)
From Coq Require Import NArith Lia QArith Qcanon.
From Verif Require Import Base BaseProofs SparseModel SpecSparse BlockModel SpecBlock DofModel SpecDof AsmModel SpecAsm AsmProofs AsmRun AsmFinal SolveModel SpecSolve
  SolveProofs LinearProofs GaussModel SpecGauss GaussProofs TimeModel TimeProofs NonlinModel SpecNonlin NonlinProofs NonlinFinal SpecBal BalProofs BalMore SpecLaws LawsProofs LawsMore
  SpecNewton NewtonProofs SpecStill.
Local Close Scope Qc_scope.
Local Open Scope nat_scope.

Section Gen.
  Variable K : GNum.
  Variable L : glaws K.
  Notation RK := (GR K L).
  Add Ring KrS : (gl_ring K L).
  Variable E : Type.
  Variable ph : physics K E.
  Variable cfg : nlset K.
  Variable big : K -> bool.
  Variable slv : eqsolver K.
  Hypothesis EX : exact_solver slv.
  Variables (nn : nat) (mesh : list (list nat)) (regs : list reg) (ks : list (list (contrib K))) (mpcs : list (mpc K)) (loads fixes : list (bc K)).
  Hypothesis GN : good_nonlin ph nn mesh regs mpcs loads fixes.
  Hypothesis ST : still ph ks mpcs.
  Hypothesis DN : distinct_nodes mesh ks.
  Hypothesis ID : Forall (Forall idle) ks.
  Hypothesis B0 : Forall (fun m => mp_b m = r0) mpcs.
  Variable s : numst.
  Hypothesis HN : prob_num nn (length mesh) regs (map bc_key fixes) (length mpcs) s.
  Hypothesis HG : good_mpcs RK regs (length mpcs) mpcs.
  Notation inv := (ninv K L E ph big nn mesh regs mpcs loads fixes s).
  Local Open Scope rng_scope.

  (* the values v prescribed where something is prescribed *)
  Definition held (v : key -> K) : list (bc K) := map (fun f => mkBC (bc_node f) (bc_dof f) (v (bc_key f))) fixes.
  Lemma held_fix v k : last_fix (held v) k = match last_fix fixes k with Some _ => Some (v k) | None => None end.
  Proof.
    unfold last_fix, held. assert (Q : forall l o o', (o' = match o with Some _ => Some (v k) | None => None end) ->
      fold_left (fun o f => if key_dec (bc_key f) k then Some (bc_val f) else o) (map (fun f => mkBC (bc_node f) (bc_dof f) (v (bc_key f))) l) o' =
      match fold_left (fun o (f : bc K) => if key_dec (bc_key f) k then Some (bc_val f) else o) l o with Some _ => Some (v k) | None => None end).
    { induction l as [|f l IH]; intros o o' H; [exact H|]. cbn [map fold_left]. apply IH. change (bc_key (mkBC (bc_node f) (bc_dof f) (v (bc_key f)))) with (bc_key f).
      destruct (key_dec (bc_key f) k) as [<-|]; [reflexivity|exact H]. }
    now apply Q.
  Qed.
  Lemma ks_comb : Forall3 (Forall3 (comb_contrib (K := RK) 1 1)) ks ks ks.
  Proof.
    assert (C1 : forall l : list (contrib K), Forall idle l -> Forall3 (comb_contrib (K := RK) 1 1) l l l).
    { intros l F. induction F as [|c l H F IH]; [constructor|]. constructor; [|exact IH].
      destruct c; cbn in *; repeat split; intros; try contradiction; try (destruct H as [H ?]); rewrite ?H; try congruence; try (subst; ring); ring. }
    assert (C2 : forall l : list (list (contrib K)), Forall (Forall idle) l -> Forall3 (Forall3 (comb_contrib (K := RK) 1 1)) l l l).
    { intros l F. induction F as [|c l H F IH]; [constructor|]. constructor; [now apply C1|exact IH]. }
    now apply C2.
  Qed.
  Lemma mpc_comb : Forall3 (comb_mpc (K := RK) 1 1) mpcs mpcs mpcs.
  Proof.
    assert (C1 : forall l : list (mpc K), Forall (fun m => mp_b m = 0) l -> Forall3 (comb_mpc (K := RK) 1 1) l l l).
    { intros l F. induction F as [|m l H F IH]; [constructor|]. constructor; [|exact IH]. split; [reflexivity|]. split; [reflexivity|]. cbn [rnum GR]. rewrite H. ring. }
    now apply C1.
  Qed.
  Lemma times_total c k : forall lds : list (bc K), total_load (times c lds) k = c * total_load lds k.
  Proof.
    unfold total_load, times, sumof. intros lds. induction lds as [|b l IH]; cbn [map rsum fold_right] in *; [unfold rsum; cbn; ring|].
    unfold rsum in *. cbn [fold_right]. rewrite IH.
    change (bc_key (mkBC (bc_node b) (bc_dof b) (c * bc_val b))) with (bc_key b). cbn [bc_val]. destruct (key_dec (bc_key b) k); ring.
  Qed.
  Lemma all_times_app log (it : iter K) : all_times (log ++ [it]) = all_times log + it_time it.
  Proof. unfold all_times, sumof, rsum. induction log as [|i l IH]; cbn [app map fold_right] in *; [ring|]. rewrite IH. ring. Qed.
  Lemma same_total l1 l2 fx v l r : (forall k, total_load l1 k = total_load l2 k) -> balanced mesh regs ks mpcs l1 fx v l r -> balanced mesh regs ks mpcs l2 fx v l r.
  Proof. intros H [A1 A2 A3 A4 A5]. split; auto. intros k Hk Hf. rewrite <- H. auto. Qed.
  Definition track (st : nlst K E) : Prop :=
    (nl_log st = [] /\ forall k, vget s (nl_U st) k = 0) \/
    exists v l r, balanced mesh regs ks mpcs (times (all_times (nl_log st)) loads) (held v) v l r /\ forall k, In k (reg_keys regs) -> vget s (nl_U st) k = v k.
  Lemma track_step st st' c : inv st -> track st -> iteration ph cfg big slv loads fixes st = Ok (st', c) -> track st'.
  Proof.
    intros I HT HI.
    destruct (iteration_step K L E ph cfg big slv EX nn mesh regs mpcs loads fixes GN (fun e U e' ks' m' H => eq_ind_r (distinct_nodes mesh) DN (proj1 (ST e U e' ks' m' H))) s HN HG st st' c I HI)
      as (e1 & ks' & mps & it & EA & _ & EL & EB & EF & _ & _ & _ & _ & _ & _ & OS).
    destruct (ST _ _ _ _ _ EA) as (-> & ->). destruct OS as [O1 _ _ _ O5 O6 O7]. rewrite EB, EF in O5.
    set (d := vget s (it_d it)) in *. set (l := mults s (it_d it)) in *.
    assert (BD : balanced mesh regs ks mpcs (times (it_time it) loads) (held d) d l (fun k => sumof (force_on d k) (contribs mesh ks) + mpc_pull l mpcs k)).
    { split.
      - apply O6.
      - reflexivity.
      - intros k Hk Hf. rewrite held_fix in Hf. rewrite (O1 k Hk) by (destruct (last_fix fixes k); congruence). rewrite times_total. ring.
      - intros k y Hf. rewrite held_fix in Hf. destruct (last_fix fixes k); congruence.
      - exact O7. }
    right. rewrite EL, all_times_app. destruct HT as [(NL & Z)|(v & l0 & r & B & HV)].
    - rewrite NL. cbn [all_times sumof map fold_right]. exists d, l. eexists. split; [refine (same_total _ _ _ _ _ _ _ BD); intros k; rewrite !times_total; unfold all_times; cbn; ring|]. intros k Hk. rewrite (O5 k Hk), Z. unfold d. ring.
    - set (r2 := fun k => sumof (force_on d k) (contribs mesh ks) + mpc_pull l mpcs k) in BD.
      pose proof (comb_balanced RK 1 1 mesh regs ks ks ks mpcs mpcs mpcs (times (all_times (nl_log st)) loads) (times (it_time it) loads) (times (all_times (nl_log st) + it_time it) loads) (held v) (held d) (held (fun k => 1 * v k + 1 * d k)) v d l0 l r r2 ks_comb mpc_comb) as CB.
      cbn [rnum GR] in CB. do 3 eexists. split.
      + apply CB; [|..|exact B|exact BD].
        * intros k. rewrite !times_total. ring.
        * intros k. rewrite !held_fix. destruct (last_fix fixes k); cbn; [ring|exact Logic.I].
      + intros k Hk. cbv beta. rewrite (O5 k Hk), (HV k Hk). unfold d. ring.
  Qed.
End Gen.

(* the displacements are those LinearFESolver finds for the loads times the sum of the times of all iterations *)
Lemma still_linear E (ph : physics QcG E) (cfg : nlset QcG) big (u : nat -> list Qc) nn mesh regs ks mpcs loads fixes : (forall n, length (u n) = n) ->
  good_nonlin ph nn mesh regs mpcs loads fixes -> good_linear (K := QcG) nn mesh regs ks mpcs loads fixes -> still ph ks mpcs -> distinct_nodes (K := QcG) mesh ks ->
  Forall (Forall (idle (K := QcG))) ks -> Forall (fun m : mpc QcG => mp_b m = r0) mpcs ->
  (forall x v, last_fix (K := QcG) fixes x = Some v -> big v = false -> v = r0) ->
  forall fuel e start end_ st sl, (start < end_)%Qc -> (Q2Qc 0 < end_)%Qc -> 0 < nl_steps cfg ->
  nonlin_solve ph cfg big (gauss_slv (K := QcG) u) fuel nn mesh regs mpcs e start end_ loads fixes = Ok st ->
  linear_solve (K := QcG) big (gauss_slv (K := QcG) u) nn mesh regs ks mpcs (times (K := QcG) (all_times (nl_log st)) loads) fixes = Ok sl ->
  forall k, In k (reg_keys regs) -> vget (K := QcG) (g_num (nl_g st)) (nl_U st) k = sol_U (K := QcG) sl k.
Proof.
  intros HU GN GL ST DN ID B0 PL fuel e start end_ st sl T1 T2 NS H HL k Hk.
  pose proof (gauss_exact QcG QcG_laws u HU) as EX.
  destruct (nonlin_full E ph cfg big (gauss_slv (K := QcG) u) EX nn mesh regs mpcs loads fixes GN fuel e start end_ st T1 T2 NS H) as (NE & _ & _ & FX & _).
  destruct (solve_keeps QcG QcG_laws E ph cfg big (gauss_slv (K := QcG) u) EX nn mesh regs mpcs loads fixes GN fuel e start end_ st H) as (s & EI & HN & HG & KEEP).
  destruct (KEEP (track QcG E mesh regs ks mpcs loads fixes s)) as (I & TR).
  - intros st0 tc T. exact T.
  - intros st0 st1 c I T HI. exact (track_step QcG QcG_laws E ph cfg big (gauss_slv (K := QcG) u) EX nn mesh regs ks mpcs loads fixes GN ST DN ID B0 s HN HG st0 st1 c I T HI).
  - intros g tc. left. split; [reflexivity|]. intros k0. unfold vget. apply (nth_zeros QcRng).
  - assert (GS : g_num (nl_g st) = s) by (destruct I as ((FK & Fv & I1) & _); exact (gi_num _ _ _ _ _ _ _ _ _ I1)).
    rewrite GS in *. destruct TR as [(X & _)|(v & l & r & B & HV)]; [congruence|].
    assert (BF : balanced (K := QcG) mesh regs ks mpcs (times (K := QcG) (all_times (nl_log st)) loads) fixes v l r).
    { destruct B as [A1 A2 A3 A4 A5]. split; auto.
      - intros k0 Hk0 Hf. apply (A3 k0 Hk0). rewrite held_fix, Hf. reflexivity.
      - intros k0 y Hf. assert (Hk0 : In k0 (reg_keys regs)).
        { pose proof (gp_fixes _ _ _ _ _ (gn_problem _ _ _ _ _ _ _ GN)) as PF. rewrite Forall_forall in PF. apply PF.
          destruct (in_dec key_dec k0 (map bc_key fixes)) as [?|N]; [assumption|]. apply (last_fix_none QcRng) in N. exfalso. pose proof (eq_trans (eq_sym Hf) N). discriminate. }
        rewrite <- (HV k0 Hk0). now apply FX. }
    assert (GL' : good_linear (K := QcG) nn mesh regs ks mpcs (times (K := QcG) (all_times (nl_log st)) loads) fixes).
    { destruct GL as [G1 G2 G3 G4 G5]. split; auto. apply Forall_forall. intros b Hb. apply in_map_iff in Hb as (b0 & <- & Hb). rewrite Forall_forall in G5. exact (G5 b0 Hb). }
    destruct (result_unique QcG QcG_laws big u HU nn mesh regs ks mpcs _ fixes sl GL' DN PL HL v l r BF) as (R1 & _).
    rewrite (HV k Hk). symmetry. exact (R1 k Hk).
Qed.
