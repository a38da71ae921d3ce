(* Heat supplied at one node; displacements that are linear in the coordinates *)
From Coq Require Import Reals Lra Lia Permutation.
From Verif Require Import Base BaseProofs RealBase MatModel SparseModel BlockModel DofModel SpecDof NumberingProofs AsmModel SpecAsm AsmLists AsmProofs AsmRun AsmFinal
  SolveModel SpecSolve GaussModel SpecGauss GaussProofs IsoModel SpecIso IsoProofs ElemModel SpecElem ElemBase ElemProofs ElemMore ThermModel SpecTherm ThermProofs ThermMore
  SpecBal BalProofs BalMore StructModel SpecStruct StructProofs StructFinal StructMore HeatModel SpecHeat PartProofs HeatProofs HeatFinal.
Local Open Scope R_scope.

Lemma sum_le {A} (f : A -> R) l : (forall x, In x l -> 0 <= f x) -> 0 <= @sumof RNum _ f l.
Proof.
  induction l as [|x l IH]; intros H; [cbn; lra|]. rewrite sum_cons. apply Rplus_le_le_0_compat; [apply H; now left|apply IH; intros; apply H; now right].
Qed.
Lemma line_w_pos k r w : (k < 3)%nat -> In (r, w) (quad_line k) -> 0 < dec w.
Proof.
  intros Hk H. assert (E : (0 < w)%Z).
  { do 3 (destruct k as [|k]; [cbn in H; repeat (destruct H as [H|H]; [injection H as <- <-; reflexivity|]); destruct H|]). lia. }
  unfold dec. apply Rdiv_lt_0_compat; apply IZR_lt; lia.
Qed.
Lemma lineth_nonneg ord htc e pos Ke Fe T : apart pos -> 0 <= htc -> lineth_K ord 0 htc e pos = Ok (Ke, Fe) -> 0 <= dot 2 (kmul 2 Ke T) T.
Proof.
  intros A H E. destruct (lineth_ok ord 0 htc e pos A) as (Ke' & Fe' & E' & _ & _ & WK & _). rewrite E in E'. injection E' as <- <-.
  assert (D : 0 < dist3 (pos 0%nat) (pos 1%nat)) by (pose proof (apart_pos _ A) as Q; rewrite det_dist in Q; lra).
  unfold dot, kmul. rewrite !sum2, !WK by lia. set (L := dist3 _ _) in *.
  apply Rle_trans with (htc * (L / 2) * line_sum (i_int ord) (fun r => (line_N r 0 * nth 0 T 0 + line_N r 1 * nth 1 T 0) * (line_N r 0 * nth 0 T 0 + line_N r 1 * nth 1 T 0))).
  - apply Rmult_le_pos; [apply Rmult_le_pos; lra|]. unfold line_sum. apply (sum_le (A := Z * Z)). intros (r, w) Hq.
    apply Rmult_le_pos; [left; exact (line_w_pos _ _ _ (i_int_small ord) Hq)|apply Rle_0_sqr].
  - apply Req_le. unfold line_sum. induction (quad_line (i_int ord)) as [|(r, w) l IH]; [rewrite !rsuml_nil; ring|]. rewrite !rsuml_cons.
    rewrite Rmult_plus_distr_l, IH. ring.
Qed.

Section One.
  Variable big : R -> bool.
  Variables (nn : nat) (pos : nat -> nat -> R) (ms : list hmember) (n : nat) (q : R) (fixes : list (bc RNum)).
  Let loads : list (bc RNum) := [mkBC (K := RNum) n TEMP q].
  Hypothesis OK : heat_ok nn pos ms loads fixes.
  Hypothesis PF : plain_fixes big fixes.
  Hypothesis F0 : forall x y, last_fix fixes (KNode, x, TEMP) = Some y -> y = 0.
  Variable slv : eqsolver RNum.
  Hypothesis EX : exact_solver slv.
  Variable st : sol RNum.
  Variable rs : list (list R).
  Hypothesis HS : heat_solve big slv nn pos ms loads fixes = Ok (st, rs).
  Lemma one_work : exists cs, h_built pos ms cs /\
    q * temp st n = @sumof RNum _ (fun p => rsumn (length (x_keys (pform 0 p))) (fun i => elem_force (K := RNum) (disp st) (pform 0 p) i * temp st (nth i (fst p) 0%nat))) (h_parts ms cs).
  Proof.
    destruct (heat_work big nn pos ms loads fixes OK PF slv EX st rs HS (temp st)) as (cs & B & W). exists cs. split; [exact B|]. rewrite <- W.
    destruct (h_solved big slv nn pos ms loads fixes st rs HS) as (cs' & B' & HL & _).
    pose proof (h_parts_ok nn pos ms loads fixes cs' OK B') as PO.
    destruct (parts_nodal temps temps_nd temps_in nn (h_parts ms cs') loads fixes PO big slv EX PF st HL) as (_ & N2 & N3).
    assert (Hn : In n (temp_nodes ms)).
    { pose proof (hk_loads _ _ _ _ _ OK) as LO. inversion LO as [|? ? [(m & Hm & Hn) _] _]; subst. unfold temp_nodes. apply nodup_In, in_flat_map. eauto. }
    transitivity (@sumof RNum _ (fun x => if Nat.eq_dec n x then q * temp st x else 0) (temp_nodes ms)).
    - symmetry. assert (ND : NoDup (temp_nodes ms)) by apply NoDup_nodup. revert ND Hn. generalize (temp_nodes ms). induction l as [|x l IH]; intros ND Hn; [destruct Hn|]. rewrite sum_cons. inversion ND as [|? ? A1 A2]; subst. destruct Hn as [->|Hn].
      + destruct (Nat.eq_dec n n); [|congruence]. rewrite (sumof_zero RRng); [req; cbn; ring|]. intros y Hy. destruct (Nat.eq_dec n y); [subst; contradiction|reflexivity].
      + destruct (Nat.eq_dec n x); [subst; contradiction|]. rewrite (IH A2 Hn). req. ring.
    - apply sumR_ext. intros x Hx. unfold supply. destruct (last_fix fixes (KNode, x, TEMP)) as [y|] eqn:EF.
      + unfold temp. rewrite (N3 _ _ EF), (F0 x y EF). destruct (Nat.eq_dec n x); req; ring.
      + rewrite N2; [|apply (h_pkey pos ms cs' _ B'); split; [|reflexivity]; apply nodup_In, in_flat_map in Hx as (m & Hm & Hx); exists m; auto|exact EF].
        assert (TL : total_load loads (KNode, x, TEMP) = if Nat.eq_dec n x then q else 0).
        { unfold loads, total_load. rewrite sum_cons. change (bc_key (mkBC (K := RNum) n TEMP q)) with (KNode, n, TEMP). cbn [bc_val].
          destruct (Nat.eq_dec n x) as [->|N]; destruct (key_dec _ _) as [E|E]; try congruence; apply Rplus_0_r. }
        rewrite TL. destruct (Nat.eq_dec n x); req; ring.
  Qed.
  Lemma told_work m c Ke Fe : told nn pos m c Ke Fe ->
    rsumn (length (x_keys (pform 0 (h_nodes m, c)))) (fun i => elem_force (K := RNum) (disp st) (pform 0 (h_nodes m, c)) i * temp st (nth i (fst (h_nodes m, c)) 0%nat)) =
    dot (length (h_nodes m)) (kmul (length (h_nodes m)) Ke (h_values (disp st) m)) (h_values (disp st) m) - rsumn (length (h_nodes m)) (fun i => nth i Fe 0 * nth i (h_values (disp st) m) 0).
  Proof.
    intros T. rewrite (told_keys _ _ _ _ _ _ T), tkeys_length. unfold dot. rewrite <- rsumn_minus. apply rsumn_ext. intros i Hi.
    rewrite (told_force _ _ _ _ _ _ _ _ T Hi), values_nth by exact Hi. unfold temp. cbn [fst]. ring.
  Qed.
  Lemma told' m c : In m ms -> h_build pos m = Ok c -> h_ok nn pos m /\ exists Ke Fe, told nn pos m c Ke Fe.
  Proof. exact (built_told nn pos ms loads fixes OK m c). Qed.
  (* quadrangles and convection: the node that gets heat is not colder than the surroundings *)
  Theorem quad_heats : Forall cools ms -> 0 <= q * temp st n.
  Proof.
    intros CO. destruct one_work as (cs & B & ->). rewrite Forall_forall in CO. apply sum_le. intros p Hp.
    destruct (h_in pos ms cs p B Hp) as (m & c & Hm & E & ->). destruct (told' m c Hm E) as ((_ & _ & D) & Ke & Fe & T). rewrite (told_work m c Ke Fe T).
    specialize (CO m Hm). pose proof (to_who _ _ _ _ _ _ T) as W. destruct m as [|ord k vf n1 n2 n3 n4|ord flux htc et n1 n2]; [destruct CO| |]; cbn [h_nodes length cools] in *.
    - destruct CO as [Hk ->]. rewrite (rsumn_zero 4).
      + rewrite Rminus_0_r. apply (quadth_kernel _ _ _ _ _ _ (h_values (disp st) (HQuad ord k 0 n1 n2 n3 n4)) W D Hk).
      + intros i Hi. destruct (quadth_ok ord k 0 (at_nodes pos [n1; n2; n3; n4])) as (Ke' & Fe' & E' & _ & _ & _ & WF). rewrite W in E'. injection E' as <- <-. rewrite WF by exact Hi.
        unfold quad_sum. rewrite rsuml_zero; [ring|]. intros ((r, s), w) _. ring.
    - destruct CO as (-> & Hh & E1 & E2). assert (EP : line_pre et = (0, 0)).
      { destruct et as [a b]. cbn [fst snd] in *. subst. unfold line_pre. cbn [fst snd]. destruct (Req_EM_T 0 0); reflexivity. }
      rewrite EP in W. rewrite (rsumn_zero 2).
      + rewrite Rminus_0_r. exact (lineth_nonneg ord htc (0, 0) _ Ke Fe _ D Hh W).
      + intros i Hi. rewrite <- (lineth_rest ord htc (0, 0) _ Ke Fe D W i Hi). unfold kmul. rewrite sum2. cbn [nth fst snd]. ring.
  Qed.
  (* TETRA1: it is not warmer *)
  Theorem tet_cools : Forall (right_tet pos) ms -> q * temp st n <= 0.
  Proof.
    intros CO. destruct one_work as (cs & B & ->). rewrite Forall_forall in CO.
    match goal with |- ?x <= 0 => enough (0 <= - x) by (apply Ropp_le_cancel; rewrite Ropp_0; assumption) end. rewrite <- sum_opp. apply sum_le. intros p Hp.
    destruct (h_in pos ms cs p B Hp) as (m & c & Hm & E & ->). destruct (told' m c Hm E) as ((_ & _ & D) & Ke & Fe & T). rewrite (told_work m c Ke Fe T).
    specialize (CO m Hm). pose proof (to_who _ _ _ _ _ _ T) as W. destruct m as [k n1 n2 n3 n4| |]; [|destruct CO|destruct CO]. destruct CO as [Hk Hv]. cbn [h_nodes length] in *. destruct W as [W ->].
    rewrite (rsumn_zero 4 (fun i => nth i [] 0 * _)) by (intros [|i] _; cbn; ring).
    destruct (tet1_all_fields (at_nodes pos [n1; n2; n3; n4]) (h_values (disp st) (HTet k n1 n2 n3 n4)) D eq_refl) as (c0 & g & ->).
    destruct (tet1_work (at_nodes pos [n1; n2; n3; n4]) k c0 g c0 g D) as (Ke' & E' & Q0). rewrite W in E'. injection E' as <-. rewrite Q0.
    assert (P : 0 <= rsumn 3 (fun i => g i * g i)) by (rewrite rs3; pose proof (Rle_0_sqr (g 0%nat)); pose proof (Rle_0_sqr (g 1%nat)); pose proof (Rle_0_sqr (g 2%nat)); unfold Rsqr in *; lra).
    assert (Q : 0 <= tetra_volume (at_nodes pos [n1; n2; n3; n4]) * k * rsumn 3 (fun i => g i * g i)) by (apply Rmult_le_pos; [apply Rmult_le_pos; lra|exact P]). lra.
  Qed.
End One.
