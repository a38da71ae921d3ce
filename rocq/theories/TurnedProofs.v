From Coq Require Import Reals Lra Lia.
From Verif Require Import Base BaseProofs RealBase MatModel SparseModel BlockModel DofModel SpecDof NumberingProofs AsmModel SpecAsm AsmLists AsmProofs AsmRun AsmFinal
  SolveModel SpecSolve SolveProofs LinearProofs GaussModel SpecGauss GaussProofs IsoModel SpecIso IsoProofs ElemModel SpecElem ElemBase ElemProofs ElemMore SpecBal BalProofs BalMore
  StructModel SpecStruct StructProofs StructFinal StructMore SpecTurned.
Local Open Scope R_scope.

Lemma r3 f : rsumn 3 f = f 0%nat + f 1%nat + f 2%nat.
Proof. rewrite !rsumn_S. unfold rsumn. cbn. ring. Qed.

Lemma sumR_cons {A} (f : A -> R) x l : @sumof RNum A f (x :: l) = f x + @sumof RNum A f l.
Proof. exact (sumof_cons RRng f x l). Qed.
Lemma sumR_nil {A} (f : A -> R) : @sumof RNum A f [] = 0.
Proof. exact (sumof_nil RRng f). Qed.

Section T.
  Variables (Q : nat -> nat -> R) (c : nat -> R).
  Hypothesis TQ : turning Q.
  Lemma turn_minus a b i : turn Q a i - turn Q b i = turn Q (fun j => a j - b j) i.
  Proof. unfold turn. rewrite !r3. ring. Qed.
  Lemma turn_dot a b : rsumn 3 (fun i => turn Q a i * turn Q b i) = rsumn 3 (fun i => a i * b i).
  Proof.
    pose proof (fun i j Hi Hj => eq_trans (eq_sym (r3 _)) (TQ i j Hi Hj)) as H. unfold turn. rewrite !r3. cbv beta in H.
    pose proof (H 0 0 ltac:(lia) ltac:(lia))%nat as A. pose proof (H 1 1 ltac:(lia) ltac:(lia))%nat as B. pose proof (H 2 2 ltac:(lia) ltac:(lia))%nat as C.
    pose proof (H 0 1 ltac:(lia) ltac:(lia))%nat as D. pose proof (H 0 2 ltac:(lia) ltac:(lia))%nat as E. pose proof (H 1 2 ltac:(lia) ltac:(lia))%nat as F. cbn [Nat.eqb] in *.
    transitivity (a 0%nat * b 0%nat * (Q 0%nat 0%nat * Q 0%nat 0%nat + Q 1%nat 0%nat * Q 1%nat 0%nat + Q 2%nat 0%nat * Q 2%nat 0%nat) + a 1%nat * b 1%nat * (Q 0%nat 1%nat * Q 0%nat 1%nat + Q 1%nat 1%nat * Q 1%nat 1%nat + Q 2%nat 1%nat * Q 2%nat 1%nat)
      + a 2%nat * b 2%nat * (Q 0%nat 2%nat * Q 0%nat 2%nat + Q 1%nat 2%nat * Q 1%nat 2%nat + Q 2%nat 2%nat * Q 2%nat 2%nat) + (a 0%nat * b 1%nat + a 1%nat * b 0%nat) * (Q 0%nat 0%nat * Q 0%nat 1%nat + Q 1%nat 0%nat * Q 1%nat 1%nat + Q 2%nat 0%nat * Q 2%nat 1%nat)
      + (a 0%nat * b 2%nat + a 2%nat * b 0%nat) * (Q 0%nat 0%nat * Q 0%nat 2%nat + Q 1%nat 0%nat * Q 1%nat 2%nat + Q 2%nat 0%nat * Q 2%nat 2%nat) + (a 1%nat * b 2%nat + a 2%nat * b 1%nat) * (Q 0%nat 1%nat * Q 0%nat 2%nat + Q 1%nat 1%nat * Q 1%nat 2%nat + Q 2%nat 1%nat * Q 2%nat 2%nat)).
    - ring.
    - rewrite A, B, C, D, E, F. ring.
  Qed.
  Variables (pos pos' : nat -> nat -> R).
  Lemma dist_turned a b : (forall i, (i < 3)%nat -> pos' a i = c i + turn Q (pos a) i) -> (forall i, (i < 3)%nat -> pos' b i = c i + turn Q (pos b) i) ->
    dist3 (pos' a) (pos' b) = dist3 (pos a) (pos b).
  Proof.
    intros A B. unfold dist3. f_equal. rewrite !A, !B by lia. pose proof (turn_dot (fun j => pos b j - pos a j) (fun j => pos b j - pos a j)) as D. rewrite !r3 in D.
    rewrite <- !turn_minus in D. cbv beta in D. lra.
  Qed.
  Lemma stretch_turned m v v' : turned_nodes Q c (m_nodes m) pos pos' -> (forall n, In n (m_nodes m) -> turned_values Q v v' n) ->
    stretch pos' v' m = stretch pos v m.
  Proof.
    intros P V. destruct m as [A E a b|]; [|reflexivity]. cbn [m_nodes] in *. cbn [stretch].
    assert (Pa : forall i, (i < 3)%nat -> pos' a i = c i + turn Q (pos a) i) by (intros i Hi; apply P; [cbn; auto|exact Hi]).
    assert (Pb : forall i, (i < 3)%nat -> pos' b i = c i + turn Q (pos b) i) by (intros i Hi; apply P; [cbn; auto|exact Hi]).
    rewrite (dist_turned a b Pa Pb).
    pose proof (turn_dot (fun j => at_node v b j - at_node v a j) (fun j => (pos b j - pos a j) / dist3 (pos a) (pos b))) as D.
    unfold at_node at 3 4 in D. etransitivity; [|exact D]. apply rsumn_ext. intros i Hi.
    rewrite (V a ltac:(cbn; auto) i Hi), (V b ltac:(cbn; auto) i Hi), (Pa i Hi), (Pb i Hi). rewrite turn_minus. apply f_equal2; [reflexivity|].
    replace (c i + turn Q (pos b) i - (c i + turn Q (pos a) i)) with (turn Q (pos b) i - turn Q (pos a) i) by ring. rewrite turn_minus. unfold turn. rewrite !r3. unfold Rdiv. ring.
  Qed.
  Lemma stress_turned m v v' : turned_nodes Q c (m_nodes m) pos pos' -> (forall n, In n (m_nodes m) -> turned_values Q v v' n) ->
    bar_stress pos' v' m = bar_stress pos v m.
  Proof.
    intros P V. pose proof (stretch_turned m v v' P V) as S. destruct m as [A E a b|]; [|reflexivity]. cbn [bar_stress]. rewrite S.
    rewrite (dist_turned a b); [reflexivity|intros i Hi; apply P; [cbn; auto|exact Hi]..].
  Qed.
  Lemma pull_turned m S n i : turned_nodes Q c (m_nodes m) pos pos' -> (i < 3)%nat -> pull pos' m S n i = turn Q (pull pos m S n) i.
  Proof.
    intros P Hi. destruct m as [A E a b|]; [|unfold turn; rewrite r3; cbn [pull]; ring]. cbn [m_nodes] in P. cbn [pull]. unfold axis, at_nodes. cbn [nth].
    assert (Pa : forall i, (i < 3)%nat -> pos' a i = c i + turn Q (pos a) i) by (intros j Hj; apply P; [cbn; auto|exact Hj]).
    assert (Pb : forall i, (i < 3)%nat -> pos' b i = c i + turn Q (pos b) i) by (intros j Hj; apply P; [cbn; auto|exact Hj]).
    rewrite (dist_turned a b Pa Pb), (Pa i Hi), (Pb i Hi).
    replace (c i + turn Q (pos b) i - (c i + turn Q (pos a) i)) with (turn Q (pos b) i - turn Q (pos a) i) by ring. rewrite turn_minus. unfold turn. rewrite !r3. cbn [pull]. unfold axis, at_nodes. cbn [nth]. unfold Rdiv. ring.
  Qed.
  Lemma turn_sum {A} (f : A -> nat -> R) l i : @sumof RNum A (fun m => turn Q (f m) i) l = turn Q (fun j => @sumof RNum A (fun m => f m j) l) i.
  Proof.
    induction l as [|x l IH].
    - rewrite sumR_nil. unfold turn. rewrite r3, !sumR_nil. req. ring.
    - rewrite sumR_cons, IH. unfold turn. rewrite !r3, !sumR_cons. req. ring.
  Qed.
End T.

Section Run.
  Variables (big big' : R -> bool) (u u' : nat -> list R).
  Hypotheses (HU : forall n, length (u n) = n) (HU' : forall n, length (u' n) = n).
  Let gs : eqsolver RNum := gauss_slv (K := RG) u.
  Let gs' : eqsolver RNum := gauss_slv (K := RG) u'.
  Variables (nn nn' : nat) (Q : nat -> nat -> R) (c : nat -> R) (pos pos' : nat -> nat -> R) (ms : list member) (loads fixes loads' fixes' : list (bc RNum)).
  Variables (st st' : sol RNum) (rs rs' : list result).
  Hypotheses (TQ : turning Q) (TP : turned_nodes Q c (flat_map m_nodes ms) pos pos') (TS : turned_supports Q fixes fixes').
  Hypothesis TL : forall n, turned_values Q (total_load loads) (total_load loads') n.
  Hypotheses (OK : struct_ok nn pos ms loads fixes) (OK' : struct_ok nn' pos' ms loads' fixes') (PF : plain_fixes big fixes) (PF' : plain_fixes big' fixes') (IB : Forall is_bar ms).
  Hypotheses (HS : struct_solve big gs nn pos ms loads fixes = Ok (st, rs)) (HS' : struct_solve big' gs' nn' pos' ms loads' fixes' = Ok (st', rs')).

  Let tu (k : key) : R := match k with (KNode, n, i) => turn Q (at_node (disp st) n) i | _ => 0 end.
  Lemma in_nodes m : In m ms -> turned_nodes Q c (m_nodes m) pos pos'.
  Proof. intros H n i Hn Hi. apply TP; [|exact Hi]. apply in_flat_map. eauto. Qed.
  Lemma turned_force n i : s_node ms n -> (i < 3)%nat ->
    @sumof RNum _ (fun m => pull pos' m (bar_stress pos' tu m) n i) ms = turn Q (at_node (ext st) n) i.
  Proof.
    intros Hn Hi. transitivity (@sumof RNum _ (fun m => turn Q (pull pos m (bar_stress pos (disp st) m) n) i) ms).
    - apply sumR_ext. intros m Hm. rewrite (stress_turned Q c TQ pos pos' m (disp st) tu (in_nodes m Hm)); [|intros k _ j _; reflexivity].
      apply (pull_turned Q c TQ pos pos' m _ n i (in_nodes m Hm) Hi).
    - rewrite turn_sum. unfold turn. apply rsumn_ext. intros j Hj. apply f_equal2; [reflexivity|].
      exact (truss_nodal big gs nn pos ms loads fixes st rs OK HS IB PF (gs_exact u HU) n j Hn Hj).
  Qed.
  Lemma pull_minus m v w n i : pull pos' m (bar_stress pos' (fun k => v k - w k) m) n i = pull pos' m (bar_stress pos' v m) n i - pull pos' m (bar_stress pos' w m) n i.
  Proof. destruct m as [A E a b|]; cbn [pull bar_stress stretch]; [|ring]. rewrite !r3. unfold Rdiv. ring. Qed.
  Lemma sum_minus {A} (f g : A -> R) l : @sumof RNum A (fun x => f x - g x) l = @sumof RNum A f l - @sumof RNum A g l.
  Proof. induction l as [|x l IH]; [rewrite !sumR_nil; req; ring|]. rewrite !sumR_cons, IH. req. ring. Qed.

  Lemma turned_disp k : s_key ms k -> disp st' k = tu k.
  Proof.
    intros Hk. destruct (solved big' nn' pos' ms loads' fixes' gs' st' rs' HS') as (b & B & E2 & _).
    destruct (struct_nodal big' nn' pos' ms loads' fixes' OK' PF' gs' st' (gs_exact u' HU') b B E2) as (N1 & N2 & N3).
    destruct (solved big nn pos ms loads fixes gs st rs HS) as (b0 & B0 & E0 & _).
    destruct (struct_nodal big nn pos ms loads fixes OK PF gs st (gs_exact u HU) b0 B0 E0) as (M1 & M2 & M3).
    destruct (struct_good nn' pos' ms loads' fixes' b OK' B) as [GL DN].
    apply Rminus_diag_uniq. apply (held RG RG_laws big' u' HU' nn' _ _ _ loads' fixes' st' GL DN E2 (fun k => disp st' k - tu k)); [| |now apply s_keys].
    - intros x Fx Hx. apply s_keys in Hx. destruct x as [[[|] n] i]; [destruct Hx|]. destruct Hx as [Hn Hi]. specialize (TS n i Hi).
      destruct (last_fix fixes' (KNode, n, i)) as [y'|] eqn:EF; [|exfalso; apply Fx; exact EF]. destruct TS as (y & Y1 & ->).
      rewrite (N3 _ _ EF). unfold tu. change (turn Q y i - turn Q (at_node (disp st) n) i = 0). unfold turn. rewrite !r3.
      assert (Z : forall j, (j < 3)%nat -> Q i j * y j = Q i j * at_node (disp st) n j).
      { intros j Hj. destruct (Req_dec (Q i j) 0) as [->|N]; [ring|]. unfold at_node. rewrite (M3 _ _ (Y1 j Hj N)). reflexivity. }
      rewrite !Z by lia. ring.
    - intros x Hx Fx. apply s_keys in Hx. destruct x as [[[|] n] i]; [destruct Hx|]. pose proof Hx as [Hn Hi].
      match type of Fx with ?a = None => change a with (last_fix (K := RNum) fixes' (KNode, n, i)) in Fx end.
      erewrite (contribs_sum nn' pos' ms b _ (fun m => pull pos' m (bar_stress pos' (fun k => disp st' k - tu k) m) n i) (sk_members _ _ _ _ _ OK') B).
      2:{ intros en m m' c0 Hm E. pose proof (sk_members _ _ _ _ _ OK') as M. pose proof IB as IB'. rewrite Forall_forall in M, IB'.
          apply (bar_stiff nn' pos' m m' c0 en n i _ (M m Hm) (IB' m Hm) E Hi). }
      transitivity (@sumof RNum _ (fun m => pull pos' m (bar_stress pos' (disp st') m) n i - pull pos' m (bar_stress pos' tu m) n i) ms).
      { apply sumR_ext. intros m _. apply pull_minus. }
      rewrite sum_minus. rewrite (turned_force n i Hn Hi).
      rewrite (truss_nodal big' gs' nn' pos' ms loads' fixes' st' rs' OK' HS' IB PF' (gs_exact u' HU') n i Hn Hi), (N2 _ Hx Fx), (TL n i Hi).
      specialize (TS n i Hi). rewrite Fx in TS. unfold turn. rewrite !r3.
      assert (Z : forall j, (j < 3)%nat -> Q i j * at_node (total_load loads) n j = Q i j * at_node (ext st) n j).
      { intros j Hj. destruct (Req_dec (Q i j) 0) as [->|N]; [ring|]. unfold at_node. rewrite (M2 (KNode, n, j)); [reflexivity|split; [exact Hn|exact Hj]|exact (TS j Hj N)]. }
      rewrite !Z by lia. change (@eq R (Q i 0%nat * at_node (ext st) n 0 + Q i 1%nat * at_node (ext st) n 1 + Q i 2%nat * at_node (ext st) n 2 - (Q i 0%nat * at_node (ext st) n 0 + Q i 1%nat * at_node (ext st) n 1 + Q i 2%nat * at_node (ext st) n 2)) 0). ring.
  Qed.
  Lemma truss_turned : (forall n, s_node ms n -> turned_values Q (disp st) (disp st') n /\ turned_values Q (ext st) (ext st') n) /\ rs' = rs.
  Proof.
    assert (V : forall n, s_node ms n -> turned_values Q (disp st) (disp st') n) by (intros n Hn i Hi; apply (turned_disp (KNode, n, i)); split; assumption).
    assert (S : forall m, In m ms -> bar_stress pos' (disp st') m = bar_stress pos (disp st) m).
    { intros m Hm. apply (stress_turned Q c TQ pos pos' m _ _ (in_nodes m Hm)). intros n Hn. apply V. exists m. auto. }
    split.
    - intros n Hn. split; [apply V, Hn|]. intros i Hi.
      rewrite <- (truss_nodal big' gs' nn' pos' ms loads' fixes' st' rs' OK' HS' IB PF' (gs_exact u' HU') n i Hn Hi), <- (turned_force n i Hn Hi).
      apply sumR_ext. intros m Hm. rewrite (S m Hm). rewrite (stress_turned Q c TQ pos pos' m (disp st) tu (in_nodes m Hm)); [reflexivity|intros k _ j _; reflexivity].
    - rewrite (truss_reports big' gs' nn' pos' ms loads' fixes' st' rs' OK' HS' IB), (truss_reports big gs nn pos ms loads fixes st rs OK HS IB).
      apply map_ext_in. intros m Hm. f_equal. apply S, Hm.
  Qed.
End Run.
