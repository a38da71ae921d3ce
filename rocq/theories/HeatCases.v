(* Small bodies that the default equation solver solves *)
From Coq Require Import Reals Lra Lia Permutation.
From Verif Require Import Base BaseProofs RealBase MatModel SparseModel BlockModel DofModel SpecDof NumberingProofs AsmModel SpecAsm AsmLists AsmProofs AsmRun AsmFinal
  SolveModel SpecSolve GaussModel SpecGauss GaussProofs IsoModel SpecIso IsoProofs ElemModel SpecElem ElemBase ElemProofs ElemMore ThermModel SpecTherm ThermProofs ThermMore
  SpecBal BalProofs BalMore StructModel SpecStruct StructProofs StructFinal StructMore TrussProofs HeatModel SpecHeat PartProofs HeatProofs HeatFinal HeatMore PatchProofs.
Local Open Scope R_scope.

Lemma heat_small nn pos ms loads fixes : Forall (h_ok nn pos) ms -> Forall (fun l => h_key ms (bc_key l)) loads -> Forall (fun f => h_key ms (bc_key f)) fixes ->
  (exists k, h_key ms k /\ ~ In k (map bc_key fixes)) -> (length (temp_nodes ms) <= 100)%nat -> heat_ok nn pos ms loads fixes.
Proof.
  intros M LO FI FR LE. split; auto.
  assert (HK : forall k, h_key ms k <-> In k (reg_keys (flat_map h_regs ms))).
  { intros k. rewrite heat_keys, in_map_iff. split.
    - destruct k as [[[|] n] t]; [intros []|]. intros [(m & Hm & Hn) ->]. exists n. split; [reflexivity|]. apply nodup_In, in_flat_map. eauto.
    - intros (n & <- & Hn). split; [|reflexivity]. apply nodup_In, in_flat_map in Hn as (m & Hm & Hn). exists m. auto. }
  apply (small_capacity RRng); [|cbn [length]; rewrite Nat.add_0_r, heat_keys, map_length; exact LE].
  rewrite Forall_forall in M. split.
  - intros nodes n Hn H. apply in_map_iff in Hn as (m & <- & Hm). destruct (M m Hm) as (_ & RN & _). rewrite Forall_forall in RN. auto.
  - apply Forall_forall. intros r Hr. apply in_flat_map in Hr as (m & Hm & Hr). unfold h_regs in Hr. apply in_map_iff in Hr as (n & <- & Hn).
    destruct (M m Hm) as (_ & RN & _). rewrite Forall_forall in RN. cbn [good_reg entities]. split; [now apply RN|].
    repeat constructor; vm_compute; lia.
  - apply Forall_forall. intros k Hk. apply in_map_iff in Hk as (f & <- & Hf). rewrite Forall_forall in FI. apply HK. auto.
  - destruct FR as (k & Hk & Nk). exists k. split; [now apply HK|exact Nk].
  - constructor.
  - intros m t [].
Qed.

(* one node without prescribed temperature *)
Section Single.
  Variable big : R -> bool.
  Variable u : nat -> list R.
  Hypothesis HU : forall n, length (u n) = n.
  Variables (nn : nat) (pos : nat -> nat -> R) (ms : list hmember) (loads fixes : list (bc RNum)).
  Hypothesis OK : heat_ok nn pos ms loads fixes.
  Hypothesis LE : (length (temp_nodes ms) < 1000)%nat.
  Variable n : nat.
  Hypothesis ONE : forall x, h_node ms x -> x <> n -> last_fix fixes (KNode, x, TEMP) <> None.
  Let gs : eqsolver RNum := gauss_slv (K := RG) u.
  Definition only (x : nat) : R := if (x =? n)%nat then 1 else 0.
  Definition h_stiff (m : hmember) (Ke : list R) (T : nat -> R) : R :=
    rsumn (length (h_nodes m)) (fun l => if (nth l (h_nodes m) 0 =? n)%nat then kmul (length (h_nodes m)) Ke (map T (h_nodes m)) l else 0).
  Lemma told_stiff m c Ke Fe v : told nn pos m c Ke Fe ->
    stiff_on (K := RNum) v (KNode, n, TEMP) (pform 0 (h_nodes m, c)) = h_stiff m Ke (fun x => v (KNode, x, TEMP)).
  Proof.
    intros T. unfold stiff_on. rewrite (told_keys _ _ _ _ _ _ T), tkeys_length. unfold h_stiff, rsumn at 1, rsuml at 1. apply sumR_ext. intros q Hq. apply in_seq in Hq.
    rewrite tkey by apply Hq. destruct (key_dec _ _) as [E|E], (Nat.eqb_spec (nth q (h_nodes m) 0%nat) n) as [E'|E']; try congruence; try (exfalso; congruence).
    - apply (to_stiff _ _ _ _ _ _ T v q). apply Hq.
    - reflexivity.
  Qed.
  Lemma single_solved (a : hmember -> R) :
    (forall m c Ke Fe, In m ms -> h_ok nn pos m -> told nn pos m c Ke Fe -> h_stiff m Ke only = a m) -> / 10 ^ 20 <= Rabs (@sumof RNum _ a ms) ->
    exists st rs, heat_solve big gs nn pos ms loads fixes = Ok (st, rs).
  Proof.
    intros HA HB. destruct (heat_ends big u HU nn pos ms loads fixes OK) as [F|H]; [exfalso|exact H].
    destruct (heat_each nn pos ms loads fixes OK) as (cs & E & B). pose proof (h_parts_ok nn pos ms loads fixes cs OK B) as PO. pose proof (Forall2_len _ _ _ B) as LB.
    assert (LF : linear_solve (K := RNum) big gs nn (map h_nodes ms) (flat_map h_regs ms) (map (fun c => [c]) cs) [] loads fixes = Fatal).
    { unfold heat_solve in F. rewrite E in F. cbn [obind] in F. fold gs in F. destruct (linear_solve _ _ _ _ _ _ _ _ _) as [st| | |] eqn:L; try discriminate; [|reflexivity].
      cbn [obind] in F. match type of F with context [each ?f ms] => destruct (each_total f ms) as [rs R] end.
      - intros m Hm. destruct m as [k n1 n2 n3 n4| |]; eexists; reflexivity.
      - rewrite R in F. discriminate. }
    rewrite <- (h_mesh ms cs LB), <- (h_ks ms cs LB), <- (h_pregs ms cs LB) in LF.
    destruct (parts_good temps temps_nd temps_in nn (h_parts ms cs) loads fixes PO) as [GL DN].
    destruct (refused RG RG_laws big u HU nn _ _ _ loads fixes GL DN) as (w & W0 & (k & Hk & Fk & Wk) & WF).
    { rewrite (h_pregs ms cs LB), heat_keys, map_length. exact LE. }
    { exact LF. }
    assert (EK : forall k, In k (reg_keys (p_regs temps (h_parts ms cs))) <-> h_key ms k).
    { intros x. rewrite (p_key_in temps). apply (h_pkey pos ms cs x B). }
    pose proof (proj1 (EK k) Hk) as Hk'. destruct k as [[[|] x] t]; [destruct Hk'|]. destruct Hk' as [Hx ->].
    destruct (Nat.eq_dec x n) as [->|Nx]; [|exact (ONE x Hx Nx Fk)].
    specialize (WF _ Hk Fk). cbn [RG glt gabs gtiny gn] in WF. unfold Rltb in WF. destruct (Rlt_dec _ _) as [Q|]; [|discriminate].
    apply (Rlt_not_le _ _ Q). clear Q WF. eapply Rle_trans; [exact HB|]. apply Req_le. f_equal. rewrite p_contribs.
    rewrite (forms_sum _ (fun p => stiff_on (K := RNum) w (KNode, n, TEMP) (pform 0 p))).
    - symmetry. apply (h_sum pos ms cs _ _ B). intros m c Hm Em. destruct (built_told nn pos ms loads fixes OK m c Hm Em) as (H & Ke & Fe & T).
      rewrite (told_stiff m c Ke Fe w T). rewrite <- (HA m c Ke Fe Hm H T). unfold h_stiff. apply rsumn_ext. intros l Hl. destruct (_ =? n)%nat; [|reflexivity]. f_equal.
      apply map_ext_in. intros y Hy. unfold only. assert (HY : h_node ms y) by (exists m; auto). destruct (Nat.eqb_spec y n) as [->|Ny]; [exact Wk|].
      apply W0; [now apply ONE|]. apply EK. split; [exact HY|reflexivity].
    - intros i p Hp. pose proof (pk_parts _ _ _ _ _ PO) as M. rewrite Forall_forall in M. pose proof (p_keys _ _ _ (M p Hp)) as PK.
      unfold stiff_on. cbn [x_keys pform elem_stiff]. rewrite !PK. reflexivity.
  Qed.
End Single.

(* the tetrahedron 1 2 3 4 cut into four at its centre 5 *)
Definition star_pos (n i : nat) : R :=
  match n with 2%nat => if (i =? 0)%nat then 1 else 0 | 3%nat => if (i =? 1)%nat then 1 else 0 | 4%nat => if (i =? 2)%nat then 1 else 0 | 5%nat => / 4 | _ => 0 end.
Definition star_nodes : list (nat * nat * nat * nat) := [(5, 2, 3, 4); (1, 5, 3, 4); (1, 2, 5, 4); (1, 2, 3, 5)]%nat.
Definition star_heat (k : R) : list hmember := map (fun q => let '(a, b, c, d) := q in HTet k a b c d) star_nodes.
Definition outer (f : nat -> R) (ns : list nat) : list (bc RNum) := map (fun n => mkBC (K := RNum) n TEMP (f n)) ns.
Lemma star_vol a b c d : In (a, b, c, d) star_nodes -> tetra_volume (at_nodes star_pos [a; b; c; d]) = / 24.
Proof.
  intros H. unfold star_nodes in H. cbn [In] in H. destruct H as [H|[H|[H|[H|[]]]]]; injection H as <- <- <- <-;
    unfold tetra_volume, triple, at_nodes, star_pos; cbn [nth Nat.eqb]; lra.
Qed.
Lemma cons_eq {A} (x y : A) l l' : x = y -> l = l' -> x :: l = y :: l'.
Proof. now intros -> ->. Qed.
(* the field that is 1 at node 5 and 0 at the others, in each of the four *)
Lemma star_hat a b c d : In (a, b, c, d) star_nodes -> exists c0 g, map (only 5) [a; b; c; d] = nodal1 4 (lin1 c0 g) (at_nodes star_pos [a; b; c; d]) /\
  rsumn 3 (fun i => g i * g i) = match a with 5%nat => 48 | _ => 16 end.
Proof.
  intros H. unfold star_nodes in H. cbn [In] in H. destruct H as [H|[H|[H|[H|[]]]]]; injection H as <- <- <- <-.
  - exists 4, (fun _ => -4). split; [|rewrite rs3; ring]. unfold nodal1, lin1, at_nodes, star_pos. cbn [map seq nth Nat.eqb]. unfold only. cbn [Nat.eqb]. rewrite !rs3. cbn [Nat.eqb]. repeat (apply cons_eq; [field|]); reflexivity.
  - exists 0, (fun i => if (i =? 0)%nat then 4 else 0). split; [|rewrite rs3; cbn; ring]. unfold nodal1, lin1, at_nodes, star_pos. cbn [map seq nth Nat.eqb]. unfold only. cbn [Nat.eqb]. rewrite !rs3. cbn [Nat.eqb]. repeat (apply cons_eq; [field|]); reflexivity.
  - exists 0, (fun i => if (i =? 1)%nat then 4 else 0). split; [|rewrite rs3; cbn; ring]. unfold nodal1, lin1, at_nodes, star_pos. cbn [map seq nth Nat.eqb]. unfold only. cbn [Nat.eqb]. rewrite !rs3. cbn [Nat.eqb]. repeat (apply cons_eq; [field|]); reflexivity.
  - exists 0, (fun i => if (i =? 2)%nat then 4 else 0). split; [|rewrite rs3; cbn; ring]. unfold nodal1, lin1, at_nodes, star_pos. cbn [map seq nth Nat.eqb]. unfold only. cbn [Nat.eqb]. rewrite !rs3. cbn [Nat.eqb]. repeat (apply cons_eq; [field|]); reflexivity.
Qed.
Lemma star_member k m : In m (star_heat k) -> exists a b c d, In (a, b, c, d) star_nodes /\ m = HTet k a b c d.
Proof. intros H. unfold star_heat in H. apply in_map_iff in H as ([[[a b] c] d] & <- & H). exists a, b, c, d. auto. Qed.
Lemma star_node k n : h_node (star_heat k) n <-> (1 <= n <= 5)%nat.
Proof.
  split.
  - intros (m & Hm & Hn). apply star_member in Hm as (a & b & c & d & H & ->). unfold star_nodes in H. cbn [In] in H.
    destruct H as [H|[H|[H|[H|[]]]]]; injection H as <- <- <- <-; cbn in Hn; lia.
  - intros H. destruct (Nat.eq_dec n 1) as [->|N]; [exists (HTet k 1 5 3 4); cbn; auto|]. exists (HTet k 5 2 3 4). split; [left; reflexivity|]. cbn. lia.
Qed.
Lemma star_all k : Forall (h_ok 5 star_pos) (star_heat k).
Proof.
  apply Forall_forall. intros m Hm. apply star_member in Hm as (a & b & c & d & H & ->). unfold h_ok. cbn [h_nodes]. pose proof (star_vol a b c d H) as V.
  split; [|split; [|rewrite V; lra]]; unfold star_nodes in H; cbn [In] in H; destruct H as [H|[H|[H|[H|[]]]]]; injection H as <- <- <- <-;
    repeat constructor; cbn; try lia; intuition discriminate.
Qed.
Lemma star_free (f : nat -> R) x : (x = 1 \/ x = 2 \/ x = 3 \/ x = 4)%nat -> last_fix (outer f [1; 2; 3; 4]%nat) (KNode, x, TEMP) = Some (f x).
Proof. intros H. decompose [or] H; subst; reflexivity. Qed.
Lemma outer_fix (f : nat -> R) ns x y : last_fix (outer f ns) (KNode, x, TEMP) = Some y -> y = f x /\ In x ns.
Proof.
  unfold outer. induction ns as [|n ns IH] using rev_ind; [discriminate|]. unfold last_fix in *. rewrite map_app, fold_left_app. cbn [map fold_left].
  change (bc_key (mkBC (K := RNum) n TEMP (f n))) with (KNode, n, TEMP). cbn [bc_val]. destruct (key_dec _ _) as [E|E].
  - injection E as ->. intros H. injection H as <-. split; [reflexivity|]. apply in_or_app. right. now left.
  - intros H. destruct (IH H). split; [assumption|]. apply in_or_app. now left.
Qed.
Lemma outer_plain big (f : nat -> R) ns : (forall n, In n ns -> big (f n) = false -> f n = 0) -> plain_fixes big (outer f ns).
Proof.
  intros HF [[kd n] t] v H Hb.
  assert (I : In (kd, n, t) (map bc_key (outer f ns))).
  { destruct (in_dec key_dec (kd, n, t) (map bc_key (outer f ns))) as [I|I]; [exact I|]. exfalso. apply (last_fix_none RRng) in I. change (rnum RRng) with RNum in I. congruence. }
  unfold outer in I. rewrite map_map in I. apply in_map_iff in I as (x & E & _). change (bc_key (mkBC (K := RNum) x TEMP (f x))) with (KNode, x, TEMP) in E. injection E as <- <- <-.
  destruct (outer_fix _ _ _ _ H) as [-> Hx]. now apply HF.
Qed.
Lemma star_ok k loads f : Forall (fun l => h_key (star_heat k) (bc_key (K := RNum) l)) loads -> heat_ok 5 star_pos (star_heat k) loads (outer f [1; 2; 3; 4]%nat).
Proof.
  intros LO. apply heat_small; [apply star_all|exact LO| | |vm_compute; lia].
  - apply Forall_forall. intros b Hb. unfold outer in Hb. apply in_map_iff in Hb as (n & <- & Hn). split; [|reflexivity]. apply star_node. cbn in Hn |- *. lia.
  - exists (KNode, 5%nat, TEMP). split; [split; [apply star_node; lia|reflexivity]|]. cbn. intros H. decompose [or] H; discriminate || assumption.
Qed.
Lemma star_row k m Ke : In m (star_heat k) -> tet1_buildK (at_nodes star_pos (h_nodes m)) k = Ok Ke ->
  h_stiff 5 m Ke (only 5) = - (k / 24 * match hd 0%nat (h_nodes m) with 5%nat => 48 | _ => 16 end).
Proof.
  intros Hm E. apply star_member in Hm as (a & b & c & d & H & ->). cbn [h_nodes hd] in *.
  destruct (star_hat a b c d H) as (c0 & g & HF & HG). pose proof (star_vol a b c d H) as V.
  destruct (tet1_work (at_nodes star_pos [a; b; c; d]) k c0 g c0 g) as (Ke' & E' & Q); [rewrite V; lra|]. rewrite E in E'. injection E' as <-. rewrite HG, V in Q.
  replace (- (k / 24 * match a with 5%nat => 48 | _ => 16 end)) with (- (/ 24 * k * match a with 5%nat => 48 | _ => 16 end)) by field. rewrite <- Q, <- HF.
  unfold h_stiff, SpecElem.dot. cbn [h_nodes length]. apply rsumn_ext. intros l Hl. 
  replace (nth l (map (only 5) [a; b; c; d]) 0) with (only 5 (nth l [a; b; c; d] 0%nat)).
  - set (K0 := kmul _ _ _ _). unfold only. destruct (_ =? 5)%nat; ring.
  - destruct l as [|[|[|[|l]]]]; try lia; reflexivity.
Qed.
Lemma star_solved big u k loads f : (forall n, length (u n) = n) -> Forall (fun l => h_key (star_heat k) (bc_key (K := RNum) l)) loads -> 1 <= k ->
  exists st rs, heat_solve big (gauss_slv (K := RG) u) 5 star_pos (star_heat k) loads (outer f [1; 2; 3; 4]%nat) = Ok (st, rs).
Proof.
  intros HU LO Hk. apply (single_solved big u HU 5 star_pos (star_heat k) loads _ (star_ok k loads f LO) ltac:(vm_compute; lia) 5
    ltac:(intros x Hx Nx; apply star_node in Hx; rewrite star_free by lia; discriminate) (fun m => - (k / 24 * match hd 0%nat (h_nodes m) with 5%nat => 48 | _ => 16 end))).
  - intros m c Ke Fe Hm _ T. pose proof (to_who _ _ _ _ _ _ T) as W. destruct (star_member k m Hm) as (a & b & c0 & d & H & ->). destruct W as [W _]. exact (star_row k _ Ke Hm W).
  - unfold star_heat, star_nodes. cbn [map]. rewrite !sum_cons. cbn [h_nodes hd]. match goal with |- context [@sumof RNum _ ?f []] => change (@sumof RNum _ f []) with 0 end.
    match goal with |- _ <= Rabs ?x => replace x with (- (4 * k)) by (req; field) end. rewrite Rabs_left1 by lra. assert (/ 10 ^ 20 < 1) by (rewrite <- Rinv_1; apply Rinv_lt_contravar; lra). lra.
Qed.
(* heat q at the centre *)
Lemma star_temp big u k q st rs : (forall n, length (u n) = n) -> 0 < k -> heat_solve big (gauss_slv (K := RG) u) 5 star_pos (star_heat k) [mkBC (K := RNum) 5 TEMP q] (outer (fun _ => 0) [1; 2; 3; 4]%nat) = Ok (st, rs) ->
  temp st 5 = - q / (4 * k).
Proof.
  intros HU Hk HS.
  assert (LO : Forall (fun l => h_key (star_heat k) (bc_key (K := RNum) l)) [mkBC (K := RNum) 5 TEMP q]) by (constructor; [split; [apply star_node; cbn; lia|reflexivity]|constructor]).
  pose proof (star_ok k _ (fun _ => 0) LO) as OK.
  assert (PF : plain_fixes big (outer (fun _ => 0) [1; 2; 3; 4]%nat)) by (apply outer_plain; auto).
  transitivity (- q / (4 * k) * only 5 5); [|unfold only; cbn [Nat.eqb]; apply Rmult_1_r].
  apply (heat_known big u HU 5 star_pos (star_heat k) _ _ OK st rs (fun n => - q / (4 * k) * only 5 n) PF HS) with (n := 5%nat).
  - intros n y Hy. destruct (outer_fix _ _ _ _ Hy) as [-> Hn]. unfold only. destruct (Nat.eqb_spec n 5) as [->|]; [cbn in Hn; lia|ring].
  - intros n Hn Fn cs B. apply star_node in Hn. assert (n = 5)%nat as ->.
    { destruct (Nat.eq_dec n 5); [assumption|]. rewrite star_free in Fn by lia. discriminate. }
    transitivity q; [|symmetry; apply Rplus_0_r].
    transitivity (@sumof RNum _ (fun m => - q / (4 * k) * - (k / 24 * match hd 0%nat (h_nodes m) with 5%nat => 48 | _ => 16 end)) (star_heat k)).
    + apply (h_sum star_pos _ cs _ _ B). intros m c Hm E. destruct (built_told 5 star_pos _ _ _ OK m c Hm E) as (_ & Ke & Fe & T).
      rewrite (told_on 5 star_pos m c Ke Fe _ 5 T). pose proof (to_who _ _ _ _ _ _ T) as W. destruct (star_member k m Hm) as (a & b & c0 & d & H & ->). destruct W as [W ->].
      rewrite <- (star_row k _ Ke Hm W). unfold h_stiff. rewrite <- rsumn_mul. apply rsumn_ext. intros l Hl. destruct (_ =? 5)%nat; [|ring].
      cbn [h_nodes length] in *. unfold kmul.
      replace (nth l (@nil R) 0) with 0 by (destruct l; reflexivity). rewrite Rminus_0_r, <- rsumn_mul. apply rsumn_ext. intros j Hj.
      unfold h_values. cbn [h_nodes map fst snd]. destruct j as [|[|[|[|j]]]]; try lia; cbn [nth]; ring.
    + unfold star_heat, star_nodes. cbn [map]. rewrite !sum_cons. cbn [h_nodes hd]. match goal with |- context [@sumof RNum _ ?f []] => change (@sumof RNum _ f []) with 0 end. req. field. lra.
  - apply star_node. lia.
Qed.

(* four squares around node 5 *)
Definition grid_pos (n i : nat) : R := match i with 0%nat => INR ((n - 1) mod 3) | 1%nat => INR ((n - 1) / 3) | _ => 0 end.
Definition grid_nodes : list (nat * nat * nat * nat) := [(1, 2, 5, 4); (2, 3, 6, 5); (4, 5, 8, 7); (5, 6, 9, 8)]%nat.
Definition grid_heat (k : R) : list hmember := map (fun q => let '(a, b, c, d) := q in HQuad 1 k 0 a b c d) grid_nodes.
Definition rim : list nat := [1; 2; 3; 4; 6; 7; 8; 9]%nat.
Lemma grid_member k m : In m (grid_heat k) -> exists a b c d, In (a, b, c, d) grid_nodes /\ m = HQuad 1 k 0 a b c d.
Proof. intros H. unfold grid_heat in H. apply in_map_iff in H as ([[[a b] c] d] & <- & H). exists a, b, c, d. auto. Qed.
(* every one of them is a unit square *)
Lemma grid_square a b c d : In (a, b, c, d) grid_nodes -> exists x y, forall i j, (i < 4)%nat -> (j < 2)%nat ->
  at_nodes grid_pos [a; b; c; d] i j = match j with 0%nat => x + match i with 1%nat | 2%nat => 1 | _ => 0 end | _ => y + match i with 2%nat | 3%nat => 1 | _ => 0 end end.
Proof.
  intros H. exists (grid_pos a 0), (grid_pos a 1). intros i j Hi Hj. unfold grid_nodes in H. cbn [In] in H. destruct H as [H|[H|[H|[H|[]]]]]; injection H as <- <- <- <-;
    destruct i as [|[|[|[|i]]]], j as [|[|j]]; try lia; unfold at_nodes, grid_pos; cbn; ring.
Qed.
Section Square.
  Variables (x y : R) (P : nat -> nat -> R).
  Hypothesis SQ : forall i j, (i < 4)%nat -> (j < 2)%nat -> P i j = match j with 0%nat => x + match i with 1%nat | 2%nat => 1 | _ => 0 end | _ => y + match i with 2%nat | 3%nat => 1 | _ => 0 end end.
  Lemma square_det : quad_det P 0 0 = / 4.
  Proof. unfold quad_det, jdet, mdet. cbn. rewrite !SQ by lia. cbv iota beta. lra. Qed.
  Lemma square_nixj n : (n < 4)%nat -> rsumn 2 (fun a => quad_nixj P 0 0 n a * quad_nixj P 0 0 n a) = / 2.
  Proof.
    intros Hn. rewrite sum2. assert (D : quad_det P 0 0 <> 0) by (rewrite square_det; lra).
    assert (E : forall i, (i < 2)%nat -> quad_nixj P 0 0 n i = 4 * cof P 0 0 n i).
    { intros i Hi. rewrite <- (cof_ok P 0 0 n i D Hi), square_det. field. }
    rewrite !E by lia. unfold cof. rewrite ?rs4, ?SQ by lia. destruct n as [|[|[|[|n]]]]; try lia; cbn; rewrite ?SQ by lia; cbv iota beta; lra.
  Qed.
End Square.
Lemma dec0 : dec 0 = 0.
Proof. unfold dec. lra. Qed.
Lemma dec4 : dec 40000000000000000 = 4.
Proof. unfold dec. lra. Qed.
Lemma grid_node k n : h_node (grid_heat k) n <-> (1 <= n <= 9)%nat.
Proof.
  split.
  - intros (m & Hm & Hn). apply grid_member in Hm as (a & b & c & d & H & ->). unfold grid_nodes in H. cbn [In] in H.
    destruct H as [H|[H|[H|[H|[]]]]]; injection H as <- <- <- <-; cbn in Hn; lia.
  - intros H. assert (n = 1 \/ n = 2 \/ n = 3 \/ n = 4 \/ n = 5 \/ n = 6 \/ n = 7 \/ n = 8 \/ n = 9)%nat as E by lia.
    assert (I : In n (flat_map h_nodes (grid_heat k))) by (cbn; lia). apply in_flat_map in I as (m & Hm & Hn). exists m. auto.
Qed.
Lemma grid_all k : Forall (h_ok 9 grid_pos) (grid_heat k).
Proof.
  apply Forall_forall. intros m Hm. apply grid_member in Hm as (a & b & c & d & H & ->). unfold h_ok. cbn [h_nodes].
  destruct (grid_square a b c d H) as (x & y & SQ).
  split; [|split; [|constructor; [rewrite dec0, (square_det x y _ SQ); lra|constructor]]]; unfold grid_nodes in H; cbn [In] in H; destruct H as [H|[H|[H|[H|[]]]]]; injection H as <- <- <- <-;
    repeat constructor; cbn; try lia; intuition discriminate.
Qed.
Lemma rim_fix (f : nat -> R) x : (1 <= x <= 9)%nat -> x <> 5%nat -> last_fix (outer f rim) (KNode, x, TEMP) = Some (f x).
Proof. intros H N. assert (x = 1 \/ x = 2 \/ x = 3 \/ x = 4 \/ x = 6 \/ x = 7 \/ x = 8 \/ x = 9)%nat as E by lia. decompose [or] E; subst; reflexivity. Qed.
Lemma grid_ok k loads f : Forall (fun l => h_key (grid_heat k) (bc_key (K := RNum) l)) loads -> heat_ok 9 grid_pos (grid_heat k) loads (outer f rim).
Proof.
  intros LO. apply heat_small; [apply grid_all|exact LO| | |vm_compute; lia].
  - apply Forall_forall. intros b Hb. unfold outer in Hb. apply in_map_iff in Hb as (n & <- & Hn). split; [|reflexivity]. apply grid_node. cbn in Hn |- *. lia.
  - exists (KNode, 5%nat, TEMP). split; [split; [apply grid_node; lia|reflexivity]|]. cbn. intros H. decompose [or] H; discriminate || assumption.
Qed.
Lemma grid_row k m Ke Fe : In m (grid_heat k) -> quadth_K 1 k 0 (at_nodes grid_pos (h_nodes m)) = Ok (Ke, Fe) -> h_stiff 5 m Ke (only 5) = k / 2.
Proof.
  intros Hm E. apply grid_member in Hm as (a & b & c & d & H & ->). cbn [h_nodes] in *.
  destruct (grid_square a b c d H) as (x & y & SQ).
  destruct (quadth_ok 1 k 0 (at_nodes grid_pos [a; b; c; d])) as (Ke' & Fe' & E' & _ & _ & WK & _). rewrite E in E'. injection E' as <- <-.
  assert (DG : forall l, (l < 4)%nat -> nth (sym_comp 4 l l) Ke 0 = k / 2).
  { intros l Hl. rewrite WK by exact Hl. change (i_int 1) with 0%nat. unfold quad_sum. cbn [quad_quad rsuml sumof fold_right]. 
    unfold rsuml. rewrite sum_cons, dec0, dec4, (square_det x y _ SQ), (square_nixj x y _ SQ) by exact Hl. match goal with |- context [@sumof RNum _ ?f []] => change (@sumof RNum _ f []) with 0 end. req. field. }
  assert (KM : forall l, (l < 4)%nat -> nth l [a; b; c; d] 0%nat = 5%nat -> (forall j, (j < 4)%nat -> j <> l -> nth j [a; b; c; d] 0%nat <> 5%nat) -> h_stiff 5 (HQuad 1 k 0 a b c d) Ke (only 5) = k / 2).
  { intros l Hl E5 N5. unfold h_stiff. cbn [h_nodes length]. transitivity (kmul 4 Ke (map (only 5) [a; b; c; d]) l).
    - rewrite rs4. destruct l as [|[|[|[|l]]]]; try lia; rewrite E5; cbn [Nat.eqb];
        repeat match goal with |- context [(?z =? 5)%nat] => destruct (Nat.eqb_spec z 5) as [Z|_]; [exfalso; revert Z; first [apply (N5 0%nat)|apply (N5 1%nat)|apply (N5 2%nat)|apply (N5 3%nat)]; lia|] end; ring.
    - transitivity (nth (sym_comp 4 l l) Ke 0 * 1); [|rewrite DG by exact Hl; ring]. unfold kmul. rewrite rs4.
      assert (ON : forall j, (j < 4)%nat -> nth j (map (only 5) [a; b; c; d]) 0 = if (j =? l)%nat then 1 else 0).
      { intros j Hj. replace (nth j (map (only 5) [a; b; c; d]) 0) with (only 5 (nth j [a; b; c; d] 0%nat)) by (destruct j as [|[|[|[|j]]]]; try lia; reflexivity).
        unfold only. destruct (Nat.eqb_spec j l) as [->|Nj]; [rewrite E5; reflexivity|]. destruct (Nat.eqb_spec (nth j [a; b; c; d] 0%nat) 5) as [Z|]; [|reflexivity]. exfalso. exact (N5 j Hj Nj Z). }
      rewrite !ON by lia. destruct l as [|[|[|[|l]]]]; try lia; cbn [Nat.eqb]; ring. }
  unfold grid_nodes in H; cbn [In] in H; destruct H as [H|[H|[H|[H|[]]]]]; injection H as <- <- <- <-.
  - apply (KM 2%nat); [lia|reflexivity|]. intros j Hj Nj. destruct j as [|[|[|[|j]]]]; try lia; discriminate.
  - apply (KM 3%nat); [lia|reflexivity|]. intros j Hj Nj. destruct j as [|[|[|[|j]]]]; try lia; discriminate.
  - apply (KM 1%nat); [lia|reflexivity|]. intros j Hj Nj. destruct j as [|[|[|[|j]]]]; try lia; discriminate.
  - apply (KM 0%nat); [lia|reflexivity|]. intros j Hj Nj. destruct j as [|[|[|[|j]]]]; try lia; discriminate.
Qed.
Lemma tiny1 : / 10 ^ 20 < 1.
Proof. replace 1 with (/ 1) at 1 by apply Rinv_1. apply Rinv_lt_contravar; lra. Qed.
Lemma grid_solved big u k loads f : (forall n, length (u n) = n) -> Forall (fun l => h_key (grid_heat k) (bc_key (K := RNum) l)) loads -> 1 <= k ->
  exists st rs, heat_solve big (gauss_slv (K := RG) u) 9 grid_pos (grid_heat k) loads (outer f rim) = Ok (st, rs).
Proof.
  intros HU LO Hk. apply (single_solved big u HU 9 grid_pos (grid_heat k) loads _ (grid_ok k loads f LO) ltac:(vm_compute; lia) 5
    ltac:(intros x Hx Nx; apply grid_node in Hx; rewrite rim_fix by lia; discriminate) (fun m => k / 2)).
  - intros m c Ke Fe Hm _ T. pose proof (to_who _ _ _ _ _ _ T) as W. destruct (grid_member k m Hm) as (a & b & c0 & d & H & ->). exact (grid_row k _ Ke Fe Hm W).
  - unfold grid_heat, grid_nodes. cbn [map]. rewrite !sum_cons. match goal with |- context [@sumof RNum _ ?f []] => change (@sumof RNum _ f []) with 0 end.
    match goal with |- _ <= Rabs ?x => replace x with (2 * k) by (req; field) end. rewrite Rabs_right by lra. pose proof tiny1. lra.
Qed.

(* the four tetrahedra around node 5 as a body of TETRA0 *)
Definition star_elem : tetra0 := mkTetra0 1 0 0 0 (repeat 0 6) (repeat 0 6) 0.
Definition star_solid : list member := map (fun q => let '(a, b, c, d) := q in Tet star_elem a b c d) star_nodes.
Definition outer3 (f : nat -> nat -> R) (ns : list nat) : list (bc RNum) := flat_map (fun n => map (fun t => mkBC (K := RNum) n t (f n t)) (seq 0 3)) ns.
Lemma solid_member m : In m star_solid -> exists a b c d, In (a, b, c, d) star_nodes /\ m = Tet star_elem a b c d.
Proof. intros H. unfold star_solid in H. apply in_map_iff in H as ([[[a b] c] d] & <- & H). exists a, b, c, d. auto. Qed.
Lemma solid_node n : s_node star_solid n <-> (1 <= n <= 5)%nat.
Proof.
  split.
  - intros (m & Hm & Hn). apply solid_member in Hm as (a & b & c & d & H & ->). unfold star_nodes in H. cbn [In] in H.
    destruct H as [H|[H|[H|[H|[]]]]]; injection H as <- <- <- <-; cbn in Hn; lia.
  - intros H. destruct (Nat.eq_dec n 1) as [->|N]; [exists (Tet star_elem 1 5 3 4); cbn; auto|]. exists (Tet star_elem 5 2 3 4). split; [left; reflexivity|]. cbn. lia.
Qed.
Lemma solid_all : Forall (m_ok 5 star_pos) star_solid.
Proof.
  apply Forall_forall. intros m Hm. apply solid_member in Hm as (a & b & c & d & H & ->). unfold m_ok. cbn [m_nodes]. pose proof (star_vol a b c d H) as V.
  split; [|split; [|split; [split; reflexivity|rewrite V; lra]]]; unfold star_nodes in H; cbn [In] in H; destruct H as [H|[H|[H|[H|[]]]]]; injection H as <- <- <- <-;
    repeat constructor; cbn; try lia; intuition discriminate.
Qed.
Lemma solid_uniform : Forall (solid_of 1 0 0) star_solid /\ Forall (expands 0) star_solid.
Proof.
  split; apply Forall_forall; intros m Hm; apply solid_member in Hm as (a & b & c & d & H & ->).
  - cbn. split; [reflexivity|]. split; [reflexivity|]. split; [split; reflexivity|ring].
  - cbn. split; [split; reflexivity|ring].
Qed.
Lemma solid_fix f n t : (1 <= n <= 4)%nat -> (t < 3)%nat -> last_fix (outer3 f [1; 2; 3; 4]%nat) (KNode, n, t) = Some (f n t).
Proof.
  intros Hn Ht. assert (n = 1 \/ n = 2 \/ n = 3 \/ n = 4)%nat as E by lia. destruct t as [|[|[|t]]]; try lia; destruct E as [->|[->|[->| ->]]]; reflexivity.
Qed.
Lemma solid_free f t : last_fix (outer3 f [1; 2; 3; 4]%nat) (KNode, 5%nat, t) = None.
Proof. reflexivity. Qed.
Lemma solid_star_ok f : struct_ok 5 star_pos star_solid [] (outer3 f [1; 2; 3; 4]%nat).
Proof.
  apply struct_small; [apply solid_all|constructor| | |vm_compute; lia].
  - apply Forall_forall. intros b Hb. unfold outer3 in Hb. apply in_flat_map in Hb as (n & Hn & Hb). apply in_map_iff in Hb as (t & <- & Ht). apply in_seq in Ht.
    cbn. split; [apply solid_node|]; cbn in Hn; lia.
  - exists (KNode, 5%nat, 0%nat). split; [split; [apply solid_node; lia|lia]|]. cbn. intros H. decompose [or] H; discriminate || assumption.
Qed.
Lemma solid_hat a b c d : In (a, b, c, d) star_nodes -> exists c0 g, (forall x, In x [a; b; c; d] -> only 5 x = lin1 c0 g (star_pos x)) /\
  (a = 5%nat /\ c0 = 4 /\ (forall i, g i = -4) \/ a = 1%nat /\ b = 5%nat /\ c0 = 0 /\ (forall i, g i = if (i =? 0)%nat then 4 else 0) \/
   c = 5%nat /\ c0 = 0 /\ (forall i, g i = if (i =? 1)%nat then 4 else 0) \/ d = 5%nat /\ c0 = 0 /\ (forall i, g i = if (i =? 2)%nat then 4 else 0)).
Proof.
  intros H. unfold star_nodes in H. cbn [In] in H. destruct H as [H|[H|[H|[H|[]]]]]; injection H as <- <- <- <-.
  - exists 4, (fun _ => -4). split; [|auto]. intros x Hx. unfold lin1. rewrite rs3. cbn in Hx. destruct Hx as [<-|[<-|[<-|[<-|[]]]]]; unfold only, star_pos; cbn; lra.
  - exists 0, (fun i => if (i =? 0)%nat then 4 else 0). split; [|auto 6]. intros x Hx. unfold lin1. rewrite rs3. cbn in Hx. destruct Hx as [<-|[<-|[<-|[<-|[]]]]]; unfold only, star_pos; cbn; lra.
  - exists 0, (fun i => if (i =? 1)%nat then 4 else 0). split; [|auto 8]. intros x Hx. unfold lin1. rewrite rs3. cbn in Hx. destruct Hx as [<-|[<-|[<-|[<-|[]]]]]; unfold only, star_pos; cbn; lra.
  - exists 0, (fun i => if (i =? 2)%nat then 4 else 0). split; [|auto 9]. intros x Hx. unfold lin1. rewrite rs3. cbn in Hx. destruct Hx as [<-|[<-|[<-|[<-|[]]]]]; unfold only, star_pos; cbn; lra.
Qed.
Lemma solid_sgm G : sgm 1 0 0 G 0 = G 0%nat 0%nat /\ sgm 1 0 0 G 1 = G 1%nat 1%nat /\ sgm 1 0 0 G 2 = G 2%nat 2%nat /\
  sgm 1 0 0 G 3 = (G 0%nat 1%nat + G 1%nat 0%nat) / 2 /\ sgm 1 0 0 G 4 = (G 1%nat 2%nat + G 2%nat 1%nat) / 2 /\ sgm 1 0 0 G 5 = (G 0%nat 2%nat + G 2%nat 0%nat) / 2.
Proof.
  assert (S : forall k, (k < 6)%nat -> sgm 1 0 0 G k = nth k (stress6 1 0 G) 0).
  { intros k Hk. rewrite <- tet0_C_hooke by (try exact Hk; lra). unfold sgm. apply rsumn_ext. intros l Hl. f_equal.
    replace (nth l (strain6 (expansion 0 (fun _ _ => 0))) 0) with 0; [ring|]. unfold strain6, eps, expansion. do 6 (destruct l as [|l]; [cbn; lra|]). lia. }
  rewrite !S by lia. unfold stress6, hooke, lame_l, lame_m, eps. cbn [nth]. unfold eps. cbn [Nat.eqb]. rewrite ?rs3. repeat split; lra.
Qed.
Lemma solid_row a b c d w c0 g t : In (a, b, c, d) star_nodes -> (forall x, In x [a; b; c; d] -> only 5 x = lin1 c0 g (star_pos x)) -> (t < 3)%nat ->
  rsumn 4 (fun l => if (nth l [a; b; c; d] 0 =? 5)%nat then @sumof RNum _ (traction star_pos (sgm 1 0 0 (fun i j => w i * g j)) t) (edges (opposite [a; b; c; d] l)) else 0) =
  / 48 * (rsumn 3 (fun j => g j * g j) * w t + rsumn 3 (fun j => g j * w j) * g t).
Proof.
  intros H HF Ht. unfold star_nodes in H. cbn [In] in H.
  set (G := fun i j => w i * g j). destruct (solid_sgm G) as (S0 & S1 & S2 & S3 & S4 & S5). set (s := sgm 1 0 0 G) in *. clearbody s. unfold G in *. clear G.
  unfold lin1 in HF.
  assert (D : forall x, In x [a; b; c; d] -> only 5 x = c0 + (g 0%nat * star_pos x 0 + g 1%nat * star_pos x 1 + g 2%nat * star_pos x 2)) by (intros x Hx; rewrite (HF x Hx), rs3; reflexivity). clear HF.
  pose proof (D a ltac:(cbn; auto)) as Da. pose proof (D b ltac:(cbn; auto)) as Db. pose proof (D c ltac:(cbn; auto)) as Dc. pose proof (D d ltac:(cbn; auto)) as Dd. clear D.
  destruct H as [H|[H|[H|[H|[]]]]]; injection H as <- <- <- <-; unfold only, star_pos in Da, Db, Dc, Dd; cbn [Nat.eqb] in *.
  - assert (g 0%nat = -4 /\ g 1%nat = -4 /\ g 2%nat = -4) as (G0 & G1 & G2) by lra.
    rewrite rs4, !rs3. cbn [nth Nat.eqb opposite edges]. rewrite !sum_cons. match goal with |- context [@sumof RNum _ ?f []] => change (@sumof RNum _ f []) with 0 end. req.
    unfold traction, edge_cross. rewrite !rs3. cbn [fst snd]. unfold crossp, star_pos. cbn [Nat.eqb].
    destruct t as [|[|[|t]]]; try lia; cbn [smat]; rewrite ?S0, ?S1, ?S2, ?S3, ?S4, ?S5, ?G0, ?G1, ?G2; lra.
  - assert (g 0%nat = 4 /\ g 1%nat = 0 /\ g 2%nat = 0) as (G0 & G1 & G2) by lra.
    rewrite rs4, !rs3. cbn [nth Nat.eqb opposite edges]. rewrite !sum_cons. match goal with |- context [@sumof RNum _ ?f []] => change (@sumof RNum _ f []) with 0 end. req.
    unfold traction, edge_cross. rewrite !rs3. cbn [fst snd]. unfold crossp, star_pos. cbn [Nat.eqb].
    destruct t as [|[|[|t]]]; try lia; cbn [smat]; rewrite ?S0, ?S1, ?S2, ?S3, ?S4, ?S5, ?G0, ?G1, ?G2; lra.
  - assert (g 0%nat = 0 /\ g 1%nat = 4 /\ g 2%nat = 0) as (G0 & G1 & G2) by lra.
    rewrite rs4, !rs3. cbn [nth Nat.eqb opposite edges]. rewrite !sum_cons. match goal with |- context [@sumof RNum _ ?f []] => change (@sumof RNum _ f []) with 0 end. req.
    unfold traction, edge_cross. rewrite !rs3. cbn [fst snd]. unfold crossp, star_pos. cbn [Nat.eqb].
    destruct t as [|[|[|t]]]; try lia; cbn [smat]; rewrite ?S0, ?S1, ?S2, ?S3, ?S4, ?S5, ?G0, ?G1, ?G2; lra.
  - assert (g 0%nat = 0 /\ g 1%nat = 0 /\ g 2%nat = 4) as (G0 & G1 & G2) by lra.
    rewrite rs4, !rs3. cbn [nth Nat.eqb opposite edges]. rewrite !sum_cons. match goal with |- context [@sumof RNum _ ?f []] => change (@sumof RNum _ f []) with 0 end. req.
    unfold traction, edge_cross. rewrite !rs3. cbn [fst snd]. unfold crossp, star_pos. cbn [Nat.eqb].
    destruct t as [|[|[|t]]]; try lia; cbn [smat]; rewrite ?S0, ?S1, ?S2, ?S3, ?S4, ?S5, ?G0, ?G1, ?G2; lra.
Qed.
Definition hat_grad (m : member) (j : nat) : R :=
  match m_nodes m with [5; _; _; _]%nat => -4 | [_; 5; _; _]%nat => if (j =? 0)%nat then 4 else 0 | [_; _; 5; _]%nat => if (j =? 1)%nat then 4 else 0 | _ => if (j =? 2)%nat then 4 else 0 end.
Definition star_force (w : nat -> R) (t : nat) (m : member) : R :=
  / 48 * (rsumn 3 (fun j => hat_grad m j * hat_grad m j) * w t + rsumn 3 (fun j => hat_grad m j * w j) * hat_grad m t).
Lemma star_stiff m m' c en t v : In m star_solid -> build_member star_pos m = Ok (m', [c]) -> (t < 3)%nat -> (forall x i, (1 <= x <= 4)%nat -> (i < 3)%nat -> v (KNode, x, i) = 0) ->
  stiff_on (K := RNum) v (KNode, 5%nat, t) (en, m_nodes m, c) = star_force (fun i => v (KNode, 5%nat, i)) t m.
Proof.
  intros Hm HB Ht V0. pose proof solid_all as M. destruct solid_uniform as [SO EX]. rewrite Forall_forall in M, SO, EX.
  transitivity (force_on (K := RNum) v (KNode, 5%nat, t) (en, m_nodes m, c)).
  { unfold stiff_on, force_on. apply sumR_ext. intros p Hp. apply in_seq in Hp. destruct (key_dec _ _); [|reflexivity]. cbn [elem_force].
    rewrite (cold_load 5 star_pos m m' c en p (M m Hm) (EX m Hm) HB (proj2 Hp)). symmetry. apply Rminus_0_r. }
  destruct (solid_member m Hm) as (na & nb & nc & nd & H & E). set (w := fun i => v (KNode, 5%nat, i)).
  assert (HG : forall x, In x [na; nb; nc; nd] -> only 5 x = lin1 (match na with 5%nat => 4 | _ => 0 end) (hat_grad m) (star_pos x)).
  { subst m. clear - H. unfold star_nodes in H. cbn [In] in H. intros x Hx. unfold lin1. rewrite rs3.
    destruct H as [H|[H|[H|[H|[]]]]]; injection H as <- <- <- <-; cbn in Hx; destruct Hx as [<-|[<-|[<-|[<-|[]]]]]; unfold only, star_pos, hat_grad; cbn; lra. }
  rewrite (tet_on 5 star_pos 1 0 0 (fun i => w i * match na with 5%nat => 4 | _ => 0 end) (fun i j => w i * hat_grad m j) m m' c en 5 t v (M m Hm) (SO m Hm) HB Ht).
  - subst m. cbn [m_nodes]. exact (solid_row na nb nc nd w _ _ t H HG Ht).
  - intros x i Hx Hi. cbn [motion]. unfold lin. transitivity (w i * only 5 x).
    + unfold w, only. destruct (Nat.eqb_spec x 5) as [->|N]; [ring|]. rewrite V0; [ring| |exact Hi]. assert (s_node star_solid x) by (exists m; auto). apply solid_node in H0. lia.
    + rewrite HG by (subst m; exact Hx). unfold lin1. rewrite !rs3. ring.
Qed.
Lemma solid_star_solved big u f : (forall n, length (u n) = n) ->
  exists st rs, struct_solve big (gauss_slv (K := RG) u) 5 star_pos star_solid [] (outer3 f [1; 2; 3; 4]%nat) = Ok (st, rs).
Proof.
  intros HU. pose proof (solid_star_ok f) as OK. destruct (struct_run big u HU 5 star_pos star_solid [] _ OK) as (b & B & [[LF _]|(st & rs & _ & H)]); [exfalso|eauto].
  destruct (struct_good 5 star_pos star_solid [] _ b OK B) as [GL DN].
  destruct (refused RG RG_laws big u HU 5 _ _ _ [] _ GL DN ltac:(vm_compute; lia) LF) as (w & W0 & (k & Hk & Fk & Wk) & WF).
  assert (Z : forall x i, (1 <= x <= 4)%nat -> (i < 3)%nat -> w (KNode, x, i) = 0).
  { intros x i Hx Hi. apply W0; [rewrite solid_fix by assumption; discriminate|]. apply s_keys. split; [apply solid_node; lia|exact Hi]. }
  assert (Q : forall t, (t < 3)%nat -> Rabs (7 / 3 * w (KNode, 5%nat, t) + 1 / 3 * (w (KNode, 5%nat, 0%nat) + w (KNode, 5%nat, 1%nat) + w (KNode, 5%nat, 2%nat))) < / 10 ^ 20).
  { intros t Ht. specialize (WF (KNode, 5%nat, t)). rewrite s_keys in WF. specialize (WF (conj (proj2 (solid_node 5) ltac:(lia)) Ht) (solid_free f t)).
    cbn [RG glt gabs gtiny gn] in WF. unfold Rltb in WF. destruct (Rlt_dec _ _) as [Q|]; [|discriminate].
    rewrite (contribs_sum 5 star_pos star_solid b _ (star_force (fun i => w (KNode, 5%nat, i)) t) solid_all B) in Q.
    - match type of Q with Rabs ?x < _ => match goal with |- Rabs ?y < _ => replace y with x; [exact Q|] end end.
      unfold star_solid, star_nodes. cbn [map]. rewrite !sum_cons. match goal with |- context [@sumof RNum _ ?f []] => change (@sumof RNum _ f []) with 0 end. req.
      unfold star_force. rewrite !rs3. unfold hat_grad. cbn [m_nodes Nat.eqb]. destruct t as [|[|[|t]]]; try lia; cbn [Nat.eqb]; lra.
    - intros en m m' c Hm E. exact (star_stiff m m' c en t w Hm E Ht Z). }
  apply s_keys in Hk. destruct k as [[[|] n] t]; [destruct Hk|]. destruct Hk as [Hn Ht]. apply solid_node in Hn.
  destruct (Nat.eq_dec n 5) as [->|N]; [|rewrite solid_fix in Fk by lia; discriminate].
  pose proof (Q 0%nat ltac:(lia)) as Q0. pose proof (Q 1%nat ltac:(lia)) as Q1. pose proof (Q 2%nat ltac:(lia)) as Q2. apply Rabs_def2 in Q0, Q1, Q2. clear Q. pose proof tiny1 as T1.
  assert (T2 : / 10 ^ 20 < / 100) by (apply Rinv_lt_contravar; lra).
  set (e := / 10 ^ 20) in *. clearbody e. change (gn RG) with RNum in *. cbn [RNum r1] in Wk.
  destruct t as [|[|[|t]]]; try lia; rewrite Wk in *; lra.
Qed.
