(* Structures of bars and tetrahedra: elements and solver together *)
From Coq Require Import Reals Lra Lia.
From Verif Require Import Base BaseProofs RealBase MatModel SparseModel BlockModel DofModel SpecDof NumberingProofs AsmModel SpecAsm AsmLists AsmProofs AsmRun AsmFinal
  SolveModel SpecSolve GaussModel SpecGauss GaussProofs IsoModel SpecIso IsoProofs ElemModel SpecElem ElemBase ElemProofs ElemMore SpecBal BalProofs StructModel SpecStruct.
Local Open Scope R_scope.

Lemma RG_laws : glaws RG.
Proof.
  split; cbn [RG gn gdiv gabs glt gtiny]; try (exact (rth RRng)); cbn; unfold Rltb.
  - intros a b. destruct (Rlt_dec 0 (Rabs b)) as [H|]; [|discriminate]. intros _. field. intros ->. rewrite Rabs_R0 in H. lra.
  - apply Rabs_R0.
  - intros a. apply Rabs_Rabsolu.
  - intros a b. destruct (Rlt_dec a b), (Rlt_dec b a); try discriminate; auto; lra.
  - destruct (Rlt_dec _ _) as [|N]; auto. exfalso. apply N. apply Rinv_0_lt_compat. lra.
  - intros a b c. destruct (Rlt_dec b a); [discriminate|]. destruct (Rlt_dec b c); [|discriminate]. destruct (Rlt_dec a c); auto. lra.
Qed.

(* ---- each *)
Lemma each_ok {A B} (f : A -> outcome B) l r : each f l = Ok r <-> Forall2 (fun x y => f x = Ok y) l r.
Proof.
  revert r. induction l as [|x l IH]; intros r; cbn [each]; split; intros H.
  - injection H as <-. constructor.
  - inversion H; reflexivity.
  - apply obind_ok in H as (y & E1 & H). apply obind_ok in H as (q & E2 & H). injection H as <-. constructor; [exact E1|]. now apply IH.
  - inversion H as [|? y ? q E1 E2]; subst. apply IH in E2. rewrite E1. cbn [obind]. rewrite E2. reflexivity.
Qed.
Lemma each_total {A B} (f : A -> outcome B) l : (forall x, In x l -> exists y, f x = Ok y) -> exists r, each f l = Ok r.
Proof.
  induction l as [|x l IH]; intros H; [exists []; reflexivity|]. destruct (H x (or_introl eq_refl)) as [y E].
  destruct IH as [r R]; [intros; apply H; now right|]. exists (y :: r). cbn [each]. rewrite E. cbn [obind]. rewrite R. reflexivity.
Qed.

(* ---- one member *)
Lemma key_at nodes p : (p < length nodes * 3)%nat -> nth p (node_keys nodes uxyz) dkey = (KNode, nth (p / 3) nodes 0%nat, p mod 3).
Proof.
  intros H. pose proof (Nat.div_mod p 3 ltac:(lia)) as D. pose proof (Nat.mod_upper_bound p 3 ltac:(lia)) as M.
  assert (Q : (p / 3 < length nodes)%nat) by (apply Nat.div_lt_upper_bound; lia).
  replace p with (p / 3 * length uxyz + p mod 3)%nat at 1 by (cbn [uxyz length]; lia).
  rewrite node_keys_nth by (auto; cbn; lia). f_equal.
  destruct (p mod 3) as [|[|[|]]]; try reflexivity; lia.
Qed.
(* what a member hands over: its matrix and load vector *)
Record handed (m : member) (c : contrib RNum) : Prop := {
  h_keys : forall en, ckeys en (m_nodes m) c = node_keys (m_nodes m) uxyz;
  h_types : ctypes c = uxyz;
  h_target : ctarget c = TK;
  h_sizes : good_sizes (m_nodes m) c }.
Definition m_matrix (m : member) (c : contrib RNum) (p q : nat) : R := SpecAsm.cmat (cdim (m_nodes m) c) c p q.
Definition m_load (m : member) (c : contrib RNum) (p : nat) : R := SpecAsm.cvec (cdim (m_nodes m) c) c p.

Lemma bar_matrix A E pos a b p q : (p < 6)%nat -> (q < 6)%nat ->
  m_matrix (Bar A E a b) (CKEigen (K := RNum) uxyz (map (fun i => map (truss_Ke A E (at_nodes pos [a; b]) i) (seq 0 6)) (seq 0 6))) p q =
  upper (truss_Ke A E (at_nodes pos [a; b])) p q.
Proof.
  intros Hp Hq. unfold m_matrix, upper. cbn [SpecAsm.cmat].
  set (f := truss_Ke A E (at_nodes pos [a; b])).
  rewrite (nth_indep _ [] (map (f 0%nat) (seq 0 6))) by (rewrite map_length, seq_length; lia).
  rewrite (map_nth (fun i => map (f i) (seq 0 6))), seq_nth by lia.
  change (@r0 RNum) with 0. rewrite nth_map_seq by lia. reflexivity.
Qed.
Lemma build_ok nn pos m : m_ok nn pos m -> exists m' c, build_member pos m = Ok (m', [c]) /\ handed m c /\ m_nodes m' = m_nodes m.
Proof.
  intros (ND & RN & OK). destruct m as [A E a b|e a b c d]; cbn [build_member].
  - do 2 eexists. split; [reflexivity|]. split; [|reflexivity]. split; try reflexivity.
    cbn [good_sizes cdim m_nodes ctypes length uxyz Nat.mul Nat.add map seq]. split; [reflexivity|]. repeat constructor.
  - destruct OK as [OE V]. destruct (tet0_buildK_ok (at_nodes pos [a; b; c; d]) e OE) as (e' & Ke & Fe & EK & _ & _ & _ & _ & _ & _ & _ & LK & _).
    cbn [m_nodes]. rewrite EK. cbn [obind]. do 2 eexists. split; [reflexivity|]. split; [|reflexivity].
    unfold tet0_buildK in EK. apply obind_ok in EK as (K1 & E1 & EK).
    destruct Fe as [Fe|]; split; try reflexivity; cbn [good_sizes cdim m_nodes ctypes length uxyz Nat.mul Nat.add].
    + split; [exact LK|].
      destruct (nonzero (t0_alpha e) && nonzero (t0_T e) || nonzero (qlength (t0_strains e)) || nonzero (qlength (t0_stress e))); [|congruence].
      apply obind_ok in EK as (F1 & E2 & EK). injection EK as _ _ <-.
      destruct (tet0_Fe (at_nodes pos [a; b; c; d]) (tet_vol (at_nodes pos [a; b; c; d])) (t0_E e) (t0_my e) (tet0_loadstrain e) (loadstrain_length e OE)) as (F2 & E3 & L3 & _).
      assert (Q : Ok F1 = Ok F2) by (etransitivity; [symmetry; exact E2|exact E3]). injection Q as ->. exact L3.
    + exact LK.
Qed.

(* the member resists no rigid motion *)
Lemma sym_comp_sym n i j : sym_comp n i j = sym_comp n j i.
Proof. unfold sym_comp. rewrite Nat.min_comm, Nat.max_comm. reflexivity. Qed.
Lemma lin_motion pos c W nodes p : (p < length nodes * 3)%nat ->
  motion pos c W (nth p (node_keys nodes uxyz) dkey) = lin 3 c W (at_nodes pos nodes (p / 3)) (p mod 3).
Proof. intros H. rewrite key_at by exact H. reflexivity. Qed.
Lemma nodal_nth (u : (nat -> R) -> nat -> R) pos j : (j < 12)%nat -> nth j (nodal 4 3 u pos) 0 = u (pos (j / 3)%nat) (j mod 3).
Proof.
  intros H. do 12 (destruct j as [|j]; [reflexivity|]). lia.
Qed.
Lemma tet_row_rigid pos c W k : tetra_volume pos <> 0 -> antisym W -> (k < 6)%nat ->
  rsumn 12 (fun j => nth (k * 12 + j) (tet0_B pos (tetra_volume pos)) 0 * nth j (nodal 4 3 (lin 3 c W) pos) 0) = 0.
Proof.
  intros V HW Hk. change (row 12 (tet0_B pos (tetra_volume pos)) (nodal 4 3 (lin 3 c W) pos) k = 0). rewrite tet0_BU by assumption.
  rewrite antisym_strain by exact HW. ring.
Qed.
Lemma member_floats nn pos m m' c en cc W : m_ok nn pos m -> build_member pos m = Ok (m', [c]) -> antisym W ->
  floats RRng (motion pos cc W) (en, m_nodes m, c).
Proof.
  intros (ND & RN & OK) HB HW. unfold floats. destruct m as [A E a b|e a b c0 d].
  - cbn [build_member] in HB. injection HB as _ <-.
    set (cc0 := CKEigen uxyz _). change (ckeys en (m_nodes (Bar A E a b)) cc0) with (node_keys [a; b] uxyz). cbn [m_nodes] in OK |- *.
    change (length (node_keys [a; b] uxyz)) with 6%nat. split.
    + intros q Hq. etransitivity; [|exact (truss_rigid A E (at_nodes pos [a; b]) cc W OK HW q Hq)]. unfold rsumn, rsuml. apply (sumof_ext RRng).
      intros p Hp. apply in_seq in Hp. rewrite lin_motion by (cbn; lia).
      transitivity (upper (truss_Ke A E (at_nodes pos [a; b])) p q * lin 3 cc W (at_nodes pos [a; b] (p / 3)) (p mod 3)).
      * apply (f_equal (fun x => x * lin 3 cc W (at_nodes pos [a; b] (p / 3)) (p mod 3))). apply (bar_matrix A E pos a b); lia.
      * unfold upper. rewrite Nat.min_comm, Nat.max_comm. reflexivity.
    + apply (sumof_zero RRng). intros p _. cbn. ring.
  - destruct OK as [OE V]. cbn [m_nodes] in V |- *. cbn [build_member m_nodes] in HB.
    destruct (tet0_buildK_ok (at_nodes pos [a; b; c0; d]) e OE) as (e' & Ke & Fe & EK & _ & _ & _ & _ & _ & _ & _ & _ & WK & WF).
    rewrite EK in HB. cbn [obind] in HB. injection HB as _ <-. rewrite tet_vol_eq in WK, WF. set (P := at_nodes pos [a; b; c0; d]) in *.
    set (cc0 := match Fe with Some F => CKF (K := RNum) uxyz Ke F | None => CK (K := RNum) uxyz Ke end).
    change (floats RRng (motion pos cc W) (en, [a; b; c0; d], cc0)). unfold floats. change (rnum RRng) with RNum.
    assert (CK0 : ckeys en [a; b; c0; d] cc0 = node_keys [a; b; c0; d] uxyz) by (unfold cc0; destruct Fe; reflexivity).
    assert (CM : forall p q, SpecAsm.cmat (cdim [a; b; c0; d] cc0) cc0 p q = nth (sym_comp 12 p q) Ke 0) by (intros; unfold cc0; destruct Fe; reflexivity).
    assert (CV : forall p, SpecAsm.cvec (cdim [a; b; c0; d] cc0) cc0 p = load Fe p) by (intros; unfold cc0; destruct Fe; reflexivity).
    rewrite CK0. change (length (node_keys [a; b; c0; d] uxyz)) with 12%nat. split.
    + intros q Hq. etransitivity; [|exact (kmul_zero 6 12 _ _ _ Ke (nodal 4 3 (lin 3 cc W) P) WK (fun l Hl => tet_row_rigid P cc W l V HW Hl) q Hq)].
      unfold kmul, rsumn, rsuml. apply (sumof_ext RRng). intros p Hp. apply in_seq in Hp. rewrite CM, lin_motion by (cbn; lia). rewrite nodal_nth by lia.
      rewrite sym_comp_sym. reflexivity.
    + transitivity (rsumn 12 (fun p => - tetra_volume P * rsumn 6 (fun k => nth (k * 12 + p) (tet0_B P (tetra_volume P)) 0 * nth p (nodal 4 3 (lin 3 cc W) P) 0 *
          rsumn 6 (fun l => nth (sym_comp 6 k l) (tet0_C (t0_E e) (t0_my e)) 0 * nth l (tet0_loadstrain e) 0)))).
      { unfold rsumn at 1, rsuml at 1. apply (sumof_ext RRng). intros p Hp. apply in_seq in Hp. rewrite CV, lin_motion by (cbn; lia). fold P.
        rewrite WF, nodal_nth by lia. change (@rmul RNum) with Rmult. rewrite Rmult_assoc. f_equal. rewrite <- rsumn_mulr. apply rsumn_ext. intros k _. ring. }
      rewrite rsumn_mul, rsumn_swap. rewrite rsumn_zero; [apply Rmult_0_r|]. intros k Hk.
      rewrite rsumn_mulr, tet_row_rigid by assumption. ring.
Qed.

(* ---- the structure *)
Lemma s_keys ms k : In k (reg_keys (flat_map m_regs ms)) <-> s_key ms k.
Proof.
  unfold reg_keys. rewrite nodup_In, in_flat_map. split.
  - intros (r & Hr & Hk). apply in_flat_map in Hr as (m & Hm & Hr). unfold m_regs in Hr. apply in_map_iff in Hr as (n & <- & Hn).
    apply in_map_iff in Hk as (t & <- & Ht). cbn [s_key]. split; [exists m; auto|]. destruct Ht as [<-|[<-|[<-|[]]]]; repeat constructor.
  - destruct k as [[[|] n] t]; cbn [s_key]; [intros []|]. intros [(m & Hm & Hn) Ht]. exists (KNode, n, uxyz). split.
    + apply in_flat_map. exists m. split; [exact Hm|]. apply in_map_iff. exists n. auto.
    + apply in_map_iff. exists t. split; [reflexivity|]. destruct t as [|[|[|]]]; cbn [uxyz In]; auto; lia.
Qed.
Definition built (pos : nat -> nat -> R) (ms : list member) (b : list (member * list (contrib RNum))) : Prop :=
  Forall2 (fun m y => build_member pos m = Ok y) ms b.
Lemma Forall2_len {A B} (P : A -> B -> Prop) l r : Forall2 P l r -> length l = length r.
Proof. induction 1; cbn; congruence. Qed.
Lemma Forall2_at {A B} (P : A -> B -> Prop) l r d e i : Forall2 P l r -> (i < length l)%nat -> P (nth i l d) (nth i r e).
Proof. intros H. revert i. induction H as [|x y l r H1 H2 IH]; intros i Hi; cbn [length] in Hi; [lia|]. destruct i; cbn [nth]; auto. apply IH. lia. Qed.
Lemma struct_contribs nn pos ms b en nodes c : Forall (m_ok nn pos) ms -> built pos ms b ->
  In (en, nodes, c) (contribs (map m_nodes ms) (map snd b)) ->
  exists m m', In m ms /\ nodes = m_nodes m /\ build_member pos m = Ok (m', [c]).
Proof.
  intros OK B Hx. apply (in_contribs RRng) in Hx as (l & Hx & -> & Hc).
  pose proof (Forall2_len _ _ _ B) as LB. rewrite map_length in Hx. apply (In_nth _ _ (0%nat, [])) in Hx as (i & Hi & E).
  rewrite combine_length, seq_length, map_length in Hi.
  rewrite combine_nth in E by (rewrite seq_length, map_length; lia). rewrite seq_nth in E by lia. injection E as <- El.
  set (dm := Bar 0 0 0 0). set (db := (dm, [] : list (contrib RNum))).
  pose proof (Forall2_at _ _ _ dm db i B ltac:(lia)) as BI. cbv beta in BI.
  assert (Im : In (nth i ms dm) ms) by (apply nth_In; lia).
  rewrite Forall_forall in OK. destruct (build_ok nn pos _ (OK _ Im)) as (m' & c' & E & _).
  exists (nth i ms dm), m'. split; [exact Im|]. split.
  - unfold nodes_of. replace (_ - 1)%nat with i by lia.
    rewrite (nth_indep _ _ (m_nodes dm)) by (rewrite map_length; lia). apply map_nth.
  - rewrite E in BI |- *. injection BI as BI. change [] with (snd db) in El. rewrite map_nth in El. rewrite <- BI in El. cbn [snd] in El. subst l.
    destruct Hc as [<-|[]]. reflexivity.
Qed.
Lemma struct_each nn pos ms loads fixes : struct_ok nn pos ms loads fixes -> exists b, each (build_member pos) ms = Ok b /\ built pos ms b.
Proof.
  intros [M _ _ _ _]. destruct (each_total (build_member pos) ms) as [b E].
  - intros m Hm. rewrite Forall_forall in M. destruct (build_ok nn pos m (M m Hm)) as (m' & c & E & _). eauto.
  - exists b. split; [exact E|]. now apply each_ok.
Qed.
Lemma struct_good nn pos ms loads fixes b : struct_ok nn pos ms loads fixes -> built pos ms b ->
  good_linear (K := RNum) nn (map m_nodes ms) (flat_map m_regs ms) (map snd b) [] loads fixes /\ distinct_nodes (K := RNum) (map m_nodes ms) (map snd b).
Proof.
  intros [M LO FI FR CA] B. rewrite Forall_forall in M. pose proof (Forall2_len _ _ _ B) as LB.
  assert (CT : forall l c, In l (map snd b) -> In c l -> exists m, In m ms /\ handed m c).
  { intros l c Hl Hc. apply in_map_iff in Hl as ([m1 l1] & <- & Hl). cbn [snd] in Hc.
    destruct (In_nth _ _ (Bar 0 0 0 0, []) Hl) as (i & Hi & Ei).
    pose proof (Forall2_at _ _ _ (Bar 0 0 0 0) (Bar 0 0 0 0, []) i B ltac:(lia)) as BI. cbv beta in BI. rewrite Ei in BI.
    assert (Im : In (nth i ms (Bar 0 0 0 0)) ms) by (apply nth_In; lia).
    destruct (build_ok nn pos _ (M _ Im)) as (m' & c' & E & HH & _). rewrite E in BI. injection BI as <- <-.
    destruct Hc as [<-|[]]. eauto. }
  split; [split|split].
  - split.
    + intros nodes n Hn H. apply in_map_iff in Hn as (m & <- & Hm). destruct (M m Hm) as (_ & RN & _). rewrite Forall_forall in RN. auto.
    + apply Forall_forall. intros r Hr. apply in_flat_map in Hr as (m & Hm & Hr). unfold m_regs in Hr. apply in_map_iff in Hr as (n & <- & Hn).
      destruct (M m Hm) as (_ & RN & _). rewrite Forall_forall in RN. cbn [good_reg entities]. split; [now apply RN|].
      repeat constructor; vm_compute; lia.
    + apply Forall_forall. intros k Hk. apply in_map_iff in Hk as (f & <- & Hf). rewrite Forall_forall in FI. apply s_keys. auto.
    + destruct FR as (k & Hk & Nk). exists k. split; [now apply s_keys|exact Nk].
    + constructor.
    + intros m t [].
  - exact CA.
  - split; [rewrite !map_length; lia|]. intros en nodes c Hx.
    destruct (struct_contribs nn pos ms b en nodes c ltac:(now apply Forall_forall) B Hx) as (m & m' & Hm & -> & E).
    destruct (build_ok nn pos m (M m Hm)) as (m2 & c2 & E2 & HH & _). rewrite E in E2. injection E2 as _ <-. split; [apply HH|].
    apply Forall_forall. intros k Hk. rewrite (h_keys _ _ HH) in Hk. apply s_keys. unfold node_keys in Hk. apply in_flat_map in Hk as (n & Hn & Hk).
    apply in_map_iff in Hk as (t & <- & Ht). cbn [s_key]. split; [exists m; auto|]. destruct Ht as [<-|[<-|[<-|[]]]]; repeat constructor.
  - apply Forall_forall. intros l Hl. apply Forall_forall. intros c Hc. destruct (CT l c Hl Hc) as (m & _ & HH). apply HH.
  - apply Forall_forall. intros l Hl. rewrite Forall_forall in LO. apply s_keys. auto.
  - apply Forall_forall. intros nodes Hn. apply in_map_iff in Hn as (m & <- & Hm). apply (M m Hm).
  - apply Forall_forall. intros l Hl. apply Forall_forall. intros c Hc. destruct (CT l c Hl Hc) as (m & _ & HH). rewrite (h_types _ _ HH).
    repeat constructor; cbn; intros H; decompose [or] H; try discriminate; auto.
Qed.
