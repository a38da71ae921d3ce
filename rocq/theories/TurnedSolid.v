From Coq Require Import Reals Lra Lia.
From Verif Require Import Base BaseProofs RealBase MatModel SparseModel BlockModel DofModel SpecDof NumberingProofs AsmModel SpecAsm AsmLists AsmProofs AsmRun AsmFinal
  SolveModel SpecSolve SolveProofs LinearProofs GaussModel SpecGauss GaussProofs IsoModel SpecIso IsoProofs ElemModel SpecElem ElemBase ElemProofs ElemMore SpecBal BalProofs BalMore
  StructModel SpecStruct StructProofs StructFinal StructMore SpecTurned TurnedProofs TurnedHeat SpecTurnedSolid.
Local Open Scope R_scope.
Local Open Scope list_scope.

(* ---- the matrices of TETRA0 in terms of the gradients of the shape functions *)
Definition bm (b : nat -> R) (k i : nat) : R :=
  match k, i with
  | 0%nat, 0%nat => b 0%nat | 1%nat, 1%nat => b 1%nat | 2%nat, 2%nat => b 2%nat
  | 3%nat, 0%nat => b 1%nat | 3%nat, 1%nat => b 0%nat
  | 4%nat, 1%nat => b 2%nat | 4%nat, 2%nat => b 1%nat
  | 5%nat, 0%nat => b 2%nat | 5%nat, 2%nat => b 0%nat
  | _, _ => 0
  end.
Lemma B0_entry q k a i : (k < 6)%nat -> (a < 4)%nat -> (i < 3)%nat -> nth (k * 12 + (a * 3 + i)) (tet0_B q (tet_vol q)) 0 = bm (bt q a) k i.
Proof.
  intros Hk Ha Hi. rewrite tet0_B_list. destruct (normal_bcd q a) as (B & C & D).
  destruct k as [|[|[|[|[|[|]]]]]]; try lia; destruct i as [|[|[|]]]; try lia; cbn [bm]; unfold bt; rewrite <- ?B, <- ?C, <- ?D; destruct a as [|[|[|[|]]]]; try lia; reflexivity.
Qed.
Definition cA (e : tetra0) : R := t0_E e / ((1 + t0_my e) * (1 - 2 * t0_my e)).
Definition cl (e : tetra0) : R := t0_my e * cA e.
Definition cm (e : tetra0) : R := (1 / 2 - t0_my e) * cA e.
Definition d3 (x y : nat -> R) : R := rsumn 3 (fun i => x i * y i).
Lemma C_entry e k l : (k < 6)%nat -> (l < 6)%nat -> nth (sym_comp 6 k l) (tet0_C (t0_E e) (t0_my e)) 0 =
  if (k <? 3)%nat && (l <? 3)%nat then (if (k =? l)%nat then cl e + 2 * cm e else cl e) else if (k =? l)%nat then cm e else 0.
Proof.
  intros Hk Hl. rewrite tet0_C_list. unfold cl, cm. fold (cA e). cbv zeta.
  destruct k as [|[|[|[|[|[|]]]]]]; try lia; destruct l as [|[|[|[|[|[|]]]]]]; try lia;
    cbv [sym_comp Nat.min Nat.max Nat.div Nat.divmod Nat.sub Nat.mul Nat.add fst snd]; cbv [Nat.ltb Nat.leb Nat.eqb andb]; cbn [nth]; first [field | reflexivity].
Qed.
Lemma BCB e x y i j : (i < 3)%nat -> (j < 3)%nat ->
  rsumn 6 (fun k => rsumn 6 (fun l => bm x k i * nth (sym_comp 6 k l) (tet0_C (t0_E e) (t0_my e)) 0 * bm y l j)) =
  cl e * x i * y j + cm e * (y i * x j) + cm e * ((if (i =? j)%nat then 1 else 0) * d3 x y).
Proof.
  intros Hi Hj. transitivity (rsumn 6 (fun k => rsumn 6 (fun l => bm x k i * (if (k <? 3)%nat && (l <? 3)%nat then (if (k =? l)%nat then cl e + 2 * cm e else cl e) else if (k =? l)%nat then cm e else 0) * bm y l j))).
  - apply rsumn_ext. intros k Hk. apply rsumn_ext. intros l Hl. rewrite C_entry by assumption. reflexivity.
  - unfold d3. rewrite !rs6, r3. destruct i as [|[|[|]]]; try lia; destruct j as [|[|[|]]]; try lia; cbv [Nat.ltb Nat.leb Nat.eqb andb]; cbn [bm]; ring.
Qed.
(* the forces at the nodes of the tetrahedron: stiffness and thermal load *)
Definition tetf (q : nat -> nat -> R) (e : tetra0) (V : nat -> nat -> R) (a i : nat) : R :=
  tet_vol q * (cl e * rsumn 4 (fun b => d3 (V b) (bt q b)) * bt q a i + cm e * rsumn 4 (fun b => V b i * d3 (bt q b) (bt q a) + bt q b i * d3 (V b) (bt q a))).
Definition tetl (q : nat -> nat -> R) (e : tetra0) (a i : nat) : R := - tet_vol q * ((3 * cl e + 2 * cm e) * (t0_alpha e * t0_T e)) * bt q a i.
Lemma split3 p : (p < 12)%nat -> exists a i, (a < 4)%nat /\ (i < 3)%nat /\ p = (a * 3 + i)%nat /\ (p / 3)%nat = a /\ p mod 3 = i.
Proof.
  intros H. pose proof (Nat.div_mod p 3 ltac:(lia)) as D. pose proof (Nat.mod_upper_bound p 3 ltac:(lia)) as M.
  exists (p / 3)%nat, (p mod 3). repeat split; lia.
Qed.
Lemma tet_rows q e Ke (V : nat -> nat -> R) (v : nat -> R) p :
  (forall i j, (i < 12)%nat -> (j < 12)%nat -> nth (sym_comp 12 i j) Ke 0
      = tet_vol q * rsumn 6 (fun k => rsumn 6 (fun l => nth (k * 12 + i) (tet0_B q (tet_vol q)) 0
          * nth (sym_comp 6 k l) (tet0_C (t0_E e) (t0_my e)) 0 * nth (l * 12 + j) (tet0_B q (tet_vol q)) 0))) ->
  (forall j, (j < 12)%nat -> v j = V (j / 3)%nat (j mod 3)) -> (p < 12)%nat ->
  rsumn 12 (fun j => nth (sym_comp 12 p j) Ke 0 * v j) = tetf q e V (p / 3) (p mod 3).
Proof.
  intros WK Hv Hp. destruct (split3 p Hp) as (a & i & Ha & Hi & E & -> & ->).
  transitivity (rsumn 12 (fun j => tet_vol q * (cl e * bt q a i * bt q (j / 3) (j mod 3) + cm e * (bt q (j / 3) i * bt q a (j mod 3)) + cm e * ((if (i =? j mod 3)%nat then 1 else 0) * d3 (bt q a) (bt q (j / 3)))) * V (j / 3)%nat (j mod 3))).
  - apply rsumn_ext. intros j Hj. rewrite Hv, WK by assumption. destruct (split3 j Hj) as (b & k & Hb & Hk & E' & -> & ->). do 2 f_equal. rewrite <- BCB by assumption.
    apply rsumn_ext. intros x Hx. apply rsumn_ext. intros y Hy. rewrite E, E', !B0_entry by assumption. reflexivity.
  - unfold tetf. rewrite rs12. cbv [Nat.modulo Nat.div Nat.divmod Nat.sub fst snd]. unfold d3. rewrite !rs4, !r3.
    destruct i as [|[|[|]]]; try lia; cbn [Nat.eqb]; ring.
Qed.
Lemma tet_loads q e Fe p : fresh e -> (forall i, (i < 12)%nat -> load Fe i =
      - tet_vol q * rsumn 6 (fun k => nth (k * 12 + i) (tet0_B q (tet_vol q)) 0
          * rsumn 6 (fun l => nth (sym_comp 6 k l) (tet0_C (t0_E e) (t0_my e)) 0 * nth l (tet0_loadstrain e) 0))) -> (p < 12)%nat ->
  load Fe p = tetl q e (p / 3) (p mod 3).
Proof.
  intros Fr WF Hp. rewrite WF by exact Hp. destruct (split3 p Hp) as (a & i & Ha & Hi & E & -> & ->). unfold tetl. rewrite Rmult_assoc. f_equal.
  transitivity (rsumn 6 (fun k => bm (bt q a) k i * rsumn 6 (fun l => (if (k <? 3)%nat && (l <? 3)%nat then (if (k =? l)%nat then cl e + 2 * cm e else cl e) else if (k =? l)%nat then cm e else 0) * (if (l <? 3)%nat then t0_alpha e * t0_T e else 0)))).
  - apply rsumn_ext. intros k Hk. rewrite E, B0_entry by assumption. f_equal. apply rsumn_ext. intros l Hl. rewrite C_entry, fresh_loadstrain by assumption. f_equal.
    unfold strain6, eps, expansion, dlt. destruct l as [|[|[|[|[|[|]]]]]]; try lia; cbv [Nat.ltb Nat.leb Nat.eqb andb]; cbn [nth]; field.
  - rewrite !rs6. destruct i as [|[|[|]]]; try lia; cbv [Nat.ltb Nat.leb Nat.eqb andb]; cbn [bm]; ring.
Qed.

(* ---- forces of a member at the nodes *)
Definition vals (v : key -> R) (nodes : list nat) (a i : nat) : R := v (KNode, nth a nodes 0%nat, i).
Definition mstiff (pos : nat -> nat -> R) (v : key -> R) (m : member) (n i : nat) : R :=
  match m with
  | Bar _ _ _ _ => pull pos m (bar_stress pos v m) n i
  | Tet e _ _ _ _ => rsumn 4 (fun a => if (nth a (m_nodes m) 0 =? n)%nat then tetf (at_nodes pos (m_nodes m)) e (vals v (m_nodes m)) a i else 0)
  end.
Definition mload (pos : nat -> nat -> R) (m : member) (n i : nat) : R :=
  match m with
  | Bar _ _ _ _ => 0
  | Tet e _ _ _ _ => rsumn 4 (fun a => if (nth a (m_nodes m) 0 =? n)%nat then tetl (at_nodes pos (m_nodes m)) e a i else 0)
  end.
Lemma node_sum (nodes : list nat) (F : nat -> nat -> R) n i : length nodes = 4%nat -> (i < 3)%nat ->
  rsumn 12 (fun p => if key_dec (nth p (node_keys nodes uxyz) dkey) (KNode, n, i) then F (p / 3)%nat (p mod 3) else 0) = rsumn 4 (fun a => if (nth a nodes 0 =? n)%nat then F a i else 0).
Proof.
  intros L Hi. transitivity (rsumn 12 (fun p => if (nth (p / 3) nodes 0 =? n)%nat then (if (p mod 3 =? i)%nat then F (p / 3)%nat (p mod 3) else 0) else 0)).
  - apply rsumn_ext. intros p Hp. rewrite key_at by lia. destruct (key_dec _ _) as [E|N].
    + pose proof (f_equal (fun k : key => snd (fst k)) E) as Q1. pose proof (f_equal (fun k : key => snd k) E) as Q2. cbv beta in Q1, Q2. cbn [fst snd] in Q1, Q2. rewrite Q1, Q2, !Nat.eqb_refl. reflexivity.
    + destruct (Nat.eqb_spec (nth (p / 3) nodes 0%nat) n), (Nat.eqb_spec (p mod 3) i); try reflexivity. exfalso. apply N. congruence.
  - rewrite rs12, rs4. cbv [Nat.modulo Nat.div Nat.divmod Nat.sub fst snd].
    destruct (nth 0 nodes 0 =? n)%nat, (nth 1 nodes 0 =? n)%nat, (nth 2 nodes 0 =? n)%nat, (nth 3 nodes 0 =? n)%nat; destruct i as [|[|[|]]]; try lia; cbn [Nat.eqb]; ring.
Qed.
Lemma member_forces nn pos m m' c en n i v : m_ok nn pos m -> new m -> build_member pos m = Ok (m', [c]) -> (i < 3)%nat ->
  stiff_on (K := RNum) v (KNode, n, i) (en, m_nodes m, c) = mstiff pos v m n i /\
  force_on (K := RNum) v (KNode, n, i) (en, m_nodes m, c) = mstiff pos v m n i - mload pos m n i.
Proof.
  intros M Nw HB Hi. destruct m as [A E a b|e a b c0 d].
  - pose proof (bar_stiff nn pos (Bar A E a b) m' c en n i v M I HB Hi) as S. split; [exact S|]. unfold mload. etransitivity; [|symmetry; apply Rminus_0_r].
    etransitivity; [|exact S]. destruct (bar_keys nn pos (Bar A E a b) m' c en M I HB) as (_ & _ & CV). unfold stiff_on, force_on. apply sumR_ext. intros p _. destruct (key_dec _ _); [|reflexivity].
    cbn [elem_force]. rewrite CV. apply Rminus_0_r.
  - destruct M as (_ & _ & OE & _). cbn [build_member m_nodes] in HB. cbn [new] in Nw. unfold mstiff, mload. cbn [m_nodes].
    set (P := at_nodes pos [a; b; c0; d]) in *. set (ns := [a; b; c0; d]) in *.
    destruct (tet0_buildK_ok P e OE) as (e' & Ke & Fe & EK & _ & _ & _ & _ & _ & _ & _ & _ & WK & WF).
    rewrite EK in HB. cbn [obind] in HB. injection HB as _ <-.
    set (cc := match Fe with Some F => CKF (K := RNum) uxyz Ke F | None => CK (K := RNum) uxyz Ke end).
    assert (CK0 : ckeys en ns cc = node_keys ns uxyz) by (unfold cc; destruct Fe; reflexivity).
    assert (CM : forall p q, SpecAsm.cmat (cdim ns cc) cc p q = nth (sym_comp 12 p q) Ke 0) by (intros; unfold cc; destruct Fe; reflexivity).
    assert (CV : forall p, SpecAsm.cvec (cdim ns cc) cc p = load Fe p) by (intros; unfold cc; destruct Fe; reflexivity).
    assert (ES : forall p, (p < 12)%nat -> elem_stiff (K := RNum) v (en, ns, cc) p = tetf P e (vals v ns) (p / 3) (p mod 3)).
    { intros p Hp. rewrite <- (tet_rows P e Ke (vals v ns) (fun j => v (nth j (node_keys ns uxyz) dkey)) p WK); [|intros j Hj; rewrite key_at by (cbn; lia); reflexivity|exact Hp].
      cbn [elem_stiff]. rewrite CK0. change (length (node_keys ns uxyz)) with 12%nat. unfold rsumn, rsuml. apply sumR_ext. intros j _. rewrite CM. reflexivity. }
    split.
    + rewrite <- (node_sum ns (tetf P e (vals v ns)) n i eq_refl Hi). unfold stiff_on. cbn [x_keys]. rewrite CK0. change (length (node_keys ns uxyz)) with 12%nat.
      unfold rsumn, rsuml. apply sumR_ext. intros p Hp. apply in_seq in Hp. destruct (key_dec _ _); [|reflexivity]. apply ES. lia.
    + rewrite <- (node_sum ns (tetf P e (vals v ns)) n i eq_refl Hi), <- (node_sum ns (tetl P e) n i eq_refl Hi).
      transitivity (rsumn 12 (fun p => (if key_dec (nth p (node_keys ns uxyz) dkey) (KNode, n, i) then tetf P e (vals v ns) (p / 3) (p mod 3) else 0) + - 1 * (if key_dec (nth p (node_keys ns uxyz) dkey) (KNode, n, i) then tetl P e (p / 3) (p mod 3) else 0))).
      * unfold force_on. cbn [x_keys]. rewrite CK0. change (length (node_keys ns uxyz)) with 12%nat.
        unfold rsumn, rsuml. apply sumR_ext. intros p Hp. apply in_seq in Hp. destruct (key_dec _ _); [|change (0 = 0 + -1 * 0); ring].
        cbn [elem_force]. rewrite CV, (tet_loads P e Fe p Nw WF) by lia. pose proof (ES p ltac:(lia)) as ESp. cbn [elem_stiff] in ESp |- *. rewrite ESp.
        set (x := tetf P e (vals v ns) (p / 3) (p mod 3)). set (y := tetl P e (p / 3) (p mod 3)). change (x - y = x + -1 * y). ring.
      * rewrite !rs12. req. ring.
Qed.

(* ---- turned *)
Section Turn.
  Variables (Q : nat -> nat -> R) (c : nat -> R).
  Hypothesis RQ : rotation Q.
  Lemma rows_ortho i j : (i < 3)%nat -> (j < 3)%nat -> Q i 0%nat * Q j 0%nat + Q i 1%nat * Q j 1%nat + Q i 2%nat * Q j 2%nat = if (i =? j)%nat then 1 else 0.
  Proof.
    intros Hi Hj. rewrite <- !(minor_Q Q RQ j) by lia. transitivity ((if (i =? j)%nat then 1 else 0) * triple (Q 0%nat) (Q 1%nat) (Q 2%nat)); [|rewrite (proj2 RQ); ring].
    destruct i as [|[|[|]]]; try lia; destruct j as [|[|[|]]]; try lia; cbn [minor Nat.eqb]; unfold triple; ring.
  Qed.
  Section Tet.
    Variables (p p' V V' : nat -> nat -> R).
    Hypothesis H : forall n j, (n < 4)%nat -> (j < 3)%nat -> p' n j = c j + turn Q (p n) j.
    Hypothesis HV : forall n j, (n < 4)%nat -> (j < 3)%nat -> V' n j = turn Q (V n) j.
    Lemma d3_turned x y x' y' : (forall j, (j < 3)%nat -> x' j = turn Q x j) -> (forall j, (j < 3)%nat -> y' j = turn Q y j) -> d3 x' y' = d3 x y.
    Proof. intros X Y. unfold d3. rewrite <- (turn_dot Q (proj1 RQ) x y). apply rsumn_ext. intros j Hj. rewrite X, Y by exact Hj. reflexivity. Qed.
    Lemma bt_t n i : (i < 3)%nat -> bt p' n i = turn Q (bt p n) i.
    Proof. intros Hi. apply (bt_turned Q c RQ 4 p p' H); [lia|exact Hi]. Qed.
    Lemma vol_t : tet_vol p' = tet_vol p.
    Proof. apply (tet_vol_turned Q c RQ 4 p p' H). lia. Qed.
    Lemma tetf_turned e a i : (i < 3)%nat -> tetf p' e V' a i = turn Q (tetf p e V a) i.
    Proof.
      intros Hi. unfold tetf. rewrite vol_t, bt_t by exact Hi.
      rewrite (rsumn_ext 4 (fun b => d3 (V' b) (bt p' b)) (fun b => d3 (V b) (bt p b))) by (intros b Hb; apply d3_turned; intros j Hj; [apply HV|apply bt_t]; assumption).
      rewrite (rsumn_ext 4 (fun b => V' b i * _ + _) (fun b => turn Q (V b) i * d3 (bt p b) (bt p a) + turn Q (bt p b) i * d3 (V b) (bt p a))).
      2:{ intros b Hb. rewrite HV, bt_t by assumption. rewrite (d3_turned (bt p b) (bt p a) (bt p' b) (bt p' a)) by (intros j Hj; apply bt_t; exact Hj).
          rewrite (d3_turned (V b) (bt p a) (V' b) (bt p' a)) by (intros j Hj; first [apply HV; assumption|apply bt_t; exact Hj]). reflexivity. }
      rewrite !rs4. unfold turn. rewrite !r3. rewrite !rs4. ring.
    Qed.
    Lemma tetl_turned e a i : (i < 3)%nat -> tetl p' e a i = turn Q (tetl p e a) i.
    Proof. intros Hi. unfold tetl. rewrite vol_t, bt_t by exact Hi. unfold turn. rewrite !r3. ring. Qed.
    (* strain (with the sign of tet0_B) as a tensor *)
    Definition st (q W : nat -> nat -> R) (i j : nat) : R := - (1 / 2) * rsumn 4 (fun b => bt q b i * W b j + bt q b j * W b i).
    Lemma st_turned : turned_tensor Q (st p V) (st p' V').
    Proof.
      intros i j Hi Hj. unfold st. rewrite !rs4. rewrite !HV, !bt_t by (assumption || lia). unfold turn. rewrite !r3, !rs4. ring.
    Qed.
    Definition hk (e : tetra0) (T : nat -> nat -> R) (i j : nat) : R := cl e * (T 0%nat 0%nat + T 1%nat 1%nat + T 2%nat 2%nat) * (if (i =? j)%nat then 1 else 0) + 2 * cm e * T i j.
    Lemma hk_turned e T T' : turned_tensor Q T T' -> turned_tensor Q (hk e T) (hk e T').
    Proof.
      intros HT i j Hi Hj.
      assert (TR : T' 0%nat 0%nat + T' 1%nat 1%nat + T' 2%nat 2%nat = T 0%nat 0%nat + T 1%nat 1%nat + T 2%nat 2%nat).
      { rewrite !HT by lia. rewrite !r3. pose proof (ortho Q RQ) as O.
        transitivity (T 0%nat 0%nat * (Q 0%nat 0%nat * Q 0%nat 0%nat + Q 1%nat 0%nat * Q 1%nat 0%nat + Q 2%nat 0%nat * Q 2%nat 0%nat) + T 1%nat 1%nat * (Q 0%nat 1%nat * Q 0%nat 1%nat + Q 1%nat 1%nat * Q 1%nat 1%nat + Q 2%nat 1%nat * Q 2%nat 1%nat)
          + T 2%nat 2%nat * (Q 0%nat 2%nat * Q 0%nat 2%nat + Q 1%nat 2%nat * Q 1%nat 2%nat + Q 2%nat 2%nat * Q 2%nat 2%nat) + (T 0%nat 1%nat + T 1%nat 0%nat) * (Q 0%nat 0%nat * Q 0%nat 1%nat + Q 1%nat 0%nat * Q 1%nat 1%nat + Q 2%nat 0%nat * Q 2%nat 1%nat)
          + (T 0%nat 2%nat + T 2%nat 0%nat) * (Q 0%nat 0%nat * Q 0%nat 2%nat + Q 1%nat 0%nat * Q 1%nat 2%nat + Q 2%nat 0%nat * Q 2%nat 2%nat) + (T 1%nat 2%nat + T 2%nat 1%nat) * (Q 0%nat 1%nat * Q 0%nat 2%nat + Q 1%nat 1%nat * Q 1%nat 2%nat + Q 2%nat 1%nat * Q 2%nat 2%nat)); [ring|].
        rewrite !O by lia. cbn [Nat.eqb]. ring. }
      unfold hk. rewrite TR, (HT i j Hi Hj), <- (rows_ortho i j Hi Hj). rewrite !r3. cbn [Nat.eqb]. ring.
    Qed.
  End Tet.
  (* update *)
  Lemma list6 f l k : l = map f (seq 0 6) -> (k < 6)%nat -> nth k l 0 = f k.
  Proof. intros -> Hk. rewrite nth_map_seq by exact Hk. reflexivity. Qed.
  Lemma update_tensor q e U W : t0_vol e = tet_vol q -> length U = 12%nat -> (forall j, (j < 12)%nat -> nth j U 0 = W (j / 3)%nat (j mod 3)) ->
    exists e2, tet0_update q e U = Ok e2 /\ t0_vol e2 = t0_vol e /\ length (t0_strains e2) = 6%nat /\ length (t0_stress e2) = 6%nat /\
      (forall i j, (i < 3)%nat -> (j < 3)%nat -> tensor6 (1 / 2) (t0_strains e2) i j = st q W i j /\ tensor6 1 (t0_stress e2) i j = hk e (st q W) i j).
  Proof.
    intros V LU HU. unfold tet0_update. rewrite V. rewrite bv_R by (reflexivity || exact LU || apply tet0_B_length). cbn [obind].
    match goal with |- context [@matSymBVprod _ _ _ ?s _ _] => set (s6 := s) end.
    assert (L6 : length s6 = 6%nat) by (unfold s6; rewrite map_length, seq_length; reflexivity).
    assert (S6 : forall k, (k < 6)%nat -> nth k s6 0 = - rsumn 4 (fun b => bm (bt q b) k 0 * W b 0%nat + bm (bt q b) k 1 * W b 1%nat + bm (bt q b) k 2 * W b 2%nat)).
    { intros k Hk. unfold s6. rewrite nth_map_seq by exact Hk. rewrite nth_repeat.
      rewrite (rsumn_ext 12 _ (fun j => bm (bt q (j / 3)) k (j mod 3) * W (j / 3)%nat (j mod 3))).
      - rewrite rs12, rs4. cbv [Nat.modulo Nat.div Nat.divmod Nat.sub fst snd]. ring.
      - intros j Hj. rewrite HU by exact Hj. destruct (split3 j Hj) as (b & i & Hb & Hi & E & -> & ->). rewrite E, B0_entry by assumption. reflexivity. }
    clearbody s6. rewrite sbv_R; [|reflexivity|reflexivity|exact L6|reflexivity]. cbn [obind]. eexists. split; [reflexivity|]. cbn [t0_strains t0_stress t0_vol].
    split; [reflexivity|]. split; [exact L6|]. split; [rewrite map_length, seq_length; reflexivity|].
    assert (ST : forall i j, (i < 3)%nat -> (j < 3)%nat -> tensor6 (1 / 2) s6 i j = st q W i j).
    { intros i j Hi Hj. unfold tensor6, st. destruct i as [|[|[|]]]; try lia; destruct j as [|[|[|]]]; try lia; cbn [Nat.eqb Nat.add]; rewrite S6 by lia; cbn [bm]; rewrite !rs4; field. }
    intros i j Hi Hj. split; [apply ST; assumption|]. unfold hk. rewrite <- !ST by lia.
    assert (X : forall k, (k < 6)%nat -> nth k (map (fun i0 => nth i0 (repeat 0 6) 0 + 1 * rsumn 6 (fun l => nth (sym_comp 6 i0 l) (tet0_C (t0_E e) (t0_my e)) 0 * nth l s6 0)) (seq 0 6)) 0
      = rsumn 6 (fun l => (if (k <? 3)%nat && (l <? 3)%nat then (if (k =? l)%nat then cl e + 2 * cm e else cl e) else if (k =? l)%nat then cm e else 0) * nth l s6 0)).
    { intros k Hk. rewrite nth_map_seq by exact Hk. rewrite nth_repeat, Rplus_0_l, Rmult_1_l. apply rsumn_ext. intros l Hl. rewrite C_entry by assumption. reflexivity. }
    unfold tensor6. destruct i as [|[|[|]]]; try lia; destruct j as [|[|[|]]]; try lia; cbn [Nat.eqb Nat.add]; rewrite X by lia; rewrite rs6; cbv [Nat.ltb Nat.leb Nat.eqb andb]; field.
  Qed.
  (* members *)
  Lemma at_turned' (pos pos' : nat -> nat -> R) e a b d f : turned_nodes Q c (m_nodes (Tet e a b d f)) pos pos' ->
    forall n j, (n < 4)%nat -> (j < 3)%nat -> at_nodes pos' [a; b; d; f] n j = c j + turn Q (at_nodes pos [a; b; d; f] n) j.
  Proof. intros P. exact (at_turned Q c [a; b; d; f] pos pos' P). Qed.
  Lemma vals_turned v v' (nodes : list nat) : (forall n, In n nodes -> turned_values Q v v' n) -> forall n j, (n < length nodes)%nat -> (j < 3)%nat -> vals v' nodes n j = turn Q (vals v nodes n) j.
  Proof. intros T n j Hn Hj. unfold vals. rewrite (T (nth n nodes 0%nat) (nth_In _ _ Hn) j Hj). reflexivity. Qed.
  Lemma pick_turned (F F' : nat -> nat -> R) (nodes : list nat) n i : (forall a, F' a i = turn Q (F a) i) ->
    rsumn 4 (fun a => if (nth a nodes 0 =? n)%nat then F' a i else 0) = turn Q (fun j => rsumn 4 (fun a => if (nth a nodes 0 =? n)%nat then F a j else 0)) i.
  Proof. intros HF. unfold turn. rewrite r3, !rs4, !HF. unfold turn. rewrite !r3. repeat match goal with |- context [if ?b then _ else _] => destruct b end; ring. Qed.
  Lemma mstiff_turned pos pos' m v v' n i : turned_nodes Q c (m_nodes m) pos pos' -> (forall n, In n (m_nodes m) -> turned_values Q v v' n) -> (i < 3)%nat ->
    mstiff pos' v' m n i = turn Q (mstiff pos v m n) i.
  Proof.
    intros P V Hi. destruct m as [A E a b|e a b d f].
    - unfold mstiff. rewrite (stress_turned Q c (proj1 RQ) pos pos' (Bar A E a b) v v' P V). exact (pull_turned Q c (proj1 RQ) pos pos' (Bar A E a b) _ n i P Hi).
    - unfold mstiff. cbn [m_nodes] in *. apply pick_turned. intros x. apply tetf_turned; [exact (at_turned' pos pos' e a b d f P)|exact (vals_turned v v' [a; b; d; f] V)|exact Hi].
  Qed.
  Lemma mload_turned pos pos' m n i : turned_nodes Q c (m_nodes m) pos pos' -> (i < 3)%nat -> mload pos' m n i = turn Q (mload pos m n) i.
  Proof.
    intros P Hi. destruct m as [A E a b|e a b d f]; [unfold mload, turn; rewrite r3; ring|].
    unfold mload. cbn [m_nodes] in *. apply pick_turned. intros x. apply tetl_turned; [exact (at_turned' pos pos' e a b d f P)|exact Hi].
  Qed.
  Lemma update_turned nn pos pos' m b b' v v' r r' : m_ok nn pos m -> m_ok nn pos' m -> turned_nodes Q c (m_nodes m) pos pos' -> (forall n, In n (m_nodes m) -> turned_values Q v v' n) ->
    build_member pos m = Ok b -> build_member pos' m = Ok b' -> update_member pos v (fst b) = Ok r -> update_member pos' v' (fst b') = Ok r' -> turned_result Q r r'.
  Proof.
    intros M M' P V B B' U U'. destruct m as [A E a d|e a d f g].
    - cbn [build_member] in B, B'. injection B as <-. injection B' as <-. cbn [fst update_member m_nodes] in U, U'. injection U as <-. injection U' as <-. cbn [turned_result].
      etransitivity; [exact (bar_stress_ok nn pos' A E a d v' M')|]. etransitivity; [|symmetry; exact (bar_stress_ok nn pos A E a d v M)]. apply (stress_turned Q c (proj1 RQ) pos pos' (Bar A E a d) v v' P V).
    - cbn [build_member m_nodes] in B, B'. destruct M as (_ & _ & OE & _).
      destruct (tet0_buildK_ok (at_nodes pos [a; d; f; g]) e OE) as (e1 & Ke & Fe & EK & V1 & E1 & My1 & _).
      destruct (tet0_buildK_ok (at_nodes pos' [a; d; f; g]) e OE) as (e1' & Ke' & Fe' & EK' & V1' & E1' & My1' & _).
      rewrite EK in B. rewrite EK' in B'. cbn [obind] in B, B'. injection B as <-. injection B' as <-. cbn [fst update_member m_nodes] in U, U'.
      pose proof (at_turned' pos pos' e a d f g P) as H. pose proof (vals_turned v v' [a; d; f; g] V) as HV.
      destruct (update_tensor (at_nodes pos [a; d; f; g]) e1 (m_values v (Tet e1 a d f g)) (vals v [a; d; f; g]) V1 eq_refl) as (e2 & U2 & W2 & L2 & K2 & T2).
      { intros j Hj. do 12 (destruct j as [|j]; [reflexivity|]). lia. }
      destruct (update_tensor (at_nodes pos' [a; d; f; g]) e1' (m_values v' (Tet e1' a d f g)) (vals v' [a; d; f; g]) V1' eq_refl) as (e2' & U2' & W2' & L2' & K2' & T2').
      { intros j Hj. do 12 (destruct j as [|j]; [reflexivity|]). lia. }
      rewrite U2 in U. rewrite U2' in U'. cbn [obind] in U, U'. injection U as <-. injection U' as <-. cbn [turned_result].
      split; [rewrite W2, W2', V1, V1'; exact (vol_t _ _ H)|]. split; [exact L2'|]. split; [exact K2'|].
      pose proof (st_turned _ _ _ _ H HV) as ST. pose proof (hk_turned e1 _ _ ST) as HT.
      assert (HK : forall T i j, hk e1' T i j = hk e1 T i j) by (intros; unfold hk, cl, cm, cA; rewrite E1, E1', My1, My1'; reflexivity).
      split; intros i j Hi Hj.
      + rewrite (proj1 (T2' i j Hi Hj)), (ST i j Hi Hj). apply rsumn_ext. intros x Hx. apply rsumn_ext. intros y Hy. rewrite (proj1 (T2 x y Hx Hy)). reflexivity.
      + rewrite (proj2 (T2' i j Hi Hj)), HK, (HT i j Hi Hj). apply rsumn_ext. intros x Hx. apply rsumn_ext. intros y Hy. rewrite (proj2 (T2 x y Hx Hy)). reflexivity.
  Qed.
End Turn.

Section Run.
  Variables (big big' : R -> bool) (u u' : nat -> list R).
  Hypotheses (HU : forall n, length (u n) = n) (HU' : forall n, length (u' n) = n).
  Let gs : eqsolver RNum := gauss_slv (K := RG) u.
  Let gs' : eqsolver RNum := gauss_slv (K := RG) u'.
  Variables (nn : nat) (Q : nat -> nat -> R) (c : nat -> R) (pos pos' : nat -> nat -> R) (ms : list member) (loads fixes loads' fixes' : list (bc RNum)).
  Variables (so so' : sol RNum) (rs rs' : list result).
  Hypotheses (RQ : rotation Q) (TP : turned_nodes Q c (flat_map m_nodes ms) pos pos') (TS : turned_supports Q fixes fixes').
  Hypothesis TL : forall n, turned_values Q (total_load loads) (total_load loads') n.
  Hypotheses (OK : struct_ok nn pos ms loads fixes) (OK' : struct_ok nn pos' ms loads' fixes') (PF : plain_fixes big fixes) (PF' : plain_fixes big' fixes') (IB : Forall new ms).
  Hypotheses (HS : struct_solve big gs nn pos ms loads fixes = Ok (so, rs)) (HS' : struct_solve big' gs' nn pos' ms loads' fixes' = Ok (so', rs')).

  Let tu (k : key) : R := match k with (KNode, n, i) => turn Q (at_node (disp so) n) i | _ => 0 end.
  Let mf (q : nat -> nat -> R) (v : key -> R) (n i : nat) (m : member) : R := mstiff q v m n i - mload q m n i.
  Lemma in_nodes' m : In m ms -> turned_nodes Q c (m_nodes m) pos pos'.
  Proof. intros H n i Hn Hi. apply TP; [|exact Hi]. apply in_flat_map. eauto. Qed.
  Lemma nodal_sum q ld fx (bg : R -> bool) uu s r n i : struct_ok nn q ms ld fx -> plain_fixes bg fx -> (forall n, length (uu n) = n) ->
    struct_solve bg (gauss_slv (K := RG) uu) nn q ms ld fx = Ok (s, r) -> s_node ms n -> (i < 3)%nat -> @sumof RNum _ (mf q (disp s) n i) ms = ext s (KNode, n, i).
  Proof.
    intros O P U S Hn Hi. destruct (solved bg nn q ms ld fx _ s r S) as (b & B & E2 & _).
    destruct (struct_nodal bg nn q ms ld fx O P _ s (gs_exact uu U) b B E2) as (N1 & _ & _). rewrite <- (N1 (KNode, n, i)) by (split; assumption). symmetry.
    apply (contribs_sum nn q ms b _ (mf q (disp s) n i) (sk_members _ _ _ _ _ O) B). intros en m m' c0 Hm E.
    pose proof (sk_members _ _ _ _ _ O) as M. pose proof IB as IB'. rewrite Forall_forall in M, IB'. apply (member_forces nn q m m' c0 en n i _ (M m Hm) (IB' m Hm) E Hi).
  Qed.
  Lemma turned_force' n i : s_node ms n -> (i < 3)%nat -> @sumof RNum _ (mf pos' tu n i) ms = turn Q (at_node (ext so) n) i.
  Proof.
    intros Hn Hi. transitivity (@sumof RNum _ (fun m => turn Q (fun j => mf pos (disp so) n j m) i) ms).
    - apply sumR_ext. intros m Hm. unfold mf. rewrite (mstiff_turned Q c RQ pos pos' m (disp so) tu n i (in_nodes' m Hm)); [|intros k _ j _; reflexivity|exact Hi].
      rewrite (mload_turned Q c RQ pos pos' m n i (in_nodes' m Hm) Hi). apply turn_minus.
    - rewrite turn_sum. unfold turn. apply rsumn_ext. intros j Hj. apply f_equal2; [reflexivity|].
      exact (nodal_sum pos loads fixes big u so rs n j OK PF HU HS Hn Hj).
  Qed.
  Lemma mstiff_minus q m v w n i : mstiff q (fun k => v k - w k) m n i = mf q v n i m - mf q w n i m.
  Proof.
    unfold mf. destruct m as [A E a b|e a b d f]; cbn [mstiff mload m_nodes].
    - cbn [pull bar_stress stretch]. rewrite !r3. unfold Rdiv. ring.
    - rewrite !rs4. unfold tetf, d3, vals. rewrite !rs4, !r3. repeat match goal with |- context [if ?b then _ else _] => destruct b end; ring.
  Qed.
  Lemma turned_disp' k : s_key ms k -> disp so' k = tu k.
  Proof.
    intros Hk. destruct (solved big' nn pos' ms loads' fixes' gs' so' rs' HS') as (b & B & E2 & _).
    destruct (struct_nodal big' nn pos' ms loads' fixes' OK' PF' gs' so' (gs_exact u' HU') b B E2) as (N1 & N2 & N3).
    destruct (solved big nn pos ms loads fixes gs so rs HS) as (b0 & B0 & E0 & _).
    destruct (struct_nodal big nn pos ms loads fixes OK PF gs so (gs_exact u HU) b0 B0 E0) as (M1 & M2 & M3).
    destruct (struct_good nn pos' ms loads' fixes' b OK' B) as [GL DN].
    apply Rminus_diag_uniq. apply (held RG RG_laws big' u' HU' nn _ _ _ loads' fixes' so' GL DN E2 (fun k => disp so' k - tu k)); [| |now apply s_keys].
    - intros x Fx Hx. apply s_keys in Hx. destruct x as [[[|] n] i]; [destruct Hx|]. destruct Hx as [Hn Hi]. specialize (TS n i Hi).
      destruct (last_fix fixes' (KNode, n, i)) as [y'|] eqn:EF; [|exfalso; apply Fx; exact EF]. destruct TS as (y & Y1 & ->).
      rewrite (N3 _ _ EF). unfold tu. change (turn Q y i - turn Q (at_node (disp so) n) i = 0). unfold turn. rewrite !r3.
      assert (Z : forall j, (j < 3)%nat -> Q i j * y j = Q i j * at_node (disp so) n j).
      { intros j Hj. destruct (Req_dec (Q i j) 0) as [->|N]; [ring|]. unfold at_node. rewrite (M3 _ _ (Y1 j Hj N)). reflexivity. }
      rewrite !Z by lia. ring.
    - intros x Hx Fx. apply s_keys in Hx. destruct x as [[[|] n] i]; [destruct Hx|]. pose proof Hx as [Hn Hi].
      match type of Fx with ?a = None => change a with (last_fix (K := RNum) fixes' (KNode, n, i)) in Fx end.
      erewrite (contribs_sum nn pos' ms b _ (fun m => mstiff pos' (fun k => disp so' k - tu k) m n i) (sk_members _ _ _ _ _ OK') B).
      2:{ intros en m m' c0 Hm E. pose proof (sk_members _ _ _ _ _ OK') as M. pose proof IB as IB'. rewrite Forall_forall in M, IB'.
          apply (member_forces nn pos' m m' c0 en n i _ (M m Hm) (IB' m Hm) E Hi). }
      transitivity (@sumof RNum _ (fun m => mf pos' (disp so') n i m - mf pos' tu n i m) ms).
      { apply sumR_ext. intros m _. apply mstiff_minus. }
      rewrite sum_minus. rewrite (turned_force' n i Hn Hi).
      rewrite (nodal_sum pos' loads' fixes' big' u' so' rs' n i OK' PF' HU' HS' Hn Hi), (N2 _ Hx Fx), (TL n i Hi).
      specialize (TS n i Hi). rewrite Fx in TS. unfold turn. rewrite !r3.
      assert (Z : forall j, (j < 3)%nat -> Q i j * at_node (total_load loads) n j = Q i j * at_node (ext so) n j).
      { intros j Hj. destruct (Req_dec (Q i j) 0) as [->|N]; [ring|]. unfold at_node. rewrite (M2 (KNode, n, j)); [reflexivity|split; [exact Hn|exact Hj]|exact (TS j Hj N)]. }
      rewrite !Z by lia. change (@eq R (Q i 0%nat * at_node (ext so) n 0 + Q i 1%nat * at_node (ext so) n 1 + Q i 2%nat * at_node (ext so) n 2 - (Q i 0%nat * at_node (ext so) n 0 + Q i 1%nat * at_node (ext so) n 1 + Q i 2%nat * at_node (ext so) n 2)) 0). ring.
  Qed.
  Lemma structure_turned : (forall n, s_node ms n -> turned_values Q (disp so) (disp so') n /\ turned_values Q (ext so) (ext so') n) /\ Forall2 (turned_result Q) rs rs'.
  Proof.
    assert (V : forall n, s_node ms n -> turned_values Q (disp so) (disp so') n) by (intros n Hn i Hi; apply (turned_disp' (KNode, n, i)); split; assumption).
    split.
    - intros n Hn. split; [apply V, Hn|]. intros i Hi.
      rewrite <- (nodal_sum pos' loads' fixes' big' u' so' rs' n i OK' PF' HU' HS' Hn Hi), <- (turned_force' n i Hn Hi).
      apply sumR_ext. intros m Hm. unfold mf. f_equal. rewrite !(mstiff_turned Q c RQ pos pos' m (disp so) _ n i (in_nodes' m Hm)); [reflexivity|intros k _ j _; reflexivity|exact Hi|intros k Hk; apply V; exists m; auto|exact Hi].
    - destruct (solved big' nn pos' ms loads' fixes' gs' so' rs' HS') as (b' & B' & _ & R').
      destruct (solved big nn pos ms loads fixes gs so rs HS) as (b & B & _ & R0).
      pose proof (sk_members _ _ _ _ _ OK) as M. pose proof (sk_members _ _ _ _ _ OK') as M'.
      assert (V' : forall m, In m ms -> forall n, In n (m_nodes m) -> turned_values Q (disp so) (disp so') n) by (intros m Hm n Hn; apply V; exists m; auto).
      pose proof in_nodes' as IN. clear - RQ B B' R0 R' M M' V' IN. revert b b' rs rs' B B' R0 R'. induction ms as [|m l IH]; intros b b' rs0 rs1 B B' R0 R1.
      + inversion B; subst. inversion B'; subst. inversion R0; subst. inversion R1; subst. constructor.
      + inversion B as [|? y ? yl E1 E2]; subst. inversion B' as [|? y' ? yl' E1' E2']; subst. cbn [map] in R0, R1. inversion R0 as [|? r ? rl F1 F2]; subst. inversion R1 as [|? r' ? rl' F1' F2']; subst.
        inversion M as [|? ? Mm Ml]; subst. inversion M' as [|? ? Mm' Ml']; subst. constructor.
        * exact (update_turned Q c RQ nn pos pos' m y y' _ _ r r' Mm Mm' (IN m ltac:(now left)) (V' m ltac:(now left)) E1 E1' F1 F1').
        * apply (IH Ml Ml' (fun x Hx => V' x (or_intror Hx)) (fun x Hx => IN x (or_intror Hx)) yl yl'); assumption.
  Qed.
End Run.
