(* Displacements that are linear in the coordinates, in meshes of TETRA0 *)
From Coq Require Import Reals Lra Lia Permutation.
From Verif Require Import Base BaseProofs RealBase MatModel SparseModel BlockModel DofModel SpecDof NumberingProofs AsmModel SpecAsm AsmLists AsmProofs AsmRun AsmFinal
  SolveModel SpecSolve GaussModel SpecGauss GaussProofs IsoModel SpecIso IsoProofs ElemModel SpecElem ElemBase ElemProofs ElemMore ThermModel SpecTherm
  SpecBal BalProofs BalMore StructModel SpecStruct StructProofs StructFinal StructMore HeatModel SpecHeat PartProofs HeatProofs HeatFinal.
Local Open Scope R_scope.

(* stress of the displacement gradient G in a body that wants to expand by a, as a symmetric matrix *)
Definition sgm (E my a : R) (G : nat -> nat -> R) (k : nat) : R :=
  rsumn 6 (fun l => nth (sym_comp 6 k l) (tet0_C E my) 0 * (nth l (strain6 G) 0 - nth l (strain6 (expansion a (fun _ _ => 0))) 0)).
Definition smat (s : nat -> R) (i j : nat) : R :=
  match i, j with
  | 0%nat, 0%nat => s 0%nat | 1%nat, 1%nat => s 1%nat | 2%nat, 2%nat => s 2%nat
  | 0%nat, 1%nat | 1%nat, 0%nat => s 3%nat | 1%nat, 2%nat | 2%nat, 1%nat => s 4%nat | _, _ => s 5%nat end.
Definition traction (pos : nat -> nat -> R) (s : nat -> R) (i : nat) (e : nat * nat) : R := - / 6 * rsumn 3 (fun a => smat s i a * edge_cross pos a e).
Lemma traction_swap pos s i e : traction pos s i (swap e) = - traction pos s i e.
Proof. unfold traction. rewrite !rs3, !edge_swap. ring. Qed.
Lemma sum3 (h0 h1 h2 : R) (f0 f1 f2 : nat * nat -> R) l :
  @sumof RNum _ (fun e => - / 6 * (h0 * f0 e + h1 * f1 e + h2 * f2 e)) l = - / 6 * (h0 * @sumof RNum _ f0 l + h1 * @sumof RNum _ f1 l + h2 * @sumof RNum _ f2 l).
Proof. induction l as [|e l IH]; [cbn; ring|]. rewrite !sum_cons, IH. req. ring. Qed.

(* nodal force of one element *)
Lemma tet0_rows pos n1 n2 n3 n4 e E my a c G e' Ke Fe p : let P := at_nodes pos [n1; n2; n3; n4] in
  solid_of E my a (Tet e n1 n2 n3 n4) -> tetra_volume P <> 0 -> tet0_buildK P e = Ok (e', Ke, Fe) -> (p < 12)%nat ->
  kmul 12 Ke (nodal 4 3 (lin 3 c G) P) p - load Fe p = @sumof RNum _ (traction pos (sgm E my a G) (p mod 3)) (edges (opposite [n1; n2; n3; n4] (p / 3))).
Proof.
  intros P (<- & <- & FR & <-) V EK Hp.
  assert (OE : tetra0_ok e) by (destruct FR as [F1 F2]; split; [rewrite F1|rewrite F2]; reflexivity).
  destruct (tet0_buildK_ok P e OE) as (e1 & Ke1 & Fe1 & EK1 & _ & _ & _ & _ & _ & _ & _ & _ & WK & WF). rewrite EK in EK1. injection EK1 as <- <- <-.
  rewrite tet_vol_eq in WK, WF. rewrite WF by exact Hp.
  rewrite (kmul_R 6 12 _ _ _ Ke _ (fun k => - nth k (strain6 G) 0) WK) by (try exact Hp; intros l Hl; apply tet0_BU; assumption).
  set (a := t0_alpha e * t0_T e). set (s := sgm (t0_E e) (t0_my e) a G).
  transitivity (- tetra_volume P * rsumn 6 (fun k => nth (k * 12 + p) (tet0_B P (tetra_volume P)) 0 * s k)).
  { transitivity (tetra_volume P * rsumn 6 (fun k => -1 * (nth (k * 12 + p) (tet0_B P (tetra_volume P)) 0 * s k))); [|rewrite rsumn_mul; ring].
    match goal with |- _ * ?x - - _ * ?y = _ => replace (tetra_volume P * x - - tetra_volume P * y) with (tetra_volume P * (x + y)) by ring end. f_equal.
    rewrite <- rsumn_plus. apply rsumn_ext. intros k Hk. rewrite <- Rmult_plus_distr_l. rewrite <- rsumn_plus.
    replace (-1 * (nth (k * 12 + p) (tet0_B P (tetra_volume P)) 0 * s k)) with (nth (k * 12 + p) (tet0_B P (tetra_volume P)) 0 * (-1 * s k)) by ring. f_equal.
    unfold s, sgm. rewrite <- rsumn_mul. apply rsumn_ext. intros l Hl. rewrite fresh_loadstrain by assumption. fold a. ring. }
  assert (Hq : (p / 3 < 4)%nat) by (apply Nat.div_lt_upper_bound; lia).
  destruct (tet_faces pos n1 n2 n3 n4 (p / 3) Hq) as (F0 & F1 & F2). cbv zeta in F0, F1, F2. fold P in F0, F1, F2.
  unfold traction. rewrite (sumR_ext _ (fun x => - / 6 * (smat s (p mod 3) 0 * edge_cross pos 0 x + smat s (p mod 3) 1 * edge_cross pos 1 x + smat s (p mod 3) 2 * edge_cross pos 2 x)))
    by (intros; rewrite rs3; reflexivity).
  rewrite sum3.
  rewrite <- (Ropp_involutive (@sumof RNum _ (edge_cross pos 0) _)), <- F0.
  rewrite <- (Ropp_involutive (@sumof RNum _ (edge_cross pos 1) _)), <- F1.
  rewrite <- (Ropp_involutive (@sumof RNum _ (edge_cross pos 2) _)), <- F2.
  clearbody s. clear - V Hp. set (v := tetra_volume P) in *. set (b := tet_b P). set (cc := tet_c P). set (d := tet_d P).
  rewrite tet0_B_list, rs6. cbv zeta. fold b cc d. 
  do 12 (destruct p as [|p]; [cbn [flat_map seq app nth Nat.mul Nat.add]; change (1 mod 3)%nat with 1%nat; cbv [Nat.div Nat.modulo Nat.divmod Nat.sub fst snd smat]; field; exact V|]). lia.
Qed.

Lemma tet_on nn pos E my a c G m m' c0 en n t v : m_ok nn pos m -> solid_of E my a m -> build_member pos m = Ok (m', [c0]) -> (t < 3)%nat ->
  (forall x i, In x (m_nodes m) -> (i < 3)%nat -> v (KNode, x, i) = motion pos c G (KNode, x, i)) ->
  force_on (K := RNum) v (KNode, n, t) (en, m_nodes m, c0) =
  rsumn 4 (fun l => if (nth l (m_nodes m) 0 =? n)%nat then @sumof RNum _ (traction pos (sgm E my a G) t) (edges (opposite (m_nodes m) l)) else 0).
Proof.
  intros (_ & _ & D) SO HB Ht HV. destruct m as [|e n1 n2 n3 n4]; [destruct SO|]. destruct D as [OE V]. cbn [m_nodes] in *. cbn [build_member m_nodes] in HB.
  apply obind_ok in HB as ([[e' Ke] Fe] & EK & HB). injection HB as _ <-. set (P := at_nodes pos [n1; n2; n3; n4]) in *.
  set (cc := match Fe with Some F => CKF (K := RNum) uxyz Ke F | None => CK (K := RNum) uxyz Ke end).
  assert (CK0 : ckeys en [n1; n2; n3; n4] cc = node_keys [n1; n2; n3; n4] uxyz) by (unfold cc; destruct Fe; reflexivity).
  assert (CM : forall p q, SpecAsm.cmat (cdim [n1; n2; n3; n4] cc) cc p q = nth (sym_comp 12 p q) Ke 0) by (intros; unfold cc; destruct Fe; reflexivity).
  assert (CV : forall p, SpecAsm.cvec (cdim [n1; n2; n3; n4] cc) cc p = load Fe p) by (intros; unfold cc; destruct Fe; reflexivity).
  assert (VK : forall q, (q < 12)%nat -> v (nth q (node_keys [n1; n2; n3; n4] uxyz) dkey) = nth q (nodal 4 3 (lin 3 c G) P) 0).
  { intros q Hq. rewrite key_at by (cbn; lia). rewrite nodal_nth by exact Hq. rewrite HV; [reflexivity| |apply Nat.mod_upper_bound; lia]. apply nth_In. cbn [length]. apply Nat.div_lt_upper_bound; lia. }
  assert (EF : forall p, (p < 12)%nat -> elem_force (K := RNum) v (en, [n1; n2; n3; n4], cc) p = @sumof RNum _ (traction pos (sgm E my a G) (p mod 3)) (edges (opposite [n1; n2; n3; n4] (p / 3)))).
  { intros p Hp. rewrite <- (tet0_rows pos n1 n2 n3 n4 e E my a c G e' Ke Fe p SO V EK Hp). cbn [elem_force elem_stiff]. rewrite CK0, CV.
    change (length (node_keys [n1; n2; n3; n4] uxyz)) with 12%nat. apply (f_equal (fun x => x - load Fe p)). unfold kmul, rsumn, rsuml. apply sumR_ext.
    intros q Hq. apply in_seq in Hq. rewrite CM, VK by lia. reflexivity. }
  unfold force_on. cbn [x_keys]. rewrite CK0. change (length (node_keys [n1; n2; n3; n4] uxyz)) with 12%nat.
  transitivity (rsumn 12 (fun p => if (nth (p / 3) [n1; n2; n3; n4] 0 =? n)%nat then (if (p mod 3 =? t)%nat then @sumof RNum _ (traction pos (sgm E my a G) (p mod 3)) (edges (opposite [n1; n2; n3; n4] (p / 3))) else 0) else 0)).
  - unfold rsumn, rsuml. apply sumR_ext. intros p Hp. apply in_seq in Hp. rewrite key_at by (cbn; lia).
    destruct (key_dec _ _) as [Q|Q].
    + pose proof (f_equal (fun k : key => snd (fst k)) Q) as Q1. pose proof (f_equal (fun k : key => snd k) Q) as Q2. cbv beta in Q1, Q2. cbn [fst snd] in Q1, Q2. rewrite Q1, Q2, !Nat.eqb_refl. rewrite EF by lia. rewrite Q2. reflexivity.
    + destruct (Nat.eqb_spec (nth (p / 3) [n1; n2; n3; n4] 0%nat) n), (Nat.eqb_spec (p mod 3) t); try reflexivity. exfalso. apply Q. congruence.
  - clear - Ht. set (F := fun i l => @sumof RNum _ (traction pos (sgm E my a G) i) (edges (opposite [n1; n2; n3; n4] l))).
    change (rsumn 12 (fun p => if (nth (p / 3) [n1; n2; n3; n4] 0 =? n)%nat then (if (p mod 3 =? t)%nat then F (p mod 3) (p / 3)%nat else 0) else 0) =
      rsumn 4 (fun l => if (nth l [n1; n2; n3; n4] 0 =? n)%nat then F t l else 0)).
    clearbody F. rewrite rs12, rs4. cbv [Nat.div Nat.modulo Nat.divmod Nat.sub fst snd nth].
    destruct t as [|[|[|t]]]; [| | |lia]; cbn [Nat.eqb]; destruct (n1 =? n)%nat, (n2 =? n)%nat, (n3 =? n)%nat, (n4 =? n)%nat; ring.
Qed.

Lemma solid_reports nn pos m m' c0 r E my a c G v : m_ok nn pos m -> solid_of E my a m -> build_member pos m = Ok (m', [c0]) ->
  (forall n t, In n (m_nodes m) -> (t < 3)%nat -> v (KNode, n, t) = motion pos c G (KNode, n, t)) ->
  update_member pos v m' = Ok r -> reports G m r.
Proof.
  intros (ND & RN & D) SO HB HV HU. destruct m as [|e n1 n2 n3 n4]; [destruct SO|].
  destruct D as [OE V]. cbn [m_nodes] in *. cbn [build_member m_nodes] in HB.
  apply obind_ok in HB as ([[e1 Ke] Fe] & EK & HB). injection HB as <- _. cbn [update_member m_nodes] in HU.
  apply obind_ok in HU as (e2 & EU & HU). injection HU as <-. cbn [reports]. intros H1 H2.
  destruct (tet0_update_ok (at_nodes pos [n1; n2; n3; n4]) e c G OE V H1 H2) as (e1' & Ke' & Fe' & e2' & EK' & EU' & S1 & S2).
  rewrite EK in EK'. injection EK' as <- _ _.
  assert (VV : m_values v (Tet e1 n1 n2 n3 n4) = nodal 4 3 (lin 3 c G) (at_nodes pos [n1; n2; n3; n4])).
  { cbn [m_values m_nodes flat_map map uxyz app]. rewrite !HV by (cbn; auto 6). reflexivity. }
  rewrite VV in EU. rewrite EU in EU'. injection EU' as <-. auto.
Qed.

Section Patch.
  Variable big : R -> bool.
  Variable u : nat -> list R.
  Hypothesis HU : forall n, length (u n) = n.
  Variables (nn : nat) (pos : nat -> nat -> R) (ms : list member) (loads fixes : list (bc RNum)).
  Hypothesis OK : struct_ok nn pos ms loads fixes.
  Let gs : eqsolver RNum := gauss_slv (K := RG) u.
  Theorem solid_patch st rs E my a c G : plain_fixes big fixes -> struct_solve big gs nn pos ms loads fixes = Ok (st, rs) ->
    Forall (solid_of E my a) ms -> loads = [] ->
    (forall k v, last_fix fixes k = Some v -> v = motion pos c G k) ->
    (forall n t, s_node ms n -> (t < 3)%nat -> last_fix fixes (KNode, n, t) = None -> inner3 (map m_nodes ms) n) ->
    (forall k, s_key ms k -> disp st k = motion pos c G k) /\ Forall2 (reports G) ms rs.
  Proof.
    intros PF HS SO L0 FX IN. destruct (solved big nn pos ms loads fixes gs st rs HS) as (b & B & E2 & RS).
    destruct (struct_good nn pos ms loads fixes b OK B) as [GL DN]. pose proof (sk_members _ _ _ _ _ OK) as M.
    assert (DV : forall k, s_key ms k -> disp st k = motion pos c G k).
    { intros k Hk. apply s_keys in Hk.
      apply (known_solution RG RG_laws big u HU nn (map m_nodes ms) (flat_map m_regs ms) (map snd b) loads fixes st GL DN PF E2 (motion pos c G)).
      - intros x y Hx. symmetry. now apply FX.
      - intros x Hx Nx. apply s_keys in Hx. destruct x as [[[|] n] t]; [destruct Hx|]. destruct Hx as [Hn Ht]. rewrite L0. cbn [total_load sumof fold_right].
        etransitivity; [|exact (inner3_zero (map m_nodes ms) n (traction pos (sgm E my a G) t) (fun e => traction_swap pos _ t e) (IN n t Hn Ht Nx))].
        rewrite <- link_sum, sum_map. apply (contribs_sum nn pos ms b _ _ M B). intros en m m' c0 Hm E0.
        rewrite Forall_forall in M, SO. apply (tet_on nn pos E my a c G m m' c0 en n t _ (M m Hm) (SO m Hm) E0 Ht). reflexivity.
      - exact Hk. }
    split; [exact DV|].
    assert (DM : forall m, In m ms -> forall n t, In n (m_nodes m) -> (t < 3)%nat -> disp st (KNode, n, t) = motion pos c G (KNode, n, t)).
    { intros m Hm n t Hn Ht. apply DV. cbn [s_key]. split; [exists m; auto|exact Ht]. }
    clear - B RS M SO DM. revert b rs B RS. induction ms as [|m l IH]; intros b rs B RS; inversion B as [|? y ? q E1 E2]; subst; cbn [map] in RS; inversion RS as [|? r ? rs1 E3 E4]; subst; constructor.
    - inversion M as [|? ? M1 _]; subst. inversion SO as [|? ? X1 _]; subst. destruct (build_ok nn pos m M1) as (m' & c0 & E' & _). rewrite E' in E1. injection E1 as <-. cbn [fst] in E3.
      apply (solid_reports nn pos m m' c0 r E my a c G (disp st) M1 X1 E'); [|exact E3]. apply DM. now left.
    - inversion M; subst. inversion SO; subst. apply (IH ltac:(assumption) ltac:(assumption) ltac:(intros; eapply DM; eauto; now right) q rs1 E2 E4).
  Qed.
End Patch.
