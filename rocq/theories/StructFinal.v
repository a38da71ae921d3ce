(* Structures: equilibrium, supports, known solutions *)
From Coq Require Import Reals Lra Lia.
From Verif Require Import Base BaseProofs RealBase MatModel SparseModel BlockModel DofModel SpecDof NumberingProofs AsmModel SpecAsm AsmLists AsmProofs AsmRun AsmFinal
  SolveModel SpecSolve GaussModel SpecGauss GaussProofs IsoModel SpecIso IsoProofs ElemModel SpecElem ElemBase ElemProofs ElemMore SpecBal BalProofs BalMore
  StructModel SpecStruct StructProofs.
Local Open Scope R_scope.

Ltac req := match goal with |- @eq _ ?a ?b => change (@eq R a b) end.
Lemma sumR_ext {A} (f g : A -> R) l : (forall x, In x l -> f x = g x) -> @sumof RNum A f l = @sumof RNum A g l.
Proof. apply (sumof_ext RRng). Qed.

(* sums over the contributions are sums over the members *)
Lemma contribs_sum nn pos ms b (f : nat * list nat * contrib RNum -> R) (g : member -> R) : Forall (m_ok nn pos) ms -> built pos ms b ->
  (forall en m m' c, In m ms -> build_member pos m = Ok (m', [c]) -> f (en, m_nodes m, c) = g m) ->
  @sumof RNum _ f (contribs (map m_nodes ms) (map snd b)) = @sumof RNum _ g ms.
Proof.
  intros OK B FG. unfold contribs. rewrite map_length.
  assert (G : forall l bl st, Forall (m_ok nn pos) l -> built pos l bl -> (forall m, In m l -> In m ms) ->
    (forall i, (i < length l)%nat -> nth (st + i) (map m_nodes ms) [] = nth i (map m_nodes l) []) ->
    @sumof RNum _ f (flat_map (fun x => map (fun c => (fst x, nth (fst x - 1) (map m_nodes ms) [], c)) (snd x)) (combine (seq (S st) (length l)) (map snd bl))) = @sumof RNum _ g l).
  { induction l as [|m l IH]; intros bl st O Bl IN NT; inversion Bl as [|? y ? q E1 E2]; subst; [reflexivity|].
    inversion O as [|? ? O1 O2]; subst. destruct (build_ok nn pos m O1) as (m' & c & E & _). rewrite E in E1. injection E1 as <-.
    cbn [length seq map combine flat_map snd fst app]. rewrite !(sumof_cons RRng). f_equal.
    - rewrite Nat.sub_succ, Nat.sub_0_r. specialize (NT 0%nat ltac:(cbn; lia)). rewrite Nat.add_0_r in NT. rewrite NT. cbn [map nth].
      apply (FG (S st) m m' c); [apply IN; now left|exact E].
    - apply IH; auto; [intros; apply IN; now right|]. intros i Hi. specialize (NT (S i) ltac:(cbn; lia)). cbn [map nth] in NT. rewrite <- NT. f_equal. lia. }
  apply (G ms b 0%nat); auto.
Qed.

Section Solved.
  Variable big : R -> bool.
  Variables (nn : nat) (pos : nat -> nat -> R) (ms : list member) (loads fixes : list (bc RNum)).
  Hypothesis OK : struct_ok nn pos ms loads fixes.
  Hypothesis PF : plain_fixes big fixes.
  Definition skeys : list key := reg_keys (flat_map m_regs ms).

  Section Any.
  Variable slv : eqsolver RNum.
  Variable st : sol RNum.
  Variable rs : list result.
  Hypothesis HS : struct_solve big slv nn pos ms loads fixes = Ok (st, rs).
  Lemma solved : exists b, built pos ms b /\
    linear_solve (K := RNum) big slv nn (map m_nodes ms) (flat_map m_regs ms) (map snd b) [] loads fixes = Ok st /\
    Forall2 (fun m r => update_member pos (disp st) m = Ok r) (map fst b) rs.
  Proof.
    unfold struct_solve in HS. apply obind_ok in HS as (b & E1 & H). apply obind_ok in H as (s & E2 & H). apply obind_ok in H as (r & E3 & H).
    injection H as <- <-. exists b. split; [now apply each_ok|]. split; [exact E2|]. apply each_ok. exact E3.
  Qed.
  Hypothesis EX : exact_solver slv.
  Lemma struct_nodal b : built pos ms b ->
    linear_solve (K := RNum) big slv nn (map m_nodes ms) (flat_map m_regs ms) (map snd b) [] loads fixes = Ok st ->
    (forall k, s_key ms k -> @sumof RNum _ (force_on (K := RNum) (disp st) k) (contribs (map m_nodes ms) (map snd b)) = ext st k) /\
    (forall k, s_key ms k -> last_fix fixes k = None -> ext st k = total_load loads k) /\
    (forall k v, last_fix fixes k = Some v -> disp st k = v).
  Proof.
    intros B E2. destruct (struct_good nn pos ms loads fixes b OK B) as [GL DN].
    destruct (nodal_balance RRng big slv EX nn _ _ _ [] loads fixes st GL DN PF E2) as (N1 & N2 & N3). cbv zeta in *.
    split; [|split].
    - intros k Hk. apply s_keys in Hk. unfold ext. etransitivity; [|exact (N1 k Hk)].
      assert (M0 : mpc_on (K := RNum) (g_num (so_g st)) (so_U st) [] k = 0).
      { unfold mpc_on, mpc_list. destruct (map snd (ns_mpc (g_num (so_g st)))); reflexivity. }
      change (rnum RRng) with RNum. rewrite M0. symmetry. apply Rplus_0_r.
    - intros k Hk Nk. apply N2; [now apply s_keys|exact Nk].
    - exact N3.
  Qed.
  (* loads and reactions do no work on rigid motions *)
  Lemma struct_balance c W : antisym W -> @sumof RNum _ (fun k => ext st k * motion pos c W k) skeys = 0.
  Proof.
    intros HW. destruct solved as (b & B & E2 & _). destruct (struct_good nn pos ms loads fixes b OK B) as [GL DN].
    destruct (nodal_balance RRng big slv EX nn _ _ _ [] loads fixes st GL DN PF E2) as (N1 & _ & _). cbv zeta in N1.
    refine (float_balance RRng (map m_nodes ms) (flat_map m_regs ms) (map snd b) [] (g_num (so_g st)) (so_U st) (ext st) _ (motion pos c W) (gl_contribs _ _ _ _ _ _ _ GL) _ N1 _ _).
    - intros x t Hx. exfalso. unfold mpc_list in Hx. destruct x. apply in_combine_r in Hx. destruct Hx.
    - intros [[en nodes] c0] Hx. destruct (struct_contribs nn pos ms b en nodes c0 (sk_members _ _ _ _ _ OK) B Hx) as (m & m' & Hm & -> & E).
      pose proof (sk_members _ _ _ _ _ OK) as M. rewrite Forall_forall in M. exact (member_floats nn pos m m' c0 en c W (M m Hm) E HW).
    - intros m [].
  Qed.
  Lemma struct_forces i : @sumof RNum _ (fun k => match k with (_, _, t) => if (t =? i)%nat then ext st k else 0 end) skeys = 0.
  Proof.
    etransitivity; [|apply (struct_balance (fun t => if (t =? i)%nat then 1 else 0) (fun _ _ => 0)); intros a b; ring].
    apply sumR_ext. intros [[kd n] t] _. cbn [motion]. unfold lin. rewrite rsumn_zero by (intros; ring). destruct (t =? i)%nat; ring.
  Qed.
  Lemma struct_moments i j : i <> j -> (i < 3)%nat -> (j < 3)%nat ->
    @sumof RNum _ (fun k => match k with (_, n, t) => if (t =? i)%nat then ext st k * pos n j else if (t =? j)%nat then - (ext st k * pos n i) else 0 end) skeys = 0.
  Proof.
    intros IJ Hi Hj. etransitivity; [|apply (struct_balance (fun _ => 0)
      (fun a b => if ((a =? i) && (b =? j))%nat then 1 else if ((a =? j) && (b =? i))%nat then -1 else 0))].
    - apply sumR_ext. intros [[kd n] t] _. cbn [motion]. unfold lin.
      destruct (Nat.eqb_spec t i) as [->|Ni]; [|destruct (Nat.eqb_spec t j) as [->|Nj]].
      + rewrite (rsumn_ext 3 _ (fun q => if (q =? j)%nat then pos n q else 0)).
        2:{ intros q _. destruct (Nat.eqb_spec i i); [|congruence]. destruct (Nat.eqb_spec i j); [congruence|]. cbn [andb]. destruct (q =? j)%nat; ring. }
        rewrite rs3. destruct j as [|[|[|]]]; try lia; cbn [Nat.eqb]; ring.
      + rewrite (rsumn_ext 3 _ (fun q => if (q =? i)%nat then - pos n q else 0)).
        2:{ intros q _. destruct (Nat.eqb_spec j j); [|congruence]. destruct (Nat.eqb_spec j i); [congruence|]. cbn [andb]. destruct (q =? i)%nat; ring. }
        rewrite rs3. destruct i as [|[|[|]]]; try lia; cbn [Nat.eqb]; ring.
      + rewrite rsumn_zero; [ring|]. intros q _. cbn [andb]. ring.
    - intros a b. destruct (Nat.eqb_spec a i), (Nat.eqb_spec a j), (Nat.eqb_spec b i), (Nat.eqb_spec b j); cbn [andb]; try lra; congruence.
  Qed.

  (* joints of a truss *)
  Definition S_of (r : result) : R := match r with RBar s => s | RTet _ => 0 end.
  Lemma bar_force nn' m m' c en n i : m_ok nn' pos m -> is_bar m -> build_member pos m = Ok (m', [c]) -> (i < 3)%nat -> forall v,
    force_on (K := RNum) v (KNode, n, i) (en, m_nodes m, c) =
    pull pos m (match m with Bar A E _ _ => truss_stress E (at_nodes pos (m_nodes m)) (fun i => nth i (m_values v m) 0) | _ => 0 end) n i.
  Proof.
    intros (_ & _ & D) IB HB Hi v. destruct m as [A E a b|]; [|destruct IB]. cbn [build_member] in HB. injection HB as _ <-. cbn [m_nodes] in *.
    set (P := at_nodes pos [a; b]) in *. unfold force_on. cbn [x_keys]. set (c0 := CKEigen uxyz _).
    change (ckeys en [a; b] c0) with (node_keys [a; b] uxyz). change (length (node_keys [a; b] uxyz)) with 6%nat.
    assert (EF : forall p, (p < 6)%nat -> elem_force (K := RNum) v (en, [a; b], c0) p =
      (if (p <? 3)%nat then -1 else 1) * (truss_stress E P (fun i => nth i (m_values v (Bar A E a b)) 0) * A) * axis P (p mod 3)).
    { intros p Hp. rewrite truss_stress_ok by exact D.
      transitivity (rsumn 6 (fun q => upper (truss_Ke A E P) p q * nth q (m_values v (Bar A E a b)) 0)).
      - cbn [elem_force elem_stiff]. change (ckeys en [a; b] c0) with (node_keys [a; b] uxyz). change (length (node_keys [a; b] uxyz)) with 6%nat.
        change (SpecAsm.cvec (cdim [a; b] c0) c0 p) with 0. etransitivity; [apply Rminus_0_r|]. unfold rsumn, rsuml. apply sumR_ext.
        intros q Hq. apply in_seq in Hq. apply f_equal2.
        + apply (bar_matrix A E pos a b); lia.
        + destruct Hq as [_ Hq]. do 6 (destruct q as [|q]; [reflexivity|]). lia.
      - rewrite truss_force by assumption. req. unfold Rdiv. ring. }
    unfold pull. fold P. set (N := truss_stress E P _) in *.
    transitivity (rsumn 6 (fun p => if (nth (p / 3) [a; b] 0 =? n)%nat then (if (p mod 3 =? i)%nat then (if (p <? 3)%nat then -1 else 1) * (N * A) * axis P (p mod 3) else 0) else 0)).
    - unfold rsumn, rsuml. apply sumR_ext. intros p Hp. apply in_seq in Hp. rewrite key_at by (cbn; lia).
      destruct (key_dec _ _) as [Q|Q].
      + pose proof (f_equal (fun k : key => snd (fst k)) Q) as Q1. pose proof (f_equal (fun k : key => snd k) Q) as Q2. cbv beta in Q1, Q2. cbn [fst snd] in Q1, Q2. rewrite Q1, Q2, !Nat.eqb_refl. rewrite EF by lia. rewrite Q2. reflexivity.
      + destruct (Nat.eqb_spec (nth (p / 3) [a; b] 0%nat) n), (Nat.eqb_spec (p mod 3) i); try reflexivity. exfalso. apply Q. congruence.
    - rewrite rs6. cbv [Nat.div Nat.modulo Nat.divmod Nat.sub fst snd nth Nat.ltb Nat.leb].
      destruct (a =? n)%nat, (b =? n)%nat; destruct i as [|[|[|]]]; try lia; cbn [Nat.eqb]; req; ring.
  Qed.
  Lemma truss_joints : Forall is_bar ms -> forall n i, s_node ms n -> (i < 3)%nat ->
    @sumof RNum _ (fun mr => pull pos (fst mr) (S_of (snd mr)) n i) (combine ms rs) = ext st (KNode, n, i).
  Proof.
    intros IB n i Hn Hi. destruct solved as (b & B & E2 & RS). destruct (struct_nodal b B E2) as (N1 & _ & _).
    rewrite <- (N1 (KNode, n, i)) by (cbn [s_key]; auto). pose proof (sk_members _ _ _ _ _ OK) as M.
    rewrite (contribs_sum nn pos ms b _ (fun m => pull pos m (match m with Bar A E _ _ => truss_stress E (at_nodes pos (m_nodes m)) (fun i => nth i (m_values (disp st) m) 0) | _ => 0 end) n i) M B).
    - clear E2 N1 Hn HS. clear OK. revert b rs B RS IB M. induction ms as [|m l IH]; intros b rs0 B RS IB M; [reflexivity|].
      inversion B as [|? y ? q E1 E2]; subst. cbn [map] in RS. inversion RS as [|? r ? rs1 E3 E4]; subst. inversion IB as [|? ? I1 I2]; subst. inversion M as [|? ? M1 M2]; subst.
      cbn [combine]. rewrite !(sumof_cons RRng). f_equal; [|exact (IH q rs1 E2 E4 I2 M2)]. cbn [fst snd].
      destruct m as [A E a b|]; [|destruct I1]. cbn [build_member] in E1. injection E1 as <-. cbn [fst update_member] in E3. injection E3 as <-. reflexivity.
    - intros en m m' c Hm E. rewrite Forall_forall in M, IB. apply (bar_force nn m m' c en n i (M m Hm) (IB m Hm) E Hi).
  Qed.
  End Any.
End Solved.

(* ---- stress free members *)
Lemma exp0 a W c x t : a = 0 -> lin 3 c (expansion a W) x t = lin 3 c W x t.
Proof. intros ->. unfold lin, expansion. f_equal. apply rsumn_ext. intros. ring. Qed.
Lemma member_still nn pos m m' c en a cc W v : m_ok nn pos m -> expands a m -> build_member pos m = Ok (m', [c]) -> antisym W ->
  (forall n t, In n (m_nodes m) -> (t < 3)%nat -> v (KNode, n, t) = motion pos cc (expansion a W) (KNode, n, t)) ->
  forall p, (p < length (x_keys (en, m_nodes m, c)))%nat -> elem_force (K := RNum) v (en, m_nodes m, c) p = 0.
Proof.
  intros (ND & RN & D) XA HB HW HV p Hp.
  assert (VK : forall q, (q < length (m_nodes m) * 3)%nat -> v (nth q (node_keys (m_nodes m) uxyz) dkey) = lin 3 cc (expansion a W) (at_nodes pos (m_nodes m) (q / 3)) (q mod 3)).
  { intros q Hq. rewrite key_at by exact Hq. rewrite HV; [reflexivity| |apply Nat.mod_upper_bound; lia]. apply nth_In. apply Nat.div_lt_upper_bound; lia. }
  destruct m as [A E n1 n2|e n1 n2 n3 n4].
  - cbn [build_member] in HB. injection HB as _ <-. cbn [m_nodes] in *. set (c0 := CKEigen uxyz _) in *.
    change (x_keys (en, [n1; n2], c0)) with (node_keys [n1; n2] uxyz) in Hp. change (length (node_keys [n1; n2] uxyz)) with 6%nat in Hp.
    etransitivity; [|exact (truss_rigid A E (at_nodes pos [n1; n2]) cc W D HW p Hp)].
    cbn [elem_force elem_stiff]. change (ckeys en [n1; n2] c0) with (node_keys [n1; n2] uxyz). change (length (node_keys [n1; n2] uxyz)) with 6%nat.
    change (SpecAsm.cvec (cdim [n1; n2] c0) c0 p) with 0. etransitivity; [apply Rminus_0_r|]. unfold rsumn, rsuml. apply sumR_ext.
    intros q Hq. apply in_seq in Hq. apply f_equal2; [apply (bar_matrix A E pos n1 n2); lia|]. rewrite VK by (cbn; lia). apply exp0. exact XA.
  - destruct D as [OE V]. destruct XA as [FR <-]. cbn [m_nodes] in *. cbn [build_member m_nodes] in HB.
    destruct (tet0_free_expansion (at_nodes pos [n1; n2; n3; n4]) e cc W FR V HW) as (e1 & Ke & Fe & EK & EQ).
    rewrite EK in HB. cbn [obind] in HB. injection HB as _ <-. set (P := at_nodes pos [n1; n2; n3; n4]) in *.
    set (c0 := match Fe with Some F => CKF (K := RNum) uxyz Ke F | None => CK (K := RNum) uxyz Ke end) in *.
    assert (CK0 : ckeys en [n1; n2; n3; n4] c0 = node_keys [n1; n2; n3; n4] uxyz) by (unfold c0; destruct Fe; reflexivity).
    assert (CM : forall p q, SpecAsm.cmat (cdim [n1; n2; n3; n4] c0) c0 p q = nth (sym_comp 12 p q) Ke 0) by (intros; unfold c0; destruct Fe; reflexivity).
    assert (CV : forall p, SpecAsm.cvec (cdim [n1; n2; n3; n4] c0) c0 p = load Fe p) by (intros; unfold c0; destruct Fe; reflexivity).
    cbn [x_keys] in Hp. rewrite CK0 in Hp. change (length (node_keys [n1; n2; n3; n4] uxyz)) with 12%nat in Hp.
    cbn [elem_force elem_stiff]. rewrite CK0, CV. change (length (node_keys [n1; n2; n3; n4] uxyz)) with 12%nat. rewrite <- EQ by exact Hp.
    apply Rminus_diag_eq. unfold kmul, rsumn, rsuml. apply sumR_ext. intros q Hq. apply in_seq in Hq. rewrite CM, VK by (cbn; lia). rewrite nodal_nth by lia. reflexivity.
Qed.
Lemma member_reports nn pos m m' c r a cc W v : m_ok nn pos m -> expands a m -> build_member pos m = Ok (m', [c]) -> antisym W ->
  (forall n t, In n (m_nodes m) -> (t < 3)%nat -> v (KNode, n, t) = motion pos cc (expansion a W) (KNode, n, t)) ->
  update_member pos v m' = Ok r -> reports (expansion a W) m r.
Proof.
  intros (ND & RN & D) XA HB HW HV HU.
  destruct m as [A E n1 n2|e n1 n2 n3 n4].
  - cbn [build_member] in HB. injection HB as <- _. cbn [update_member] in HU. injection HU as <-. cbn [reports m_nodes] in *.
    rewrite truss_stress_ok by exact D. set (P := at_nodes pos [n1; n2]) in *.
    match goal with |- context [elongation P ?U] => assert (Z : elongation P U = 0); [|rewrite Z; unfold Rdiv; ring] end.
    unfold elongation, axis. rewrite rs3. cbn [m_values m_nodes flat_map map uxyz app nth Nat.add].
    rewrite !HV by (cbn; auto). cbn [motion]. rewrite !exp0 by exact XA.
    change (pos n1) with (P 0%nat). change (pos n2) with (P 1%nat). unfold lin. rewrite !rs3. unfold UX, UY, UZ.
    rewrite (HW 1%nat 0%nat), (HW 2%nat 0%nat), (HW 2%nat 1%nat).
    assert (W 0%nat 0%nat = 0) as -> by (pose proof (HW 0%nat 0%nat); lra).
    assert (W 1%nat 1%nat = 0) as -> by (pose proof (HW 1%nat 1%nat); lra).
    assert (W 2%nat 2%nat = 0) as -> by (pose proof (HW 2%nat 2%nat); lra).
    unfold Rdiv. ring.
  - destruct D as [OE V]. destruct XA as [FR XA]. cbn [m_nodes] in *. cbn [build_member m_nodes] in HB.
    apply obind_ok in HB as ([[e1 Ke] Fe] & EK & HB). injection HB as <- _. cbn [update_member m_nodes] in HU.
    apply obind_ok in HU as (e2 & EU & HU). injection HU as <-. cbn [reports]. intros H1 H2.
    destruct (tet0_update_ok (at_nodes pos [n1; n2; n3; n4]) e cc (expansion a W) OE V H1 H2) as (e1' & Ke' & Fe' & e2' & EK' & EU' & S1 & S2).
    rewrite EK in EK'. injection EK' as <- _ _.
    assert (VV : m_values v (Tet e1 n1 n2 n3 n4) = nodal 4 3 (lin 3 cc (expansion a W)) (at_nodes pos [n1; n2; n3; n4])).
    { cbn [m_values m_nodes flat_map map uxyz app]. rewrite !HV by (cbn; auto 6). reflexivity. }
    rewrite VV in EU. rewrite EU in EU'. injection EU' as <-. auto.
Qed.

Section Known.
  Variable big : R -> bool.
  Variable u : nat -> list R.
  Hypothesis HU : forall n, length (u n) = n.
  Variables (nn : nat) (pos : nat -> nat -> R) (ms : list member) (loads fixes : list (bc RNum)).
  Hypothesis OK : struct_ok nn pos ms loads fixes.
  Let gs : eqsolver RNum := gauss_slv (K := RG) u.
  Lemma gs_exact : exact_solver gs.
  Proof. exact (gauss_exact RG RG_laws u HU). Qed.

  Lemma stress_free st rs a c W : plain_fixes big fixes -> struct_solve big gs nn pos ms loads fixes = Ok (st, rs) ->
    Forall (expands a) ms -> antisym W -> loads = [] ->
    (forall k v, last_fix fixes k = Some v -> v = motion pos c (expansion a W) k) ->
    (forall k, s_key ms k -> disp st k = motion pos c (expansion a W) k /\ ext st k = 0) /\
    Forall2 (reports (expansion a W)) ms rs.
  Proof.
    intros PF HS XA HW L0 FX. destruct (solved big nn pos ms loads fixes gs st rs HS) as (b & B & E2 & RS).
    destruct (struct_good nn pos ms loads fixes b OK B) as [GL DN].
    assert (FZ : forall k v, (forall x, s_key ms x -> v x = motion pos c (expansion a W) x) ->
       @sumof RNum _ (force_on (K := RNum) v k) (contribs (map m_nodes ms) (map snd b)) = 0).
    { intros k v HV. apply (sumof_zero RRng). intros [[en nodes] c0] Hx.
      destruct (struct_contribs nn pos ms b en nodes c0 (sk_members _ _ _ _ _ OK) B Hx) as (m & m' & Hm & -> & E).
      pose proof (sk_members _ _ _ _ _ OK) as M. rewrite Forall_forall in M, XA. unfold force_on. apply (sumof_zero RRng). intros p Hp. apply in_seq in Hp.
      destruct (key_dec _ k); [|reflexivity]. apply (member_still nn pos m m' c0 en a c W v (M m Hm) (XA m Hm) E HW); [|lia].
      intros n t Hn Ht. apply HV. cbn [s_key]. split; [exists m; auto|exact Ht]. }
    assert (DV : forall k, s_key ms k -> disp st k = motion pos c (expansion a W) k).
    { intros k Hk. apply s_keys in Hk.
      apply (known_solution RG RG_laws big u HU nn (map m_nodes ms) (flat_map m_regs ms) (map snd b) loads fixes st GL DN PF E2 (motion pos c (expansion a W))).
      - intros x y Hx. symmetry. now apply FX.
      - intros x Hx Nx. rewrite L0. cbn [total_load sumof fold_right]. apply FZ. reflexivity.
      - exact Hk. }
    destruct (struct_nodal big nn pos ms loads fixes OK PF gs st gs_exact b B E2) as (N1 & _ & _).
    split.
    - intros k Hk. split; [now apply DV|]. rewrite <- (N1 k Hk). apply FZ. exact DV.
    - pose proof (sk_members _ _ _ _ _ OK) as M. assert (DM : forall m, In m ms -> forall n t, In n (m_nodes m) -> (t < 3)%nat -> disp st (KNode, n, t) = motion pos c (expansion a W) (KNode, n, t)).
      { intros m Hm n t Hn Ht. apply DV. cbn [s_key]. split; [exists m; auto|exact Ht]. }
      clear - B RS M XA HW DM. revert b rs B RS. induction ms as [|m l IH]; intros b rs B RS; inversion B as [|? y ? q E1 E2]; subst; cbn [map] in RS; inversion RS as [|? r ? rs1 E3 E4]; subst; constructor.
      + inversion M as [|? ? M1 _]; subst. inversion XA as [|? ? X1 _]; subst. destruct (build_ok nn pos m M1) as (m' & c0 & E & _). rewrite E in E1. injection E1 as <-. cbn [fst] in E3.
        apply (member_reports nn pos m m' c0 r a c W (disp st) M1 X1 E HW); [|exact E3]. apply DM. now left.
      + inversion M; subst. inversion XA; subst. apply (IH ltac:(assumption) ltac:(assumption) ltac:(intros; eapply DM; eauto; now right) q rs1 E2 E4).
  Qed.
End Known.
