(* Structures: supports and mechanisms, work *)
From Coq Require Import Reals Lra Lia.
From Verif Require Import Base BaseProofs RealBase MatModel SparseModel BlockModel DofModel SpecDof NumberingProofs AsmModel SpecAsm AsmLists AsmProofs AsmRun AsmFinal
  SolveModel SpecSolve SolveProofs LinearProofs GaussModel SpecGauss GaussProofs IsoModel SpecIso IsoProofs ElemModel SpecElem ElemBase ElemProofs ElemMore SpecBal BalProofs BalMore
  StructModel SpecStruct StructProofs StructFinal.

Section Ends.
  Variable K : GNum.
  Variable L : glaws K.
  Lemma linear_ends (big : K -> bool) (u : nat -> list K) : (forall n, length (u n) = n) ->
    forall nn mesh regs ks mpcs loads fixes, good_linear nn mesh regs ks mpcs loads fixes ->
    linear_solve big (gauss_slv u) nn mesh regs ks mpcs loads fixes = Fatal \/
    exists st, linear_solve big (gauss_slv u) nn mesh regs ks mpcs loads fixes = Ok st.
  Proof.
    intros HU nn mesh regs ks mpcs loads fixes GL.
    destruct (linear_start (GR K L) big (gauss_slv u) nn mesh regs ks mpcs loads fixes GL)
      as (s & g0 & g & U & R & E0 & N0 & HN & EG & I1 & EB & LU & LR & _ & _ & EL).
    destruct GL as [P C G O LD].
    pose proof (pn_sum _ _ _ _ _ _ HN) as SUM. pose proof (pn_nd _ _ _ _ _ _ HN) as ND.
    assert (LUc : length (seg U 0 (ns_ncon s)) = ns_ncon s) by (apply (seg_length (GR K L)); lia).
    destruct (core_ok (GR K L) nn mesh regs (map bc_key fixes) s _ HN (all_es (GR K L) nn mesh s mpcs) big (gauss_slv u) g _ _ _ _ _ I1
      (fun a b => res_K_sym (GR K L) mesh regs s ks mpcs a b G) LUc LR) as (K22 & rhs & E1 & D & V & LL & _ & CORE).
    cbn [gn GR rnum] in *. rewrite EL.
    destruct (gauss_slv u K22 rhs) as [x| | |] eqn:ES.
    - destruct (gauss_exact K L u HU _ _ _ _ _ D V LL ES) as [Lx _]. destruct (CORE Lx) as (Rc & E2 & _). rewrite E2. right. eexists. reflexivity.
    - rewrite CORE. now left.
    - exfalso. unfold gauss_slv in ES. destruct (Nat.lt_ge_cases (ns_nunk s + length mpcs) 1000) as [H|H].
      + match type of V with forall i j, _ -> _ = Ok (@?A i j) => destruct (gauss_dense_sol K L K22 _ A rhs (u (si_nrows (sm_si K22))) D H V LL) as [(x & E' & _)|E'] end; [rewrite D; auto| |]; congruence.
      + rewrite gauss_dense_limit in ES; [discriminate|]. exact (eq_ind_r (fun k => (1000 <= k)%nat) H D).
    - exfalso. unfold gauss_slv in ES. destruct (Nat.lt_ge_cases (ns_nunk s + length mpcs) 1000) as [H|H].
      + match type of V with forall i j, _ -> _ = Ok (@?A i j) => destruct (gauss_dense_sol K L K22 _ A rhs (u (si_nrows (sm_si K22))) D H V LL) as [(x & E' & _)|E'] end; [rewrite D; auto| |]; congruence.
      + rewrite gauss_dense_limit in ES; [discriminate|]. exact (eq_ind_r (fun k => (1000 <= k)%nat) H D).
  Qed.
End Ends.
Local Open Scope R_scope.

Lemma update_total nn pos m m' c v : m_ok nn pos m -> build_member pos m = Ok (m', [c]) -> exists r, update_member pos v m' = Ok r.
Proof.
  intros (ND & RN & D) HB. destruct m as [A E a b|e n1 n2 n3 n4]; cbn [build_member] in HB.
  - injection HB as <- _. eexists. reflexivity.
  - apply obind_ok in HB as ([[e1 Ke] Fe] & EK & HB). injection HB as <- _. cbn [update_member m_nodes]. unfold tet0_update.
    rewrite bv_R by (reflexivity || apply tet0_B_length). cbn [obind].
    rewrite sbv_R; [|reflexivity|reflexivity|rewrite map_length, seq_length; reflexivity|reflexivity]. cbn [obind]. eexists. reflexivity.
Qed.

(* bars *)
Lemma bar_stress_ok nn pos A E a b v : m_ok nn pos (Bar A E a b) ->
  truss_stress E (at_nodes pos [a; b]) (fun i => nth i (m_values v (Bar A E a b)) 0) = bar_stress pos v (Bar A E a b).
Proof. intros (_ & _ & D). rewrite truss_stress_ok by exact D. cbn [bar_stress]. unfold elongation, stretch. rewrite !rs3. reflexivity. Qed.
Lemma bar_rows nn pos m m' c en v p : m_ok nn pos m -> is_bar m -> build_member pos m = Ok (m', [c]) -> (p < 6)%nat ->
  elem_stiff (K := RNum) v (en, m_nodes m, c) p =
  (if (p <? 3)%nat then -1 else 1) * (bar_stress pos v m * match m with Bar A _ _ _ => A | _ => 0 end) * axis (at_nodes pos (m_nodes m)) (p mod 3).
Proof.
  intros M IB HB Hp. pose proof M as (_ & _ & D). destruct m as [A E a b|]; [|destruct IB]. cbn [build_member] in HB. injection HB as _ <-. cbn [m_nodes] in *.
  set (P := at_nodes pos [a; b]) in *. set (c0 := CKEigen uxyz _). rewrite <- (bar_stress_ok nn) by exact M. fold P. rewrite truss_stress_ok by exact D.
  transitivity (rsumn 6 (fun q => upper (truss_Ke A E P) p q * nth q (m_values v (Bar A E a b)) 0)).
  - cbn [elem_stiff]. change (ckeys en [a; b] c0) with (node_keys [a; b] uxyz). change (length (node_keys [a; b] uxyz)) with 6%nat.
    unfold rsumn, rsuml. apply sumR_ext. intros q Hq. apply in_seq in Hq. apply f_equal2.
    + apply (bar_matrix A E pos a b); lia.
    + destruct Hq as [_ Hq]. do 6 (destruct q as [|q]; [reflexivity|]). lia.
  - rewrite truss_force by assumption. req. unfold Rdiv. ring.
Qed.
Lemma bar_keys nn pos m m' c en : m_ok nn pos m -> is_bar m -> build_member pos m = Ok (m', [c]) ->
  x_keys (en, m_nodes m, c) = node_keys (m_nodes m) uxyz /\ length (node_keys (m_nodes m) uxyz) = 6%nat /\ forall p, SpecAsm.cvec (K := RNum) (cdim (m_nodes m) c) c p = 0.
Proof.
  intros M IB HB. destruct m as [A E a b|]; [|destruct IB]. cbn [build_member] in HB. injection HB as _ <-. repeat split.
Qed.
Lemma bar_stiff nn pos m m' c en n i v : m_ok nn pos m -> is_bar m -> build_member pos m = Ok (m', [c]) -> (i < 3)%nat ->
  stiff_on (K := RNum) v (KNode, n, i) (en, m_nodes m, c) = pull pos m (bar_stress pos v m) n i.
Proof.
  intros M IB HB Hi. transitivity (force_on (K := RNum) v (KNode, n, i) (en, m_nodes m, c)).
  - destruct (bar_keys nn pos m m' c en M IB HB) as (_ & _ & CV). unfold stiff_on, force_on. apply sumR_ext. intros p _. destruct (key_dec _ _); [|reflexivity].
    cbn [elem_force]. rewrite CV. symmetry. apply Rminus_0_r.
  - rewrite (bar_force pos nn m m' c en n i M IB HB Hi v). destruct m as [A E a b|]; [|destruct IB]. cbn [m_nodes]. now rewrite (bar_stress_ok nn) by exact M.
Qed.
Lemma bar_works nn pos m m' c en u v : m_ok nn pos m -> is_bar m -> build_member pos m = Ok (m', [c]) ->
  stiff_work (K := RNum) u v (en, m_nodes m, c) = bar_work pos u v m.
Proof.
  intros M IB HB. destruct (bar_keys nn pos m m' c en M IB HB) as (XK & L6 & _). unfold stiff_work. rewrite XK, L6.
  transitivity (rsumn 6 (fun p => (if (p <? 3)%nat then -1 else 1) * (bar_stress pos u m * match m with Bar A _ _ _ => A | _ => 0 end) * axis (at_nodes pos (m_nodes m)) (p mod 3) * v (nth p (node_keys (m_nodes m) uxyz) dkey))).
  - unfold rsumn, rsuml. apply sumR_ext. intros p Hp. apply in_seq in Hp. rewrite (bar_rows nn pos m m' c en u p M IB HB) by lia. reflexivity.
  - destruct m as [A E a b|]; [|destruct IB]. cbn [m_nodes bar_work bar_stress]. rewrite rs6.
    cbv [Nat.modulo Nat.divmod Nat.sub snd Nat.ltb Nat.leb].
    unfold stretch at 8. unfold axis, at_nodes. rewrite rs3. cbn [nth node_keys flat_map map uxyz app]. unfold UX, UY, UZ, Rdiv. req. ring.
Qed.

Section Supports.
  Variable big : R -> bool.
  Variable u : nat -> list R.
  Hypothesis HU : forall n, length (u n) = n.
  Variables (nn : nat) (pos : nat -> nat -> R) (ms : list member) (loads fixes : list (bc RNum)).
  Hypothesis OK : struct_ok nn pos ms loads fixes.
  Let gs : eqsolver RNum := gauss_slv (K := RG) u.

  Lemma struct_run : exists b, built pos ms b /\
    ((linear_solve (K := RNum) big gs nn (map m_nodes ms) (flat_map m_regs ms) (map snd b) [] loads fixes = Fatal /\ struct_solve big gs nn pos ms loads fixes = Fatal) \/
     exists st rs, linear_solve (K := RNum) big gs nn (map m_nodes ms) (flat_map m_regs ms) (map snd b) [] loads fixes = Ok st /\
       struct_solve big gs nn pos ms loads fixes = Ok (st, rs)).
  Proof.
    destruct (struct_each nn pos ms loads fixes OK) as (b & E & B). exists b. split; [exact B|].
    destruct (struct_good nn pos ms loads fixes b OK B) as [GL DN].
    unfold struct_solve. rewrite E. cbn [obind].
    destruct (linear_ends RG RG_laws big u HU nn _ _ _ [] loads fixes GL) as [F|[st F]].
    - left. split; [exact F|]. fold gs in F. cbn [gn RG] in F. rewrite F. reflexivity.
    - right. fold gs in F. cbn [gn RG] in F. rewrite F. cbn [obind].
      match goal with |- context [each ?f (map fst b)] => destruct (each_total f (map fst b)) as [rs R] end.
      + intros m' Hm. apply in_map_iff in Hm as ([m1 l1] & <- & Hb). cbn [fst].
        pose proof (sk_members _ _ _ _ _ OK) as M. clear - B Hb M. induction B as [|m y ms b E B IH]; [destruct Hb|].
        inversion M as [|? ? M1 M2]; subst. destruct Hb as [->|Hb]; [|now apply IH].
        destruct (build_ok nn pos m M1) as (m' & c & E' & _). rewrite E' in E. injection E as <- <-. eapply update_total; eauto.
      + exists st, rs. split; [reflexivity|]. rewrite R. reflexivity.
  Qed.
  Lemma struct_ends : struct_solve big gs nn pos ms loads fixes = Fatal \/ exists st rs, struct_solve big gs nn pos ms loads fixes = Ok (st, rs).
  Proof. destruct struct_run as (b & _ & [[_ H]|(st & rs & _ & H)]); eauto. Qed.

  (* a displacement that no member resists and no support prevents *)
  Lemma struct_loose w : (forall k, last_fix fixes k <> None -> s_key ms k -> w k = 0) ->
    (forall b x k, built pos ms b -> s_key ms k -> In x (contribs (map m_nodes ms) (map snd b)) -> stiff_on (K := RNum) w k x = 0) ->
    (exists k, s_key ms k /\ w k <> 0) -> struct_solve big gs nn pos ms loads fixes = Fatal.
  Proof.
    intros W0 WZ (k & Hk & Nk). destruct struct_run as (b & B & [[_ H]|(st & rs & H & _)]); [exact H|].
    exfalso. destruct (struct_good nn pos ms loads fixes b OK B) as [GL DN].
    apply Nk, (held RG RG_laws big u HU nn _ _ _ loads fixes st GL DN H w).
    - intros x Fx Hx. apply W0; [exact Fx|now apply s_keys].
    - intros x Hx Fx. apply (sumof_zero RRng). intros y Hy. apply (WZ b y x B); [now apply s_keys|exact Hy].
    - now apply s_keys.
  Qed.
  Lemma struct_unsupported c W : antisym W -> (forall k, last_fix fixes k <> None -> s_key ms k -> motion pos c W k = 0) ->
    (exists k, s_key ms k /\ motion pos c W k <> 0) -> struct_solve big gs nn pos ms loads fixes = Fatal.
  Proof.
    intros HW W0 NZ. apply (struct_loose (motion pos c W) W0); [|exact NZ].
    intros b [[en nodes] c0] k B _ Hx. destruct (struct_contribs nn pos ms b en nodes c0 (sk_members _ _ _ _ _ OK) B Hx) as (m & m' & Hm & -> & E).
    pose proof (sk_members _ _ _ _ _ OK) as M. rewrite Forall_forall in M.
    destruct (member_floats nn pos m m' c0 en c W (M m Hm) E HW) as [F _].
    unfold stiff_on. apply (sumof_zero RRng). intros p Hp. apply in_seq in Hp. destruct (key_dec _ k); [|reflexivity]. cbn [x_keys] in Hp.
    destruct Hp as [_ Hp]. specialize (F p Hp). cbn [elem_stiff]. etransitivity; [|exact F]. apply sumR_ext. intros q Hq. apply f_equal2; [|reflexivity].
    destruct (build_ok nn pos m (M m Hm)) as (m1 & c1 & E1 & HH & _). rewrite E in E1. injection E1 as _ <-. apply in_seq in Hq.
    apply (cmat_sym RRng (m_nodes m) c0 en); [exact (h_sizes _ _ HH)|exact Hp|exact (proj2 Hq)].
  Qed.

  Hypothesis IB : Forall is_bar ms.
  Lemma truss_mechanism w : (forall k, last_fix fixes k <> None -> s_key ms k -> w k = 0) -> (forall m, In m ms -> stretch pos w m = 0) ->
    (exists k, s_key ms k /\ w k <> 0) -> struct_solve big gs nn pos ms loads fixes = Fatal.
  Proof.
    intros W0 WS NZ. apply (struct_loose w W0); [|exact NZ].
    intros b [[en nodes] c0] k B Hk Hx. destruct (struct_contribs nn pos ms b en nodes c0 (sk_members _ _ _ _ _ OK) B Hx) as (m & m' & Hm & -> & E).
    pose proof (sk_members _ _ _ _ _ OK) as M. pose proof IB as IB'. rewrite Forall_forall in M, IB'. destruct k as [[[|] n] i]; [destruct Hk|]. destruct Hk as [_ Hi].
    rewrite (bar_stiff nn pos m m' c0 en n i w (M m Hm) (IB' m Hm) E Hi). specialize (IB' m Hm). destruct m as [A E0 a b0|]; [|destruct IB']. cbn [pull bar_stress].
    rewrite (WS _ Hm). unfold Rdiv. req. ring.
  Qed.
  Lemma truss_refused : (length (skeys ms) < 1000)%nat -> struct_solve big gs nn pos ms loads fixes = Fatal ->
    exists w, (forall k, last_fix fixes k <> None -> s_key ms k -> w k = 0) /\ (exists k, s_key ms k /\ last_fix fixes k = None /\ w k = 1) /\
      forall n i, s_node ms n -> (i < 3)%nat -> last_fix fixes (KNode, n, i) = None ->
        Rabs (@sumof RNum _ (fun m => pull pos m (bar_stress pos w m) n i) ms) < / 10 ^ 20.
  Proof.
    intros HL HF. destruct struct_run as (b & B & [[H _]|(st & rs & _ & H)]); [|congruence].
    destruct (struct_good nn pos ms loads fixes b OK B) as [GL DN].
    destruct (refused RG RG_laws big u HU nn _ _ _ loads fixes GL DN HL H) as (w & W0 & (k & Hk & Fk & Wk) & WF).
    exists w. split; [|split].
    - intros x Fx Hx. apply W0; [exact Fx|now apply s_keys].
    - exists k. split; [now apply s_keys|]. split; [exact Fk|exact Wk].
    - intros n i Hn Hi Fx. specialize (WF (KNode, n, i)). rewrite s_keys in WF. specialize (WF (conj Hn Hi) Fx).
      cbn [RG glt gabs gtiny gn] in WF. unfold Rltb in WF. destruct (Rlt_dec _ _) as [Q|]; [|discriminate].
      erewrite <- (contribs_sum nn pos ms b _ _ (sk_members _ _ _ _ _ OK) B); [exact Q|].
      intros en m m' c Hm E. pose proof (sk_members _ _ _ _ _ OK) as M. pose proof IB as IB'. rewrite Forall_forall in M, IB'.
      apply (bar_stiff nn pos m m' c en n i w (M m Hm) (IB' m Hm) E Hi).
  Qed.
End Supports.

(* work of the loads and reactions *)
Section Works.
  Variable big : R -> bool.
  Variable slv : eqsolver RNum.
  Hypothesis EX : exact_solver slv.
  Variables (nn : nat) (pos : nat -> nat -> R) (ms : list member).
  Lemma cold_load m m' c en p : m_ok nn pos m -> expands 0 m -> build_member pos m = Ok (m', [c]) -> (p < length (x_keys (en, m_nodes m, c)))%nat ->
    SpecAsm.cvec (K := RNum) (cdim (m_nodes m) c) c p = 0.
  Proof.
    intros M X E Hp. assert (A0 : antisym (fun _ _ => 0)) by (intros i j; ring).
    pose proof (member_still nn pos m m' c en 0 (fun _ => 0) (fun _ _ => 0) (fun _ => 0) M X E A0) as F.
    assert (V : forall n t, In n (m_nodes m) -> (t < 3)%nat -> 0 = motion pos (fun _ => 0) (expansion 0 (fun _ _ => 0)) (KNode, n, t)).
    { intros n t _ _. cbn [motion]. unfold lin, expansion. rewrite rsumn_zero; [ring|]. intros. ring. }
    specialize (F V p Hp). cbn [elem_force elem_stiff] in F. rewrite (sumof_zero RRng) in F by (intros; apply Rmult_0_r).
    change (0 - SpecAsm.cvec (K := RNum) (cdim (m_nodes m) c) c p = 0) in F. lra.
  Qed.
  Section One.
  Variables (loads fixes : list (bc RNum)) (st : sol RNum) (rs : list result).
  Hypothesis OK : struct_ok nn pos ms loads fixes.
  Hypothesis PF : plain_fixes big fixes.
  Hypothesis CO : Forall (expands 0) ms.
  Hypothesis HS : struct_solve big slv nn pos ms loads fixes = Ok (st, rs).
  Lemma struct_work b w : built pos ms b -> @sumof RNum _ (fun k => ext st k * w k) (skeys ms) = @sumof RNum _ (stiff_work (K := RNum) (disp st) w) (contribs (map m_nodes ms) (map snd b)).
  Proof.
    intros B. destruct (solved big nn pos ms loads fixes slv st rs HS) as (b' & B' & E2 & _).
    assert (b' = b) as ->.
    { apply each_ok in B. apply each_ok in B'. congruence. }
    destruct (struct_good nn pos ms loads fixes b OK B) as [GL DN].
    etransitivity; [|refine (outer_inner RRng big slv EX nn _ _ _ [] loads fixes st w GL DN PF E2 _)]; [|intros m []].
    unfold outer_work. change (rnum RRng) with RNum.
    rewrite (sumof_zero RRng (load_work (K := RNum) w)).
    - replace (mpc_list (g_num (so_g st)) ([] : list (mpc RNum))) with ([] : list (nat * mpc RNum)) by (unfold mpc_list; destruct (map snd (ns_mpc (g_num (so_g st)))); reflexivity).
      cbn [sumof fold_right]. unfold ext, skeys. symmetry. etransitivity; [apply Rminus_0_r|apply Rplus_0_r].
    - intros [[en nodes] c0] Hx. destruct (struct_contribs nn pos ms b en nodes c0 (sk_members _ _ _ _ _ OK) B Hx) as (m & m' & Hm & -> & E).
      pose proof (sk_members _ _ _ _ _ OK) as M. pose proof CO as CO'. rewrite Forall_forall in M, CO'.
      cbn [load_work]. apply (sumof_zero RRng). intros p Hp. apply in_seq in Hp. rewrite (cold_load m m' c0 en p (M m Hm) (CO' m Hm) E (proj2 Hp)). apply Rmult_0_l.
  Qed.
  Lemma truss_work w : Forall is_bar ms -> @sumof RNum _ (fun k => ext st k * w k) (skeys ms) = @sumof RNum _ (bar_work pos (disp st) w) ms.
  Proof.
    intros IB. destruct (struct_each nn pos ms loads fixes OK) as (b & _ & B). rewrite (struct_work b w B).
    apply (contribs_sum nn pos ms b _ _ (sk_members _ _ _ _ _ OK) B). intros en m m' c Hm E.
    pose proof (sk_members _ _ _ _ _ OK) as M. rewrite Forall_forall in M, IB. apply (bar_works nn pos m m' c en (disp st) w (M m Hm) (IB m Hm) E).
  Qed.
  End One.
  Lemma struct_reciprocity loads1 fixes1 st1 rs1 loads2 fixes2 st2 rs2 :
    struct_ok nn pos ms loads1 fixes1 -> plain_fixes big fixes1 -> struct_ok nn pos ms loads2 fixes2 -> plain_fixes big fixes2 -> Forall (expands 0) ms ->
    struct_solve big slv nn pos ms loads1 fixes1 = Ok (st1, rs1) -> struct_solve big slv nn pos ms loads2 fixes2 = Ok (st2, rs2) ->
    @sumof RNum _ (fun k => ext st1 k * disp st2 k) (skeys ms) = @sumof RNum _ (fun k => ext st2 k * disp st1 k) (skeys ms).
  Proof.
    intros O1 P1 O2 P2 CO S1 S2. destruct (struct_each nn pos ms loads1 fixes1 O1) as (b & _ & B).
    rewrite (struct_work loads1 fixes1 st1 rs1 O1 P1 CO S1 b _ B), (struct_work loads2 fixes2 st2 rs2 O2 P2 CO S2 b _ B).
    destruct (struct_good nn pos ms loads1 fixes1 b O1 B) as [GL _].
    apply sumR_ext. intros x Hx. exact (stiff_work_sym RRng _ _ _ (disp st1) (disp st2) x (gl_contribs _ _ _ _ _ _ _ GL) Hx).
  Qed.
End Works.

(* what the bars report, and the joints in terms of the displacements *)
Section Bars.
  Variable big : R -> bool.
  Variable slv : eqsolver RNum.
  Variables (nn : nat) (pos : nat -> nat -> R) (ms : list member) (loads fixes : list (bc RNum)) (st : sol RNum) (rs : list result).
  Hypothesis OK : struct_ok nn pos ms loads fixes.
  Hypothesis HS : struct_solve big slv nn pos ms loads fixes = Ok (st, rs).
  Hypothesis IB : Forall is_bar ms.
  Lemma truss_reports : rs = map (fun m => RBar (bar_stress pos (disp st) m)) ms.
  Proof.
    destruct (solved big nn pos ms loads fixes slv st rs HS) as (b & B & _ & RS). pose proof (sk_members _ _ _ _ _ OK) as M.
    clear OK HS. revert b rs B RS IB M. induction ms as [|m l IH]; intros b rs0 B RS I M; inversion B as [|? y ? q E1 E2]; subst; cbn [map] in RS; inversion RS as [|? r ? rs1 E3 E4]; subst; [reflexivity|].
    inversion I as [|? ? I1 I2]; subst. inversion M as [|? ? M1 M2]; subst. cbn [map]. f_equal; [|exact (IH q rs1 E2 E4 I2 M2)].
    destruct m as [A E a b|]; [|destruct I1]. cbn [build_member] in E1. injection E1 as <-. cbn [fst update_member] in E3. injection E3 as <-.
    exact (f_equal RBar (bar_stress_ok nn pos A E a b (disp st) M1)).
  Qed.
  Hypothesis PF : plain_fixes big fixes.
  Hypothesis EX : exact_solver slv.
  Lemma truss_nodal n i : s_node ms n -> (i < 3)%nat -> @sumof RNum _ (fun m => pull pos m (bar_stress pos (disp st) m) n i) ms = ext st (KNode, n, i).
  Proof.
    intros Hn Hi. rewrite <- (truss_joints big nn pos ms loads fixes OK PF slv st rs HS EX IB n i Hn Hi). rewrite truss_reports.
    clear. induction ms as [|m l IH]; [reflexivity|]. cbn [map combine]. rewrite !(sumof_cons RRng). cbn [fst snd S_of]. f_equal. exact IH.
  Qed.
End Bars.
