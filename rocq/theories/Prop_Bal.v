(* C110-C117: balance of forces, structures of bars and tetrahedra, the program nla3d_truss *)
From Coq Require Import Reals Lra Lia.
From Verif Require Import Base BaseProofs RealBase SparseModel BlockModel DofModel SpecDof AsmModel SpecAsm SolveModel SpecSolve GaussModel SpecGauss IsoModel SpecIso IsoProofs
  ElemModel SpecElem ElemBase ElemProofs ElemMore SpecBal BalProofs BalMore StructModel SpecStruct StructProofs StructFinal StructMore TrussModel TrussProofs Prop_Asm Prop_Solve.

(* ---------------- C110 ---------------- *)
(* after LinearFESolver::solve, for every DoF: forces of the elements + forces of the MPC equations = external force;
   the external force is the load where nothing is prescribed *)
Theorem C110_nodal_balance : forall (K : Rng) (big : K -> bool) (slv : eqsolver K), exact_solver slv ->
  forall nn mesh regs ks mpcs loads fixes st, good_linear nn mesh regs ks mpcs loads fixes -> distinct_nodes mesh ks ->
  (forall x v, last_fix fixes x = Some v -> big v = false -> v = r0) ->
  linear_solve big slv nn mesh regs ks mpcs loads fixes = Ok st ->
  let s := g_num (so_g st) in
  (forall k, In k (reg_keys regs) ->
     radd (sumof (force_on (vget s (so_U st)) k) (contribs mesh ks)) (mpc_on s (so_U st) mpcs k) = vget s (so_R st) k) /\
  (forall k, In k (reg_keys regs) -> last_fix fixes k = None -> vget s (so_R st) k = total_load loads k) /\
  (forall k v, last_fix fixes k = Some v -> vget s (so_U st) k = v).
Proof. exact nodal_balance. Qed.
Print Assumptions C110_nodal_balance.
(* the external forces do no work on a displacement that no element and no MPC equation resists *)
Theorem C110_no_work : forall (K : Rng) mesh regs ks (mpcs : list (mpc K)) s (U : list K) (Rf v w : key -> K),
  good_contribs mesh regs ks -> (forall x t, In x (mpc_list s mpcs) -> In t (mp_terms (snd x)) -> In (term_key t) (reg_keys regs)) ->
  (forall k, In k (reg_keys regs) -> radd (sumof (force_on v k) (contribs mesh ks)) (mpc_on s U mpcs k) = Rf k) ->
  (forall x, In x (contribs mesh ks) -> floats K w x) ->
  (forall m, In m mpcs -> sumof (fun t => rmul (snd t) (w (term_key t))) (mp_terms m) = r0) ->
  sumof (fun k => rmul (Rf k) (w k)) (reg_keys regs) = r0.
Proof. exact float_balance. Qed.
Print Assumptions C110_no_work.
Example C110_example : exists st, good_linear 4 bar_mesh bar_regs bar_ks bar_mpcs bar_loads bar_fixes /\ distinct_nodes bar_mesh bar_ks /\
  linear_solve (K := QcRng) bigq (gauss_slv gz) 4 bar_mesh bar_regs bar_ks bar_mpcs bar_loads bar_fixes = Ok st.
Proof.
  destruct bar_solution as (st & E & _). exists st. split; [exact bar_good|]. split; [|exact E].
  split; repeat constructor; cbn; intuition discriminate.
Qed.

(* ---------------- C111 ---------------- *)
Local Open Scope R_scope.
(* loads and reactions of a structure of bars and tetrahedra: sum of forces in each direction is zero *)
Theorem C111_forces : forall big nn pos ms loads fixes, struct_ok nn pos ms loads fixes -> plain_fixes big fixes ->
  forall slv st rs, struct_solve big slv nn pos ms loads fixes = Ok (st, rs) -> exact_solver slv ->
  forall i, @sumof RNum _ (fun k => match k with (_, _, t) => if (t =? i)%nat then ext st k else 0 end) (skeys ms) = 0.
Proof. exact struct_forces. Qed.
Print Assumptions C111_forces.
(* sum of moments about each axis is zero *)
Theorem C111_moments : forall big nn pos ms loads fixes, struct_ok nn pos ms loads fixes -> plain_fixes big fixes ->
  forall slv st rs, struct_solve big slv nn pos ms loads fixes = Ok (st, rs) -> exact_solver slv ->
  forall i j, i <> j -> (i < 3)%nat -> (j < 3)%nat ->
  @sumof RNum _ (fun k => match k with (_, n, t) => if (t =? i)%nat then ext st k * pos n j else if (t =? j)%nat then - (ext st k * pos n i) else 0 end) (skeys ms) = 0.
Proof. exact struct_moments. Qed.
Print Assumptions C111_moments.

(* ---------------- C112 ---------------- *)
(* method of joints: the reported stresses pull on every node with the external force *)
Theorem C112_joints : forall big nn pos ms loads fixes, struct_ok nn pos ms loads fixes -> plain_fixes big fixes ->
  forall slv st rs, struct_solve big slv nn pos ms loads fixes = Ok (st, rs) -> exact_solver slv ->
  Forall is_bar ms -> forall n i, s_node ms n -> (i < 3)%nat ->
  @sumof RNum _ (fun mr => pull pos (fst mr) (S_of (snd mr)) n i) (combine ms rs) = ext st (KNode, n, i).
Proof. exact truss_joints. Qed.
Print Assumptions C112_joints.
(* the reported stress is that of the change of length *)
Theorem C112_stresses : forall big slv nn pos ms loads fixes st rs, struct_ok nn pos ms loads fixes ->
  struct_solve big slv nn pos ms loads fixes = Ok (st, rs) -> Forall is_bar ms ->
  rs = map (fun m => RBar (bar_stress pos (disp st) m)) ms.
Proof. exact truss_reports. Qed.
Print Assumptions C112_stresses.

(* ---------------- C113 ---------------- *)
(* general elements, default equation solver: refused means that a displacement within the supports needs no force (less than 1e-20) *)
Theorem C113_refused : forall (K : GNum), glaws K -> forall (big : K -> bool) (u : nat -> list K), (forall n, length (u n) = n) ->
  forall nn mesh regs ks loads fixes, good_linear nn mesh regs ks [] loads fixes -> distinct_nodes mesh ks -> (length (reg_keys regs) < 1000)%nat ->
  linear_solve big (gauss_slv u) nn mesh regs ks [] loads fixes = Fatal ->
  exists w : key -> K, (forall k, last_fix fixes k <> None -> In k (reg_keys regs) -> w k = r0) /\
    (exists k, In k (reg_keys regs) /\ last_fix fixes k = None /\ w k = r1) /\
    forall k, In k (reg_keys regs) -> last_fix fixes k = None ->
      glt (gabs (sumof (stiff_on w k) (contribs mesh ks))) gtiny = true.
Proof. exact refused. Qed.
Print Assumptions C113_refused.
(* solved means that only the zero displacement needs none *)
Theorem C113_held : forall (K : GNum), glaws K -> forall (big : K -> bool) (u : nat -> list K), (forall n, length (u n) = n) ->
  forall nn mesh regs ks loads fixes st, good_linear nn mesh regs ks [] loads fixes -> distinct_nodes mesh ks ->
  linear_solve big (gauss_slv u) nn mesh regs ks [] loads fixes = Ok st ->
  forall w : key -> K, (forall k, last_fix fixes k <> None -> In k (reg_keys regs) -> w k = r0) ->
    (forall k, In k (reg_keys regs) -> last_fix fixes k = None -> sumof (stiff_on w k) (contribs mesh ks) = r0) ->
    forall k, In k (reg_keys regs) -> w k = r0.
Proof. exact held. Qed.
Print Assumptions C113_held.
(* structures: solved or refused, nothing else *)
Theorem C113_ends : forall big (u : nat -> list R), (forall n, length (u n) = n) -> forall nn pos ms loads fixes, struct_ok nn pos ms loads fixes ->
  struct_solve big (gauss_slv (K := RG) u) nn pos ms loads fixes = Fatal \/
  exists st rs, struct_solve big (gauss_slv (K := RG) u) nn pos ms loads fixes = Ok (st, rs).
Proof. exact struct_ends. Qed.
Print Assumptions C113_ends.
(* supports that leave a rigid motion free are refused *)
Theorem C113_rigid_motion : forall big (u : nat -> list R), (forall n, length (u n) = n) -> forall nn pos ms loads fixes, struct_ok nn pos ms loads fixes ->
  forall c W, antisym W -> (forall k, last_fix fixes k <> None -> s_key ms k -> motion pos c W k = 0) ->
  (exists k, s_key ms k /\ motion pos c W k <> 0) ->
  struct_solve big (gauss_slv (K := RG) u) nn pos ms loads fixes = Fatal.
Proof. exact struct_unsupported. Qed.
Print Assumptions C113_rigid_motion.
(* so are trusses with a mechanism *)
Theorem C113_mechanism : forall big (u : nat -> list R), (forall n, length (u n) = n) -> forall nn pos ms loads fixes, struct_ok nn pos ms loads fixes ->
  Forall is_bar ms -> forall w, (forall k, last_fix fixes k <> None -> s_key ms k -> w k = 0) -> (forall m, In m ms -> stretch pos w m = 0) ->
  (exists k, s_key ms k /\ w k <> 0) ->
  struct_solve big (gauss_slv (K := RG) u) nn pos ms loads fixes = Fatal.
Proof. exact truss_mechanism. Qed.
Print Assumptions C113_mechanism.
(* and only trusses with almost one *)
Theorem C113_truss_refused : forall big (u : nat -> list R), (forall n, length (u n) = n) -> forall nn pos ms loads fixes, struct_ok nn pos ms loads fixes ->
  Forall is_bar ms -> (length (skeys ms) < 1000)%nat ->
  struct_solve big (gauss_slv (K := RG) u) nn pos ms loads fixes = Fatal ->
  exists w, (forall k, last_fix fixes k <> None -> s_key ms k -> w k = 0) /\ (exists k, s_key ms k /\ last_fix fixes k = None /\ w k = 1) /\
    forall n i, s_node ms n -> (i < 3)%nat -> last_fix fixes (KNode, n, i) = None ->
      Rabs (@sumof RNum _ (fun m => pull pos m (bar_stress pos w m) n i) ms) < / 10 ^ 20.
Proof. exact truss_refused. Qed.
Print Assumptions C113_truss_refused.

(* one bar along x, held at node 1 only: it can turn *)
Definition one_pos (n i : nat) : R := if ((n =? 2) && (i =? 0))%nat then 1 else 0.
Definition one_bar : list member := [Bar 1 1 1 2].
Definition pin (v : R) (nt : nat * nat) : bc RNum := mkBC (K := RNum) (fst nt) (snd nt) v.
Lemma one_ok fixes : Forall (fun f => s_key one_bar (bc_key (K := RNum) f)) fixes -> (exists k, s_key one_bar k /\ ~ In k (map bc_key fixes)) ->
  struct_ok 2 one_pos one_bar [] fixes.
Proof.
  intros H1 H2. apply struct_small; auto.
  - constructor; [|constructor]. unfold m_ok. cbn [m_nodes]. split; [repeat constructor; cbn; intuition discriminate|]. split; [repeat constructor|].
    exists 0%nat. split; [lia|]. unfold at_nodes, one_pos. cbn. lra.
  - vm_compute. lia.
Qed.
Example C113_example : struct_ok 2 one_pos one_bar [] (map (pin 0) [(1, 0); (1, 1); (1, 2)]%nat) /\ antisym (fun i j => if ((i =? 1) && (j =? 0))%nat then 1 else if ((i =? 0) && (j =? 1))%nat then -1 else 0) /\ let w := motion one_pos (fun _ => 0) (fun i j => if ((i =? 1) && (j =? 0))%nat then 1 else if ((i =? 0) && (j =? 1))%nat then -1 else 0) in
  (forall k, last_fix (map (pin 0) [(1, 0); (1, 1); (1, 2)]%nat) k <> None -> s_key one_bar k -> w k = 0) /\ (exists k, s_key one_bar k /\ w k <> 0).
Proof.
  assert (SK : forall n t, In n [1; 2]%nat -> (t < 3)%nat -> s_key one_bar (KNode, n, t)).
  { intros n t Hn Ht. split; [|exact Ht]. exists (Bar 1 1 1 2). split; [left; reflexivity|exact Hn]. }
  split; [apply one_ok|split; [|cbv zeta; split]].
  - cbn [map]; repeat (apply Forall_cons; [apply SK; [cbn; auto|cbn; lia]|]); apply Forall_nil.
  - exists (KNode, 2, 0)%nat. split; [apply SK; [cbn; auto|cbn; lia]|]. cbn. intros H. decompose [or] H; discriminate || assumption.
  - intros i j. destruct i as [|[|i]], j as [|[|j]]; cbn; lra.
  - intros [[kd n] t] F Hk. destruct kd; [destruct Hk|]. destruct Hk as [(m & [<-|[]] & Hn) Ht]. destruct Hn as [<-|[<-|[]]].
    + cbn [motion]. unfold lin. rewrite rs3. unfold one_pos. cbn. destruct t as [|[|[|]]]; cbn; lra.
    + exfalso. apply F. destruct t as [|[|[|]]]; try lia; reflexivity.
  - exists (KNode, 2, 1)%nat. split; [apply SK; [cbn; auto|cbn; lia]|]. cbn [motion]. unfold lin. rewrite rs3. unfold one_pos. cbn. lra.
Qed.

(* ---------------- C114 ---------------- *)
(* no loads, supports moved rigidly (bars, tetrahedra) or as a uniform expansion (heated tetrahedra): this displacement is the
   solution, loads and reactions are zero, the members report no stress (bars) or the strain of the displacement (tetrahedra) *)
Theorem C114_stress_free : forall big (u : nat -> list R), (forall n, length (u n) = n) -> forall nn pos ms loads fixes, struct_ok nn pos ms loads fixes ->
  forall st rs a c W, plain_fixes big fixes -> struct_solve big (gauss_slv (K := RG) u) nn pos ms loads fixes = Ok (st, rs) ->
  Forall (expands a) ms -> antisym W -> loads = [] ->
  (forall k v, last_fix fixes k = Some v -> v = motion pos c (expansion a W) k) ->
  (forall k, s_key ms k -> disp st k = motion pos c (expansion a W) k /\ ext st k = 0) /\
  Forall2 (reports (expansion a W)) ms rs.
Proof. exact stress_free. Qed.
Print Assumptions C114_stress_free.

(* the bar with node 1 and the cross directions of node 2 displaced by 7 *)
Definition one_fix : list (bc RNum) := map (pin 7) [(1, 0); (1, 1); (1, 2); (2, 1); (2, 2)]%nat.
Example C114_example : struct_ok 2 one_pos one_bar [] one_fix /\ plain_fixes (fun _ => true) one_fix /\ Forall (expands 0) one_bar /\ (forall k v, last_fix one_fix k = Some v -> v = motion one_pos (fun _ => 7) (expansion 0 (fun _ _ => 0)) k) /\ exists st rs, struct_solve (fun _ => true) (gauss_slv (K := RG) (repeat 0)) 2 one_pos one_bar [] one_fix = Ok (st, rs).
Proof.
  assert (SK : forall n t, In n [1; 2]%nat -> (t < 3)%nat -> s_key one_bar (KNode, n, t)).
  { intros n t Hn Ht. split; [|exact Ht]. exists (Bar 1 1 1 2). split; [left; reflexivity|exact Hn]. }
  assert (OK : struct_ok 2 one_pos one_bar [] one_fix).
  { apply one_ok.
    - unfold one_fix; cbn [map]; repeat (apply Forall_cons; [apply SK; [cbn; auto|cbn; lia]|]); apply Forall_nil.
    - exists (KNode, 2, 0)%nat. split; [apply SK; [cbn; auto|cbn; lia]|]. cbn. intros H. decompose [or] H; discriminate || assumption. }
  assert (BB : Forall is_bar one_bar) by repeat constructor.
  split; [exact OK|]. split; [discriminate|]. split; [repeat constructor|]. split.
  - intros [[kd n] t] v F. cbn [motion]. unfold lin, expansion. rewrite rs3. assert (v = 7) as ->; [|lra].
    unfold last_fix, one_fix in F. cbn [map fold_left pin fst snd bc_key bc_node bc_dof bc_val] in F. repeat (destruct (key_dec _ (kd, n, t)); [|]); congruence.
  - destruct (struct_ends (fun _ => true) (repeat 0) (@repeat_length R 0) 2 one_pos one_bar [] one_fix OK) as [F|H]; [exfalso|exact H].
    destruct (truss_refused (fun _ => true) (repeat 0) (@repeat_length R 0) 2 one_pos one_bar [] one_fix OK BB ltac:(vm_compute; lia) F) as (w & W0 & (k & Hk & Fk & Wk) & WF).
    assert (Z : w (KNode, 1, 0)%nat = 0) by (apply W0; [discriminate|apply SK; [cbn; auto|cbn; lia]]).
    assert (k = (KNode, 2, 0)%nat) as ->.
    { destruct k as [[[|] n] t]; [destruct Hk|]. destruct Hk as [(m & [<-|[]] & Hn) Ht]. destruct Hn as [<-|[<-|[]]]; destruct t as [|[|[|]]]; try lia; try reflexivity; discriminate. }
    specialize (WF 2%nat 0%nat (proj1 (SK 2 0 ltac:(cbn; auto) ltac:(lia)))%nat ltac:(lia) Fk). apply Rabs_def2 in WF. revert WF.
    assert (D : dist3 (one_pos 1) (one_pos 2) = 1).
    { apply sq_len; [lra|]. unfold one_pos. cbn. lra. }
    unfold one_bar. rewrite (sumof_cons RRng). cbn [pull bar_stress]. unfold axis, at_nodes, stretch. cbn [nth]. rewrite rs3, D, Z, Wk.
    unfold one_pos. cbn. lra.
Qed.

(* ---------------- C115 ---------------- *)
(* reciprocity, any elements and MPC equations *)
Theorem C115_reciprocity : forall (K : Rng) (big : K -> bool) (slv : eqsolver K), exact_solver slv ->
  forall nn mesh regs ks (mpcs : list (mpc K)) loads1 fixes1 loads2 fixes2 st1 st2, distinct_nodes mesh ks ->
  good_linear nn mesh regs ks mpcs loads1 fixes1 -> good_linear nn mesh regs ks mpcs loads2 fixes2 ->
  (forall x v, last_fix fixes1 x = Some v -> big v = false -> v = r0) -> (forall x v, last_fix fixes2 x = Some v -> big v = false -> v = r0) ->
  linear_solve big slv nn mesh regs ks mpcs loads1 fixes1 = Ok st1 -> linear_solve big slv nn mesh regs ks mpcs loads2 fixes2 = Ok st2 ->
  outer_work mesh regs ks mpcs st1 (vget (g_num (so_g st2)) (so_U st2)) = outer_work mesh regs ks mpcs st2 (vget (g_num (so_g st1)) (so_U st1)).
Proof. exact reciprocity. Qed.
Print Assumptions C115_reciprocity.
(* unheated structures *)
Theorem C115_structures : forall big slv, exact_solver slv -> forall nn pos ms loads1 fixes1 st1 rs1 loads2 fixes2 st2 rs2,
  struct_ok nn pos ms loads1 fixes1 -> plain_fixes big fixes1 -> struct_ok nn pos ms loads2 fixes2 -> plain_fixes big fixes2 -> Forall (expands 0) ms ->
  struct_solve big slv nn pos ms loads1 fixes1 = Ok (st1, rs1) -> struct_solve big slv nn pos ms loads2 fixes2 = Ok (st2, rs2) ->
  @sumof RNum _ (fun k => ext st1 k * disp st2 k) (skeys ms) = @sumof RNum _ (fun k => ext st2 k * disp st1 k) (skeys ms).
Proof. exact struct_reciprocity. Qed.
Print Assumptions C115_structures.
(* virtual work of a truss; with w = disp st: the loads and reactions do twice the strain energy *)
Theorem C115_truss_work : forall big slv, exact_solver slv -> forall nn pos ms loads fixes st rs,
  struct_ok nn pos ms loads fixes -> plain_fixes big fixes -> Forall (expands 0) ms ->
  struct_solve big slv nn pos ms loads fixes = Ok (st, rs) ->
  forall w, Forall is_bar ms -> @sumof RNum _ (fun k => ext st k * w k) (skeys ms) = @sumof RNum _ (bar_work pos (disp st) w) ms.
Proof. exact truss_work. Qed.
Print Assumptions C115_truss_work.

(* ---------------- C116 ---------------- *)
(* the default equation solver solves the truss of main_truss.cpp and the result is the reference on both sides *)
Theorem C116_truss : forall big (u : nat -> list R), (forall n, length (u n) = n) ->
  exists st rs, main_truss big (gauss_slv (K := RG) u) = Ok (st, rs) /\
    forall n t ref, In (n, t, ref) tr_refs -> Rabs (disp st (KNode, n, t) - ref) < / 10 ^ 7.
Proof. exact truss_main. Qed.
Print Assumptions C116_truss.
Theorem C116_values : forall big (u : nat -> list R), (forall n, length (u n) = n) ->
  forall st rs, struct_solve big (gauss_slv (K := RG) u) 5 tr_pos tr_members tr_loads tr_fixes = Ok (st, rs) ->
  disp st (KNode, 2%nat, UX) = 2191 / 150000 /\ disp st (KNode, 2%nat, UY) = - 251137 / 2400000 /\
  disp st (KNode, 3%nat, UX) = 209 / 76800 /\ disp st (KNode, 3%nat, UY) = - 1403 / 19200 /\
  disp st (KNode, 5%nat, UX) = 52877 / 9600000 /\ disp st (KNode, 5%nat, UY) = - 6573 / 400000.
Proof. exact tr_result. Qed.
Print Assumptions C116_values.
(* stresses reported for the elements, in the order in which the program adds them *)
Theorem C116_stresses : forall big (u : nat -> list R), (forall n, length (u n) = n) ->
  forall st rs, struct_solve big (gauss_slv (K := RG) u) 5 tr_pos tr_members tr_loads tr_fixes = Ok (st, rs) ->
  rs = map RBar [-125 / 24; 2191 / 960; 4209 / 640; 209 / 480; -2209 / 384; 2191 / 384; -2191 / 960; -2191 / 640].
Proof. exact tr_stresses. Qed.
Print Assumptions C116_stresses.
(* so the hypotheses of C111, C112, C115 are met *)
Example C116_example : exists st rs, struct_ok 5 tr_pos tr_members tr_loads tr_fixes /\ plain_fixes (fun _ => true) tr_fixes /\ Forall is_bar tr_members /\
  Forall (expands 0) tr_members /\ struct_solve (fun _ => true) (gauss_slv (K := RG) (repeat 0)) 5 tr_pos tr_members tr_loads tr_fixes = Ok (st, rs).
Proof.
  destruct (tr_solves (fun _ => true) (repeat 0) (@repeat_length R 0)) as (st & rs & E). exists st, rs.
  split; [exact tr_ok|]. split; [apply tr_plain|]. split; [exact tr_bars|]. split; [repeat constructor|exact E].
Qed.

(* ---------------- C117 ---------------- *)
(* the checks of the program have no absolute value: with an equation solver that answers -1 for every unknown all of them pass *)
Theorem C117_checks_refuted : forall big, exists (slv : eqsolver RNum) st rs, main_truss big slv = Ok (st, rs) /\
  forall n t ref, In (n, t, ref) tr_refs -> disp st (KNode, n, t) = -1.
Proof. intros big. exists slv_m1. exact (tr_accepts big). Qed.
Print Assumptions C117_checks_refuted.
