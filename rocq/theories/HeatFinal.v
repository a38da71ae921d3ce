(* Linear fields: what the elements around an inner node add up to *)
From Coq Require Import Reals Lra Lia Permutation.
From Verif Require Import Base BaseProofs RealBase MatModel SparseModel BlockModel DofModel SpecDof NumberingProofs AsmModel SpecAsm AsmLists AsmProofs AsmRun AsmFinal
  SolveModel SpecSolve GaussModel SpecGauss GaussProofs IsoModel SpecIso IsoProofs ElemModel SpecElem ElemBase ElemProofs ElemMore ThermModel SpecTherm ThermProofs ThermMore
  SpecBal BalProofs BalMore StructModel SpecStruct StructProofs StructFinal StructMore HeatModel SpecHeat PartProofs HeatProofs.
Local Open Scope R_scope.

(* ---- sums around a node *)
Lemma sum_app {A} (f : A -> R) l1 l2 : @sumof RNum _ f (l1 ++ l2) = @sumof RNum _ f l1 + @sumof RNum _ f l2.
Proof. exact (sumof_app RRng f l1 l2). Qed.
Lemma sum_cons {A} (f : A -> R) x l : @sumof RNum _ f (x :: l) = f x + @sumof RNum _ f l.
Proof. reflexivity. Qed.
Lemma sum_flat {A B} (f : B -> R) (g : A -> list B) l : @sumof RNum _ f (flat_map g l) = @sumof RNum _ (fun x => @sumof RNum _ f (g x)) l.
Proof. induction l as [|x l IH]; [reflexivity|]. cbn [flat_map]. rewrite sum_app, sum_cons. now f_equal. Qed.
Lemma sum_perm {A} (f : A -> R) l1 l2 : Permutation l1 l2 -> @sumof RNum _ f l1 = @sumof RNum _ f l2.
Proof.
  induction 1 as [|x l l' H IH|x y l|l l' l'' H1 IH1 H2 IH2]; [reflexivity| | |congruence].
  - rewrite !sum_cons. now f_equal.
  - rewrite !sum_cons. req. ring.
Qed.
Lemma sum_opp {A} (f : A -> R) l : @sumof RNum _ (fun x => - f x) l = - @sumof RNum _ f l.
Proof. induction l as [|x l IH]; [cbn; ring|]. rewrite !sum_cons, IH. req. ring. Qed.
Lemma sum_scale {A} (f : A -> R) c l : @sumof RNum _ (fun x => c * f x) l = c * @sumof RNum _ f l.
Proof. exact (rsuml_mul A f c l). Qed.
Lemma if_sum {A} (b : bool) (f : A -> R) l : (if b then @sumof RNum _ f l else 0) = @sumof RNum _ f (if b then l else []).
Proof. destruct b; reflexivity. Qed.
Lemma link_sum tets n (f : nat * nat -> R) :
  @sumof RNum _ (fun nodes => rsumn 4 (fun l => if (nth l nodes 0 =? n)%nat then @sumof RNum _ f (edges (opposite nodes l)) else 0)) tets = @sumof RNum _ f (link tets n).
Proof.
  unfold link. rewrite sum_flat. apply sumR_ext. intros nodes _. rewrite sum_flat. unfold rsumn, rsuml. apply sumR_ext. intros l _. apply if_sum.
Qed.
Lemma inner3_zero tets n (f : nat * nat -> R) : (forall e, f (swap e) = - f e) -> inner3 tets n -> @sumof RNum _ f (link tets n) = 0.
Proof.
  intros A P. pose proof (sum_perm f _ _ P) as Q. rewrite sum_map in Q.
  rewrite (sumR_ext (fun x => f (swap x)) (fun x => - f x)) in Q by (intros; apply A). rewrite sum_opp in Q.
  set (x := @sumof RNum _ f (link tets n)) in *. change (@eq R x (- x)) in Q. change (@eq R x 0). lra.
Qed.
Lemma around_sum quads n (h : nat -> R) :
  @sumof RNum _ (fun nodes => rsumn 4 (fun l => if (nth l nodes 0 =? n)%nat then h (nth (next l) nodes 0%nat) - h (nth (prev l) nodes 0%nat) else 0)) quads =
  @sumof RNum _ h (map fst (around quads n)) - @sumof RNum _ h (map snd (around quads n)).
Proof.
  rewrite !sum_map. transitivity (@sumof RNum _ (fun e : nat * nat => h (fst e) - h (snd e)) (around quads n)).
  - unfold around. rewrite sum_flat. apply sumR_ext. intros nodes _. rewrite sum_flat. unfold rsumn, rsuml. apply sumR_ext. intros l _.
    destruct (_ =? n)%nat; [|reflexivity]. cbn [sumof fold_right fst snd]. symmetry. apply Rplus_0_r.
  - transitivity (@sumof RNum _ (fun e : nat * nat => h (fst e)) (around quads n) + @sumof RNum _ (fun e : nat * nat => - h (snd e)) (around quads n)).
    + rewrite sum_add. apply sumR_ext. reflexivity.
    + rewrite (sum_opp (fun e : nat * nat => h (snd e))). reflexivity.
Qed.
Lemma inner2_zero quads n h : inner2 quads n -> @sumof RNum _ h (map fst (around quads n)) - @sumof RNum _ h (map snd (around quads n)) = 0.
Proof. intros P. rewrite (sum_perm h _ _ P). ring. Qed.

(* ---- tetrahedra *)
Definition crossp (x y : nat -> R) (i : nat) : R :=
  match i with 0%nat => x 1%nat * y 2%nat - x 2%nat * y 1%nat | 1%nat => x 2%nat * y 0%nat - x 0%nat * y 2%nat | _ => x 0%nat * y 1%nat - x 1%nat * y 0%nat end.
Definition edge_cross (pos : nat -> nat -> R) (i : nat) (e : nat * nat) : R := crossp (pos (fst e)) (pos (snd e)) i.
Lemma edge_swap pos i e : edge_cross pos i (swap e) = - edge_cross pos i e.
Proof. unfold edge_cross, swap. cbn [fst snd]. destruct i as [|[|i]]; cbn; ring. Qed.
Lemma tet_faces pos n1 n2 n3 n4 l : (l < 4)%nat -> let f i := @sumof RNum _ (edge_cross pos i) (edges (opposite [n1; n2; n3; n4] l)) in
  tet_b (at_nodes pos [n1; n2; n3; n4]) l = - f 0%nat /\ tet_c (at_nodes pos [n1; n2; n3; n4]) l = - f 1%nat /\ tet_d (at_nodes pos [n1; n2; n3; n4]) l = - f 2%nat.
Proof.
  intros Hl. cbv zeta. destruct l as [|[|[|[|l]]]]; try lia; unfold tet_b, tet_c, tet_d, edge_cross, crossp, at_nodes; cbn [opposite edges nth sumof fold_right fst snd Nat.sub];
    repeat split; rewrite !sum_cons; cbn [fst snd]; match goal with |- context [@sumof RNum _ ?f []] => change (@sumof RNum _ f []) with 0 end; req; ring.
Qed.

Lemma tet1_rows pos n1 n2 n3 n4 k Ke c g l : let P := at_nodes pos [n1; n2; n3; n4] in tetra_volume P <> 0 -> tet1_buildK P k = Ok Ke -> (l < 4)%nat ->
  kmul 4 Ke (nodal1 4 (lin1 c g) P) l = @sumof RNum _ (fun e => k / 6 * rsumn 3 (fun a => g a * edge_cross pos a e)) (edges (opposite [n1; n2; n3; n4] l)).
Proof.
  intros P V E Hl. unfold tet1_buildK in E. rewrite tet_vol_eq in E.
  destruct (btdb_R 3 4 (tet1_B P (tetra_volume P)) (tet1_C k) (tetra_volume P)) as (Ke' & E' & L & W); [reflexivity|reflexivity|].
  change (repeat 0 (tri 4)) with (repeat 0 10) in E'. assert (Q : Ok Ke = Ok Ke') by (etransitivity; [symmetry; exact E|exact E']). injection Q as ->.
  rewrite (kmul_R 3 4 _ _ _ Ke' _ (fun a => - g a) W) by (try exact Hl; intros; apply tet1_BU; assumption).
  rewrite sum_scale. 
  transitivity (k / 6 * rsumn 3 (fun a => g a * @sumof RNum _ (edge_cross pos a) (edges (opposite [n1; n2; n3; n4] l)))).
  - destruct (tet_faces pos n1 n2 n3 n4 l Hl) as (F0 & F1 & F2). cbv zeta in F0, F1, F2. fold P in F0, F1, F2.
    rewrite !rs3. change (tet1_C k) with [- k; 0; 0; - k; 0; - k].
    cbv [sym_comp Nat.min Nat.max Nat.div Nat.divmod Nat.sub Nat.mul Nat.add fst snd]. cbn [nth].
    rewrite <- (Ropp_involutive (@sumof RNum _ (edge_cross pos 0) _)), <- F0.
    rewrite <- (Ropp_involutive (@sumof RNum _ (edge_cross pos 1) _)), <- F1.
    rewrite <- (Ropp_involutive (@sumof RNum _ (edge_cross pos 2) _)), <- F2.
    unfold tet1_B. cbn [seq map app]. destruct l as [|[|[|[|l]]]]; try lia; cbn [nth]; field; exact V.
  - f_equal. rewrite !rs3.
    assert (S3 : forall es, @sumof RNum _ (fun e => rsumn 3 (fun a => g a * edge_cross pos a e)) es =
      g 0%nat * @sumof RNum _ (edge_cross pos 0) es + g 1%nat * @sumof RNum _ (edge_cross pos 1) es + g 2%nat * @sumof RNum _ (edge_cross pos 2) es).
    { induction es as [|e es IH]; [cbn; ring|]. rewrite !sum_cons, IH, rs3. req. ring. }
    rewrite S3. reflexivity.
Qed.

Section Solved.
  Variable big : R -> bool.
  Variable u : nat -> list R.
  Hypothesis HU : forall n, length (u n) = n.
  Variables (nn : nat) (pos : nat -> nat -> R) (ms : list hmember) (loads fixes : list (bc RNum)).
  Hypothesis OK : heat_ok nn pos ms loads fixes.
  Let gs : eqsolver RNum := gauss_slv (K := RG) u.

  (* rows of the element that belong to node n *)
  Lemma told_on m c Ke Fe v n : told nn pos m c Ke Fe ->
    force_on (K := RNum) v (KNode, n, TEMP) (pform 0 (h_nodes m, c)) =
    rsumn (length (h_nodes m)) (fun l => if (nth l (h_nodes m) 0 =? n)%nat then kmul (length (h_nodes m)) Ke (h_values v m) l - nth l Fe 0 else 0).
  Proof.
    intros T. unfold force_on. rewrite (told_keys _ _ _ _ _ _ T), tkeys_length. unfold rsumn at 1, rsuml at 1. apply sumR_ext. intros q Hq. apply in_seq in Hq.
    rewrite tkey by apply Hq. destruct (key_dec _ _) as [E|E], (Nat.eqb_spec (nth q (h_nodes m) 0%nat) n) as [E'|E']; try congruence; try (exfalso; congruence).
    - apply (told_force nn pos m c Ke Fe v q T). apply Hq.
    - reflexivity.
  Qed.
  Lemma heat_each : exists cs, each (h_build pos) ms = Ok cs /\ h_built pos ms cs.
  Proof. exact (h_each nn pos ms (hk_members _ _ _ _ _ OK)). Qed.
  Lemma built_told m c : In m ms -> h_build pos m = Ok c -> h_ok nn pos m /\ exists Ke Fe, told nn pos m c Ke Fe.
  Proof.
    intros Hm E. pose proof (hk_members _ _ _ _ _ OK) as M. rewrite Forall_forall in M. split; [exact (M m Hm)|].
    destruct (h_build_ok nn pos m (M m Hm)) as (c' & Ke & Fe & E' & T). rewrite E in E'. injection E' as <-. eauto.
  Qed.
  (* a field that fits the prescribed temperatures and needs no supply at the other nodes is the solution *)
  Lemma heat_known st rs (T : nat -> R) : plain_fixes big fixes -> heat_solve big gs nn pos ms loads fixes = Ok (st, rs) ->
    (forall n y, last_fix fixes (KNode, n, TEMP) = Some y -> T n = y) ->
    (forall n, h_node ms n -> last_fix fixes (KNode, n, TEMP) = None -> forall cs, h_built pos ms cs ->
       @sumof RNum _ (fun p => force_on (K := RNum) (fun k => T (snd (fst k))) (KNode, n, TEMP) (pform 0 p)) (h_parts ms cs) = total_load loads (KNode, n, TEMP)) ->
    forall n, h_node ms n -> temp st n = T n.
  Proof.
    intros PF HS FX FR n Hn. destruct (h_solved big gs nn pos ms loads fixes st rs HS) as (cs & B & HL & _).
    pose proof (h_parts_ok nn pos ms loads fixes cs OK B) as PO.
    refine (parts_known temps temps_nd temps_in nn (h_parts ms cs) loads fixes PO big u HU st (fun k => T (snd (fst k))) PF HL _ _ (KNode, n, TEMP) _).
    - intros k y Hy. pose proof (hk_fixes _ _ _ _ _ OK) as FI.
      assert (Hk : h_key ms k).
      { destruct (in_dec key_dec k (map bc_key fixes)) as [I|I].
        - apply in_map_iff in I as (f & <- & Hf). rewrite Forall_forall in FI. auto.
        - exfalso. apply (last_fix_none RRng) in I. change (rnum RRng) with RNum in I. congruence. }
      destruct k as [[[|] n0] t]; [destruct Hk|]. destruct Hk as [_ ->]. exact (FX n0 y Hy).
    - intros k Hk Nk. apply (h_pkey pos ms cs k B) in Hk. destruct k as [[[|] n0] t]; [destruct Hk|]. destruct Hk as [Hk ->]. exact (FR n0 Hk Nk cs B).
    - apply (h_pkey pos ms cs _ B). split; [exact Hn|reflexivity].
  Qed.
  Lemma heat_loads0 k : loads = [] -> total_load loads k = 0.
  Proof. intros ->. reflexivity. Qed.

  (* linear fields in tetrahedra of one material *)
  Lemma tets_flow k c g cs n : Forall (tet_of k) ms -> h_built pos ms cs ->
    @sumof RNum _ (fun p => force_on (K := RNum) (fun x => lin1 c g (pos (snd (fst x)))) (KNode, n, TEMP) (pform 0 p)) (h_parts ms cs) =
    @sumof RNum _ (fun e => k / 6 * rsumn 3 (fun a => g a * edge_cross pos a e)) (link (map h_nodes ms) n).
  Proof.
    intros TM B. rewrite <- link_sum. rewrite sum_map.
    apply (h_sum pos ms cs _ _ B). intros m c0 Hm E. destruct (built_told m c0 Hm E) as ((_ & _ & V) & Ke & Fe & T).
    rewrite (told_on m c0 Ke Fe _ n T). rewrite Forall_forall in TM. specialize (TM m Hm). destruct m as [k' n1 n2 n3 n4| |]; [|destruct TM|destruct TM]. cbn [tet_of] in TM. subst k'.
    cbn [h_nodes length] in *. apply rsumn_ext. intros l Hl. destruct (_ =? n)%nat; [|reflexivity].
    destruct (to_who _ _ _ _ _ _ T) as [W ->]. cbn [h_nodes] in W. rewrite <- (tet1_rows pos n1 n2 n3 n4 k Ke c g l V W Hl).
    replace (nth l [] 0) with 0 by (destruct l; reflexivity). rewrite Rminus_0_r. reflexivity.
  Qed.
  Theorem tet_patch st rs k c g : plain_fixes big fixes -> heat_solve big gs nn pos ms loads fixes = Ok (st, rs) -> Forall (tet_of k) ms -> loads = [] ->
    (forall n y, last_fix fixes (KNode, n, TEMP) = Some y -> y = lin1 c g (pos n)) ->
    (forall n, h_node ms n -> last_fix fixes (KNode, n, TEMP) = None -> inner3 (map h_nodes ms) n) ->
    (forall n, h_node ms n -> temp st n = lin1 c g (pos n)) /\ Forall (fun r => r = map (fun i => - k * g i) (seq 0 3)) rs.
  Proof.
    intros PF HS TM L0 FX IN.
    assert (TT : forall n, h_node ms n -> temp st n = lin1 c g (pos n)).
    { apply (heat_known st rs (fun n => lin1 c g (pos n)) PF HS).
      - intros n y Hy. symmetry. exact (FX n y Hy).
      - intros n Hn Fn cs B. rewrite heat_loads0 by exact L0. rewrite (tets_flow k c g cs n TM B). apply inner3_zero; [|exact (IN n Hn Fn)].
        intros e. rewrite !rs3, !edge_swap. ring. }
    split; [exact TT|]. destruct (h_solved big gs nn pos ms loads fixes st rs HS) as (_ & _ & _ & RS).
    pose proof (hk_members _ _ _ _ _ OK) as M.
    assert (TM' : forall m, In m ms -> forall n, In n (h_nodes m) -> temp st n = lin1 c g (pos n)) by (intros m Hm n Hn; apply TT; exists m; auto).
    clear - RS M TM TM'. induction RS as [|m r ms rs E RS IH]; constructor.
    - inversion M as [|? ? (_ & _ & V) _]; subst. inversion TM as [|? ? T1 _]; subst. destruct m as [k' n1 n2 n3 n4| |]; [|destruct T1|destruct T1]. cbn [tet_of] in T1. subst k'.
      cbn [h_update h_nodes] in *. replace (h_values (disp st) (HTet k n1 n2 n3 n4)) with (nodal1 4 (lin1 c g) (at_nodes pos [n1; n2; n3; n4])) in E.
      + destruct (tet1_flux (at_nodes pos [n1; n2; n3; n4]) k c g 1 V) as (fl & E' & F & _). rewrite E in E'. injection E' as <-. unfold tet1_FLUX in F.
        transitivity (map (fun f => f * 1) r); [|rewrite F; apply map_ext; intros; ring]. symmetry. etransitivity; [apply map_ext; intros; apply Rmult_1_r|apply map_id].
      + unfold h_values. cbn [h_nodes map nodal1 seq]. specialize (TM' _ (or_introl eq_refl)). unfold temp in TM'.
        rewrite !TM' by (cbn; auto 6). reflexivity.
    - inversion M; inversion TM; subst. apply IH; auto. intros; eapply TM'; eauto. now right.
  Qed.
  (* and in quadrangles *)
  Theorem quad_patch st rs ord k c g : plain_fixes big fixes -> heat_solve big gs nn pos ms loads fixes = Ok (st, rs) -> Forall (quad_of ord k) ms -> loads = [] ->
    (forall n y, last_fix fixes (KNode, n, TEMP) = Some y -> y = lin2 c g (pos n)) ->
    (forall n, h_node ms n -> last_fix fixes (KNode, n, TEMP) = None -> inner2 (map h_nodes ms) n) ->
    forall n, h_node ms n -> temp st n = lin2 c g (pos n).
  Proof.
    intros PF HS TM L0 FX IN. apply (heat_known st rs (fun n => lin2 c g (pos n)) PF HS).
    - intros n y Hy. symmetry. exact (FX n y Hy).
    - intros n Hn Fn cs B. rewrite heat_loads0 by exact L0.
      set (h := fun x => quad_unit ord * k * ((g 0%nat * pos x 1%nat - g 1%nat * pos x 0%nat) / 2)).
      etransitivity; [|exact (inner2_zero (map h_nodes ms) n h (IN n Hn Fn))]. rewrite <- around_sum, sum_map.
      apply (h_sum pos ms cs _ _ B). intros m c0 Hm E. destruct (built_told m c0 Hm E) as ((_ & _ & V) & Ke & Fe & T).
      rewrite (told_on m c0 Ke Fe _ n T). rewrite Forall_forall in TM. specialize (TM m Hm). destruct m as [|o k' vf n1 n2 n3 n4|]; [destruct TM| |destruct TM]. destruct TM as (-> & -> & ->).
      cbn [h_nodes length] in *. apply rsumn_ext. intros l Hl. destruct (_ =? n)%nat; [|reflexivity].
      pose proof (to_who _ _ _ _ _ _ T) as W. cbn [h_nodes] in W.
      assert (F0 : nth l Fe 0 = 0).
      { destruct (quadth_ok ord k 0 (at_nodes pos [n1; n2; n3; n4])) as (Ke' & Fe' & E' & _ & _ & _ & WF). rewrite W in E'. injection E' as <- <-. rewrite WF by exact Hl.
        unfold quad_sum. apply rsuml_zero. intros ((r, s), w) _. ring. }
      rewrite F0. change (h_values _ _) with (linear c g (at_nodes pos [n1; n2; n3; n4])).
      rewrite (quadth_patch _ _ _ _ _ _ c g W V l Hl). unfold share, h, at_nodes. rewrite sum2. field.
  Qed.

  (* surroundings of one temperature *)
  Lemma told_const e m c Ke Fe : h_ok nn pos m -> told nn pos m c Ke Fe -> settled e m ->
    forall l, (l < length (h_nodes m))%nat -> kmul (length (h_nodes m)) Ke (repeat e (length (h_nodes m))) l - nth l Fe 0 = 0.
  Proof.
    intros (_ & _ & D) T S l Hl. pose proof (to_who _ _ _ _ _ _ T) as W. destruct m as [k n1 n2 n3 n4|ord k vf n1 n2 n3 n4|ord flux htc et n1 n2]; cbn [h_nodes length settled] in *.
    - destruct W as [W ->]. rewrite (tet1_const _ _ _ e D W l Hl). destruct l; cbn; ring.
    - subst vf. rewrite (quadth_const _ _ _ _ _ _ e W D l Hl).
      destruct (quadth_ok ord k 0 (at_nodes pos [n1; n2; n3; n4])) as (Ke' & Fe' & E' & _ & _ & _ & WF). rewrite W in E'. injection E' as <- <-. rewrite WF by exact Hl.
      unfold quad_sum. rewrite rsuml_zero; [ring|]. intros ((r, s), w) _. ring.
    - destruct S as [-> [->|[E1 E2]]].
      + destruct (lineth_ok ord 0 0 (line_pre et) (at_nodes pos [n1; n2]) D) as (Ke' & Fe' & E' & _ & _ & WK & WF). rewrite W in E'. injection E' as <- <-.
        rewrite WF by exact Hl. unfold kmul. rewrite rsumn_zero by (intros j Hj; rewrite WK by assumption; ring).
        unfold line_sum. rewrite rsuml_zero; [ring|]. intros (r, w) _. ring.
      + assert (EP : line_pre et = (e, e)).
        { destruct et as [a b]. cbn [fst snd] in *. subst. unfold line_pre. cbn [fst snd]. destruct (Req_EM_T e 0); reflexivity. }
        rewrite EP in W. pose proof (lineth_rest ord htc (e, e) (at_nodes pos [n1; n2]) Ke Fe D W l Hl) as Q. cbn [fst snd] in Q.
        change (repeat e 2) with [e; e]. rewrite Q. ring.
  Qed.
  Theorem equilibrium st rs e : plain_fixes big fixes -> heat_solve big gs nn pos ms loads fixes = Ok (st, rs) -> Forall (settled e) ms -> loads = [] ->
    (forall n y, last_fix fixes (KNode, n, TEMP) = Some y -> y = e) ->
    forall n, h_node ms n -> temp st n = e /\ supply st n = 0.
  Proof.
    intros PF HS TM L0 FX. rewrite Forall_forall in TM.
    assert (FZ : forall n cs (v : key -> R), h_built pos ms cs -> (forall x, h_node ms x -> v (KNode, x, TEMP) = e) ->
       @sumof RNum _ (fun p => force_on (K := RNum) v (KNode, n, TEMP) (pform 0 p)) (h_parts ms cs) = 0).
    { intros n cs v B HV. rewrite (h_sum pos ms cs _ (fun _ => 0) B).
      - apply (sumof_zero RRng). reflexivity.
      - intros m c0 Hm E. destruct (built_told m c0 Hm E) as (H & Ke & Fe & T). rewrite (told_on m c0 Ke Fe _ n T). apply rsumn_zero. intros l Hl.
        destruct (_ =? n)%nat; [|reflexivity]. replace (h_values v m) with (repeat e (length (h_nodes m))); [exact (told_const e m c0 Ke Fe H T (TM m Hm) l Hl)|].
        rewrite <- (const_values e m). unfold h_values. apply map_ext_in. intros x Hx. symmetry. apply HV. exists m. auto. }
    assert (TT : forall n, h_node ms n -> temp st n = e).
    { intros n Hn. apply (heat_known st rs (fun _ => e) PF HS).
      - intros x y Hy. symmetry. exact (FX x y Hy).
      - intros x Hx Fx cs B. rewrite heat_loads0 by exact L0. apply FZ; auto.
      - exact Hn. }
    intros n Hn. split; [exact (TT n Hn)|]. destruct (h_solved big gs nn pos ms loads fixes st rs HS) as (cs & B & HL & _).
    pose proof (h_parts_ok nn pos ms loads fixes cs OK B) as PO.
    destruct (parts_nodal temps temps_nd temps_in nn (h_parts ms cs) loads fixes PO big gs (gs_exact u HU) PF st HL) as (N1 & _ & _).
    unfold supply. rewrite <- N1; [apply FZ; [exact B|exact TT]|]. apply (h_pkey pos ms cs _ B). split; [exact Hn|reflexivity].
  Qed.

  (* no prescribed temperature, no convection *)
  Theorem heat_floating : fixes = [] -> Forall isolated ms -> heat_solve big gs nn pos ms loads fixes = Fatal.
  Proof.
    intros F0 IS. destruct heat_each as (cs & E & B). pose proof (h_parts_ok nn pos ms loads fixes cs OK B) as PO. pose proof (Forall2_len _ _ _ B) as LB.
    unfold heat_solve. rewrite E. cbn [obind].
    rewrite <- (h_mesh ms cs LB), <- (h_ks ms cs LB), <- (h_pregs ms cs LB).
    match goal with |- obind ?x _ = _ => enough (H : x = Fatal) by (rewrite H; reflexivity) end.
    apply (parts_loose temps temps_nd temps_in nn (h_parts ms cs) loads fixes PO big u HU (fun _ => 1)).
    - intros k Hk. exfalso. apply Hk. rewrite F0. reflexivity.
    - intros p k q Hp Hq _. destruct (h_in pos ms cs p B Hp) as (m & c & Hm & Em & ->). destruct (built_told m c Hm Em) as (H & Ke & Fe & T).
      rewrite (told_keys _ _ _ _ _ _ T), tkeys_length in Hq. rewrite (to_stiff _ _ _ _ _ _ T _ q Hq), const_values.
      rewrite Forall_forall in IS. specialize (IS m Hm). destruct H as (_ & _ & D). pose proof (to_who _ _ _ _ _ _ T) as W.
      destruct m as [k0 n1 n2 n3 n4|ord k0 vf n1 n2 n3 n4|ord flux htc et n1 n2]; cbn [h_nodes length isolated] in *.
      + apply (tet1_const _ _ _ 1 D (proj1 W) q Hq).
      + apply (quadth_const _ _ _ _ _ _ 1 W D q Hq).
      + subst htc. destruct (lineth_ok ord flux 0 (line_pre et) (at_nodes pos [n1; n2]) D) as (Ke' & Fe' & E' & _ & _ & WK & _). rewrite W in E'. injection E' as <- <-.
        unfold kmul. apply rsumn_zero. intros j Hj. rewrite WK by assumption. ring.
    - destruct (hk_free _ _ _ _ _ OK) as (k & Hk & _). exists k. split; [now apply (h_pkey pos ms cs k B)|]. cbn. apply R1_neq_R0.
  Qed.
  Theorem heat_ends : heat_solve big gs nn pos ms loads fixes = Fatal \/ exists st rs, heat_solve big gs nn pos ms loads fixes = Ok (st, rs).
  Proof.
    destruct heat_each as (cs & E & B). pose proof (h_parts_ok nn pos ms loads fixes cs OK B) as PO. pose proof (Forall2_len _ _ _ B) as LB.
    unfold heat_solve. rewrite E. cbn [obind].
    rewrite <- (h_mesh ms cs LB), <- (h_ks ms cs LB), <- (h_pregs ms cs LB).
    destruct (parts_ends temps temps_nd temps_in nn (h_parts ms cs) loads fixes PO big u HU) as [H|[st H]]; fold gs in H; rewrite H; cbn [obind]; [now left|right].
    match goal with |- context [each ?f ms] => destruct (each_total f ms) as [rs R] end.
    - intros m Hm. destruct m as [k n1 n2 n3 n4| |]; eexists; reflexivity.
    - exists st, rs. rewrite R. reflexivity.
  Qed.
End Solved.
