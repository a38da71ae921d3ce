(* Combined load cases, exchanged supports, other numberings *)
From Coq Require Import Permutation.
From Verif Require Import Base BaseProofs SparseModel SpecSparse BlockModel SpecBlock
  DofModel SpecDof AsmModel SpecAsm SolveModel SpecSolve GaussModel SpecGauss GaussProofs LinearProofs SpecBal BalProofs SpecLaws LawsProofs.

Section Forall3.
  Lemma f3_impl {A B C} (P Q : A -> B -> C -> Prop) la lb lc : (forall a b c, P a b c -> Q a b c) -> Forall3 P la lb lc -> Forall3 Q la lb lc.
  Proof. intros H. induction 1; constructor; auto. Qed.
  Lemma f3_app {A B C} (P : A -> B -> C -> Prop) la lb lc la' lb' lc' : Forall3 P la lb lc -> Forall3 P la' lb' lc' -> Forall3 P (la ++ la') (lb ++ lb') (lc ++ lc').
  Proof. induction 1; cbn; auto. intros. constructor; auto. Qed.
  Lemma f3_in {A B C} (P : A -> B -> C -> Prop) la lb lc c : Forall3 P la lb lc -> In c lc -> exists a b, In a la /\ In b lb /\ P a b c.
  Proof.
    induction 1 as [|a b c' la lb lc H F IH]; [intros []|]. intros [<-|I].
    - exists a, b. cbn. auto.
    - destruct (IH I) as (x & y & X & Y & Q). exists x, y. cbn. auto.
  Qed.
End Forall3.

Section Comb.
  Variable K : Rng.
  Add Ring Kr : (rth K).
  Local Open Scope rng_scope.
  Variables a b : K.
  Lemma f3_sum {A B C} (f1 : A -> K) (f2 : B -> K) (f3 : C -> K) l1 l2 l3 : Forall3 (fun x y z => f3 z = a * f1 x + b * f2 y) l1 l2 l3 ->
    sumof f3 l3 = a * sumof f1 l1 + b * sumof f2 l2.
  Proof. induction 1 as [|x y z l1 l2 l3 H F IH]; [rewrite !sumof_nil; ring|]. rewrite !sumof_cons, H, IH. ring. Qed.
  Definition comb_x (x1 x2 x3 : nat * list nat * contrib K) : Prop :=
    fst x1 = fst x3 /\ fst x2 = fst x3 /\ comb_contrib a b (snd x1) (snd x2) (snd x3).
  Lemma comb_contribs mesh ks1 ks2 ks3 : Forall3 (Forall3 (comb_contrib a b)) ks1 ks2 ks3 ->
    Forall3 comb_x (contribs mesh ks1) (contribs mesh ks2) (contribs mesh ks3).
  Proof.
    intros F. unfold contribs. generalize (seq 1 (length mesh)). intros es. revert es.
    induction F as [|l1 l2 l3 ks1 ks2 ks3 H F IH]; intros es.
    - destruct es; constructor.
    - destruct es as [|e es]; [constructor|]. cbn [combine flat_map fst snd]. apply f3_app; [|apply IH]. clear -H.
      induction H; cbn [map]; constructor; auto. split; [reflexivity|]. split; [reflexivity|]. exact H.
  Qed.
  Lemma comb_force x1 x2 x3 v1 v2 k : comb_x x1 x2 x3 -> force_on (fun k => a * v1 k + b * v2 k) k x3 = a * force_on v1 k x1 + b * force_on v2 k x2.
  Proof.
    destruct x1 as [[en nodes] c1], x2 as [[en2 nodes2] c2], x3 as [[en3 nodes3] c3]. intros (E1 & E2 & H). cbn [fst snd] in *.
    injection E1 as -> ->. injection E2 as -> ->.
    assert (Q : forall ky n f1 f2 f3 (m : nat -> nat -> K), (forall p, f3 p = a * f1 p + b * f2 p) ->
      sumof (fun p => if key_dec (nth p ky dkey) k then sumof (fun q => m p q * (a * v1 (nth q ky dkey) + b * v2 (nth q ky dkey))) (seq 0 (length ky)) - f3 p else 0) (seq 0 n) =
      a * sumof (fun p => if key_dec (nth p ky dkey) k then sumof (fun q => m p q * v1 (nth q ky dkey)) (seq 0 (length ky)) - f1 p else 0) (seq 0 n) +
      b * sumof (fun p => if key_dec (nth p ky dkey) k then sumof (fun q => m p q * v2 (nth q ky dkey)) (seq 0 (length ky)) - f2 p else 0) (seq 0 n)).
    { intros ky n f1 f2 f3 m Hf. rewrite <- !sumof_scal, <- sumof_add. apply sumof_ext. intros p _. destruct (key_dec _ k); [|ring].
      rewrite Hf. rewrite (sumof_ext K _ (fun q => a * (m p q * v1 (nth q ky dkey)) + b * (m p q * v2 (nth q ky dkey)))) by (intros; ring).
      rewrite sumof_add, !sumof_scal. ring. }
    unfold force_on. cbn [x_keys elem_force elem_stiff].
    destruct c1, c2, c3; cbn [comb_contrib] in H; try contradiction; decompose [and] H; subst; cbn [ckeys cmat cvec cdim ctypes]; apply Q; intros p; auto; try ring.
    destruct (p <? _)%nat; auto.
  Qed.
  Lemma comb_balanced mesh regs ks1 ks2 ks3 mpcs1 mpcs2 mpcs3 loads1 loads2 loads3 fixes1 fixes2 fixes3 v1 v2 l1 l2 r1 r2 :
    Forall3 (Forall3 (comb_contrib a b)) ks1 ks2 ks3 -> Forall3 (comb_mpc a b) mpcs1 mpcs2 mpcs3 ->
    (forall k, total_load loads3 k = a * total_load loads1 k + b * total_load loads2 k) ->
    (forall k, comb_fix a b (last_fix fixes1 k) (last_fix fixes2 k) (last_fix fixes3 k)) ->
    balanced mesh regs ks1 mpcs1 loads1 fixes1 v1 l1 r1 -> balanced mesh regs ks2 mpcs2 loads2 fixes2 v2 l2 r2 ->
    balanced mesh regs ks3 mpcs3 loads3 fixes3 (fun k => a * v1 k + b * v2 k) (map (fun x => a * fst x + b * snd x) (combine l1 l2)) (fun k => a * r1 k + b * r2 k).
  Proof.
    intros FK FM HL HF [A0 A1 A2 A3 A4] [B0 B1 B2 B3 B4].
    assert (LM : length mpcs1 = length mpcs3 /\ length mpcs2 = length mpcs3) by (clear -FM; induction FM; cbn; lia).
    split.
    - rewrite map_length, combine_length. lia.
    - intros k Hk. rewrite <- (A1 k Hk), <- (B1 k Hk).
      rewrite (f3_sum (force_on v1 k) (force_on v2 k) (force_on (fun k => a * v1 k + b * v2 k) k) (contribs mesh ks1) (contribs mesh ks2) (contribs mesh ks3)).
      2:{ eapply f3_impl; [|apply comb_contribs; exact FK]. intros x y z H. now apply comb_force. }
      assert (MP : mpc_pull (map (fun x => a * fst x + b * snd x) (combine l1 l2)) mpcs3 k = a * mpc_pull l1 mpcs1 k + b * mpc_pull l2 mpcs2 k).
      { clear A1 A4 B1 B4 HL HF. unfold mpc_pull. apply f3_sum. clear LM. revert l1 l2 A0 B0. induction FM as [|m1 m2 m3 ms1 ms2 ms3 H F IH]; intros [|x l1] [|y l2] A0 B0; cbn [length] in *; try lia; cbn [combine map]; constructor.
        - cbn [fst snd]. destruct H as (-> & -> & _). rewrite <- !sumof_scal, <- sumof_add. apply sumof_ext. intros t _. destruct (key_dec _ k); ring.
        - apply IH; lia. }
      rewrite MP. ring.
    - intros k Hk N. specialize (HF k). rewrite N in HF. destruct (last_fix fixes1 k) eqn:F1, (last_fix fixes2 k) eqn:F2; cbn [comb_fix] in HF; try contradiction.
      rewrite HL, A2, B2 by assumption. reflexivity.
    - intros k y F. specialize (HF k). rewrite F in HF. destruct (last_fix fixes1 k) eqn:F1, (last_fix fixes2 k) eqn:F2; cbn [comb_fix] in HF; try contradiction.
      rewrite (A3 k _ F1), (B3 k _ F2). auto.
    - intros m Hm. destruct (f3_in _ _ _ _ _ FM Hm) as (m1 & m2 & H1 & H2 & E1 & E2 & E3). rewrite E3, <- (A4 _ H1), <- (B4 _ H2). unfold mpc_value. rewrite E1, E2.
      rewrite <- !sumof_scal, <- sumof_add. apply sumof_ext. intros; ring.
  Qed.
End Comb.

Section Ren.
  Variable K : Rng.
  Add Ring Kr2 : (rth K).
  Local Open Scope rng_scope.
  Variable p : nat -> nat.
  Hypothesis INJ : forall m n, p m = p n -> m = n.
  Lemma ren_inj k k' : ren_key p k = ren_key p k' -> k = k'.
  Proof. destruct k as [[[|] n] t], k' as [[[|] n'] t']; cbn; intros E; try discriminate; injection E as E ->; f_equal; f_equal; auto. Qed.
  Lemma ren_dec k k' (x y : K) : (if key_dec (ren_key p k) (ren_key p k') then x else y) = if key_dec k k' then x else y.
  Proof. destruct (key_dec k k') as [->|N]; destruct (key_dec _ _) as [E|N']; auto; [congruence|]. exfalso. apply N, ren_inj, E. Qed.
  (* nodal contributions, without the number of the element *)
  Lemma sum_contribs mesh (ks : list (list (contrib K))) (f : nat * list nat * contrib K -> K) (g : list nat -> contrib K -> K) : length ks = length mesh ->
    (forall en nodes c, In (en, nodes, c) (contribs mesh ks) -> f (en, nodes, c) = g nodes c) ->
    sumof f (contribs mesh ks) = sumof (fun y => sumof (g (fst y)) (snd y)) (combine mesh ks).
  Proof.
    intros L H. rewrite (sumof_ext K _ (fun x => g (snd (fst x)) (snd x))) by (intros [[en nodes] c] Hx; now apply H). clear H. unfold contribs.
    assert (Q : forall st pre mesh ks, length ks = length mesh -> st = S (length pre) ->
      sumof (fun x => g (snd (fst x)) (snd x)) (flat_map (fun x => map (fun c => (fst x, nth (fst x - 1) (pre ++ mesh) [], c)) (snd x)) (combine (seq st (length mesh)) ks)) =
      sumof (fun y => sumof (g (fst y)) (snd y)) (combine mesh ks)).
    { clear. intros st pre mesh. revert st pre. induction mesh as [|nodes mesh IH]; intros st pre [|l ks] L E; cbn [length] in *; try lia; [reflexivity|].
      cbn [seq combine flat_map]. rewrite sumof_app, sumof_cons, sumof_map. cbn [fst snd]. f_equal.
      - apply sumof_ext. intros c _. f_equal. rewrite app_nth2 by lia. replace (st - 1 - length pre)%nat with 0%nat by lia. reflexivity.
      - replace (pre ++ nodes :: mesh) with ((pre ++ [nodes]) ++ mesh) by (now rewrite <- app_assoc). apply IH; [lia|]. rewrite app_length. cbn. lia. }
    exact (Q 1%nat [] mesh ks L eq_refl).
  Qed.
  Lemma nodal_in mesh (ks : list (list (contrib K))) en nodes c : Forall (Forall nodal) ks -> In (en, nodes, c) (contribs mesh ks) -> nodal c.
  Proof.
    intros F Hx. unfold contribs in Hx. apply in_flat_map in Hx as ([e l] & H1 & H2). apply in_map_iff in H2 as (c' & E & H2). injection E as _ _ ->.
    apply in_combine_r in H1. cbn [snd] in *. rewrite Forall_forall in F. specialize (F l H1). rewrite Forall_forall in F. auto.
  Qed.
  Lemma node_keys_ren nodes types : node_keys (map p nodes) types = map (ren_key p) (node_keys nodes types).
  Proof. unfold node_keys. induction nodes as [|n nodes IH]; cbn [map flat_map]; auto. rewrite IH, map_app, map_map. reflexivity. Qed.
  Lemma nodal_ren (v : key -> K) k en en' nodes (c : contrib K) : nodal c -> force_on v (ren_key p k) (en, map p nodes, c) = force_on (fun k => v (ren_key p k)) k (en', nodes, c).
  Proof.
    intros N. unfold force_on. cbn [x_keys elem_force elem_stiff].
    assert (E : ckeys en (map p nodes) c = map (ren_key p) (ckeys en' nodes c)) by (destruct c; cbn [ckeys nodal] in *; try contradiction; apply node_keys_ren).
    assert (D : cdim (map p nodes) c = cdim nodes c) by (unfold cdim; now rewrite map_length).
    rewrite E, D, map_length. apply sumof_ext. intros i Hi. apply in_seq in Hi.
    assert (NT : forall q, (q < length (ckeys en' nodes c))%nat -> nth q (map (ren_key p) (ckeys en' nodes c)) dkey = ren_key p (nth q (ckeys en' nodes c) dkey)).
    { intros q Hq. rewrite (nth_indep _ dkey (ren_key p dkey)) by (rewrite map_length; lia). apply map_nth. }
    rewrite NT by lia. rewrite ren_dec. destruct (key_dec _ k); [|reflexivity]. f_equal. apply sumof_ext. intros q Hq. apply in_seq in Hq. rewrite NT by lia. reflexivity.
  Qed.
  Lemma pull_perm (m1 m2 : list (mpc K)) : Permutation m1 m2 -> forall l2 : list K, length l2 = length m2 -> exists l1, length l1 = length m1 /\ Permutation (combine l1 m1) (combine l2 m2).
  Proof.
    induction 1 as [|x m1 m2 H IH|x y m|m1 m2 m3 H1 IH1 H2 IH2]; intros l2 L.
    - exists []. split; [reflexivity|]. destruct l2; [constructor|discriminate].
    - destruct l2 as [|y l2]; [discriminate|]. destruct (IH l2) as (l1 & L1 & P1); [cbn in L; lia|]. exists (y :: l1). cbn [length combine]. split; [lia|now constructor].
    - destruct l2 as [|a [|b l2]]; try discriminate. exists (b :: a :: l2). cbn [length combine] in *. split; [lia|constructor].
    - destruct (IH2 l2 L) as (l & L0 & P0). destruct (IH1 l L0) as (l1 & L1 & P1). exists l1. split; [exact L1|]. now transitivity (combine l m2).
  Qed.
  Definition ren_bc (f : bc K) : bc K := mkBC (p (bc_node f)) (bc_dof f) (bc_val f).
  Lemma total_ren loads1 loads2 k : Permutation (map ren_bc loads1) loads2 -> total_load loads2 (ren_key p k) = total_load loads1 k.
  Proof.
    intros H. unfold total_load. rewrite <- (sumof_perm K _ _ _ H), sumof_map. apply sumof_ext. intros [n t x] _. cbn [ren_bc bc_key bc_node bc_dof bc_val].
    exact (ren_dec (KNode, n, t) k x 0).
  Qed.
  Lemma ren_balanced mesh1 regs1 ks1 mpcs1 loads1 fixes1 mesh2 regs2 ks2 mpcs2 mpcs loads2 fixes2 v l r :
    length ks1 = length mesh1 -> length ks2 = length mesh2 -> Forall (Forall nodal) ks1 ->
    Permutation (map (fun x => (map p (fst x), snd x)) (combine mesh1 ks1)) (combine mesh2 ks2) ->
    (forall k, In k (reg_keys regs1) -> In (ren_key p k) (reg_keys regs2)) ->
    Forall2 (ren_mpc p) mpcs1 mpcs -> Permutation mpcs mpcs2 ->
    Permutation (map ren_bc loads1) loads2 -> (forall k, last_fix fixes2 (ren_key p k) = last_fix fixes1 k) ->
    balanced mesh2 regs2 ks2 mpcs2 loads2 fixes2 v l r ->
    exists l1, balanced mesh1 regs1 ks1 mpcs1 loads1 fixes1 (fun k => v (ren_key p k)) l1 (fun k => r (ren_key p k)).
  Proof.
    intros L1 L2 ND HP HR HM PM HL HF [B0 B1 B2 B3 B4]. destruct (pull_perm mpcs mpcs2 PM l B0) as (l1 & Ll & Pl).
    assert (LM : length mpcs1 = length mpcs) by (clear -HM; induction HM; cbn; lia).
    assert (ND2 : Forall (Forall nodal) ks2).
    { apply Forall_forall. intros cs Hc. apply (In_nth _ _ []) in Hc as (i & Hi & E). assert (Hx : In (nth i mesh2 [], cs) (combine mesh2 ks2)).
      { rewrite <- E. rewrite <- combine_nth by auto. apply nth_In. rewrite combine_length. lia. }
      apply (Permutation_in _ (Permutation_sym HP)) in Hx. apply in_map_iff in Hx as ([nodes cs'] & E2 & Hx). injection E2 as _ ->. apply in_combine_r in Hx.
      rewrite Forall_forall in ND. auto. }
    exists l1. split.
    - lia.
    - intros k Hk. rewrite <- (B1 _ (HR k Hk)). f_equal.
      + rewrite (sum_contribs mesh1 ks1 _ (fun nodes c => force_on (fun k => v (ren_key p k)) k (0%nat, nodes, c))); [|exact L1|].
        2:{ intros en nodes c Hx. rewrite <- (nodal_ren v k en en) by exact (nodal_in _ _ _ _ _ ND Hx). apply nodal_ren. exact (nodal_in _ _ _ _ _ ND Hx). }
        rewrite (sum_contribs mesh2 ks2 _ (fun nodes c => force_on v (ren_key p k) (0%nat, nodes, c))); [|exact L2|].
        2:{ intros en nodes c Hx. pose proof (nodal_in _ _ _ _ _ ND2 Hx) as N. unfold force_on. cbn [x_keys elem_force elem_stiff].
            assert (E : ckeys en nodes c = ckeys 0 nodes c) by (destruct c; cbn [ckeys nodal] in *; try contradiction; reflexivity). now rewrite E. }
        rewrite <- (sumof_perm K _ _ _ HP), sumof_map. apply sumof_ext. intros [nodes cs] Hx. cbn [fst snd]. apply sumof_ext. intros c Hc. symmetry. apply nodal_ren.
        apply in_combine_r in Hx. rewrite Forall_forall in ND. specialize (ND _ Hx). rewrite Forall_forall in ND. auto.
      + unfold mpc_pull. rewrite <- (sumof_perm K _ _ _ Pl). clear -HM Ll LM INJ. revert l1 Ll LM. induction HM as [|m1 m ms1 ms H F IH]; intros [|x l1] Ll LM; cbn [length] in *; try lia; [reflexivity|].
        cbn [combine]. rewrite !sumof_cons. cbn [fst snd]. f_equal; [|apply IH; lia]. destruct H as [_ H].
        symmetry. etransitivity; [symmetry; exact (sumof_map K (fun t => (term_key t, snd t)) (fun y => if key_dec (fst y) (ren_key p k) then snd y * x else 0) (mp_terms m))|]. symmetry.
        rewrite <- (sumof_perm K _ _ _ H), sumof_map. apply sumof_ext. intros t _. cbn [fst snd]. symmetry. apply ren_dec.
    - intros k Hk F. rewrite <- (total_ren loads1 loads2 k HL). apply B2; [auto|]. now rewrite HF.
    - intros k y F. apply B3. now rewrite HF.
    - intros m1 Hm. assert (X : exists m, In m mpcs /\ ren_mpc p m1 m).
      { clear -HM Hm. induction HM as [|x y a b H F IH]; [destruct Hm|]. destruct Hm as [<-|Hm]; [exists y; split; [now left|auto]|]. destruct (IH Hm) as (m & I & Q). exists m. split; [now right|auto]. }
      destruct X as (m & Hm2 & E & H). rewrite E. rewrite <- (B4 m) by (eapply Permutation_in; eauto). unfold mpc_value.
      symmetry. etransitivity; [symmetry; exact (sumof_map K (fun t => (term_key t, snd t)) (fun y => snd y * v (fst y)) (mp_terms m))|]. symmetry.
      rewrite <- (sumof_perm K _ _ _ H), sumof_map. reflexivity.
  Qed.
End Ren.

Section Laws.
  Variable K : GNum.
  Variable L : glaws K.
  Add Ring Kg : (gl_ring K L).
  Local Open Scope rng_scope.
  Variables (big : K -> bool) (u : nat -> list K).
  Hypothesis HU : forall n, length (u n) = n.
  Notation plain fixes := (forall x v, last_fix fixes x = Some v -> big v = false -> v = 0).
  Lemma superposition (a b : K) nn mesh regs ks1 ks2 ks3 mpcs1 mpcs2 mpcs3 loads1 loads2 loads3 fixes1 fixes2 fixes3 st1 st2 st3 :
    good_linear nn mesh regs ks1 mpcs1 loads1 fixes1 -> good_linear nn mesh regs ks2 mpcs2 loads2 fixes2 -> good_linear nn mesh regs ks3 mpcs3 loads3 fixes3 ->
    distinct_nodes mesh ks1 -> distinct_nodes mesh ks2 -> distinct_nodes mesh ks3 ->
    plain fixes1 -> plain fixes2 -> plain fixes3 ->
    Forall3 (Forall3 (comb_contrib a b)) ks1 ks2 ks3 -> Forall3 (comb_mpc a b) mpcs1 mpcs2 mpcs3 ->
    (forall k, total_load loads3 k = a * total_load loads1 k + b * total_load loads2 k) ->
    (forall k, comb_fix a b (last_fix fixes1 k) (last_fix fixes2 k) (last_fix fixes3 k)) ->
    linear_solve big (gauss_slv u) nn mesh regs ks1 mpcs1 loads1 fixes1 = Ok st1 ->
    linear_solve big (gauss_slv u) nn mesh regs ks2 mpcs2 loads2 fixes2 = Ok st2 ->
    linear_solve big (gauss_slv u) nn mesh regs ks3 mpcs3 loads3 fixes3 = Ok st3 ->
    forall k, In k (reg_keys regs) -> sol_U st3 k = a * sol_U st1 k + b * sol_U st2 k /\ sol_R st3 k = a * sol_R st1 k + b * sol_R st2 k.
  Proof.
    intros G1 G2 G3 D1 D2 D3 P1 P2 P3 FK FM HL HF S1 S2 S3 k Hk.
    pose proof (result_balanced (GR K L) big (gauss_slv u) (gauss_exact K L u HU) nn mesh regs ks1 mpcs1 loads1 fixes1 st1 G1 D1 P1 S1) as B1.
    pose proof (result_balanced (GR K L) big (gauss_slv u) (gauss_exact K L u HU) nn mesh regs ks2 mpcs2 loads2 fixes2 st2 G2 D2 P2 S2) as B2.
    pose proof (comb_balanced (GR K L) a b mesh regs ks1 ks2 ks3 mpcs1 mpcs2 mpcs3 loads1 loads2 loads3 fixes1 fixes2 fixes3 _ _ _ _ _ _ FK FM HL HF B1 B2) as B3.
    destruct (result_unique K L big u HU nn mesh regs ks3 mpcs3 loads3 fixes3 st3 G3 D3 P3 S3 _ _ _ B3) as (E1 & E2 & _).
    split; [apply E1|apply E2]; exact Hk.
  Qed.
  Lemma exchange nn mesh regs ks mpcs loads1 fixes1 loads2 fixes2 st1 st2 :
    good_linear nn mesh regs ks mpcs loads1 fixes1 -> good_linear nn mesh regs ks mpcs loads2 fixes2 -> distinct_nodes mesh ks -> plain fixes1 -> plain fixes2 ->
    linear_solve big (gauss_slv u) nn mesh regs ks mpcs loads1 fixes1 = Ok st1 ->
    linear_solve big (gauss_slv u) nn mesh regs ks mpcs loads2 fixes2 = Ok st2 ->
    (forall k y, last_fix fixes2 k = Some y -> sol_U st1 k = y) ->
    (forall k, In k (reg_keys regs) -> last_fix fixes2 k = None -> sol_R st1 k = total_load loads2 k) ->
    forall k, In k (reg_keys regs) -> sol_U st2 k = sol_U st1 k /\ sol_R st2 k = sol_R st1 k.
  Proof.
    intros G1 G2 D P1 P2 S1 S2 HF HL k Hk.
    destruct (result_balanced (GR K L) big (gauss_slv u) (gauss_exact K L u HU) nn mesh regs ks mpcs loads1 fixes1 st1 G1 D P1 S1) as [A0 A1 A2 A3 A4].
    destruct (result_unique K L big u HU nn mesh regs ks mpcs loads2 fixes2 st2 G2 D P2 S2 (sol_U st1) (sol_mult st1) (sol_R st1)) as (E1 & E2 & _).
    - split; auto.
    - split; auto.
  Qed.
  Lemma renumbered (p : nat -> nat) nn1 mesh1 regs1 ks1 mpcs1 loads1 fixes1 nn2 mesh2 regs2 ks2 mpcs2 mpcs loads2 fixes2 st1 st2 :
    (forall m n, p m = p n -> m = n) ->
    good_linear nn1 mesh1 regs1 ks1 mpcs1 loads1 fixes1 -> good_linear nn2 mesh2 regs2 ks2 mpcs2 loads2 fixes2 ->
    distinct_nodes mesh1 ks1 -> distinct_nodes mesh2 ks2 -> plain fixes1 -> plain fixes2 -> Forall (Forall nodal) ks1 ->
    Permutation (map (fun x => (map p (fst x), snd x)) (combine mesh1 ks1)) (combine mesh2 ks2) ->
    (forall k, In k (reg_keys regs1) -> In (ren_key p k) (reg_keys regs2)) ->
    Forall2 (ren_mpc p) mpcs1 mpcs -> Permutation mpcs mpcs2 ->
    Permutation (map (fun f => mkBC (p (bc_node f)) (bc_dof f) (bc_val f)) loads1) loads2 -> (forall k, last_fix fixes2 (ren_key p k) = last_fix fixes1 k) ->
    linear_solve big (gauss_slv u) nn1 mesh1 regs1 ks1 mpcs1 loads1 fixes1 = Ok st1 ->
    linear_solve big (gauss_slv u) nn2 mesh2 regs2 ks2 mpcs2 loads2 fixes2 = Ok st2 ->
    forall k, In k (reg_keys regs1) -> sol_U st2 (ren_key p k) = sol_U st1 k /\ sol_R st2 (ren_key p k) = sol_R st1 k.
  Proof.
    intros INJ G1 G2 D1 D2 P1 P2 ND HP HR HM PM HL HF S1 S2 k Hk.
    pose proof (result_balanced (GR K L) big (gauss_slv u) (gauss_exact K L u HU) nn2 mesh2 regs2 ks2 mpcs2 loads2 fixes2 st2 G2 D2 P2 S2) as B2.
    destruct (ren_balanced (GR K L) p INJ mesh1 regs1 ks1 mpcs1 loads1 fixes1 mesh2 regs2 ks2 mpcs2 mpcs loads2 fixes2 _ _ _
      (proj1 (gl_contribs _ _ _ _ _ _ _ G1)) (proj1 (gl_contribs _ _ _ _ _ _ _ G2)) ND HP HR HM PM HL HF B2) as (l1 & B1).
    destruct (result_unique K L big u HU nn1 mesh1 regs1 ks1 mpcs1 loads1 fixes1 st1 G1 D1 P1 S1 _ _ _ B1) as (E1 & E2 & _).
    split; symmetry; [apply E1|apply E2]; exact Hk.
  Qed.
End Laws.
