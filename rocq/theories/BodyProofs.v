(* Hyperelastic bodies: one element in an equilibrium iteration *)
From Coq Require Import Reals Lra Lia.
Set Warnings "-ambiguous-paths".
From Coquelicot Require Import Coquelicot.
From Verif Require Import Base BaseProofs RealBase MatModel SparseModel SpecSparse BlockModel SpecBlock DofModel SpecDof NumberingProofs AsmModel SpecAsm AsmLists AsmCalls
  SolveModel SpecSolve GaussModel TimeModel NonlinModel IsoModel SpecIso ElemModel SpecElem ElemProofs HyperModel SpecHyper HyperProofs HyperMore HyperElem HyperTangent HyperPlane
  HyperBalance HyperBalance2 HyperFinal SpecBal StructModel SpecStruct SpecLaws SpecNewton BodyModel SpecBody.
Local Open Scope R_scope.

Lemma be_U_map v e : be_U v e = map v (node_keys (be_nodes e) (be_dofs e)).
Proof.
  unfold be_U, node_keys. induction (be_nodes e) as [|n l IH]; [reflexivity|]. cbn [flat_map]. rewrite map_app, map_map, IH. reflexivity.
Qed.
Lemma be_dofs_dim e : length (be_dofs e) = be_dim e.
Proof. unfold be_dofs, be_dim. destruct (be_kind e); reflexivity. Qed.
Lemma be_keys_length e : length (be_nodes e) = be_nn e -> length (node_keys (be_nodes e) (be_dofs e)) = (be_nn e * be_dim e)%nat.
Proof. intros L. rewrite node_keys_length, L, be_dofs_dim. reflexivity. Qed.
Lemma be_U_length v e : length (be_nodes e) = be_nn e -> length (be_U v e) = (be_nn e * be_dim e)%nat.
Proof. intros L. rewrite be_U_map, map_length. now apply be_keys_length. Qed.
Lemma be_U_nth v e q : length (be_nodes e) = be_nn e -> (q < be_nn e * be_dim e)%nat ->
  nth q (be_U v e) 0 = v (nth q (node_keys (be_nodes e) (be_dofs e)) dkey).
Proof.
  intros L Hq. rewrite be_U_map. rewrite (nth_indep _ 0 (v dkey)) by (rewrite map_length, be_keys_length by exact L; lia). apply map_nth.
Qed.
Lemma be_key e a i : length (be_nodes e) = be_nn e -> (a < be_nn e)%nat -> (i < be_dim e)%nat ->
  nth (a * be_dim e + i) (node_keys (be_nodes e) (be_dofs e)) dkey = (KNode, nth a (be_nodes e) 0%nat, i).
Proof.
  intros L Ha Hi. rewrite <- (be_dofs_dim e) at 1. rewrite node_keys_nth by (rewrite ?be_dofs_dim; lia). f_equal.
  unfold be_dofs, be_dim in *. destruct (be_kind e); repeat (destruct i as [|i]; [reflexivity|]); lia.
Qed.
Lemma along_0 v d e : be_U (along v d 0) e = be_U v e.
Proof. rewrite !be_U_map. apply map_ext. intros k. unfold along. ring. Qed.

(* row p of the internal force of an element *)
Definition el_row m pos v en e (p : nat) : R :=
  if (p <? be_nn e * be_dim e)%nat then node_row m pos v en e (p / be_dim e) (p mod be_dim e) else vol_row m pos v en e.
Definition el_x (en : nat) (e : body_el) : list key := node_keys (be_nodes e) (be_dofs e) ++ [(KEl, en, HYDRO_PRESSURE)].
Lemma el_x_length en e : length (be_nodes e) = be_nn e -> length (el_x en e) = (be_nn e * be_dim e + 1)%nat.
Proof. intros L. unfold el_x. rewrite app_length, be_keys_length by exact L. reflexivity. Qed.

(* what buildK of an updated element hands over *)
Record el_good m pos v en e (c : contrib RNum) : Prop := {
  eg_keys : ckeys en (be_nodes e) c = el_x en e;
  eg_types : ctypes c = be_dofs e;
  eg_target : ctarget c = TK;
  eg_sizes : good_sizes (be_nodes e) c;
  eg_vec : forall p, (p < be_nn e * be_dim e + 1)%nat -> SpecAsm.cvec (K := RNum) (cdim (be_nodes e) c) c p = - el_row m pos v en e p;
  eg_der : known m -> hK m <> 0 -> (forall g, In g (be_geo pos e) -> det3 (be_F v e (snd g)) <> 0) ->
    forall d p, (p < be_nn e * be_dim e + 1)%nat ->
    is_derive (fun t => el_row m pos (along v d t) en e p) 0 (elem_stiff (K := RNum) d (en, be_nodes e, c) p) }.

Lemma combine_snd {A B} (l : list (A * B)) a : map fst l = a -> combine a (map snd l) = l.
Proof. intros <-. induction l as [|[x y] l IH]; [reflexivity|]. cbn [map combine fst snd]. now rewrite IH. Qed.

Lemma d_line a b : is_derive (fun t => a + t * b) 0 b.
Proof. eapply der_eq; [apply d_plus; [apply d_const|apply (d_mult (fun t => t) (fun _ => b) 0 1 0); [apply d_id|apply d_const]]|]. ring. Qed.

Lemma sum_last (f g : nat -> R) n x : (forall q, (q < n)%nat -> f q = g q) -> f n = x -> @sumof RNum _ f (seq 0 (n + 1)) = rsumn n g + x.
Proof.
  intros H <-. change (rsumn (n + 1) f = rsumn n g + f n). rewrite rsumn_app. f_equal; [apply rsumn_ext; exact H|].
  unfold rsumn. cbn [seq]. rewrite rsuml_cons, rsuml_nil, Nat.add_0_r. ring.
Qed.
Lemma s81_el m pos v en e : be_kind e = S81 -> length (be_nodes e) = be_nn e ->
  exists pts c, be_update m pos v en e = Ok pts /\ be_build m pos v en e pts = Ok c /\ el_good m pos v en e c.
Proof.
  intros HK L. assert (N8 : be_nn e = 8%nat) by (unfold be_nn; now rewrite HK). assert (D3 : be_dim e = 3%nat) by (unfold be_dim; now rewrite HK).
  assert (LU : forall w, length (be_U w e) = 24%nat) by (intros w; rewrite be_U_length by exact L; rewrite N8, D3; reflexivity).
  unfold be_update, be_build. rewrite HK.
  rewrite (s81_all_ok m (be_geo pos e) (be_U v e) (be_p v en) (LU v)). cbn [obind].
  set (all := map (fun g => (g, s81_pt m (snd g) (be_U v e) (be_p v en))) (be_geo pos e)).
  exists (map snd all).
  assert (SZ : be_sized pos e (map snd all) = true).
  { unfold be_sized. rewrite HK. apply andb_true_intro. split; [apply Nat.eqb_eq; unfold all; rewrite !map_length; reflexivity|].
    apply forallb_forall. intros pt Hpt. unfold all in Hpt. rewrite map_map in Hpt. apply in_map_iff in Hpt as (g & <- & _).
    apply Nat.eqb_eq. apply s81_pt_ok. apply LU. }
  rewrite SZ. rewrite (combine_snd all (be_geo pos e)) by (unfold all; rewrite map_map; apply map_id).
  destruct (s81_fold_ok m (be_p v en) all (mkMixed (repeat 0 300) (repeat 0 24) 0 (repeat 0 24) 0)) as (r & ER & L1 & L2 & L3 & _); try apply repeat_length.
  { apply Forall_forall. intros x Hx. unfold all in Hx. apply in_map_iff in Hx as (g & <- & _). cbn [snd]. apply s81_pt_ok. apply LU. }
  assert (RUN : s81_run m (be_geo pos e) (be_U v e) (be_p v en) = Ok r).
  { unfold s81_run. rewrite (s81_all_ok m (be_geo pos e) (be_U v e) (be_p v en) (LU v)). exact ER. }
  unfold s81_buildK. rewrite ER. cbn [obind]. eexists. split; [reflexivity|]. split; [reflexivity|].
  assert (ND : forall c : contrib RNum, ctypes c = [UX; UY; UZ] -> cdim (be_nodes e) c = 24%nat).
  { intros c Hc. unfold cdim. rewrite Hc, L, N8. reflexivity. }
  (* rows from the forces of C80 *)
  assert (FR : forall w r', s81_run m (be_geo pos e) (be_U w e) (be_p w en) = Ok r' -> forall p, (p < 25)%nat ->
    (if (p <? 24)%nat then nth p (mFu r') 0 else mFp r') = - el_row m pos w en e p).
  { intros w r' E p Hp. destruct (s81_forces m (be_geo pos e) (be_U w e) (be_p w en) (LU w)) as (r2 & E2 & F1 & F2).
    assert (r2 = r') by congruence. subst r2. unfold el_row. rewrite N8, D3. change (8 * 3)%nat with 24%nat. destruct (p <? 24)%nat eqn:EP.
    - apply Nat.ltb_lt in EP. pose proof (Nat.div_mod_eq p 3) as DM. pose proof (Nat.mod_upper_bound p 3 ltac:(lia)) as MB.
      replace p with (p / 3 * 3 + p mod 3)%nat at 1 by lia. rewrite F1 by (try assumption; apply Nat.div_lt_upper_bound; lia).
      unfold node_row, be_F. rewrite HK, D3. reflexivity.
    - rewrite F2. unfold vol_row, be_F. rewrite HK. reflexivity. }
  split.
  - unfold ckeys, el_x, be_dofs. rewrite HK. reflexivity.
  - unfold be_dofs. now rewrite HK.
  - reflexivity.
  - unfold good_sizes. rewrite ND by reflexivity. change (tri 24) with 300%nat. auto.
  - intros p Hp. rewrite N8, D3 in Hp. rewrite ND by reflexivity. unfold SpecAsm.cvec. apply FR; [exact RUN|lia].
  - intros KN HKn DET d p Hp. rewrite N8, D3 in Hp.
    destruct (s81_tangent m (be_geo pos e) (fun t => be_U (along v d t) e) (fun t => be_p (along v d t) en) (fun q => nth q (be_U d e) 0) (be_p d en) 0 KN HKn
      (fun t => LU _)) as (rr & RR & T1 & T2).
    { intros q Hq. apply (is_derive_ext (fun t => nth q (be_U v e) 0 + t * nth q (be_U d e) 0)).
      - intros t. rewrite !be_U_nth by (rewrite ?N8, ?D3; auto; lia). reflexivity.
      - apply d_line. }
    { apply d_line. }
    { intros g Hg. cbv beta. rewrite along_0. specialize (DET g Hg). unfold be_F in DET. rewrite HK in DET. exact DET. }
    assert (R0 : rr 0 = r).
    { pose proof (RR 0) as Q. cbv beta in Q. rewrite along_0 in Q. unfold be_p, along in Q. rewrite Rmult_0_l, Rplus_0_r in Q. unfold be_p in RUN. congruence. }
    rewrite R0 in T1, T2.
    assert (ST : elem_stiff (K := RNum) d (en, be_nodes e, CMixed (K := RNum) (mKuu r) (mKup r) (mKpp r) (mFu r) (mFp r)) p =
      if (p <? 24)%nat then rsumn 24 (fun q => nth (sym_comp 24 p q) (mKuu r) 0 * nth q (be_U d e) 0) + nth p (mKup r) 0 * be_p d en
      else rsumn 24 (fun q => nth q (mKup r) 0 * nth q (be_U d e) 0) + mKpp r * be_p d en).
    { unfold elem_stiff. rewrite ND by reflexivity.
      replace (ckeys en (be_nodes e) (CMixed (K := RNum) (mKuu r) (mKup r) (mKpp r) (mFu r) (mFp r))) with (el_x en e)
        by (unfold ckeys, el_x, be_dofs; now rewrite HK).
      rewrite el_x_length by exact L. rewrite N8, D3. change (8 * 3 + 1)%nat with (24 + 1)%nat.
      assert (XN : forall q, (q < 24)%nat -> nth q (el_x en e) dkey = nth q (node_keys (be_nodes e) (be_dofs e)) dkey).
      { intros q Hq. unfold el_x. apply app_nth1. rewrite be_keys_length by exact L. rewrite N8, D3. lia. }
      assert (XP : nth 24 (el_x en e) dkey = (KEl, en, HYDRO_PRESSURE)).
      { unfold el_x. rewrite app_nth2; rewrite be_keys_length by exact L; rewrite N8, D3; [reflexivity|lia]. }
      destruct (p <? 24)%nat eqn:EP; apply sum_last.
      - intros q Hq. rewrite XN by exact Hq. rewrite be_U_nth by (rewrite ?N8, ?D3; auto; lia). apply Nat.ltb_lt in Hq. unfold SpecAsm.cmat. rewrite EP, Hq. reflexivity.
      - rewrite XP. unfold SpecAsm.cmat. rewrite EP. reflexivity.
      - intros q Hq. rewrite XN by exact Hq. rewrite be_U_nth by (rewrite ?N8, ?D3; auto; lia). apply Nat.ltb_lt in Hq. unfold SpecAsm.cmat. rewrite EP, Hq. reflexivity.
      - rewrite XP. unfold SpecAsm.cmat. rewrite EP. reflexivity. }
    rewrite ST. destruct (p <? 24)%nat eqn:EP.
    + apply (is_derive_ext (fun t => - nth p (mFu (rr t)) 0)).
      { intros t. pose proof (FR (along v d t) (rr t) (RR t) p ltac:(lia)) as Q. rewrite EP in Q. rewrite Q. apply Ropp_involutive. }
      apply Nat.ltb_lt in EP. eapply der_eq; [apply d_opp; apply (T1 p EP)|]. ring.
    + apply (is_derive_ext (fun t => - mFp (rr t))).
      { intros t. pose proof (FR (along v d t) (rr t) (RR t) p ltac:(lia)) as Q. rewrite EP in Q. rewrite Q. apply Ropp_involutive. }
      eapply der_eq; [apply d_opp; apply T2|]. ring.
Qed.

Lemma p41_Ke_sym m p w i j : p41_Ke m p w i j = p41_Ke m p w j i.
Proof.
  assert (S : forall i j, pKuu (p41_sum m p w) i j = pKuu (p41_sum m p w) j i).
  { unfold p41_sum. assert (G : forall a, (forall i j, pKuu a i j = pKuu a j i) -> forall i j, pKuu (fold_left (p41_point m p) w a) i j = pKuu (fold_left (p41_point m p) w a) j i).
    { induction w as [|[[dWt nx] pt] w IH]; intros a Ha i0 j0; cbn [fold_left]; [apply Ha|]. apply IH. clear IH i0 j0 i j. intros i j. unfold p41_point.
      destruct (getDdDp_UP m p41_components (p41_CVec (arr (ptC pt))) p) as [D_d D_p]. cbn [pKuu]. rewrite (Ha i j). do 2 f_equal.
      f_equal; [f_equal|].
      - rewrite !rs3. rewrite !comp16_3 by lia. cbn. ring.
      - rewrite !rs4. cbn [p41_matS]. ring. }
    apply G. reflexivity. }
  unfold p41_Ke. cbv zeta. destruct (i <? 8)%nat, (j <? 8)%nat; auto.
Qed.
Lemma p41_el m pos v en e : be_kind e = P41 -> length (be_nodes e) = be_nn e ->
  exists pts c, be_update m pos v en e = Ok pts /\ be_build m pos v en e pts = Ok c /\ el_good m pos v en e c.
Proof.
  intros HK L. assert (N8 : be_nn e = 4%nat) by (unfold be_nn; now rewrite HK). assert (D3 : be_dim e = 2%nat) by (unfold be_dim; now rewrite HK).
  unfold be_update, be_build. rewrite HK.
  set (all := p41_update_all m (be_geo pos e) (arr (be_U v e)) (be_p v en)).
  exists (map snd all).
  assert (SZ : be_sized pos e (map snd all) = true).
  { unfold be_sized. rewrite HK. apply andb_true_intro. split; [apply Nat.eqb_eq; unfold all, p41_update_all; rewrite !map_length; reflexivity|].
    apply forallb_forall. intros pt Hpt. unfold all, p41_update_all in Hpt. rewrite map_map in Hpt. apply in_map_iff in Hpt as (g & <- & _). reflexivity. }
  rewrite SZ. rewrite (combine_snd all (be_geo pos e)) by (unfold all, p41_update_all; rewrite map_map; apply map_id).
  eexists. split; [reflexivity|]. split; [reflexivity|].
  set (c := CPlane41 (K := RNum) _ _).
  assert (KE : forall p q, (p < 9)%nat -> (q < 9)%nat -> SpecAsm.cmat (K := RNum) (cdim (be_nodes e) c) c p q = p41_Ke m (be_p v en) all p q).
  { intros p q Hp Hq. unfold c, SpecAsm.cmat. rewrite (nth_indep _ [] (map (p41_Ke m (be_p v en) all 0%nat) (seq 0 9))) by (rewrite map_length, seq_length; lia).
    rewrite (map_nth (fun i => map (p41_Ke m (be_p v en) all i) (seq 0 9))), seq_nth by lia. change (@r0 RNum) with 0.
    apply (ElemBase.nth_map_seq (p41_Ke m (be_p v en) all (0 + p)) 9 q). lia. }
  assert (FR : forall w p, (p < 9)%nat -> p41_Fe m (be_p w en) (p41_update_all m (be_geo pos e) (arr (be_U w e)) (be_p w en)) p = - el_row m pos w en e p).
  { intros w p Hp. destruct (p41_forces m (be_geo pos e) (arr (be_U w e)) (be_p w en)) as (F1 & F2).
    unfold el_row. rewrite N8, D3. change (4 * 2)%nat with 8%nat. destruct (p <? 8)%nat eqn:EP.
    - apply Nat.ltb_lt in EP. pose proof (Nat.div_mod_eq p 2) as DM. pose proof (Nat.mod_upper_bound p 2 ltac:(lia)) as MB.
      replace p with (p / 2 * 2 + p mod 2)%nat at 1 by lia. rewrite F1 by (try assumption; apply Nat.div_lt_upper_bound; lia).
      unfold node_row, be_F. rewrite HK, D3. reflexivity.
    - apply Nat.ltb_ge in EP. replace p with 8%nat by lia. rewrite F2. unfold vol_row, be_F. rewrite HK. reflexivity. }
  assert (LX : forall q, (q < 8)%nat -> nth q (el_x en e) dkey = nth q (node_keys (be_nodes e) (be_dofs e)) dkey).
  { intros q Hq. unfold el_x. apply app_nth1. rewrite be_keys_length by exact L. rewrite N8, D3. lia. }
  assert (XP : nth 8 (el_x en e) dkey = (KEl, en, HYDRO_PRESSURE)).
  { unfold el_x. rewrite app_nth2; rewrite be_keys_length by exact L; rewrite N8, D3; [reflexivity|lia]. }
  split.
  - unfold c, ckeys, el_x, be_dofs. rewrite HK. reflexivity.
  - unfold be_dofs. now rewrite HK.
  - reflexivity.
  - unfold good_sizes, c. rewrite !map_length, !seq_length. split; [congruence|]. split; [reflexivity|]. split.
    + apply Forall_forall. intros r Hr. apply in_map_iff in Hr as (i & <- & _). rewrite map_length, seq_length. reflexivity.
    + split; [reflexivity|]. intros p q Hp Hq. pose proof (KE p q Hp Hq) as E1. pose proof (KE q p Hq Hp) as E2. unfold c, SpecAsm.cmat in E1, E2.
      rewrite E1, E2. apply p41_Ke_sym.
  - intros p Hp. rewrite N8, D3 in Hp. unfold c, SpecAsm.cvec. etransitivity; [apply (ElemBase.nth_map_seq (p41_Fe m (be_p v en) all) 9 p); lia|]. apply FR. lia.
  - intros KN HKn DET d p Hp. rewrite N8, D3 in Hp.
    pose proof (p41_tangent m (be_geo pos e) (fun t => arr (be_U (along v d t) e)) (fun t => be_p (along v d t) en) (arr (be_U d e)) (be_p d en) 0 KN HKn) as T.
    assert (T' : is_derive (fun t => el_row m pos (along v d t) en e p) 0 (rsumn 9 (fun j => p41_Ke m (be_p v en) all p j * (if (j <? 8)%nat then arr (be_U d e) j else be_p d en)))).
    { eapply is_derive_ext; [|eapply der_eq; [apply d_opp; apply (T) with (i := p)|]].
      - intros t. cbv beta. rewrite FR by lia. apply Ropp_involutive.
      - intros q Hq. apply (is_derive_ext (fun t => nth q (be_U v e) 0 + t * nth q (be_U d e) 0)).
        + intros t. unfold arr. rewrite !be_U_nth by (rewrite ?N8, ?D3; auto; lia). reflexivity.
        + apply d_line.
      - apply d_line.
      - intros g Hg. cbv beta. rewrite along_0. specialize (DET g Hg). unfold be_F in DET. rewrite HK in DET. exact DET.
      - lia.
      - rewrite along_0. rewrite Ropp_involutive. apply rsumn_ext. intros j Hj. unfold all.
        replace (be_p (along v d 0) en) with (be_p v en) by (unfold be_p, along; ring). reflexivity. }
    eapply der_eq; [exact T'|]. change 9%nat with (8 + 1)%nat. symmetry.
    unfold elem_stiff. replace (ckeys en (be_nodes e) c) with (el_x en e) by (unfold c, ckeys, el_x, be_dofs; now rewrite HK).
    rewrite el_x_length by exact L. rewrite N8, D3. change (4 * 2 + 1)%nat with (8 + 1)%nat.
    rewrite (rsumn_app 8 1). etransitivity; [apply sum_last with (g := fun j => p41_Ke m (be_p v en) all p j * (if (j <? 8)%nat then arr (be_U d e) j else be_p d en)); [|reflexivity]|].
    + intros q Hq. rewrite KE by lia. rewrite LX by exact Hq. unfold arr. rewrite be_U_nth by (rewrite ?N8, ?D3; auto; lia). apply Nat.ltb_lt in Hq. rewrite Hq. reflexivity.
    + rewrite KE by lia. rewrite XP. apply Rplus_eq_compat_l. unfold rsumn. cbn [seq]. rewrite rsuml_cons, rsuml_nil. cbn [Nat.add Nat.ltb Nat.leb]. unfold be_p. symmetry. apply Rplus_0_r.
Qed.
Lemma el_steps m pos v en e : length (be_nodes e) = be_nn e ->
  exists pts c, be_update m pos v en e = Ok pts /\ be_build m pos v en e pts = Ok c /\ el_good m pos v en e c.
Proof. intros L. destruct (be_kind e) eqn:HK; [now apply s81_el|now apply p41_el]. Qed.
