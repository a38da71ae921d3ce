(* Hyperelastic bodies: stationary iterations, resultants *)
From Coq Require Import Reals Lra Lia.
Set Warnings "-ambiguous-paths".
From Coquelicot Require Import Coquelicot.
From Verif Require Import Base BaseProofs RealBase MatModel MatProofs SparseModel SpecSparse BlockModel SpecBlock DofModel SpecDof NumberingProofs AsmModel SpecAsm AsmLists AsmCalls AsmProofs AsmRun AsmFinal
  SolveModel SpecSolve SolveProofs LinearProofs GaussModel SpecGauss GaussProofs TimeModel NonlinModel SpecNonlin NonlinProofs NonlinFinal IsoModel SpecIso IsoProofs ElemModel
  ElemBase SpecElem ElemProofs HyperModel SpecHyper HyperProofs HyperElem HyperTangent HyperPlane HyperMore HyperBalance HyperBalance2 HyperFinal SpecBal BalProofs BalMore StructModel SpecStruct StructProofs
  StructFinal StructMore PartProofs SpecLaws LawsProofs SpecNewton NewtonProofs NewtonTotal BodyModel SpecBody BodyProofs BodyMore.
Local Open Scope R_scope.

(* the internal forces depend on the DoFs of the body only *)
Lemma el_ext m pos v w en e : (forall k, In k (el_x en e) -> v k = w k) -> forall k, el_force m pos v en e k = el_force m pos w en e k.
Proof.
  intros H k. assert (EU : be_U v e = be_U w e).
  { rewrite !be_U_map. apply map_ext_in. intros x Hx. apply H. unfold el_x. apply in_or_app. now left. }
  assert (EP : be_p v en = be_p w en) by (unfold be_p; apply H; unfold el_x; apply in_or_app; right; now left).
  unfold el_force, node_row, vol_row, be_F. rewrite EU, EP. reflexivity.
Qed.
Lemma body_ext m pos v w : forall els en, (forall k, In k (reg_keys (body_regs en els)) -> v k = w k) -> forall k, body_force m pos en els v k = body_force m pos en els w k.
Proof.
  induction els as [|e els IH]; intros en H k; [reflexivity|]. cbn [body_force]. f_equal.
  - apply el_ext. intros x Hx. apply H. apply body_keys. exists 0%nat, e. rewrite Nat.add_0_r. auto.
  - apply IH. intros x Hx. apply H. apply body_keys. apply body_keys in Hx as (i & e' & A & B). exists (S i), e'. replace (en + S i)%nat with (S en + i)%nat by lia. auto.
Qed.

Lemma is_derive_unique' (f : R -> R) x a b : is_derive f x a -> is_derive f x b -> a = b.
Proof. intros A B. rewrite <- (is_derive_unique _ _ _ A). exact (is_derive_unique _ _ _ B). Qed.
(* an iteration that changes nothing has found the exact solution *)
Lemma stationary big m pos els mpf loads fixes it : newton_step big m pos els mpf loads fixes it ->
  let s := g_num (it_g it) in unflat pos els (vget (K := RNum) s (it_before it)) ->
  (forall k, In k (reg_keys (body_regs 1 els)) -> vget (K := RNum) s (it_d it) k = 0) ->
  equilibrium m pos els (mpf (vget (K := RNum) s (it_before it))) loads fixes (it_time it) (vget (K := RNum) s (it_after it)) (mults (K := RNum) s (it_after it)).
Proof.
  intros N s UF Z. destruct (nw_linear _ _ _ _ _ _ _ _ N UF) as (D & D1 & D2 & _). fold s in D1, D2.
  assert (DZ : forall k, D k = 0).
  { intros k. apply (is_derive_unique' _ _ _ _ (D1 k)).
    apply (is_derive_ext (fun _ => body_force m pos 1 els (vget (K := RNum) s (it_before it)) k)); [|apply d_const].
    intros t. apply body_ext. intros x Hx. unfold along. rewrite (Z x Hx). symmetry. etransitivity; [apply (f_equal (Rplus _)); apply Rmult_0_r|apply Rplus_0_r]. }
  intros k Hk Hf. specialize (D2 k Hk Hf). rewrite DZ, Rplus_0_r in D2. pose proof (nw_mult _ _ _ _ _ _ _ _ N) as M. cbv zeta in M. fold s in M.
  rewrite M, <- D2. f_equal. symmetry. apply body_ext. intros x Hx.
  pose proof (nw_upd _ _ _ _ _ _ _ _ N) as UP. cbv zeta in UP. fold s in UP. rewrite (UP x Hx), (Z x Hx). symmetry. apply Rplus_0_r.
Qed.

(* ---- resultants *)
Lemma geo_reproduces pos e : regular_geo pos e -> forall g, In g (be_geo pos e) -> reproduces (be_nn e) (be_dim e) (snd g) (at_nodes pos (be_nodes e)).
Proof.
  unfold regular_geo, be_geo, be_nn, be_dim. destruct (be_kind e).
  - intros H g Hg. apply in_map_iff in Hg as ([[[r s] t] w] & <- & Hq). cbn [snd]. specialize (H r s t w Hq).
    pose proof (hex_grad _ _ _ _ H) as G. split.
    + intros j Hj. specialize (G 1 (fun _ => 0) j Hj). etransitivity; [|exact G]. apply rsumn_ext. intros n Hn. rewrite rs3. ring.
    + intros i j Hi Hj. specialize (G 0 (fun k => dlt i k) j Hj). etransitivity; [|exact G]. apply rsumn_ext. intros n Hn. rewrite rs3. 
      case3 Hi; unfold dlt; cbn [Nat.eqb]; ring.
  - intros H g Hg. apply in_map_iff in Hg as ([[r s] w] & <- & Hq). cbn [snd]. specialize (H r s w Hq).
    pose proof (quad_grad _ _ _ H) as G. split.
    + intros j Hj. specialize (G 1 (fun _ => 0) j Hj). etransitivity; [|exact G]. apply rsumn_ext. intros n Hn. rewrite rs2. ring.
    + intros i j Hi Hj. specialize (G 0 (fun k => dlt i k) j Hj). etransitivity; [|exact G]. apply rsumn_ext. intros n Hn. rewrite rs2.
      case2 Hi; unfold dlt; cbn [Nat.eqb]; ring.
Qed.
Lemma el_balance m pos v en e : length (be_nodes e) = be_nn e -> regular_geo pos e ->
  let x a i := moved pos v (nth a (be_nodes e) 0%nat) i in
  (forall i, (i < be_dim e)%nat -> rsumn (be_nn e) (fun a => node_row m pos v en e a i) = 0) /\
  (forall i j, (i < be_dim e)%nat -> (j < be_dim e)%nat -> rsumn (be_nn e) (fun a => x a i * node_row m pos v en e a j - x a j * node_row m pos v en e a i) = 0).
Proof.
  intros L RG x. pose proof (geo_reproduces pos e RG) as HX.
  assert (XE : forall a i, (a < be_nn e)%nat -> (i < be_dim e)%nat -> x a i = at_nodes pos (be_nodes e) a i + arr (be_U v e) (a * be_dim e + i)%nat).
  { intros a i Ha Hi. unfold x, moved, at_nodes, arr. rewrite be_U_nth by (auto; nia). rewrite be_key by assumption. reflexivity. }
  destruct (be_kind e) eqn:HK.
  - assert (N8 : be_nn e = 8%nat) by (unfold be_nn; now rewrite HK). assert (D3 : be_dim e = 3%nat) by (unfold be_dim; now rewrite HK). rewrite N8, D3 in *.
    assert (LU : length (be_U v e) = 24%nat) by (rewrite be_U_length by (rewrite N8; exact L); rewrite N8, D3; reflexivity).
    destruct (s81_forces m (be_geo pos e) (be_U v e) (be_p v en) LU) as (r & E & F1 & F2).
    destruct (s81_balance m (be_geo pos e) (at_nodes pos (be_nodes e)) (be_p v en) HX (be_U v e) r LU E) as (B1 & B2). cbv zeta in B1, B2.
    assert (NR : forall a i, (a < 8)%nat -> (i < 3)%nat -> node_row m pos v en e a i = - nth (a * 3 + i) (mFu r) 0).
    { intros a i Ha Hi. rewrite F1 by assumption. unfold node_row, be_F. rewrite HK, D3. symmetry. apply Ropp_involutive. }
    split.
    + intros i Hi. rewrite (rsumn_ext 8 _ (fun a => -1 * nth (a * 3 + i) (mFu r) 0)) by (intros a Ha; rewrite NR by assumption; ring).
      rewrite rsumn_mul, (B1 i Hi). ring.
    + intros i j Hi Hj. rewrite (rsumn_ext 8 _ (fun a => -1 * ((at_nodes pos (be_nodes e) a i + arr (be_U v e) (a * 3 + i)%nat) * nth (a * 3 + j) (mFu r) 0
        - (at_nodes pos (be_nodes e) a j + arr (be_U v e) (a * 3 + j)%nat) * nth (a * 3 + i) (mFu r) 0))).
      2: { intros a Ha. rewrite !NR, !XE by assumption. ring. }
      rewrite rsumn_mul, (B2 i j Hi Hj). ring.
  - assert (N8 : be_nn e = 4%nat) by (unfold be_nn; now rewrite HK). assert (D3 : be_dim e = 2%nat) by (unfold be_dim; now rewrite HK). rewrite N8, D3 in *.
    destruct (p41_forces m (be_geo pos e) (arr (be_U v e)) (be_p v en)) as (F1 & F2).
    destruct (p41_balance m (be_geo pos e) (at_nodes pos (be_nodes e)) (be_p v en) HX (arr (be_U v e))) as (B1 & B2). cbv zeta in B1, B2.
    set (fo := p41_Fe m (be_p v en) (p41_update_all m (be_geo pos e) (arr (be_U v e)) (be_p v en))) in *.
    assert (NR : forall a i, (a < 4)%nat -> (i < 2)%nat -> node_row m pos v en e a i = - fo (a * 2 + i)%nat).
    { intros a i Ha Hi. unfold fo. rewrite F1 by assumption. unfold node_row, be_F. rewrite HK, D3. symmetry. apply Ropp_involutive. }
    split.
    + intros i Hi. rewrite (rsumn_ext 4 _ (fun a => -1 * fo (a * 2 + i)%nat)) by (intros a Ha; rewrite NR by assumption; ring).
      rewrite rsumn_mul, (B1 i Hi). ring.
    + assert (M : forall i j, (i < 2)%nat -> (j < 2)%nat -> rsumn 4 (fun a => x a i * node_row m pos v en e a j - x a j * node_row m pos v en e a i) =
        -1 * rsumn 4 (fun a => (at_nodes pos (be_nodes e) a i + arr (be_U v e) (a * 2 + i)%nat) * fo (a * 2 + j)%nat
        - (at_nodes pos (be_nodes e) a j + arr (be_U v e) (a * 2 + j)%nat) * fo (a * 2 + i)%nat)).
      { intros i j Hi Hj. rewrite <- rsumn_mul. apply rsumn_ext. intros a Ha. rewrite !NR, !XE by assumption. ring. }
      assert (AS : forall i, rsumn 4 (fun a => x a i * node_row m pos v en e a i - x a i * node_row m pos v en e a i) = 0).
      { intros i. apply rsuml_zero. intros; ring. }
      intros i j Hi Hj. case2 Hi; case2 Hj; [apply AS| | |apply AS].
      * rewrite M by lia. rewrite B2. ring.
      * rewrite (rsumn_ext 4 _ (fun a => -1 * (x a 0%nat * node_row m pos v en e a 1%nat - x a 1%nat * node_row m pos v en e a 0%nat))) by (intros; ring).
        rewrite rsumn_mul, M by lia. rewrite B2. ring.
Qed.
(* work of the internal forces on a displacement w *)
Lemma key_sum (f : R) (w : key -> R) x l : NoDup l -> In x l -> rsuml l (fun k => (if key_dec x k then f else 0) * w k) = f * w x.
Proof.
  induction l as [|k l IH]; intros ND H; [destruct H|]. rewrite rsuml_cons. inversion ND; subst. destruct H as [->|H].
  - destruct (key_dec x x) as [_|C]; [|congruence]. rewrite rsuml_zero; [ring|]. intros k Hk. destruct (key_dec x k) as [->|_]; [contradiction|ring].
  - destruct (key_dec x k) as [->|_]; [contradiction|]. rewrite IH by assumption. ring.
Qed.
Lemma el_work m pos v en e w l : length (be_nodes e) = be_nn e -> NoDup l -> (forall k, In k (el_x en e) -> In k l) ->
  rsuml l (fun k => el_force m pos v en e k * w k) =
  rsumn (be_nn e) (fun a => rsumn (be_dim e) (fun i => node_row m pos v en e a i * w (KNode, nth a (be_nodes e) 0%nat, i))) + vol_row m pos v en e * w (KEl, en, HYDRO_PRESSURE).
Proof.
  intros L ND H. unfold el_force.
  rewrite (rsuml_ext _ (fun k => (rsumn (be_nn e) (fun a => rsumn (be_dim e) (fun i => if key_dec (KNode, nth a (be_nodes e) 0%nat, i) k then node_row m pos v en e a i else 0)) + (if key_dec (KEl, en, HYDRO_PRESSURE) k then vol_row m pos v en e else 0)) * w k)
    (fun k => rsumn (be_nn e) (fun a => rsumn (be_dim e) (fun i => (if key_dec (KNode, nth a (be_nodes e) 0%nat, i) k then node_row m pos v en e a i else 0) * w k)) + (if key_dec (KEl, en, HYDRO_PRESSURE) k then vol_row m pos v en e else 0) * w k)).
  2: { intros k _. rewrite Rmult_plus_distr_r. f_equal. rewrite <- rsumn_mulr. apply rsumn_ext. intros a Ha. symmetry. apply rsumn_mulr. }
  rewrite rsuml_plus. f_equal.
  - unfold rsumn at 1. rewrite rsuml_swap. change (rsuml (seq 0 (be_nn e))) with (rsumn (be_nn e)). apply rsumn_ext. intros a Ha.
    unfold rsumn at 1. rewrite rsuml_swap. change (rsuml (seq 0 (be_dim e))) with (rsumn (be_dim e)). apply rsumn_ext. intros i Hi.
    apply key_sum; [exact ND|]. apply H. unfold el_x. apply in_or_app. left. rewrite <- (be_key e a i L Ha Hi). apply nth_In.
    rewrite be_keys_length by exact L. nia.
  - apply key_sum; [exact ND|]. apply H. unfold el_x. apply in_or_app. right. now left.
Qed.
Lemma el_rigid m pos v en e l : length (be_nodes e) = be_nn e -> regular_geo pos e -> NoDup l -> (forall k, In k (el_x en e) -> In k l) ->
  (forall i, rsuml l (fun k => el_force m pos v en e k * shift i k) = 0) /\
  (forall i j, (i < be_dim e)%nat -> (j < be_dim e)%nat -> i <> j -> rsuml l (fun k => el_force m pos v en e k * spin (moved pos v) i j k) = 0).
Proof.
  intros L RG ND H. destruct (el_balance m pos v en e L RG) as (B1 & B2). cbv zeta in B2. split.
  - intros i. rewrite (el_work m pos v en e _ l L ND H). cbn [shift]. rewrite Rmult_0_r, Rplus_0_r.
    destruct (lt_dec i (be_dim e)) as [Hi|Hi].
    + etransitivity; [|exact (B1 i Hi)]. apply rsumn_ext. intros a Ha. unfold be_dim in *. destruct (be_kind e); [rewrite rs3; case3 Hi|rewrite rs2; case2 Hi]; cbn [Nat.eqb]; ring.
    + apply rsuml_zero. intros a _. apply rsuml_zero. intros i' Hi'. apply in_seq in Hi'. destruct (Nat.eqb_spec i' i); [lia|ring].
  - intros i j Hi Hj Nij. rewrite (el_work m pos v en e _ l L ND H). cbn [spin]. rewrite Rmult_0_r, Rplus_0_r. etransitivity; [|exact (B2 i j Hi Hj)]. apply rsumn_ext. intros a Ha.
    unfold be_dim in *. destruct (be_kind e); [rewrite rs3; case3 Hi; case3 Hj|rewrite rs2; case2 Hi; case2 Hj]; try (now destruct Nij); cbn [Nat.eqb]; ring.
Qed.
Lemma body_rigid m pos v l : NoDup l -> forall els en, Forall (fun e => length (be_nodes e) = be_nn e) els -> Forall (regular_geo pos) els ->
  (forall k, In k (reg_keys (body_regs en els)) -> In k l) ->
  (forall i, rsuml l (fun k => body_force m pos en els v k * shift i k) = 0) /\
  (forall i j, Forall (fun e => (i < be_dim e)%nat /\ (j < be_dim e)%nat) els -> i <> j -> rsuml l (fun k => body_force m pos en els v k * spin (moved pos v) i j k) = 0).
Proof.
  intros ND. induction els as [|e els IH]; intros en F G H.
  - cbn [body_force]. split; intros; apply rsuml_zero; intros; ring.
  - inversion F; subst. inversion G; subst.
    assert (H1' : forall k, In k (el_x en e) -> In k l) by (intros k Hk; apply H; apply body_keys; exists 0%nat, e; rewrite Nat.add_0_r; auto).
    assert (H2' : forall k, In k (reg_keys (body_regs (S en) els)) -> In k l).
    { intros k Hk. apply H. apply body_keys. apply body_keys in Hk as (i & e' & A & B). exists (S i), e'. replace (en + S i)%nat with (S en + i)%nat by lia. auto. }
    destruct (IH (S en) H3 H5 H2') as (I1 & I2). destruct (el_rigid m pos v en e l H2 H4 ND H1') as (E1 & E2). split.
    + intros i. cbn [body_force]. rewrite (rsuml_ext _ _ (fun k => el_force m pos v en e k * shift i k + body_force m pos (S en) els v k * shift i k)) by (intros; ring).
      rewrite rsuml_plus, E1, I1. ring.
    + intros i j FD N. inversion FD as [|? ? (A & B) FD']; subst. cbn [body_force].
      rewrite (rsuml_ext _ _ (fun k => el_force m pos v en e k * spin (moved pos v) i j k + body_force m pos (S en) els v k * spin (moved pos v) i j k)) by (intros; ring).
      rewrite rsuml_plus, (E2 i j A B N), (I2 i j FD' N). ring.
Qed.
Lemma spin_line pos v d i j t k : spin (moved pos (along v d t)) i j k = spin (moved pos v) i j k + t * spin (disp_of d) i j k.
Proof. destruct k as [[[|] n] ty]; cbn [spin]; [ring|]. unfold moved, disp_of, along. destruct (ty =? j)%nat; [ring|]. destruct (ty =? i)%nat; ring. Qed.

Lemma resultants big m pos els loads fixes it : newton_step big m pos els (fun _ => []) loads fixes it ->
  Forall (fun e => length (be_nodes e) = be_nn e) els -> Forall (regular_geo pos) els ->
  let s := g_num (it_g it) in let v := vget (K := RNum) s (it_before it) in let d := vget (K := RNum) s (it_d it) in let Rf := vget (K := RNum) s (it_R it) in
  unflat pos els v -> (forall k, In k (map bc_key fixes) -> big (d k) = false -> d k = 0) ->
  let keys := reg_keys (body_regs 1 els) in
  (forall i, rsuml keys (fun k => Rf k * shift i k) = 0) /\
  (forall i j, Forall (fun e => (i < be_dim e)%nat /\ (j < be_dim e)%nat) els -> i <> j ->
    rsuml keys (fun k => Rf k * spin (moved pos v) i j k) = - rsuml keys (fun k => body_force m pos 1 els v k * spin (disp_of d) i j k)).
Proof.
  intros N F G s v d Rf UF HB keys. destruct (nw_linear _ _ _ _ _ _ _ _ N UF) as (D & D1 & _ & D3). fold s v d in D1, D3. specialize (D3 HB).
  assert (ND : NoDup keys) by apply NoDup_nodup.
  assert (RE : forall k, In k keys -> Rf k = body_force m pos 1 els v k + D k).
  { intros k Hk. unfold Rf. rewrite <- (D3 k Hk).
    assert (P0 : mpc_pull (K := RNum) (mults (K := RNum) s (it_d it)) [] k = 0) by (unfold mpc_pull; destruct (mults (K := RNum) s (it_d it)); reflexivity).
    rewrite P0. apply Rplus_0_r. }
  assert (BR : forall w, _) by (intros w; exact (body_rigid m pos w keys ND els 1 F G (fun k H => H))).
  split.
  - intros i. rewrite (rsuml_ext _ _ (fun k => body_force m pos 1 els v k * shift i k + D k * shift i k)) by (intros k Hk; rewrite RE by exact Hk; ring).
    rewrite rsuml_plus, (proj1 (BR v) i), Rplus_0_l.
    assert (DD : is_derive (fun t => rsuml keys (fun k => body_force m pos 1 els (along v d t) k * shift i k)) 0 (rsuml keys (fun k => D k * shift i k))).
    { apply (d_suml _ keys (fun k t => body_force m pos 1 els (along v d t) k * shift i k)). intros k Hk.
      eapply der_eq; [apply (d_mult (fun t => body_force m pos 1 els (along v d t) k) (fun _ => shift i k)); [apply D1|apply d_const]|]. ring. }
    apply (is_derive_unique' _ _ _ _ DD). apply (is_derive_ext (fun _ => 0)); [intros t; symmetry; apply (proj1 (BR (along v d t)) i)|apply d_const].
  - intros i j FD Nij. rewrite (rsuml_ext _ _ (fun k => body_force m pos 1 els v k * spin (moved pos v) i j k + D k * spin (moved pos v) i j k)) by (intros k Hk; rewrite RE by exact Hk; ring).
    rewrite rsuml_plus, (proj2 (BR v) i j FD Nij), Rplus_0_l.
    assert (DD : is_derive (fun t => rsuml keys (fun k => body_force m pos 1 els (along v d t) k * spin (moved pos (along v d t)) i j k)) 0
      (rsuml keys (fun k => D k * spin (moved pos v) i j k + body_force m pos 1 els v k * spin (disp_of d) i j k))).
    { apply (d_suml _ keys (fun k t => body_force m pos 1 els (along v d t) k * spin (moved pos (along v d t)) i j k)). intros k Hk.
      apply (is_derive_ext (fun t => body_force m pos 1 els (along v d t) k * (spin (moved pos v) i j k + t * spin (disp_of d) i j k))).
      { intros t. rewrite spin_line. reflexivity. }
      eapply der_eq; [apply (d_mult (fun t => body_force m pos 1 els (along v d t) k) (fun t => spin (moved pos v) i j k + t * spin (disp_of d) i j k)); [apply D1|apply d_line]|].
      rewrite Rmult_0_l, Rplus_0_r.
      rewrite (body_ext m pos (along v d 0) v els 1 ltac:(intros x _; unfold along; ring) k). ring. }
    assert (Z : rsuml keys (fun k => D k * spin (moved pos v) i j k + body_force m pos 1 els v k * spin (disp_of d) i j k) = 0).
    { apply (is_derive_unique' _ _ _ _ DD). apply (is_derive_ext (fun _ => 0)); [intros t; symmetry; apply (proj2 (BR (along v d t)) i j FD Nij)|apply d_const]. }
    rewrite rsuml_plus in Z. lra.
Qed.
