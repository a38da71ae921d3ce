(* C96-C98: the interface element INTER3 *)
From Coq Require Import Reals Lra.
From Verif Require Import Base RealBase MatModel IsoModel SpecIso ElemModel SpecElem ElemBase ElemProofs ElemMore InterModel SpecInter InterProofs InterMore.
Local Open Scope R_scope.

(* ---------------- C96 ---------------- *)
(* the values assembled: blocks of the interface law, weighted by the products of the shape functions; det is twice the area *)
Theorem C96_matrix : forall pos ks kn, proper3 pos -> exists K, inter3_buildK pos ks kn = Ok (2 * area3 pos, fst K, snd K) /\
  (forall i, fst K i = unit3 (area_vec pos) i) /\
  forall a b c d, (a < 6)%nat -> (b < 6)%nat -> (c < 3)%nat -> (d < 3)%nat ->
    snd K (3 * a + c)%nat (3 * b + d)%nat = face a * face b * (2 * area3 pos * mass (a mod 3) (b mod 3)) * interface ks kn (area_vec pos) c d.
Proof. exact inter3_ok. Qed.
Print Assumptions C96_matrix.
(* the integration table: integrals of L_a L_b and of 1 over the reference triangle *)
Theorem C96_table : (forall a b, (a < 3)%nat -> (b < 3)%nat -> Rabs (mass a b - (if (a =? b)%nat then 1 / 12 else 1 / 24)) <= / 10 ^ 9) /\
  Rabs (i3_area - 1 / 2) <= / 10 ^ 9.
Proof. split; [exact mass_exact|exact i3_area_ok]. Qed.
Print Assumptions C96_table.
Lemma norm_area pos : proper3 pos -> norm3 (area_vec pos) <> 0 /\ 0 < area3 pos.
Proof.
  intros P. destruct (sides_pos pos P) as (_ & _ & H). rewrite vlen_norm in H. unfold area3. split; lra.
Qed.
(* no forces when the faces move together; a uniform opening gives traction times area on one face, its opposite on the other *)
Theorem C96_forces : forall pos ks kn, proper3 pos -> exists det n K, inter3_buildK pos ks kn = Ok (det, n, K) /\
  (forall U, (forall a i, (a < 3)%nat -> (i < 3)%nat -> U (3 + a)%nat i = U a i) -> forall a c, (a < 6)%nat -> (c < 3)%nat -> force K U a c = 0) /\
  (forall U v c, (c < 3)%nat -> (forall a i, (a < 3)%nat -> (i < 3)%nat -> U a i - U (3 + a)%nat i = v i) ->
    rsumn 3 (fun a => force K U a c) = 2 * i3_area * area3 pos * rsumn 3 (fun d => interface ks kn (area_vec pos) c d * v d) /\
    rsumn 3 (fun a => force K U (3 + a) c) = - (2 * i3_area * area3 pos * rsumn 3 (fun d => interface ks kn (area_vec pos) c d * v d))).
Proof.
  intros pos ks kn P. destruct (inter3_ok pos ks kn P) as (K & E & _ & W). exists (2 * area3 pos), (fst K), (snd K). split; [exact E|]. split.
  - intros U. exact (together ks kn (area3 pos) (area_vec pos) (snd K) W U).
  - intros U v c. exact (uniform_force ks kn (area3 pos) (area_vec pos) (snd K) W U v c).
Qed.
Print Assumptions C96_forces.
(* energy: the integral of ks |tangential jump|^2 + kn (normal jump)^2; zero exactly when the faces move together *)
Theorem C96_energy : forall pos ks kn, proper3 pos -> exists det n K, inter3_buildK pos ks kn = Ok (det, n, K) /\
  forall U, work3 (force K U) U = 2 * area3 pos * rsuml i3_points (fun q => i3_weight 1 q *
      (let p := rsumn 3 (fun c => unit3 (area_vec pos) c * jump U q c) in ks * (rsumn 3 (fun c => jump U q c * jump U q c) - p * p) + kn * (p * p))) /\
    (0 <= ks -> 0 <= kn -> 0 <= work3 (force K U) U) /\
    (0 < ks -> 0 < kn -> (work3 (force K U) U = 0 <-> forall a i, (a < 3)%nat -> (i < 3)%nat -> U a i = U (3 + a)%nat i)).
Proof.
  intros pos ks kn P. destruct (inter3_ok pos ks kn P) as (K & E & _ & W). exists (2 * area3 pos), (fst K), (snd K). split; [exact E|]. intros U.
  destruct (norm_area pos P) as [N A]. split; [|split].
  - rewrite (work_ok ks kn (area3 pos) (area_vec pos) (snd K) W). f_equal. apply rsuml_ext. intros q _. now rewrite interface_energy.
  - intros B C. apply (work_pos ks kn (area3 pos) (area_vec pos) (snd K) W); auto.
  - intros B C. split; [apply (work_zero ks kn (area3 pos) (area_vec pos) (snd K) W); auto|].
    intros H. unfold work3. apply rsumn_zero. intros a Ha. apply rsumn_zero. intros c Hc.
    rewrite (together ks kn (area3 pos) (area_vec pos) (snd K) W U) by (auto; intros; symmetry; auto). ring.
Qed.
Print Assumptions C96_energy.

(* a triangle of area 2, twice *)
Definition tri2 (n i : nat) : R := match n, i with 1%nat, 0%nat => 2 | 2%nat, 1%nat => 2 | _, _ => 0 end.
Lemma tri2_vec : forall i, area_vec tri2 i = vec3 0 0 4 i.
Proof. intros [|[|[|i]]]; unfold area_vec, cross, vec3, side1, side2, tri2; ring. Qed.
Lemma tri2_area : area3 tri2 = 2.
Proof.
  unfold area3, norm3. rewrite !tri2_vec. cbn [vec3]. replace (0 ^ 2 + 0 ^ 2 + 4 ^ 2) with (4 * 4) by ring. rewrite sqrt_square by lra. lra.
Qed.
Example C96_inhabited : proper3 tri2 /\ area3 tri2 = 2.
Proof. split; [|exact tri2_area]. exists 2%nat. split; [lia|]. rewrite tri2_vec. cbn. lra. Qed.

(* ---------------- C97 ---------------- *)
Lemma Rabs_def2_le x y : Rabs x <= y -> - y <= x <= y.
Proof. intros H. pose proof (Rle_abs x). pose proof (Rle_abs (- x)) as A. rewrite Rabs_Ropp in A. lra. Qed.
(* strains and stress after buildK and update *)
Definition results (pos : nat -> nat -> R) (ks kn : R) (U : nat -> nat -> R) : outcome ((nat -> R) * (nat -> R)) :=
  b <- inter3_buildK pos ks kn ;; inter3_update pos (fst (fst b)) ks kn U.
(* what they are: the integral of the opening over the surface, and the interface law applied to it *)
Theorem C97_integral_partial : forall pos ks kn U, proper3 pos -> exists e s, results pos ks kn U = Ok (e, s) /\
  (forall i, (i < 3)%nat -> e i = - (2 * area3 pos * rsuml i3_points (fun q => i3_weight 1 q * jump U q i))) /\
  (forall i, (i < 3)%nat -> s i = rsumn 3 (fun d => interface ks kn (area_vec pos) i d * e d)).
Proof.
  intros pos ks kn U P. destruct (inter3_ok pos ks kn P) as (K & E & _). unfold results. rewrite E. cbn [obind fst]. exact (update_ok pos (2 * area3 pos) ks kn U P).
Qed.
Print Assumptions C97_integral_partial.
(* "surface averaged": a uniform opening v should be the strain v *)
Theorem C97_average_refuted : ~ (forall pos ks kn U v e s, proper3 pos ->
  (forall a i, (a < 3)%nat -> (i < 3)%nat -> U (3 + a)%nat i - U a i = v i) -> results pos ks kn U = Ok (e, s) ->
  forall i, (i < 3)%nat -> Rabs (e i - v i) <= / 1000).
Proof.
  intros H. destruct C96_inhabited as [P A].
  set (U := fun a i : nat => if (a <? 3)%nat then 0 else match i with 2%nat => 1 | _ => 0 end).
  destruct (C97_integral_partial tri2 1 1 U P) as (e & s & E & We & _).
  specialize (H tri2 1 1 U (vec3 0 0 1) e s P).
  assert (HU : forall a i, (a < 3)%nat -> (i < 3)%nat -> U (3 + a)%nat i - U a i = vec3 0 0 1 i).
  { intros a i Ha Hi. unfold U. destruct a as [|[|[|a]]]; try lia; destruct i as [|[|[|i]]]; try lia; cbv [Nat.ltb Nat.leb Nat.add vec3]; ring. }
  specialize (H HU E 2%nat ltac:(lia)). rewrite We in H by lia. rewrite A in H.
  rewrite (rsuml_ext _ _ (fun q => -1 * i3_weight 1 q)) in H.
  - rewrite rsuml_mul in H. change (rsuml i3_points (i3_weight 1)) with i3_area in H. pose proof i3_area_ok as X. cbn [vec3] in H. apply Rabs_def2_le in H. apply Rabs_def2_le in X. lra.
  - intros q _. replace (jump U q 2%nat) with (-1); [ring|]. unfold jump. rewrite rs3. pose proof (L_sum q) as X. rewrite rs3 in X.
    unfold U. cbv [Nat.ltb Nat.leb Nat.add]. lra.
Qed.
Print Assumptions C97_average_refuted.
(* update before buildK: det is still zero and so are the results *)
Theorem C97_without_buildK_partial : forall pos ks kn U, proper3 pos -> exists e s, inter3_update pos 0 ks kn U = Ok (e, s) /\
  forall i, (i < 3)%nat -> e i = 0 /\ s i = 0.
Proof.
  intros pos ks kn U P. destruct (update_ok pos 0 ks kn U P) as (e & s & E & We & Ws). exists e, s. split; [exact E|].
  assert (Z : forall i, (i < 3)%nat -> e i = 0) by (intros i Hi; rewrite We by auto; ring).
  intros i Hi. split; [auto|]. rewrite Ws by auto. rewrite rs3, !Z by lia. ring.
Qed.
Print Assumptions C97_without_buildK_partial.

(* ---------------- C98 ---------------- *)
(* element.h:118-131: the result times scale is added and true returned, or false returned *)
Theorem C98_other_queries_refuted : ~ (forall e s q scale t, inter3_tensor e s q scale t <> UB).
Proof. intros H. apply (H (fun _ => 0) (fun _ => 0) 2%nat 1 []). reflexivity. Qed.
Print Assumptions C98_other_queries_refuted.
Theorem C98_scale_refuted : ~ (forall e s q scale t t1 t2, length t = 6%nat -> inter3_tensor e s q 1 t = Ok (t1, true) -> inter3_tensor e s q scale t = Ok (t2, true) ->
  forall k, (k < 6)%nat -> nth k t2 0 - nth k t 0 = scale * (nth k t1 0 - nth k t 0)).
Proof.
  intros H. specialize (H (fun _ => 1) (fun _ => 1) q_C 2 (repeat 0 6) _ _ eq_refl eq_refl eq_refl 0%nat ltac:(lia)). cbn in H. lra.
Qed.
Print Assumptions C98_scale_refuted.
(* the query for deformations E adds the stress *)
Theorem C98_deformations_refuted : ~ (forall e s t, length t = 6%nat -> inter3_tensor e s q_E 1 t = Ok (diag_add t e, true)).
Proof.
  intros H. specialize (H (fun _ => 0) (fun _ => 1) (repeat 0 6) eq_refl). cbn in H. injection H. intros. lra.
Qed.
Print Assumptions C98_deformations_refuted.
(* the two queries that are answered *)
Theorem C98_answered_partial : forall e s q scale t, (exists r, inter3_tensor e s q scale t = Ok r) <-> q = q_C \/ q = q_E.
Proof.
  intros e s q scale t. unfold inter3_tensor. split.
  - intros (r & H). destruct (q =? q_C)%nat eqn:A; [left; now apply Nat.eqb_eq|]. destruct (q =? q_E)%nat eqn:B; [right; now apply Nat.eqb_eq|discriminate].
  - intros [->| ->]; eexists; reflexivity.
Qed.
Print Assumptions C98_answered_partial.
(* what is added: query C the strains, query E the stress, on the diagonal (places 0, 3, 5 of the packed tensor) *)
Theorem C98_added_partial : forall e s q scale t r b, length t = 6%nat -> inter3_tensor e s q scale t = Ok (r, b) ->
  let v := if (q =? 4)%nat then e else s in
  b = true /\ length r = 6%nat /\ nth 0 r 0 = nth 0 t 0 + v 0%nat /\ nth 3 r 0 = nth 3 t 0 + v 1%nat /\ nth 5 r 0 = nth 5 t 0 + v 2%nat
  /\ nth 1 r 0 = nth 1 t 0 /\ nth 2 r 0 = nth 2 t 0 /\ nth 4 r 0 = nth 4 t 0.
Proof.
  intros e s q scale t r b L H. unfold inter3_tensor, q_C, q_E in H. cbv zeta.
  destruct (q =? 4)%nat; [|destruct (q =? 3)%nat; [|discriminate]]; injection H as <- <-;
    (split; [reflexivity|split; [reflexivity|]]); cbn [diag_add map seq nth]; repeat split; try ring.
Qed.
Print Assumptions C98_added_partial.
