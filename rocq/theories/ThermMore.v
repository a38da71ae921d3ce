(* Patch test, totals and the capacity matrix of QUADTH; the surface element. *)
From Coq Require Import Reals Lra.
From Verif Require Import Base BaseProofs RealBase MatModel AsmModel SpecAsm MatProofs IsoModel SpecIso IsoProofs ElemModel SpecElem ElemBase ThermModel SpecTherm ThermProofs.
Local Open Scope R_scope.

(* det * grad N without division *)
Definition cof (pos : nat -> nat -> R) (r s : R) (n i : nat) : R :=
  let J := jac 4 (quad_dN r s) pos in
  match i with 0%nat => J 1%nat 1%nat * quad_dN r s n 0%nat - J 0%nat 1%nat * quad_dN r s n 1%nat
             | _ => J 0%nat 0%nat * quad_dN r s n 1%nat - J 1%nat 0%nat * quad_dN r s n 0%nat end.
Lemma cof_ok pos r s n i : quad_det pos r s <> 0 -> (i < 2)%nat -> quad_det pos r s * quad_nixj pos r s n i = cof pos r s n i.
Proof.
  intros D Hi. unfold quad_nixj, nixj, jinv, cof. unfold quad_det, jdet in *. unfold rsumn, rsuml.
  generalize dependent (jac 4 (quad_dN r s) pos). intros J D. generalize (quad_dN r s n). intros d.
  cbn in *. unfold det2 in *. cbn in *.
  do 2 (destruct i as [|i]; [cbn; field; exact D|]). lia.
Qed.
Lemma cof_lin pos r s n i : (n < 4)%nat -> (i < 2)%nat ->
  cof pos r s n i = share pos n i / 4 + r * (cof pos 1 0 n i - cof pos 0 0 n i) + s * (cof pos 0 1 n i - cof pos 0 0 n i).
Proof.
  intros Hn Hi. do 2 (destruct i as [|i]; [do 4 (destruct n as [|n]; [unfold cof, share, jac, rsumn, rsuml; cbn; decs; field|]); lia|]). lia.
Qed.
Lemma quad_sum_lin ord a b c : quad_sum (i_int ord) (fun r s => a / 4 + r * b + s * c) = quad_unit ord * a.
Proof.
  unfold quad_sum, quad_unit. destruct (i_int_cases ord) as [(H & E) | [(H & E) | (H & E)]]; rewrite E.
  - replace (ord <=? 2)%nat with true by (symmetry; apply Nat.leb_le; lia). unfold rsuml. cbn. unfold dec. field.
  - subst. unfold rsuml. cbn. unfold dec. field.
  - replace (ord <=? 2)%nat with false by (symmetry; apply Nat.leb_gt; lia). unfold rsuml. cbn. unfold dec. field.
Qed.
Lemma quad_sum_ext_in k f g : (forall r s w, In (r, s, w) (quad_quad k) -> f (dec r) (dec s) = g (dec r) (dec s)) -> quad_sum k f = quad_sum k g.
Proof. intros H. apply rsuml_ext. intros ((r, s), w) Hq. now rewrite (H r s w). Qed.
(* the nodal heat flows of a linear temperature field *)
Theorem quadth_patch ord k vf pos Ke Fe c g : quadth_K ord k vf pos = Ok (Ke, Fe) -> good_quad ord pos -> forall i, (i < 4)%nat ->
  kmul 4 Ke (linear c g pos) i = quad_unit ord * (k * rsumn 2 (fun a => share pos i a * g a)).
Proof.
  intros E G i Hi. rewrite (quadth_mul _ _ _ _ _ _ _ E i Hi). unfold good_quad in G. rewrite Forall_forall in G.
  transitivity (quad_sum (i_int ord) (fun r s => k * rsumn 2 (fun a => g a * cof pos r s i a))).
  { apply quad_sum_ext_in. intros r s w Hq. assert (D : 0 < quad_det pos (dec r) (dec s)) by exact (G _ Hq).
    assert (GR : forall a, (a < 2)%nat -> grad pos (linear c g pos) (dec r) (dec s) a = g a).
    { intros a Ha. unfold grad. rewrite <- (quad_grad pos (dec r) (dec s) ltac:(lra) c g a Ha). apply rsumn_ext. intros n Hn. f_equal.
      unfold linear. rewrite (nth_map_seq (fun n => c + rsumn 2 (fun i => g i * pos n i))) by auto. reflexivity. }
    transitivity (k * rsumn 2 (fun a => g a * (quad_det pos (dec r) (dec s) * quad_nixj pos (dec r) (dec s) i a))).
    - replace (quad_det pos (dec r) (dec s) * (k * rsumn 2 (fun a => quad_nixj pos (dec r) (dec s) i a * grad pos (linear c g pos) (dec r) (dec s) a)))
        with (k * (quad_det pos (dec r) (dec s) * rsumn 2 (fun a => quad_nixj pos (dec r) (dec s) i a * grad pos (linear c g pos) (dec r) (dec s) a))) by ring.
      f_equal. rewrite <- rsumn_mul. apply rsumn_ext. intros a Ha. rewrite GR by auto. ring.
    - f_equal. apply rsumn_ext. intros a Ha. rewrite cof_ok by (auto; lra). reflexivity. }
  rewrite quad_sum_mul, <- quad_sum_swap. replace (quad_unit ord * (k * rsumn 2 (fun a => share pos i a * g a))) with (k * (quad_unit ord * rsumn 2 (fun a => share pos i a * g a))) by ring.
  f_equal. rewrite <- rsumn_mul. apply rsumn_ext. intros a Ha. rewrite quad_sum_mul.
  rewrite (quad_sum_ext _ (fun r s => cof pos r s i a) (fun r s => share pos i a / 4 + r * (cof pos 1 0 i a - cof pos 0 0 i a) + s * (cof pos 0 1 i a - cof pos 0 0 i a))) by (intros; apply cof_lin; auto).
  rewrite quad_sum_lin. ring.
Qed.
(* the shares of the four corners add up to nothing: a linear field is in balance *)
Lemma share_closed pos i : (i < 2)%nat -> rsumn 4 (fun n => share pos n i) = 0.
Proof. intros Hi. do 2 (destruct i as [|i]; [unfold rsumn, rsuml; cbn; field|]). lia. Qed.
(* constant temperature: no heat flow, whatever the shape *)
Theorem quadth_const ord k vf pos Ke Fe t : quadth_K ord k vf pos = Ok (Ke, Fe) -> good_quad ord pos -> forall i, (i < 4)%nat -> kmul 4 Ke (repeat t 4) i = 0.
Proof.
  intros E G i Hi. replace (repeat t 4) with (linear t (fun _ => 0) pos).
  - rewrite (quadth_patch _ _ _ _ _ _ _ _ E G i Hi). rewrite rsumn_zero; [ring|]. intros; ring.
  - unfold linear. cbn [seq map repeat]. repeat f_equal; unfold rsumn, rsuml; cbn; ring.
Qed.
Lemma quad_sum_det ord pos : quad_sum (i_int ord) (fun r s => quad_det pos r s) = quad_unit ord * shoelace pos.
Proof. rewrite <- quad_vol. reflexivity. Qed.
Theorem quadth_total ord k vf pos Ke Fe : quadth_K ord k vf pos = Ok (Ke, Fe) -> total 4 Fe = vf * (quad_unit ord * shoelace pos).
Proof.
  intros E. destruct (quadth_ok ord k vf pos) as (Ke' & Fe' & E' & _ & _ & _ & W). rewrite E in E'. injection E' as <- <-. unfold total.
  rewrite (rsumn_ext 4 _ (fun i => quad_sum (i_int ord) (fun r s => quad_det pos r s * (vf * quad_N r s i)))) by (intros i Hi; apply W; exact Hi).
  rewrite quad_sum_swap, <- quad_sum_det, <- quad_sum_mul. apply quad_sum_ext. intros r s. rewrite rsumn_mul, rsumn_mul, quad_pou. ring.
Qed.

(* ---- capacity ---- *)
Lemma sum4 (f : nat -> R) : rsumn 4 f = (f 0%nat + f 1%nat + f 2%nat + f 3%nat)%R.
Proof. unfold rsumn, rsuml. cbn. ring. Qed.
Lemma sum2 (f : nat -> R) : rsumn 2 f = (f 0%nat + f 1%nat)%R.
Proof. unfold rsumn, rsuml. cbn. ring. Qed.
Lemma cpoint rho c w ff Ce : length ff = 4%nat -> length Ce = 10%nat ->
  let Ce' := fold_left (fun Ce i => fold_left (fun Ce j =>
          upd Ce (comp16 4 i j) (nth (comp16 4 i j) Ce 0 + nth i ff 0 * nth j ff 0 * rho * c * w)) (seq i (4 - i)) Ce) (seq 0 4) Ce in
  length Ce' = 10%nat /\ forall i j, (i < 4)%nat -> (j < 4)%nat -> nth (sym_comp 4 i j) Ce' 0 = nth (sym_comp 4 i j) Ce 0 + w * (rho * c * (nth i ff 0 * nth j ff 0)).
Proof.
  intros Lf L. do 10 (destruct Ce as [|? Ce]; [discriminate|]). destruct Ce; [|discriminate]. clear L.
  do 4 (destruct ff as [|? ff]; [discriminate|]). destruct ff; [|discriminate]. clear Lf. cbn zeta.
  change (seq 0 4) with [0; 1; 2; 3]%nat. cbn [fold_left seq Nat.sub].
  repeat match goal with |- context [comp16 4 ?i ?j] => let v := eval vm_compute in (comp16 4 i j) in change (comp16 4 i j) with v end.
  cbn [upd nth].
  split; [reflexivity|]. intros i j Hi Hj.
  do 4 (destruct i as [|i]; [do 4 (destruct j as [|j]; [cbn; ring|]); lia|]). lia.
Qed.
Theorem quadth_C_ok ord rho c pos : length (quadth_C ord rho c pos) = 10%nat /\ forall i j, (i < 4)%nat -> (j < 4)%nat ->
  nth (sym_comp 4 i j) (quadth_C ord rho c pos) 0 = quad_sum (i_int ord) (fun r s => quad_det pos r s * (rho * c * (quad_N r s i * quad_N r s j))).
Proof.
  unfold quadth_C, quad_sum. generalize (quad_quad (i_int ord)). intros l.
  assert (Q : forall Ce, length Ce = 10%nat ->
    let R := fold_left (fun Ce q => let '(r, s, w) := q in
      let dWt := dec w * quad_det pos (dec r) (dec s) in
      let ff := quad_ff (dec r) (dec s) in
      fold_left (fun Ce i => fold_left (fun Ce j =>
          upd Ce (comp16 4 i j) (nth (comp16 4 i j) Ce 0 + nth i ff 0 * nth j ff 0 * rho * c * dWt)) (seq i (4 - i)) Ce) (seq 0 4) Ce) l Ce in
    length R = 10%nat /\ forall i j, (i < 4)%nat -> (j < 4)%nat -> nth (sym_comp 4 i j) R 0 = nth (sym_comp 4 i j) Ce 0 +
      rsuml l (fun q => let '(r, s, w) := q in dec w * (quad_det pos (dec r) (dec s) * (rho * c * (quad_N (dec r) (dec s) i * quad_N (dec r) (dec s) j))))).
  { induction l as [|((r, s), w) l IH]; intros Ce L; cbn zeta.
    - split; [exact L|]. intros. cbn. ring.
    - cbn [fold_left]. cbn zeta. destruct (cpoint rho c (dec w * quad_det pos (dec r) (dec s)) (quad_ff (dec r) (dec s)) Ce eq_refl L) as [L1 E1].
      destruct (IH _ L1) as [L2 E2]. split; [exact L2|]. intros i j Hi Hj. rewrite E2 by auto. rewrite E1 by auto. rewrite !ff_entry by auto. rewrite rsuml_cons. ring. }
  destruct (Q (repeat 0 10) eq_refl) as [L E]. split; [exact L|]. intros i j Hi Hj. rewrite E by auto. rewrite nth_rep0. ring.
Qed.
Lemma quadth_C_mul ord rho c pos T i : (i < 4)%nat ->
  kmul 4 (quadth_C ord rho c pos) T i = quad_sum (i_int ord) (fun r s => quad_det pos r s * (rho * c * (quad_N r s i * field T r s))).
Proof.
  intros Hi. destruct (quadth_C_ok ord rho c pos) as [_ E]. unfold kmul.
  rewrite (rsumn_ext 4 _ (fun j => quad_sum (i_int ord) (fun r s => quad_det pos r s * (rho * c * (quad_N r s i * quad_N r s j)) * nth j T 0))).
  - rewrite quad_sum_swap. apply quad_sum_ext. intros r s. unfold field. rewrite !sum4. ring.
  - intros j Hj. rewrite E by auto. rewrite (quad_sum_ext _ (fun r s => quad_det pos r s * (rho * c * (quad_N r s i * quad_N r s j)) * nth j T 0) (fun r s => nth j T 0 * (quad_det pos r s * (rho * c * (quad_N r s i * quad_N r s j))))) by (intros; ring).
    rewrite quad_sum_mul. ring.
Qed.
(* heat content of a temperature rate; stored energy *)
Theorem quadth_C_work ord rho c pos T V : dot 4 (kmul 4 (quadth_C ord rho c pos) T) V = rho * c * quad_sum (i_int ord) (fun r s => quad_det pos r s * (field T r s * field V r s)).
Proof.
  unfold dot. rewrite (rsumn_ext 4 _ (fun i => quad_sum (i_int ord) (fun r s => nth i V 0 * (quad_det pos r s * (rho * c * (quad_N r s i * field T r s)))))).
  - rewrite quad_sum_swap, <- quad_sum_mul. apply quad_sum_ext. intros r s. unfold field. rewrite !sum4. ring.
  - intros i Hi. rewrite quadth_C_mul by auto. rewrite quad_sum_mul. ring.
Qed.
Theorem quadth_C_total ord rho c pos t : rsumn 4 (kmul 4 (quadth_C ord rho c pos) (repeat t 4)) = rho * c * t * (quad_unit ord * shoelace pos).
Proof.
  rewrite (rsumn_ext 4 _ (fun i => quad_sum (i_int ord) (fun r s => quad_det pos r s * (rho * c * (quad_N r s i * field (repeat t 4) r s))))) by (intros; apply quadth_C_mul; auto).
  rewrite quad_sum_swap, <- quad_sum_det, <- quad_sum_mul. apply quad_sum_ext. intros r s.
  assert (F : field (repeat t 4) r s = t).
  { unfold field. transitivity (rsumn 4 (fun n => t * quad_N r s n)); [apply rsumn_ext; intros n Hn; replace (nth n (repeat t 4) 0) with t by (do 4 (destruct n as [|n]; [reflexivity|]); lia); ring|]. rewrite rsumn_mul, quad_pou. ring. }
  rewrite F. rewrite (rsumn_ext 4 _ (fun i => (quad_det pos r s * rho * c * t) * quad_N r s i)) by (intros; ring). rewrite rsumn_mul, quad_pou. ring.
Qed.
Theorem quadth_C_nonneg ord rho c pos T : good_quad ord pos -> 0 <= rho * c -> 0 <= dot 4 (kmul 4 (quadth_C ord rho c pos) T) T.
Proof.
  intros G H. rewrite quadth_C_work. apply Rmult_le_pos; auto. apply (quad_sum_nonneg ord pos (fun r s => field T r s * field T r s) G). intros. apply Rle_0_sqr.
Qed.
(* with one integration point the alternating field has no gradient *)
Definition zigzag : list R := [1; -1; 1; -1].
Theorem quadth_hourglass k vf pos Ke Fe : quadth_K 1 k vf pos = Ok (Ke, Fe) -> forall i, (i < 4)%nat -> kmul 4 Ke zigzag i = 0.
Proof.
  intros E i Hi. rewrite (quadth_mul _ _ _ _ _ _ _ E i Hi).
  assert (G : forall a, (a < 2)%nat -> grad pos zigzag 0 0 a = 0).
  { intros a Ha. unfold grad, quad_nixj, nixj. generalize (jinv 4 2 (quad_dN 0 0) pos). intros J. unfold rsumn, rsuml, zigzag. cbn. decs. field. }
  unfold quad_sum. change (quad_quad (i_int 1)) with [(0, 0, 40000000000000000)%Z]. rewrite rsuml_cons, rsuml_nil.
  replace (dec 0) with 0 by (unfold dec; field). rewrite sum2, !G by lia. ring.
Qed.

(* ---- SurfaceLINETH ---- *)
Ltac entries := repeat match goal with |- Ok _ = Ok _ => apply f_equal | |- (_, _) = (_, _) => f_equal | |- _ :: _ = _ :: _ => f_equal end; try reflexivity; try ring.
Definition conv_step (htc : R) (etemp : R * R) (s : list R * list R) (Ns : list R) (w : R) : outcome (list R * list R) :=
  let n i := nth i Ns 0 in
  let tmp := sym_filled 2 [(0%nat, 0%nat, n 0%nat * n 0%nat * htc * w); (0%nat, 1%nat, n 0%nat * n 1%nat * htc * w);
                           (1%nat, 0%nat, n 0%nat * n 1%nat * htc * w); (1%nat, 1%nat, n 1%nat * n 1%nat * htc * w)] in
  Ke <- @sym_add RNum 2 (fst s) tmp ;;
  Fe <- @matSymBVprod RNum 2 tmp [fst etemp; snd etemp] 1 (snd s) ;;
  Ok (Ke, Fe).
Lemma conv_one htc e0 e1 a b c d e n0 n1 w : conv_step htc (e0, e1) ([a; b; c], [d; e]) [n0; n1] w =
  Ok ([a + n0 * n0 * htc * w; b + n0 * n1 * htc * w; c + n1 * n1 * htc * w], [d + htc * w * (n0 * (n0 * e0 + n1 * e1)); e + htc * w * (n1 * (n0 * e0 + n1 * e1))]).
Proof.
  transitivity (Ok ([a + n0 * n0 * htc * w; b + n0 * n1 * htc * w; c + n1 * n1 * htc * w],
     [d + n0 * n0 * htc * w * e0 * 1 + n0 * n1 * htc * w * e1 * 1; e + n0 * n1 * htc * w * e0 * 1 + n1 * n1 * htc * w * e1 * 1])); [reflexivity|].
  entries.
Qed.
(* the loop over the integration points *)
Lemma line_points_eq ord pos f s : 0 < line_det pos ->
  line_points ord pos f s = ofold (fun s q => f s (line_ff (dec (fst q))) (dec (snd q) * line_det pos)) (quad_line (i_int ord)) s.
Proof.
  intros D. unfold line_points, line_weight. rewrite (rlt_true _ _ D). cbn [asserting].
  generalize (quad_line (i_int ord)). intros l.
  assert (Q : forall l' l0 s, l = l0 ++ l' -> ofold (fun s np => w <- asserting (np <? length l)%nat (Ok (dec (snd (nth np l (0, 0)%Z)) * line_det pos)) ;; f s (line_ff (dec (fst (nth np l (0, 0)%Z)))) w) (seq (length l0) (length l')) s =
     ofold (fun s q => f s (line_ff (dec (fst q))) (dec (snd q) * line_det pos)) l' s).
  { induction l' as [|q l' IH]; intros l0 s0 E; [reflexivity|]. cbn [length seq ofold].
    replace (length l0 <? length l)%nat with true by (symmetry; apply Nat.ltb_lt; subst l; rewrite app_length; cbn; lia).
    replace (nth (length l0) l (0, 0)%Z) with q by (subst l; now rewrite nth_middle). cbn [asserting obind].
    destruct (f s0 (line_ff (dec (fst q))) (dec (snd q) * line_det pos)); cbn [obind]; try reflexivity.
    specialize (IH (l0 ++ [q]) a). rewrite app_length in IH. cbn [length] in IH. rewrite Nat.add_1_r in IH. apply IH. now rewrite <- app_assoc. }
  exact (Q l [] s eq_refl).
Qed.
Definition lsum (l : list (Z * Z)) (f : R -> R) : R := rsuml l (fun q => let '(r, w) := q in dec w * f (dec r)).
Lemma lsum_cons r w l f : lsum ((r, w) :: l) f = dec w * f (dec r) + lsum l f.
Proof. unfold lsum. now rewrite rsuml_cons. Qed.
Lemma flux_fold flux L l : forall (K : list R) (d e : R), ofold (fun (s : list R * list R) (q : Z * Z) => Ok (fst s, vaxpy 2 (snd s) (line_ff (dec (fst q))) (flux * (dec (snd q) * L)))) l (K, [d; e]) =
  Ok (K, [d + flux * L * lsum l (fun r => line_N r 0); e + flux * L * lsum l (fun r => line_N r 1)]).
Proof.
  induction l as [|(r, w) l IH]; intros K d e.
  - cbn [ofold]. unfold lsum. rewrite !rsuml_nil. entries.
  - cbn [ofold obind fst snd]. change (vaxpy 2 [d; e] (line_ff (dec r)) (flux * (dec w * L))) with [d + line_N (dec r) 0 * (flux * (dec w * L)); e + line_N (dec r) 1 * (flux * (dec w * L))].
    rewrite IH, !lsum_cons. entries.
Qed.
Lemma conv_fold htc e0 e1 L l : forall (a b c d e : R), ofold (fun (s : list R * list R) (q : Z * Z) => conv_step htc (e0, e1) s (line_ff (dec (fst q))) (dec (snd q) * L)) l ([a; b; c], [d; e]) =
  Ok ([a + htc * L * lsum l (fun r => line_N r 0 * line_N r 0); b + htc * L * lsum l (fun r => line_N r 0 * line_N r 1); c + htc * L * lsum l (fun r => line_N r 1 * line_N r 1)],
      [d + htc * L * lsum l (fun r => line_N r 0 * (line_N r 0 * e0 + line_N r 1 * e1)); e + htc * L * lsum l (fun r => line_N r 1 * (line_N r 0 * e0 + line_N r 1 * e1))]).
Proof.
  induction l as [|(r, w) l IH]; intros a b c d e.
  - cbn [ofold]. unfold lsum. rewrite !rsuml_nil. entries.
  - cbn [ofold fst snd]. change (line_ff (dec r)) with [line_N (dec r) 0; line_N (dec r) 1]. rewrite conv_one. cbn [obind]. rewrite IH, !lsum_cons. entries.
Qed.
Lemma lsum_mix (F H d : R) l (N T : R -> R) : F * d * lsum l N + H * d * lsum l (fun r => N r * T r) = d * lsum l (fun r => N r * (F + H * T r)).
Proof. induction l as [|(r, w) l IH]; [unfold lsum; rewrite !rsuml_nil; ring|]. rewrite !lsum_cons. match goal with |- _ = ?a * (?x + ?y) => rewrite (Rmult_plus_distr_l a x y) end. rewrite <- IH. ring. Qed.
Lemma lsum_is l k f : l = quad_line k -> lsum l f = line_sum k f.
Proof. now intros ->. Qed.
Lemma det_dist pos : line_det pos = dist3 (pos 0%nat) (pos 1%nat) / 2.
Proof. unfold line_det. rewrite vlen_dist. lra. Qed.
Definition apart (pos : nat -> nat -> R) : Prop := exists i, (i < 3)%nat /\ pos 1%nat i <> pos 0%nat i.
Lemma apart_pos pos : apart pos -> 0 < line_det pos.
Proof.
  intros (i & Hi & Hne). unfold line_det. assert (0 < vlen 3 (fun i => pos 1%nat i - pos 0%nat i)); [|lra]. apply vlen_pos. exists i. split; [exact Hi|]. lra.
Qed.
Theorem lineth_ok ord flux htc e pos : apart pos ->
  let L := dist3 (pos 0%nat) (pos 1%nat) in
  exists Ke Fe : list R, lineth_K ord flux htc e pos = Ok (Ke, Fe) /\ length Ke = 3%nat /\ length Fe = 2%nat /\ (forall i j, (i < 2)%nat -> (j < 2)%nat -> nth (sym_comp 2 i j) Ke 0 = htc * (L / 2) * line_sum (i_int ord) (fun r => line_N r i * line_N r j)) /\ (forall i, (i < 2)%nat -> nth i Fe 0 = L / 2 * line_sum (i_int ord) (fun r => line_N r i * (flux + htc * (line_N r 0 * fst e + line_N r 1 * snd e)))).
Proof.
  intros A. cbn zeta. rewrite <- det_dist. pose proof (apart_pos _ A) as D. destruct e as (e0, e1).
  set (l := quad_line (i_int ord)). set (d := line_det pos) in *.
  exists [htc * d * lsum l (fun r => line_N r 0 * line_N r 0); htc * d * lsum l (fun r => line_N r 0 * line_N r 1); htc * d * lsum l (fun r => line_N r 1 * line_N r 1)],
    [flux * d * lsum l (fun r => line_N r 0) + htc * d * lsum l (fun r => line_N r 0 * (line_N r 0 * e0 + line_N r 1 * e1));
     flux * d * lsum l (fun r => line_N r 1) + htc * d * lsum l (fun r => line_N r 1 * (line_N r 0 * e0 + line_N r 1 * e1))].
  split.
  { unfold lineth_K. cbn zeta. 
    assert (F : (if Req_EM_T flux 0 then Ok (repeat 0 3, repeat 0 2)
        else line_points ord pos (fun s Ns w => Ok (fst s, vaxpy 2 (snd s) Ns (flux * w))) (repeat 0 3, repeat 0 2)) =
        Ok (repeat 0 3, [flux * d * lsum l (fun r => line_N r 0); flux * d * lsum l (fun r => line_N r 1)])).
    { destruct (Req_EM_T flux 0) as [->|_].
      - cbn [repeat]; entries.
      - rewrite line_points_eq by exact D. change (repeat 0 2) with [0; 0]. fold d l. rewrite flux_fold. entries. }
    rewrite F. cbn [obind]. destruct (Req_EM_T htc 0) as [->|_].
    - cbn [repeat]; entries.
    - rewrite line_points_eq by exact D. fold d l. change (repeat 0 3) with [0; 0; 0].
      etransitivity; [exact (conv_fold htc e0 e1 d l 0 0 0 _ _)|]. entries. }
  split; [reflexivity|]. split; [reflexivity|]. split.
  - intros i j Hi Hj.
    assert (Q : lsum l (fun r => line_N r 0 * line_N r 1) = line_sum (i_int ord) (fun r => line_N r 1 * line_N r 0)) by (apply rsuml_ext; intros (r, w) _; ring).
    do 2 (destruct i as [|i]; [do 2 (destruct j as [|j]; [first [reflexivity | apply (f_equal (Rmult (htc * d)) Q)]|]); lia|]). lia.
  - intros i Hi. cbn [fst snd]. do 2 (destruct i as [|i]; [cbn [nth]; apply lsum_mix|]). lia.
Qed.

Lemma line_sum_mul k c f : line_sum k (fun r => c * f r) = c * line_sum k f.
Proof. unfold line_sum. rewrite <- rsuml_mul. apply rsuml_ext. intros (r, w) _. ring. Qed.
Lemma line_sum_plus k f g : line_sum k (fun r => f r + g r) = line_sum k f + line_sum k g.
Proof. unfold line_sum. rewrite <- rsuml_plus. apply rsuml_ext. intros (r, w) _. ring. Qed.
Lemma line_sum_lin ord a b : line_sum (i_int ord) (fun r => a + b * r) = 2 * a.
Proof. unfold line_sum. destruct (i_int_cases ord) as [(_ & E) | [(_ & E) | (_ & E)]]; rewrite E; unfold rsuml; cbn; unfold dec; field. Qed.
(* the heat taken in: flux plus exchange with the mean difference of the temperatures *)
Theorem lineth_balance ord flux htc e pos Ke Fe T : apart pos -> lineth_K ord flux htc e pos = Ok (Ke, Fe) ->
  total 2 Fe - rsumn 2 (kmul 2 Ke T) = dist3 (pos 0%nat) (pos 1%nat) * (flux + htc * ((fst e + snd e) / 2 - (nth 0 T 0 + nth 1 T 0) / 2)).
Proof.
  intros A E. destruct (lineth_ok ord flux htc e pos A) as (Ke' & Fe' & E' & _ & _ & WK & WF). rewrite E in E'. injection E' as <- <-.
  unfold total, kmul. rewrite !sum2, !WF, !WK by lia. set (L := dist3 _ _). set (k := i_int ord).
  transitivity (L / 2 * line_sum k (fun r => (flux + htc * (line_N r 0 * (fst e - nth 0 T 0) + line_N r 1 * (snd e - nth 1 T 0))))).
  - rewrite (Rmult_comm (htc * (L / 2) * _) (nth 0 T 0)).
    unfold line_sum. induction (quad_line k) as [|(r, w) l IH]; [rewrite !rsuml_nil; ring|]. rewrite !rsuml_cons.
    match goal with |- _ = ?a * (?x + ?y) => rewrite (Rmult_plus_distr_l a x y) end. rewrite <- IH. pose proof (line_pou (dec r)) as P. rewrite sum2 in P.
    replace (line_N (dec r) 1) with (1 - line_N (dec r) 0) by lra. ring.
  - transitivity (L / 2 * line_sum k (fun r => (flux + htc * (0.5 * (fst e - nth 0 T 0) + 0.5 * (snd e - nth 1 T 0))) + htc * (0.5 * (snd e - nth 1 T 0) - 0.5 * (fst e - nth 0 T 0)) * r)).
    + f_equal. apply rsuml_ext. intros (r, w) _. cbn [line_N]. ring.
    + unfold k. rewrite line_sum_lin. decs. field.
Qed.
(* no exchange when the surface has the temperature of the environment *)
Theorem lineth_rest ord htc e pos Ke Fe : apart pos -> lineth_K ord 0 htc e pos = Ok (Ke, Fe) -> forall i, (i < 2)%nat -> kmul 2 Ke [fst e; snd e] i = nth i Fe 0.
Proof.
  intros A E i Hi. destruct (lineth_ok ord 0 htc e pos A) as (Ke' & Fe' & E' & _ & _ & WK & WF). rewrite E in E'. injection E' as <- <-.
  unfold kmul. rewrite sum2, WF, !WK by lia. cbn [nth]. unfold line_sum.
  induction (quad_line (i_int ord)) as [|(r, w) l IH]; [rewrite !rsuml_nil; ring|]. rewrite !rsuml_cons.
  match goal with |- _ = ?a * (?x + ?y) => rewrite (Rmult_plus_distr_l a x y) end. rewrite <- IH. ring.
Qed.
(* coincident nodes with a load *)
Theorem lineth_zero ord flux htc e pos : (forall i, (i < 3)%nat -> pos 1%nat i = pos 0%nat i) -> flux <> 0 \/ htc <> 0 -> lineth_K ord flux htc e pos = UB.
Proof.
  intros H N. assert (D : line_det pos = 0) by (unfold line_det; rewrite vlen_zero; [ring|]; intros i Hi; rewrite H by exact Hi; ring).
  assert (Q : forall f s, line_points ord pos f s = UB).
  { intros f s. unfold line_points, line_weight. rewrite D, rlt_false by lra. destruct (i_int_cases ord) as [(_ & E) | [(_ & E) | (_ & E)]]; rewrite E; reflexivity. }
  unfold lineth_K. cbn zeta. destruct (Req_EM_T flux 0); [|now rewrite Q]. cbn [obind]. destruct (Req_EM_T htc 0); [|apply Q]. destruct N; contradiction.
Qed.
(* close to the exact integrals of N_i N_j from order 2 on *)
Lemma line_exact ord i j : (2 <= ord)%nat -> (i < 2)%nat -> (j < 2)%nat ->
  Rabs (line_sum (i_int ord) (fun r => line_N r i * line_N r j) - (if (i =? j)%nat then 2 / 3 else 1 / 3)) <= / 10 ^ 15.
Proof.
  intros Ho Hi Hj. unfold line_sum. destruct (i_int_cases ord) as [(H & E) | [(H & E) | (H & E)]]; [lia| |]; rewrite E;
  (do 2 (destruct i as [|i]; [do 2 (destruct j as [|j]; [unfold rsuml; cbn; unfold dec; decs; apply Rabs_le; lra|]); lia|]); lia).
Qed.
(* pre(): a second environment temperature of zero is replaced *)
Lemma line_pre_idem e : line_pre (line_pre e) = line_pre e.
Proof. unfold line_pre. destruct (Req_EM_T (snd e) 0) as [H|H]; cbn [fst snd]; [destruct (Req_EM_T (fst e) 0); reflexivity|]. destruct (Req_EM_T (snd e) 0); [contradiction|reflexivity]. Qed.
Lemma line_pre_given e : snd e <> 0 \/ snd e = fst e -> line_pre e = e.
Proof. intros H. unfold line_pre. destruct (Req_EM_T (snd e) 0) as [Z|Z]; [|reflexivity]. destruct e as (a, b). cbn in *. destruct H; [contradiction|]. now subst. Qed.
