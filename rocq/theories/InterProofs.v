From Coq Require Import Reals Lra.
From Verif Require Import Base BaseProofs RealBase MatModel MatProofs IsoModel SpecIso IsoProofs ElemModel SpecElem ElemBase ElemProofs ElemMore InterModel SpecInter.
Local Open Scope R_scope.

Lemma cross_perp a b : cross a b 0%nat * a 0%nat + cross a b 1%nat * a 1%nat + cross a b 2%nat * a 2%nat = 0.
Proof. unfold cross, vec3. ring. Qed.
Lemma lagrange (a b : nat -> R) : cross a b 0%nat * cross a b 0%nat + cross a b 1%nat * cross a b 1%nat + cross a b 2%nat * cross a b 2%nat =
  (a 0%nat * a 0%nat + a 1%nat * a 1%nat + a 2%nat * a 2%nat) * (b 0%nat * b 0%nat + b 1%nat * b 1%nat + b 2%nat * b 2%nat)
  - (a 0%nat * b 0%nat + a 1%nat * b 1%nat + a 2%nat * b 2%nat) * (a 0%nat * b 0%nat + a 1%nat * b 1%nat + a 2%nat * b 2%nat).
Proof. unfold cross, vec3. ring. Qed.
Lemma proper_sq pos : proper3 pos -> 0 < area_vec pos 0%nat * area_vec pos 0%nat + area_vec pos 1%nat * area_vec pos 1%nat + area_vec pos 2%nat * area_vec pos 2%nat.
Proof.
  intros (i & Hi & H). assert (0 < area_vec pos i * area_vec pos i) by (destruct (Rtotal_order (area_vec pos i) 0) as [A|[A|A]]; nra).
  pose proof (Rle_0_sqr (area_vec pos 0%nat)). pose proof (Rle_0_sqr (area_vec pos 1%nat)). pose proof (Rle_0_sqr (area_vec pos 2%nat)). unfold Rsqr in *.
  destruct i as [|[|[|i]]]; try lia; lra.
Qed.
Lemma vlen_nonneg v : 0 <= vlen 3 v.
Proof. unfold vlen. apply sqrt_pos. Qed.
Lemma pos_sq x y : 0 <= x -> x * x = y -> 0 < y -> 0 < x.
Proof. intros. destruct (Rle_lt_or_eq_dec 0 x H); [auto|subst; lra]. Qed.
Section Tri.
  Variable pos : nat -> nat -> R.
  Hypothesis P : proper3 pos.
  Let t1 := side1 pos.
  Let t2 := side2 pos.
  Let n := area_vec pos.
  Lemma sides_pos : 0 < vlen 3 t1 /\ 0 < vlen 3 t2 /\ 0 < vlen 3 n.
  Proof.
    pose proof (proper_sq pos P) as Q. unfold area_vec in Q. rewrite lagrange in Q. fold t1 t2 in Q.
    pose proof (vlen_sq t1) as A. pose proof (vlen_sq t2) as B. pose proof (vlen_nonneg t1). pose proof (vlen_nonneg t2). rewrite <- A, <- B in Q.
    set (m := t1 0%nat * t2 0%nat + t1 1%nat * t2 1%nat + t1 2%nat * t2 2%nat) in Q. pose proof (Rle_0_sqr m) as M. unfold Rsqr in M.
    assert (X : vlen 3 t1 <> 0) by (intros E; rewrite E, !Rmult_0_l in Q; lra). assert (Y : vlen 3 t2 <> 0) by (intros E; rewrite E, !Rmult_0_r in Q; lra).
    assert (Z : forall x, 0 <= x -> x <> 0 -> 0 < x) by (intros x U V; destruct (Rle_lt_or_eq_dec 0 x U); [auto|congruence]).
    split; [apply Z; auto|]. split; [apply Z; auto|]. apply (pos_sq _ _ (vlen_nonneg n) (vlen_sq n)). apply (proper_sq pos P).
  Qed.
  Theorem jacob_ok : inter3_jacob pos = Ok (2 * area3 pos).
  Proof.
    destruct sides_pos as (A & B & C). unfold inter3_jacob. fold t1 t2.
    set (m := t1 0%nat * t2 0%nat + t1 1%nat * t2 1%nat + t1 2%nat * t2 2%nat).
    rewrite !rdiv_ok by lra. cbn [obind]. rewrite rdiv_ok by lra. cbn [obind].
    set (la := vlen 3 t1) in *. set (lb := vlen 3 t2) in *. set (q := m / la / lb).
    assert (L : la * la * (lb * lb) - m * m = vlen 3 n * vlen 3 n).
    { unfold la, lb. rewrite !vlen_sq. unfold n, area_vec. rewrite lagrange. reflexivity. }
    assert (Q : q * (la * lb) = m) by (unfold q; field; lra).
    assert (AB : 0 < la * lb) by (apply Rmult_lt_0_compat; auto).
    assert (Q2 : (1 - q * q) * ((la * lb) * (la * lb)) = vlen 3 n * vlen 3 n) by (rewrite <- L, <- Q; ring).
    assert (S : 0 < 1 - q * q).
    { assert (0 < vlen 3 n * vlen 3 n) by (apply Rmult_lt_0_compat; auto). assert (0 < (la * lb) * (la * lb)) by (apply Rmult_lt_0_compat; auto).
      destruct (Rlt_dec 0 (1 - q * q)) as [Y|Y]; [exact Y|]. exfalso. assert ((1 - q * q) * (la * lb * (la * lb)) <= 0) by nra. lra. }
    assert (B1 : -1 <= q <= 1) by nra.
    rewrite cos_acos, sin_acos by exact B1.
    assert (E : (0 - lb * q) * (0 - lb * sqrt (1 - q²)) - (0 - lb * sqrt (1 - q²)) * (la - lb * q) = vlen 3 n).
    { transitivity (la * lb * sqrt (1 - q²)); [ring|]. unfold Rsqr.
      apply Rsqr_inj; [apply Rmult_le_pos; [lra|apply sqrt_pos]|lra|]. unfold Rsqr.
      transitivity ((sqrt (1 - q * q) * sqrt (1 - q * q)) * ((la * lb) * (la * lb))); [ring|]. rewrite sqrt_sqrt by lra. exact Q2. }
    rewrite E. destruct (Rlt_dec (vlen 3 n) 0); [lra|]. f_equal. unfold area3. rewrite <- vlen_norm. fold n. field.
  Qed.
  (* the columns of T *)
  Lemma T_ok : exists T, inter3_T pos = Ok T /\ (forall i, T i 2%nat = unit3 n i) /\
    (forall i j, (i < 3)%nat -> (j < 3)%nat -> rsumn 3 (fun k => T i k * T j k) = dlt i j) /\
    (forall k l, (k < 3)%nat -> (l < 3)%nat -> rsumn 3 (fun i => T i k * T i l) = dlt k l).
  Proof.
    destruct sides_pos as (HA & _ & HN). unfold inter3_T. fold t1 t2. change (cross t1 t2) with n.
    set (c := cross n t1).
    assert (Ho : t1 0%nat * n 0%nat + t1 1%nat * n 1%nat + t1 2%nat * n 2%nat = 0).
    { pose proof (cross_perp t1 t2) as X. change (cross t1 t2) with n in X. lra. }
    destruct (triad (n 0%nat) (n 1%nat) (n 2%nat) (t1 0%nat) (t1 1%nat) (t1 2%nat) Ho) as (TC & T00 & T11 & T22 & T01 & T02 & T12).
    pose proof (vlen_sq n) as Ln. pose proof (vlen_sq t1) as La. pose proof (vlen_sq c) as Lc.
    change (c 0%nat) with (n 1%nat * t1 2%nat - n 2%nat * t1 1%nat) in Lc. change (c 1%nat) with (n 2%nat * t1 0%nat - n 0%nat * t1 2%nat) in Lc.
    change (c 2%nat) with (n 0%nat * t1 1%nat - n 1%nat * t1 0%nat) in Lc. rewrite TC in Lc.
    set (N := n 0%nat * n 0%nat + n 1%nat * n 1%nat + n 2%nat * n 2%nat) in *.
    set (A := t1 0%nat * t1 0%nat + t1 1%nat * t1 1%nat + t1 2%nat * t1 2%nat) in *.
    set (ln := vlen 3 n) in *. set (la := vlen 3 t1) in *. set (lc := vlen 3 c) in *.
    assert (HN' : 0 < N) by nra. assert (HA' : 0 < A) by nra.
    assert (HC : lc <> 0) by (intros E; rewrite E in Lc; nra).
    rewrite !rdiv_ok by lra. cbn [obind]. eexists. split; [reflexivity|]. cbn beta iota.
    assert (TT : forall i j, (i < 3)%nat -> (j < 3)%nat -> N * t1 i * t1 j + c i * c j + A * n i * n j = N * A * dlt i j).
    { intros i j Hi Hj. unfold dlt, c, cross, vec3. destruct i as [|[|[|i]]], j as [|[|[|j]]]; try lia; cbn [Nat.eqb]; lra. }
    split. { intros i. unfold unit3. rewrite <- vlen_norm. fold ln. field. lra. }
    split.
    - intros i j Hi Hj. rewrite rs3.
      transitivity (t1 i * t1 j / (la * la) + c i * c j / (lc * lc) + n i * n j / (ln * ln)); [field; repeat split; lra|].
      rewrite La, Lc, Ln. transitivity ((N * t1 i * t1 j + c i * c j + A * n i * n j) / (N * A)); [field; lra|]. rewrite TT by auto. field. lra.
    - intros k l Hk Hl. rewrite rs3.
      assert (P12 : c 0%nat * n 0%nat + c 1%nat * n 1%nat + c 2%nat * n 2%nat = 0) by exact (cross_perp n t1).
      assert (P01 : c 0%nat * t1 0%nat + c 1%nat * t1 1%nat + c 2%nat * t1 2%nat = 0) by (unfold c, cross, vec3; ring).
      assert (Cc : c 0%nat * c 0%nat + c 1%nat * c 1%nat + c 2%nat * c 2%nat = lc * lc) by (unfold lc; rewrite vlen_sq; reflexivity).
      destruct k as [|[|[|k]]], l as [|[|[|l]]]; try lia; unfold dlt; cbn [Nat.eqb];
        match goal with |- ?x 0%nat * ?a * (?y 0%nat * ?b) + _ + _ = _ => transitivity ((x 0%nat * y 0%nat + x 1%nat * y 1%nat + x 2%nat * y 2%nat) * (a * b)); [ring|] end.
      + fold A. rewrite <- La. field. lra.
      + replace (t1 0%nat * c 0%nat + t1 1%nat * c 1%nat + t1 2%nat * c 2%nat) with 0 by lra. ring.
      + rewrite Ho. ring.
      + rewrite P01. ring.
      + rewrite Cc. field. lra.
      + rewrite P12. ring.
      + replace (n 0%nat * t1 0%nat + n 1%nat * t1 1%nat + n 2%nat * t1 2%nat) with 0 by lra. ring.
      + replace (n 0%nat * c 0%nat + n 1%nat * c 1%nat + n 2%nat * c 2%nat) with 0 by lra. ring.
      + fold N. rewrite <- Ln. field. lra.
  Qed.
End Tri.

Lemma div3 a c : (c < 3)%nat -> ((3 * a + c) / 3 = a)%nat /\ ((3 * a + c) mod 3 = c)%nat.
Proof.
  intros H. split.
  - symmetry. apply (Nat.div_unique _ 3 a c); lia.
  - symmetry. apply (Nat.mod_unique _ 3 a c); lia.
Qed.
Lemma block_sum a (f : nat -> R) : (a < 6)%nat -> rsumn 18 (fun p => if (p / 3 =? a)%nat then f p else 0) = rsumn 3 (fun m => f (3 * a + m)%nat).
Proof. intros H. do 6 (destruct a as [|a]; [unfold rsumn, rsuml; cbn; ring|]). lia. Qed.
Lemma glob_block T K a b c d : (a < 6)%nat -> (b < 6)%nat -> (c < 3)%nat -> (d < 3)%nat ->
  inter3_glob T K (3 * a + c) (3 * b + d) = rsumn 3 (fun m => rsumn 3 (fun l => T c m * K (3 * a + m)%nat (3 * b + l)%nat * T d l)).
Proof.
  intros Ha Hb Hc Hd. unfold inter3_glob, inter3_TK. destruct (div3 a c Hc) as [-> ->]. destruct (div3 b d Hd) as [-> ->].
  transitivity (rsumn 18 (fun p => if (p / 3 =? a)%nat then rsumn 3 (fun l => T c (p mod 3)%nat * K p (3 * b + l)%nat * T d l) else 0)).
  - apply rsumn_ext. intros p Hp. destruct (p / 3 =? a)%nat.
    + transitivity (rsumn 18 (fun q => if (q / 3 =? b)%nat then T c (p mod 3)%nat * K p q * T d (q mod 3)%nat else 0)).
      * apply rsumn_ext. intros q Hq. destruct (q / 3 =? b)%nat; ring.
      * rewrite block_sum by auto. apply rsumn_ext. intros l Hl. now destruct (div3 b l Hl) as [_ ->].
    + apply rsumn_zero. intros q Hq. ring.
  - rewrite block_sum by auto. apply rsumn_ext. intros m Hm. now destruct (div3 a m Hm) as [_ ->].
Qed.
Lemma B_entry q k a m : (a < 6)%nat -> (m < 3)%nat -> inter3_B q k (3 * a + m) = dlt m k * (face a * i3_L q (a mod 3)).
Proof.
  intros Ha Hm. unfold inter3_B. destruct (div3 a m Hm) as [-> ->]. unfold dlt, face. destruct (m =? k)%nat; [|ring]. generalize (i3_L q). intros L.
  do 6 (destruct a as [|a]; [cbv [Nat.ltb Nat.leb]; cbn; ring|]). lia.
Qed.
Lemma dlt_sum m (f : nat -> R) : (m < 3)%nat -> rsumn 3 (fun k => dlt m k * f k) = f m.
Proof. intros H. rewrite rs3. do 3 (destruct m as [|m]; [unfold dlt; cbn; ring|]). lia. Qed.
Lemma local_entry det ks kn a b m l : (a < 6)%nat -> (b < 6)%nat -> (m < 3)%nat -> (l < 3)%nat -> (a <= b)%nat ->
  inter3_local det ks kn (3 * a + m) (3 * b + l) = dlt m l * (inter3_D ks kn m * (face a * face b * (det * mass (a mod 3) (b mod 3)))).
Proof.
  intros Ha Hb Hm Hl H. unfold inter3_local.
  assert (Q : rsuml i3_points (fun q => i3_weight det q * rsumn 3 (fun k => inter3_B q k (3 * a + m) * inter3_D ks kn k * inter3_B q k (3 * b + l))) =
    dlt m l * (inter3_D ks kn m * (face a * face b * (det * mass (a mod 3) (b mod 3))))).
  { transitivity (rsuml i3_points (fun q => (dlt m l * (inter3_D ks kn m * (face a * face b * det))) * (i3_weight 1 q * (i3_L q (a mod 3) * i3_L q (b mod 3))))).
    - apply rsuml_ext. intros q _.
      transitivity (i3_weight det q * rsumn 3 (fun k => dlt m k * (face a * i3_L q (a mod 3) * inter3_D ks kn k * (dlt l k * (face b * i3_L q (b mod 3)))))).
      + f_equal. apply rsumn_ext. intros k Hk. rewrite !B_entry by auto. ring.
      + rewrite dlt_sum by auto. unfold i3_weight. replace (dlt l m) with (dlt m l) by (unfold dlt; now rewrite Nat.eqb_sym). ring.
    - rewrite rsuml_mul. unfold mass. ring. }
  destruct (3 * a + m <=? 3 * b + l)%nat eqn:E; [exact Q|]. apply Nat.leb_gt in E. assert (N : (m =? l)%nat = false) by (apply Nat.eqb_neq; lia). unfold dlt. rewrite N. ring.
Qed.
Lemma mass_sym a b : mass a b = mass b a.
Proof. unfold mass. apply rsuml_ext. intros q _. ring. Qed.
Lemma interface_sym ks kn n c d : interface ks kn n c d = interface ks kn n d c.
Proof. unfold interface, dlt. rewrite (Nat.eqb_sym c d). ring. Qed.
Theorem inter3_ok pos ks kn : proper3 pos -> exists K, inter3_buildK pos ks kn = Ok (2 * area3 pos, fst K, snd K) /\
  (forall i, fst K i = unit3 (area_vec pos) i) /\
  forall a b c d, (a < 6)%nat -> (b < 6)%nat -> (c < 3)%nat -> (d < 3)%nat ->
    snd K (3 * a + c)%nat (3 * b + d)%nat = face a * face b * (2 * area3 pos * mass (a mod 3) (b mod 3)) * interface ks kn (area_vec pos) c d.
Proof.
  intros P. destruct (T_ok pos P) as (T & ET & TN & TR & TCc). set (det := 2 * area3 pos).
  exists (fun i => T i 2%nat, fun i j => if (i <=? j)%nat then inter3_glob T (inter3_local det ks kn) i j else inter3_glob T (inter3_local det ks kn) j i).
  split. { unfold inter3_buildK. rewrite (jacob_ok pos P). cbn [obind]. rewrite ET. reflexivity. }
  split; [exact TN|]. cbn [snd].
  assert (G : forall a b c d, (a < 6)%nat -> (b < 6)%nat -> (c < 3)%nat -> (d < 3)%nat -> (a <= b)%nat ->
    inter3_glob T (inter3_local det ks kn) (3 * a + c) (3 * b + d) = face a * face b * (det * mass (a mod 3) (b mod 3)) * interface ks kn (area_vec pos) c d).
  { intros a b c d Ha Hb Hc Hd H. rewrite glob_block by auto.
    transitivity (face a * face b * (det * mass (a mod 3) (b mod 3)) * rsumn 3 (fun m => T c m * inter3_D ks kn m * T d m)).
    - rewrite <- rsumn_mul. apply rsumn_ext. intros m Hm.
      transitivity (rsumn 3 (fun l => dlt m l * (T c m * inter3_D ks kn m * (face a * face b * (det * mass (a mod 3) (b mod 3))) * T d l))).
      + apply rsumn_ext. intros l Hl. rewrite local_entry by auto. ring.
      + rewrite dlt_sum by auto. ring.
    - f_equal. unfold interface. rewrite <- !TN. specialize (TR c d Hc Hd). rewrite rs3 in *. unfold inter3_D. rewrite <- TR. ring. }
  intros a b c d Ha Hb Hc Hd. destruct (3 * a + c <=? 3 * b + d)%nat eqn:E.
  - apply Nat.leb_le in E. apply G; auto. lia.
  - apply Nat.leb_gt in E. rewrite G by (auto; lia). rewrite (mass_sym (b mod 3)), (interface_sym _ _ _ d c). ring.
Qed.
(* the table *)
Lemma mass_exact a b : (a < 3)%nat -> (b < 3)%nat -> Rabs (mass a b - (if (a =? b)%nat then 1 / 12 else 1 / 24)) <= / 10 ^ 9.
Proof.
  intros Ha Hb. unfold mass, i3_points, i3_weight, i3_L, rado_AJ, rado_AS, rado_H, rado_AI, d10, rsuml.
  do 3 (destruct a as [|a]; [do 3 (destruct b as [|b]; [cbn; apply Rabs_le; lra|]); lia|]). lia.
Qed.
Definition i3_area : R := rsuml i3_points (fun q => i3_weight 1 q).
Lemma i3_area_ok : Rabs (i3_area - 1 / 2) <= / 10 ^ 9.
Proof. unfold i3_area, i3_points, i3_weight, i3_L, rado_AJ, rado_AS, rado_H, rado_AI, d10, rsuml. cbn. apply Rabs_le. lra. Qed.
