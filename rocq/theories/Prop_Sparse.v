(* C01-C11, C69: sparsity patterns and sparse matrices (src/lib/math/SparseMatrix.{h,cpp}) *)
From Verif Require Import Base BaseProofs SparseModel SpecSparse SparseFinal Floats.
From Coq Require Import QArith Qcanon.
Local Open Scope nat_scope.

(* ---------------- C01 ---------------- *)
Theorem C01_pattern_is_registered_set : forall nr nc cap es,
  0 < cap -> (forall e, In e es -> in_shape nr nc e) -> fits nr cap es ->
  exists s, build nr nc cap es = Ok s /\
    si_nvals s = length (positions es) /\
    (forall i j, in_shape nr nc (i, j) ->
       (In (i, j) es -> exists k, si_getIndex s i j = Ok (Some k) /\ k < si_nvals s) /\
       (~ In (i, j) es -> si_getIndex s i j = Ok None)) /\
    (forall i j i' j' k, in_shape nr nc (i, j) -> in_shape nr nc (i', j') ->
       si_getIndex s i j = Ok (Some k) -> si_getIndex s i' j' = Ok (Some k) -> (i, j) = (i', j')) /\
    (forall k, k < si_nvals s -> exists i j, In (i, j) es /\ si_getIndex s i j = Ok (Some k)).
Proof. exact pattern_exact. Qed.
Print Assumptions C01_pattern_is_registered_set.

Theorem C01_overflow_aborts : forall nr nc cap es,
  0 < cap -> (forall e, In e es -> in_shape nr nc e) ->
  (build nr nc cap es = Fatal <-> ~ fits nr cap es).
Proof. exact overflow_iff. Qed.
Print Assumptions C01_overflow_aborts.

Theorem C01_registering_twice_changes_nothing : forall nr nc cap es e,
  0 < cap -> (forall e, In e es -> in_shape nr nc e) -> In e es ->
  build nr nc cap (es ++ [e]) = build nr nc cap es.
Proof. exact readd. Qed.
Print Assumptions C01_registering_twice_changes_nothing.

(* a 3x4 pattern with unsorted and repeated registrations and an empty row *)
Definition ex_es : list (nat * nat) := [(3, 4); (1, 2); (3, 1); (1, 1); (3, 4)].
Example ex_es_ok : 0 < 2 /\ (forall e, In e ex_es -> in_shape 3 4 e) /\ fits 3 2 ex_es.
Proof.
  split; [lia|]. split.
  - intros e [<-|[<-|[<-|[<-|[<-|[]]]]]]; split; cbn; lia.
  - intros i Hi. destruct i as [|[|[|[|i]]]]; cbn; lia.
Qed.
Example ex_es_built : exists s, build 3 4 2 ex_es = Ok s /\ si_nvals s = 4 /\
  si_getIndex s 3 1 = Ok (Some 2) /\ si_getIndex s 2 2 = Ok None.
Proof. eexists; split; [vm_compute; reflexivity|]. split; [|split]; vm_compute; reflexivity. Qed.
Example ex_es_overflow : build 3 4 1 ex_es = Fatal.
Proof. vm_compute; reflexivity. Qed.

(* ---------------- C02 ---------------- *)
(* UB (an access outside an array), Loop and Fatal are distinct outcomes of si_getIndex *)
Theorem C02_lookup_total : forall nr nc cap es s i j,
  build nr nc cap es = Ok s -> in_shape nr nc (i, j) ->
  exists o, si_getIndex s i j = Ok o /\ (o = None <-> ~ In (i, j) es) /\
    (forall k, o = Some k -> k < si_nvals s).
Proof. exact lookup_total. Qed.
Print Assumptions C02_lookup_total.
Example C02_empty_pattern : exists s, build 3 3 1 [] = Ok s /\ si_getIndex s 2 3 = Ok None.
Proof. eexists; split; vm_compute; reflexivity. Qed.

(* ---------------- C03 ---------------- *)
Theorem C03_matrix_is_a_map : forall (K : Rng) nr nc cap es (os : list (vop K)),
  0 < cap -> (forall e, In e es -> in_shape nr nc e) -> fits nr cap es ->
  (forall o p, In o os -> vop_pos o = Some p -> In p es) ->
  exists m : smat K, filled nr nc cap es os = Ok m /\
    forall i j, in_shape nr nc (i, j) -> mat_value m i j = Ok (spec_vops os i j).
Proof. exact map_semantics. Qed.
Print Assumptions C03_matrix_is_a_map.

Theorem C03_unregistered_write_aborts : forall (K : Rng) nr nc cap es os o rest p (m : smat K),
  filled nr nc cap es os = Ok m -> vop_pos o = Some p -> in_shape nr nc p -> ~ In p es ->
  filled nr nc cap es (os ++ o :: rest) = Fatal.
Proof. exact abort_unregistered. Qed.
Print Assumptions C03_unregistered_write_aborts.

Definition ex_os : list (vop ZRng) :=
  [VAdd 3 4 5%Z; VSet 1 2 7%Z; VZero; VAdd 3 4 2%Z; VAdd 3 1 4%Z; VAdd 3 4 (-9)%Z].
Example ex_os_ok : forall o p, In o ex_os -> vop_pos o = Some p -> In p ex_es.
Proof.
  intros o p Ho Hp. unfold ex_os in Ho. cbn in Ho.
  repeat (destruct Ho as [<-|Ho]; [cbn in Hp; try discriminate; injection Hp as <-; cbn; tauto|]).
  tauto.
Qed.
Example ex_os_value : exists m, filled 3 4 2 ex_es ex_os = Ok m /\
  mat_value m 3 4 = Ok (-7)%Z /\ mat_value m 1 2 = Ok 0%Z /\ mat_value m 2 2 = Ok 0%Z /\
  filled 3 4 2 ex_es (ex_os ++ [VAdd 2 2 1%Z]) = Fatal.
Proof. eexists; split; [vm_compute; reflexivity|]. repeat split; vm_compute; reflexivity. Qed.

(* ---------------- C04 ---------------- *)
Theorem C04_symmetric_semantics : forall (K : Rng) n cap es (os : list (vop K)),
  0 < cap -> (forall e, In e es -> in_shape n n e) -> fits n cap (map up es) ->
  (forall o i j, In o os -> vop_pos o = Some (i, j) -> sym_in es i j) ->
  exists m : smat K, filled_sym n cap es os = Ok m /\
    forall i j, in_shape n n (i, j) -> sym_value m i j = Ok (spec_sym_vops os i j).
Proof. exact sym_semantics. Qed.
Print Assumptions C04_symmetric_semantics.

(* the specification is symmetric *)
Theorem C04_spec_symmetric : forall (K : Rng) (os : list (vop K)) i j,
  spec_sym_vops os i j = spec_sym_vops os j i.
Proof. exact (fun K os => spec_sym_symmetric K os (fun _ _ => r0) (fun _ _ => eq_refl)). Qed.
Print Assumptions C04_spec_symmetric.

Definition ex_ses : list (nat * nat) := [(2, 1); (2, 2); (1, 3); (3, 1)].
Definition ex_sos : list (vop ZRng) := [VAdd 1 2 5%Z; VAdd 2 1 3%Z; VSet 3 1 4%Z; VAdd 2 2 1%Z].
Example ex_sym_ok : 0 < 3 /\ (forall e, In e ex_ses -> in_shape 3 3 e) /\
  fits 3 3 (map up ex_ses) /\
  (forall o i j, In o ex_sos -> vop_pos o = Some (i, j) -> sym_in ex_ses i j).
Proof.
  split; [lia|]. split.
  { intros e [<-|[<-|[<-|[<-|[]]]]]; split; cbn; lia. }
  split.
  { intros i Hi. assert (C : i = 1 \/ i = 2 \/ i = 3) by lia.
    destruct C as [->|[->| ->]]; apply Nat.leb_le; vm_compute; reflexivity. }
  intros o i j Ho Hp. unfold ex_sos in Ho. cbn in Ho.
  repeat (destruct Ho as [<-|Ho]; [cbn in Hp; try discriminate; injection Hp as <- <-;
    unfold sym_in; cbn; tauto|]).
  tauto.
Qed.
Example ex_sym_value : exists m, filled_sym 3 3 ex_ses ex_sos = Ok m /\
  sym_value m 2 1 = Ok 8%Z /\ sym_value m 1 2 = Ok 8%Z /\ sym_value m 1 3 = Ok 4%Z.
Proof. eexists; split; [vm_compute; reflexivity|]. repeat split; vm_compute; reflexivity. Qed.

(* ---------------- C05 ---------------- *)
Theorem C05_product : forall (K : Rng) nr nc cap es os (m : smat K) A V coef R,
  filled nr nc cap es os = Ok m ->
  (forall i j, in_shape nr nc (i, j) -> mat_value m i j = Ok (A i j)) ->
  length V = nc -> nr <= length R ->
  exists R', mat_BVprod m V coef R = Ok R' /\ length R' = length R /\
    forall k, nth k R' r0 =
      if k <? nr then (nth k R r0 + coef * mv A nc V (S k))%rng else nth k R r0.
Proof. exact BVprod_dense. Qed.
Print Assumptions C05_product.

Theorem C05_transposed_product : forall (K : Rng) nr nc cap es os (m : smat K) A V coef R,
  filled nr nc cap es os = Ok m ->
  (forall i j, in_shape nr nc (i, j) -> mat_value m i j = Ok (A i j)) ->
  length V = nr -> nc <= length R ->
  exists R', mat_BTVprod m V coef R = Ok R' /\ length R' = length R /\
    forall k, nth k R' r0 =
      if k <? nc then (nth k R r0 + coef * mtv A nr V (S k))%rng else nth k R r0.
Proof. exact BTVprod_dense. Qed.
Print Assumptions C05_transposed_product.

Example C05_example : exists m, filled (K := ZRng) 3 4 2 ex_es ex_os = Ok m /\
  mat_BVprod m [1; 2; 3; 4]%Z 10%Z [1; 1; 1]%Z = Ok [1; 1; -239]%Z /\
  mat_BTVprod m [1; 2; 3]%Z 10%Z [1; 1; 1; 1]%Z = Ok [121; 1; 1; -209]%Z.
Proof. eexists; split; [vm_compute; reflexivity|]. split; vm_compute; reflexivity. Qed.

(* ---------------- C06 ---------------- *)
(* Full statement (for every V):  result = R + coef * A * V.
   The code skips the components of V with fabs(V[j]) <= 1e-20, so the statement is false ... *)
Theorem C06_symmetric_product_refuted :
  exists n cap es os (m : smat QcRng) A V R',
    filled_sym n cap es os = Ok m /\
    (forall i j, in_shape n n (i, j) -> sym_value m i j = Ok (A i j)) /\
    length V = n /\
    sym_BVprod big_Qc m V r1 (repeat r0 n) = Ok R' /\
    nth 0 R' r0 <> mv A n V 1.
Proof.
  exists 1, 1, [(1, 1)], [VSet 1 1 (Q2Qc (10 ^ 21))].
  eexists. exists (fun _ _ => Q2Qc (10 ^ 21)), [Q2Qc (1 # 10 ^ 20)]. eexists.
  split; [vm_compute; reflexivity|]. split.
  { intros i j [Hi Hj]. cbn in Hi, Hj. replace i with 1 by lia. replace j with 1 by lia.
    vm_compute; reflexivity. }
  split; [reflexivity|]. split; [vm_compute; reflexivity|].
  vm_compute. intros H. discriminate H.
Qed.
Print Assumptions C06_symmetric_product_refuted.

(* ... exactly what is computed: the product with the small components of V replaced by 0 *)
Theorem C06_symmetric_product_exact : forall (K : Rng) big n cap es os (m : smat K) A V coef R,
  filled_sym n cap es os = Ok m ->
  (forall i j, in_shape n n (i, j) -> sym_value m i j = Ok (A i j)) ->
  length V = n -> n <= length R ->
  exists R', sym_BVprod big m V coef R = Ok R' /\ length R' = length R /\
    forall k, nth k R' r0 =
      if k <? n
      then (nth k R r0 + coef * mv A n (map (fun x => if big x then x else r0) V) (S k))%rng
      else nth k R r0.
Proof. exact symBV_dense. Qed.
Print Assumptions C06_symmetric_product_exact.

(* ... and the full claim for vectors whose skipped components are zero *)
Theorem C06_symmetric_product_partial : forall (K : Rng) big n cap es os (m : smat K) A V coef R,
  filled_sym n cap es os = Ok m ->
  (forall i j, in_shape n n (i, j) -> sym_value m i j = Ok (A i j)) ->
  length V = n -> n <= length R ->
  (forall x, In x V -> big x = false -> x = r0) ->
  exists R', sym_BVprod big m V coef R = Ok R' /\ length R' = length R /\
    forall k, nth k R' r0 =
      if k <? n then (nth k R r0 + coef * mv A n V (S k))%rng else nth k R r0.
Proof. exact symBV_exact. Qed.
Print Assumptions C06_symmetric_product_partial.
Example C06_example : exists m, filled_sym (K := ZRng) 3 3 ex_ses ex_sos = Ok m /\
  sym_BVprod (fun x => negb (Z.eqb x 0)) m [1; 2; 0]%Z 10%Z [1; 1; 1]%Z = Ok [161; 101; 41]%Z.
Proof. eexists; split; vm_compute; reflexivity. Qed.

(* ---------------- C07 ---------------- *)
Theorem C07_entries_last_wins : forall (K : Rng) old nr nc (es : list (nat * nat * K)),
  (forall e, In e es -> in_shape nr nc (fst e)) ->
  exists m, mat_reinit_entries old nr nc es = Ok m /\
    (forall i j, in_shape nr nc (i, j) -> mat_value m i j = Ok (last_value es i j)) /\
    (forall i j, in_shape nr nc (i, j) ->
       (mat_ref m i j = Fatal <-> ~ In (i, j) (map fst es))).
Proof. exact entries_filled. Qed.
Print Assumptions C07_entries_last_wins.

(* g x is the number read back after printing x *)
Theorem C07_text_round_trip : forall (K : Rng) (g : K -> K) differ nr nc cap es os (m : smat K) old,
  filled nr nc cap es os = Ok m -> differ r0 r0 = false -> (forall x, differ x (g x) = false) ->
  exists recs m', mat_records m = Ok ((nr, nc, length recs), recs) /\
    mat_reinit_entries old nr nc (map (fun e => (fst e, g (snd e))) recs) = Ok m' /\
    mat_compare differ m m' = Ok true.
Proof. exact roundtrip_filled. Qed.
Print Assumptions C07_text_round_trip.
Example C07_example : exists m recs, filled (K := ZRng) 3 4 2 ex_es ex_os = Ok m /\
  mat_records m = Ok ((3, 4, 4), recs) /\
  recs = [(1, 1, 0%Z); (1, 2, 0%Z); (3, 1, 4%Z); (3, 4, (-7)%Z)] /\
  exists m', mat_reinit_entries (K := ZRng) None 3 4 (recs ++ [(3, 1, 6%Z)]) = Ok m' /\
  mat_value m' 3 1 = Ok 6%Z.
Proof.
  eexists _, _; split; [vm_compute; reflexivity|]. split; [vm_compute; reflexivity|].
  split; [reflexivity|]. eexists; split; vm_compute; reflexivity.
Qed.

(* ---------------- C08 ---------------- *)
Theorem C08_compare_iff : forall th nr1 nc1 cap1 es1 os1 nr2 nc2 cap2 es2 os2 (m1 m2 : smat QcRng),
  (0 <= th)%Q ->
  filled nr1 nc1 cap1 es1 os1 = Ok m1 -> filled nr2 nc2 cap2 es2 os2 = Ok m2 ->
  exists b, mat_compare (differ_Qc th) m1 m2 = Ok b /\
   (b = true <-> nr1 = nr2 /\ nc1 = nc2 /\
     forall i j, in_shape nr1 nc1 (i, j) ->
       (In (i, j) es1 <-> In (i, j) es2) /\
       exists x y, mat_value m1 i j = Ok x /\ mat_value m2 i j = Ok y /\ close_Qc th x y).
Proof. exact compare_Qc. Qed.
Print Assumptions C08_compare_iff.

Theorem C08_compare_refl : forall th nr nc cap es os (m : smat QcRng),
  (0 <= th)%Q -> filled nr nc cap es os = Ok m -> mat_compare (differ_Qc th) m m = Ok true.
Proof. exact compare_refl_Qc. Qed.
Print Assumptions C08_compare_refl.
Example C08_example : exists m1 m2,
  filled (K := QcRng) 2 2 2 [(1, 1); (2, 1)] [VSet 1 1 (Q2Qc 3)] = Ok m1 /\
  filled (K := QcRng) 2 2 2 [(2, 1); (1, 1)] [VSet 1 1 (Q2Qc (13 # 4))] = Ok m2 /\
  mat_compare (differ_Qc (1 # 4)) m1 m2 = Ok true /\
  mat_compare (differ_Qc (1 # 5)) m1 m2 = Ok false.
Proof.
  eexists _, _; split; [vm_compute; reflexivity|]. split; [vm_compute; reflexivity|].
  split; vm_compute; reflexivity.
Qed.

(* ---------------- C09 ---------------- *)
(* Full statement: forall o, write_fmt_effect o = o. *)
Theorem C09_stream_flags_refuted : exists o, write_fmt_effect o <> o.
Proof. exists (mkOS 6 false false). vm_compute. intros H. discriminate H. Qed.
Print Assumptions C09_stream_flags_refuted.
Theorem C09_stream_flags_partial : forall o,
  os_prec (write_fmt_effect o) = os_prec o /\
  (write_fmt_effect o = o <-> os_scientific o = true).
Proof.
  intros [p f s]. split; [reflexivity|]. unfold write_fmt_effect, setf_or. cbn. split.
  - intros [= E]. auto.
  - intros ->. reflexivity.
Qed.
Print Assumptions C09_stream_flags_partial.
Example C09_example : write_fmt_effect (mkOS 8 false true) = mkOS 8 false true.
Proof. reflexivity. Qed.

(* ---------------- C10 ---------------- *)
(* Full statement: both ways of creating a symmetric matrix register the diagonal. *)
Theorem C10_diagonal_partial : forall (K : Rng) n cap, 0 < cap ->
  exists m m' : smat K, sym_new K n cap = Ok m /\ mat_compress m = Ok m' /\
    forall i, 1 <= i <= n -> exists k, si_getIndex (sm_si m') i i = Ok (Some k).
Proof. exact sym_new_diag. Qed.
Print Assumptions C10_diagonal_partial.
Theorem C10_diagonal_reinit_refuted :
  exists n cap (m m' : smat ZRng), 0 < cap /\ sym_reinit ZRng n cap = Ok m /\
    mat_compress m = Ok m' /\ exists i, 1 <= i <= n /\ si_getIndex (sm_si m') i i = Ok None.
Proof.
  exists 2, 1. eexists _, _. split; [lia|]. split; [vm_compute; reflexivity|].
  split; [vm_compute; reflexivity|]. exists 1. split; [lia|]. vm_compute; reflexivity.
Qed.
Print Assumptions C10_diagonal_reinit_refuted.
Example C10_example : exists m, sym_new ZRng 4 1 = Ok m.
Proof. eexists; vm_compute; reflexivity. Qed.

(* ---------------- C11 ---------------- *)
(* Full statement: the conclusion of C11_shared_pattern_partial without its second hypothesis. *)
Theorem C11_shared_pattern_partial : forall (K : Rng) nr nc cap es s (m : smat K),
  build nr nc cap es = Ok s ->
  (match sm_vals m with Some v => si_nvals s <= length v | None => True end) ->
  exists m', mat_setSI m s = Ok m' /\ mat_compress m' = Ok m' /\
    forall i j x, In (i, j) es ->
      (exists y, mat_value m' i j = Ok y) /\ (exists m'', mat_set m' i j x = Ok m'').
Proof. exact setSI_safe. Qed.
Print Assumptions C11_shared_pattern_partial.
(* whenever that hypothesis fails, some registered position lies outside the value array *)
Theorem C11_shared_pattern_unsafe : forall (K : Rng) nr nc cap es s (m : smat K) v,
  build nr nc cap es = Ok s -> sm_vals m = Some v -> length v < si_nvals s ->
  exists m', mat_setSI m s = Ok m' /\ mat_compress m' = Ok m' /\
    exists i j, In (i, j) es /\ mat_value m' i j = UB /\ forall x, mat_set m' i j x = UB.
Proof. exact setSI_unsafe. Qed.
Print Assumptions C11_shared_pattern_unsafe.
(* a pattern handed over before compression is always safe *)
Theorem C11_uncompressed_pattern_safe : forall (K : Rng) nr nc cap es (m : smat K),
  0 < cap -> (forall e, In e es -> in_shape nr nc e) -> fits nr cap es ->
  exists s0 s m1 m',
    si_reinit nr nc cap = Ok s0 /\ add_entries s0 es = Ok s /\
    mat_setSI m s = Ok m1 /\ mat_compress m1 = Ok m' /\
    forall i j x, In (i, j) es ->
      (exists y, mat_value m' i j = Ok y) /\ (exists m'', mat_set m' i j x = Ok m'').
Proof. exact setSI_uncompressed. Qed.
Print Assumptions C11_uncompressed_pattern_safe.
(* a reachable matrix and pattern for which the full statement fails *)
Theorem C11_shared_pattern_refuted :
  exists (m : smat ZRng) s m' i j,
    filled 2 2 1 [(1, 1)] [] = Ok m /\ build 2 2 2 [(1, 1); (2, 1)] = Ok s /\
    mat_setSI m s = Ok m' /\ mat_compress m' = Ok m' /\
    In (i, j) [(1, 1); (2, 1)] /\ mat_set m' i j 5%Z = UB.
Proof.
  eexists _, _, _, 2, 1. split; [vm_compute; reflexivity|]. split; [vm_compute; reflexivity|].
  split; [vm_compute; reflexivity|]. split; [vm_compute; reflexivity|].
  split; [cbn; tauto|]. vm_compute; reflexivity.
Qed.
Print Assumptions C11_shared_pattern_refuted.
Example C11_example : exists s, build 2 2 2 [(1, 1); (2, 1)] = Ok s /\ si_nvals s <= length [0; 0]%Z.
Proof. eexists; split; [vm_compute; reflexivity|]. cbn; lia. Qed.

(* ---------------- C69 ---------------- *)
(* Full statement: if compare answers true, every pair of corresponding doubles is within th
   (a comparison that is false when a NaN is involved). *)
Theorem C69_compare_accepts_nan_refuted :
  exists (m1 m2 : smat FNum) x y,
    filled 1 1 1 [(1, 1)] [VSet 1 1 nan] = Ok m1 /\
    filled 1 1 1 [(1, 1)] [VSet 1 1 one] = Ok m2 /\
    mat_compare (fun a b => PrimFloat.ltb 1e-10%float (PrimFloat.abs (PrimFloat.sub a b))) m1 m2 = Ok true /\
    mat_value m1 1 1 = Ok x /\ mat_value m2 1 1 = Ok y /\
    PrimFloat.leb (PrimFloat.abs (PrimFloat.sub x y)) 1e-10%float = false.
Proof.
  eexists _, _, _, _. repeat (split; [vm_compute; reflexivity|]). vm_compute; reflexivity.
Qed.
Print Assumptions C69_compare_accepts_nan_refuted.
