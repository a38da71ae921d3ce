(* Dump and compare: C39 *)
From Coq Require Import QArith Qabs Qcanon.
From Verif Require Import Base SparseModel SpecSparse DumpModel SpecDump DumpProofs.
Local Open Scope nat_scope.

(* Full statement: for every system, compare succeeds on the file just written.
   It holds for matrices with numbers below 10^6 and vectors with numbers below 10^-3 or with at
   most 7 significant digits. *)
Theorem C39_dump_compare_partial : forall (rep : Qc -> Prop) rd s,
  reads_nearest rep rd -> sys_mats s <> [] -> Forall is_matrix (sys_mats s) ->
  (forall m x, In m (sys_mats s) -> stored m x -> rep x /\ smaller 1000000 x) ->
  (forall x, In x (sys_F s) \/ In x (sys_R s) ->
     rep x /\ (smaller (1 # 1000) x \/ round_digits 6 x = x)) ->
  exists t, dump s = Ok t /\ compare_sys rd (1 # 10000000000) s t = Ok tt.
Proof.
  intros rep rd s N Ne F Hm Hv. apply dump_compare; auto.
  - discriminate.
  - intros m x I S. destruct (Hm m x I S). now apply (small_mat rep).
  - intros x I. destruct (Hv x I) as [R [S|S]]; [now apply (small_vec rep)|]. apply (short_vec rep); auto. discriminate.
Qed.

(* the printed number is within half a unit of the last printed digit *)
Theorem C39_printed_digits_partial : forall p k x,
  smaller (ten ^ (k + 1)) x -> (Qabs (this (round_digits p x) - this x) <= (1 # 2) * ten ^ (k - Z.of_nat p))%Q.
Proof. exact round_digits_err. Qed.

(* a load of 1234567.875: the vectors are printed with 7 digits only *)
Definition small_matrix : outcome (smat QcRng) := filled 1 1 1 [(1, 1)] [VSet 1 1 (Q2Qc 2)].
Definition with_load (x : Q) : outcome unit :=
  m <- small_matrix ;; let s := mkSys [m; m; m] [Q2Qc x] [Q2Qc 0] in
  t <- dump s ;; compare_sys (fun x => x) (1 # 10000000000) s t.
Theorem C39_dump_compare_refuted : with_load (9876543 # 8) = Fatal.
Proof. vm_compute. reflexivity. Qed.
(* also for small numbers *)
Theorem C39_small_load_refuted : with_load ((1 # 8) + (1 # 1048576)) = Fatal.
Proof. vm_compute. reflexivity. Qed.
Example C39_example : with_load (1 # 8) = Ok tt /\ with_load (-1234567 # 1) = Ok tt /\ with_load (1 # 1048576) = Ok tt.
Proof. vm_compute. auto. Qed.
Example C39_example_digits : round_digits 6 (Q2Qc (9876543 # 8)) = Q2Qc (1234568 # 1) /\
  round_digits 2 (Q2Qc (-1 # 3)) = Q2Qc (-333 # 1000) /\ round_digits 0 (Q2Qc (95 # 10)) = Q2Qc 10 /\ round_digits 0 (Q2Qc (25 # 10)) = Q2Qc 2.
Proof. repeat split; apply Qc_is_canon; vm_compute; reflexivity. Qed.
Example C39_example_reader : reads_nearest (fun _ => True) (fun x => x).
Proof. intros d x _. setoid_replace (this d - this d)%Q with 0%Q by ring. apply Qabs_nonneg. Qed.

Print Assumptions C39_dump_compare_partial.
Print Assumptions C39_printed_digits_partial.
Print Assumptions C39_dump_compare_refuted.
Print Assumptions C39_small_load_refuted.
