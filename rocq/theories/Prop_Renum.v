(* C151: the numbers of the nodes in the mesh file do not matter *)
From Coq Require Import Lia ZArith String.
From Verif Require Import Base BaseProofs ReaderModel ProgModel SpecRenum RenumProofs Prop_Prog.
Local Open Scope list_scope.

Theorem C151_any_numbers_refuted : exists (f : Z -> Z) (m : mesh ZDbl) o pb pb', (forall a b, f a = f b -> a = b) /\
  NoDup (md_nodes ZDbl m) /\ incl (mentioned ZDbl m) (md_nodes ZDbl m) /\
  setup ZDbl o m = go pb /\ setup ZDbl o (rn_mesh ZDbl f m) = go pb' /\ pb_pos ZDbl pb = pb_pos ZDbl pb' /\ pb_cells ZDbl pb <> pb_cells ZDbl pb'.
Proof.
  exists (fun n => (3 - n)%Z), (mkMesh ZDbl [1; 2]%Z [(10, 0, 0); (20, 0, 0)]%Z [mkCell 1 [1; 2]%Z 1 1 1 1 0 0] [] [] [] [(s_ "N", mkComp comp_NODES [1%Z])]), (opt_ex 7).
  do 2 eexists. split; [intros a b E; lia|]. split; [repeat constructor; cbn; lia|]. split; [intros x Hx; cbn in *; tauto|].
  split; [reflexivity|]. split; [reflexivity|]. split; [reflexivity|]. intros E. discriminate E.
Qed.
Print Assumptions C151_any_numbers_refuted.

Theorem C151_problem_partial : forall (D : Dbl) o f (m : mesh D),
  (forall a b, In a (md_nodes D m) -> In b (md_nodes D m) -> f a = f b -> a = b) ->
  well_numbered D m -> well_numbered D (rn_mesh D f m) -> setup D o (rn_mesh D f m) = setup D o m.
Proof. exact setup_renumber. Qed.
Print Assumptions C151_problem_partial.

Theorem C151_status_partial : forall (D : Dbl) fuel (w : world D) (mesh' : str -> outcome (option (mesh D))) argv,
  (forall name, mesh' name = w_mesh D w name \/ exists f m, (forall a b, In a (md_nodes D m) -> In b (md_nodes D m) -> f a = f b -> a = b) /\
     well_numbered D m /\ well_numbered D (rn_mesh D f m) /\ w_mesh D w name = Ok (Some m) /\ mesh' name = Ok (Some (rn_mesh D f m))) ->
  main D fuel (mkW D (w_ref D w) mesh' (w_solve D w)) argv = main D fuel w argv.
Proof. exact main_renumber. Qed.
Print Assumptions C151_status_partial.

(* the problem itself: tables in the order of the file, references by position *)
Theorem C151_numbers_are_positions_partial : forall (D : Type) (m : mesh D), well_numbered D m ->
  exists f, compressNumbers D m = Ok (rn_mesh D f m) /\
    (forall i n, nth_error (md_nodes D m) i = Some n -> f n = Z.of_nat (S i)).
Proof.
  intros D m W. exists (rank D m). split; [exact (compress_rank D m W)|]. intros i n E. unfold rank. f_equal. cbn [Nat.add]. f_equal.
  destruct W as (N & _). pose proof (index_nth n (md_nodes D m) (nth_error_In _ _ E)) as E2.
  apply (proj1 (NoDup_nth_error (md_nodes D m)) N); [apply nth_error_Some; congruence|congruence].
Qed.
Print Assumptions C151_numbers_are_positions_partial.

Example C151_inhabited : exists f, rn_mesh ZDbl f mesh1 <> mesh1 /\ (forall a b, f a = f b -> a = b) /\ well_numbered ZDbl mesh1 /\ well_numbered ZDbl (rn_mesh ZDbl f mesh1) /\
  md_nodes ZDbl (rn_mesh ZDbl f mesh1) = [107; 103]%Z /\
  exists pb, setup ZDbl (opt_ex 7) (rn_mesh ZDbl f mesh1) = go pb /\ pb_cells ZDbl pb = [[1; 2]%Z].
Proof.
  exists (fun n => (n + 100)%Z). split; [intros E; discriminate E|]. split; [intros; lia|].
  assert (N : forall a b : Z, a <> b -> NoDup [a; b]) by (intros a b H; repeat constructor; cbn; intuition).
  split; [|split; [|split; [reflexivity|eexists; split; reflexivity]]].
  all: split; [apply N; discriminate|split; [intros E; discriminate E|split]].
  1, 3: right; intros H.
  1: specialize (H 7%Z (or_introl eq_refl)). 2: specialize (H 107%Z (or_introl eq_refl)).
  1, 2: cbn in H; lia.
  all: intros x Hx; cbn in *; tauto.
Qed.
