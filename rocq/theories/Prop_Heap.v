(* Property theorems: objects owned by the storage (C67, C87, C88, C89). *)
From Verif Require Import Base BaseProofs HeapModel SpecHeap HeapProofs HeapFinal HeapWrong.

(* C67.  Every program of calls accepted by the counting machine runs without touching a released object; the tables
   hold exactly the created objects, element i carries the number i; the living objects are those counted; and the
   destructor releases every object the storage still refers to, each once. *)
Theorem C67_ownership ops c : crun no_objects ops = Some c ->
  exists s, run ops = Ok s /\ sizes_ok c s /\ tables_ok s /\ length (hs_live s) = living c /\
  exists h, destroy s = Ok h /\ length h = c_lost c.
Proof. exact (use_and_destroy ops c). Qed.
Print Assumptions C67_ownership.
(* createNodes and createElements return the numbers of the new objects and keep the old ones *)
Theorem C67_new_nodes s k s' : step s (CreateNodes k) = Ok s' ->
  new_numbers (hs_nodes s) (hs_nodes s') = seq (length (hs_nodes s) + 1) k /\ firstn (length (hs_nodes s)) (hs_nodes s') = hs_nodes s /\ hs_els s' = hs_els s.
Proof. exact (created_nodes s k s'). Qed.
Print Assumptions C67_new_nodes.
Theorem C67_new_elements s k s' : step s (CreateElements true k) = Ok s' ->
  new_numbers (hs_els s) (hs_els s') = seq (length (hs_els s) + 1) k /\ firstn (length (hs_els s)) (hs_els s') = hs_els s /\ hs_nodes s' = hs_nodes s.
Proof. exact (created_elements s k s'). Qed.
Print Assumptions C67_new_elements.
Definition session : list op :=
  [CreateNodes 4; AddNode; CreateElements true 2; AddElement; CreateElements false 3; AddMpc; AddComponent; SetMaterial false; InitDofs; AssignNumbers;
   InitSolutionData true; Assemble true; Assemble false; GetNode 5; GetElement 3; DeleteSolutionData; DeleteElements; CreateElements true 4;
   InitDofs; AssignNumbers; InitSolutionData false; InitSolutionData false; Assemble false].
Example C67_used : crun no_objects session = Some (mkCounts 5 4 1 1 true true false 1).
Proof. reflexivity. Qed.
Example C67_used_result : match run session with Ok s => match destroy s with Ok h => (length (hs_live s), length h, length (hs_els s)) = (14, 1, 4) | _ => False end | _ => False end.
Proof. vm_compute. reflexivity. Qed.

(* C87.  Without equations deleteMesh may be repeated and leaves empty tables. *)
Theorem C87_no_equations_partial ops c k : crun no_objects ops = Some c -> c_mpcs c = 0 ->
  exists s, run (ops ++ repeat DeleteMesh (S k)) = Ok s /\
    hs_nodes s = [] /\ hs_els s = [] /\ hs_mpcs s = [] /\ hs_colls s = [] /\ hs_comps s = [] /\
  exists h, destroy s = Ok h /\ length h = c_lost c.
Proof. exact (mesh_again ops c k). Qed.
Print Assumptions C87_no_equations_partial.
Example C87_used : exists c, crun no_objects [CreateNodes 3; CreateElements true 1; AddComponent] = Some c /\ c_mpcs c = 0.
Proof. eexists. split; reflexivity. Qed.
(* With at least one equation, deleteMpcs and deleteMesh succeed once and keep the dangling pointers: numbering,
   deleting again and destroying the storage are undefined. *)
Theorem C87_delete_mpcs_refuted ops c : crun no_objects ops = Some c -> 0 < c_mpcs c ->
  exists s s', run ops = Ok s /\ step s DeleteMpcs = Ok s' /\ hs_mpcs s' = hs_mpcs s /\
    step s' AssignNumbers = UB /\ step s' DeleteMpcs = UB /\ step s' DeleteMesh = UB /\ destroy s' = UB.
Proof. intros H P. destruct (program_inv ops c H) as (s & L & E & I). destruct (mpcs_dangling c s L I P) as (s' & Q). exists s, s'. auto. Qed.
Print Assumptions C87_delete_mpcs_refuted.
Theorem C87_delete_mesh_refuted ops c : crun no_objects ops = Some c -> 0 < c_mpcs c ->
  exists s s', run ops = Ok s /\ step s DeleteMesh = Ok s' /\ hs_nodes s' = [] /\ hs_els s' = [] /\ hs_mpcs s' = hs_mpcs s /\
    step s' AssignNumbers = UB /\ step s' DeleteMesh = UB /\ destroy s' = UB.
Proof. intros H P. destruct (program_inv ops c H) as (s & L & E & I). destruct (mesh_twice c s L I P) as (s' & Q). exists s, s'. auto. Qed.
Print Assumptions C87_delete_mesh_refuted.
Example C87_refuted_used : exists c, crun no_objects [CreateNodes 3; CreateElements true 1; AddMpc] = Some c /\ 0 < c_mpcs c.
Proof. eexists. split; [reflexivity|]. cbn. lia. Qed.

(* C88.  A storage with a material of a derived class or with an MPC collection has no defined destruction. *)
Theorem C88_material_refuted ops c : crun no_objects ops = Some c ->
  exists s s', run ops = Ok s /\ step s (SetMaterial true) = Ok s' /\ destroy s' = UB.
Proof. intros H. destruct (program_inv ops c H) as (s & L & E & I). destruct (derived_material c s L I) as (s' & Q). exists s, s'. auto. Qed.
Print Assumptions C88_material_refuted.
Theorem C88_collection_refuted ops c k : crun no_objects ops = Some c ->
  exists s s', run ops = Ok s /\ step s (AddCollection k) = Ok s' /\
    step s' DeleteCollections = UB /\ step s' DeleteMesh = UB /\ destroy s' = UB.
Proof. intros H. destruct (program_inv ops c H) as (s & L & E & I). destruct (collection_destroyed c s L k I) as (s' & Q). exists s, s'. auto. Qed.
Print Assumptions C88_collection_refuted.
Example C88_used : exists c, crun no_objects [CreateNodes 8; CreateElements true 1] = Some c.
Proof. eexists. reflexivity. Qed.

(* C89.  Nothing is lost if the material is set once and solution data are deleted before they are initialised
   again; otherwise the old matrices stay behind. *)
Theorem C89_no_leak_partial ops c : crun no_objects ops = Some c -> tidy false false ops = true -> exists s, run ops = Ok s /\ destroy s = Ok [].
Proof. exact (tidy_no_leak ops c). Qed.
Print Assumptions C89_no_leak_partial.
Example C89_used : exists c, crun no_objects [CreateNodes 3; CreateElements true 1; SetMaterial false; InitDofs; InitSolutionData true; Assemble true; DeleteSolutionData; InitSolutionData false] = Some c
  /\ tidy false false [CreateNodes 3; CreateElements true 1; SetMaterial false; InitDofs; InitSolutionData true; Assemble true; DeleteSolutionData; InitSolutionData false] = true.
Proof. eexists. split; reflexivity. Qed.
Theorem C89_second_solution_refuted tr ops c : crun no_objects ops = Some c -> c_K c = true ->
  exists s h, run (ops ++ [InitSolutionData tr]) = Ok s /\ destroy s = Ok h /\ 0 < length h.
Proof. exact (lost_matrix tr ops c). Qed.
Print Assumptions C89_second_solution_refuted.
Example C89_refuted_used : exists c, crun no_objects [CreateNodes 3; CreateElements true 1; InitDofs; InitSolutionData false; Assemble false] = Some c /\ c_K c = true.
Proof. eexists. split; reflexivity. Qed.
