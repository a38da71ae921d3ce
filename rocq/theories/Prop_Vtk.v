(* C68, C90, C91: the VTK files written during a solution *)
From Coq Require Import String NArith ZArith.
From Verif Require Import Base DofModel SpecDof AsmModel SpecAsm SolveModel SpecSolve ReactModel SpecReact VtkModel SpecVtk VtkProofs VtkWrite VtkFinal.
Local Open Scope nat_scope.
Local Open Scope list_scope.

(* ---------------- C68 ---------------- *)
(* after pre() and process() for every step a strict reader finds in the file of the step exactly the mesh, the solution of
   that step, zero for the DoFs a node or element does not have, and the chosen results; other files stay as they are *)
Theorem C68_files : forall (K : Num) (pr : K -> K) m regs newm fixes base w s0 steps d,
  store_ok K m regs newm fixes s0 -> uniform K s0 -> wish_ok w ->
  Forall (fun x => store_ok K m regs newm fixes (snd x)) steps -> Forall (fun x => (0 < fst x < 65536)%N) steps -> NoDup (map fst steps) ->
  exists p d' p', configure w = Ok p /\ vtk_run K pr base s0 p steps d = Ok (p', d') /\
    (exists t, get_file K d' (file_of base 0) = Some t /\ read_vtk K t = Some (want_file K pr regs w s0 s0)) /\
    (forall k s, In (k, s) steps -> exists t, get_file K d' (file_of base k) = Some t /\ read_vtk K t = Some (want_file K pr regs w s0 s)) /\
    (forall n, (forall k, k = 0%N \/ In k (map fst steps) -> n <> file_of base k) -> get_file K d' n = get_file K d n).
Proof. intros K pr m regs newm fixes. exact (@files K pr m regs newm fixes). Qed.
Print Assumptions C68_files.
(* every array of a file has its own name *)
Theorem C68_names : forall (K : Num) (pr : K -> K) regs w s0 s,
  NoDup (map (arr_name K) (f_pdata K (want_file K pr regs w s0 s))) /\ NoDup (map (arr_name K) (f_cdata K (want_file K pr regs w s0 s))).
Proof. intros K pr regs. exact (@names_ok K pr regs). Qed.
Print Assumptions C68_names.
(* the queries written: those asked for, and with writeAllResults those answered by some element *)
Theorem C68_queries : forall (K : Num) w s q, wish_ok w ->
  (In q (want_s K w s) <-> In q (w_s w) \/ (w_all w = true /\ 0 < q < s_last /\ exists e, In e (vs_elems K s) /\ snd (ve_scalar K e q r0) = true)) /\
  (In q (want_v K w s) <-> In q (w_v w) \/ (w_all w = true /\ 0 < q < v_last /\ exists e, In e (vs_elems K s) /\ snd (ve_vector K e q (zero3 K)) = true)) /\
  (In q (want_t K w s) <-> In q (w_t w) \/ (w_all w = true /\ 0 < q < t_last /\ exists e, In e (vs_elems K s) /\ snd (ve_tensor K e q (zero6 K)) = true)).
Proof.
  intros K w s q (A & B & C). rewrite Forall_forall in A, B, C.
  assert (Q : forall user last ans, (forall x, In x user -> 0 < x < last) -> In q (wanted (w_all w) user last ans) <-> In q user \/ (w_all w = true /\ 0 < q < last /\ ans q = true)).
  { intros user last ans F. unfold wanted. rewrite filter_In, in_seq, orb_true_iff, existsb_exists, andb_true_iff. split.
    - intros (X & [(u & Y & Z)|(Y & Z)]); [apply Nat.eqb_eq in Z; subst; auto|]. right. split; auto. split; auto. lia.
    - intros [X|(X & Y & Z)].
      + split; [apply F in X; lia|]. left. exists q. split; auto. apply Nat.eqb_refl.
      + split; [lia|auto]. }
  unfold want_s, want_v, want_t. rewrite !Q by auto. rewrite !existsb_exists. tauto.
Qed.
Print Assumptions C68_queries.

(* a triangle and a line, temperature at node 1 only, one DoF of element 1; the triangle answers the scalar query 5 and the
   vector query 2 *)
Definition vx_regs : list reg := [(KNode, 1, [0; 1]); (KNode, 2, [0; 1]); (KNode, 3, [1; 0]); (KNode, 1, [7]); (KEl, 1, [6])].
Definition vx_fixes : list key := [(KNode, 1, 0)].
Definition vx_num : numst := match init_sequence (fresh_storage 3 2 []) vx_regs [] vx_fixes with Ok s => s | _ => fresh_storage 0 0 [] end.
Definition vx_tri : vel ZNum := mkVel ZNum 7 3 [1; 2; 3]%N (fun q x => if q =? 5 then (42%Z, true) else (x, false))
  (fun q x => if q =? 2 then ((1, 2, 3)%Z, true) else (x, false)) (fun q x => (x, false)).
Definition vx_line : vel ZNum := mkVel ZNum 3 2 [3; 1]%N (fun q x => (x, false)) (fun q x => (x, false)) (fun q x => (x, false)).
Definition vx (U R : list Z) : vstore ZNum := mkVstore ZNum vx_num [(0, 0, 0); (1, 0, 0); (0, 1, 0)]%Z [vx_tri; vx_line] U R.
Definition vx0 := vx [0; 0; 0; 0; 0; 0; 0; 0]%Z [0; 0; 0; 0; 0; 0; 0; 0]%Z.
Definition vx1 := vx [1; 2; 3; 4; 5; 6; 7; 8]%Z [10; 20; 30; 40; 50; 60; 70; 80]%Z.
Definition vx2 := vx [8; 7; 6; 5; 4; 3; 2; 1]%Z [80; 70; 60; 50; 40; 30; 20; 10]%Z.
Definition vx_wish : wish := mkWish true [1] [] [2].
Lemma vx_ready : ready 3 2 [] vx_regs [] vx_fixes vx_num.
Proof.
  constructor.
  - repeat (apply Forall_cons || apply Forall_nil); cbn; (split; [lia|]); repeat constructor; unfold n_dof_types; lia.
  - repeat constructor.
  - exists (KNode, 1, 1). split; [cbn; auto|]. intros [H|[]]. discriminate.
  - constructor.
  - vm_compute. reflexivity.
Qed.
Lemma vx_ok U R : 8 <= List.length U -> 8 <= List.length R -> store_ok ZNum [] vx_regs [] vx_fixes (vx U R).
Proof.
  intros HU HR. constructor.
  - apply vx_ready.
  - repeat constructor; cbn; lia.
  - split; vm_compute; reflexivity.
  - change (ns_ndofs vx_num) with 8. exact HU.
  - change (ns_ndofs vx_num) with 8. exact HR.
Qed.
Lemma vx_uniform U R : uniform ZNum (vx U R).
Proof. intros e e' [<-|[<-|[]]] [<-|[<-|[]]] T; try discriminate; repeat split; auto. Qed.
Example C68_inhabited : store_ok ZNum [] vx_regs [] vx_fixes vx0 /\ uniform ZNum vx0 /\ wish_ok vx_wish /\
  Forall (fun x => store_ok ZNum [] vx_regs [] vx_fixes (snd x)) [(1%N, vx1); (2%N, vx2)] /\
  want_types ZNum vx0 = [5; 3]%N /\ types_of vx_regs KNode = [0; 1; 7] /\ types_of vx_regs KEl = [6] /\
  want_s ZNum vx_wish vx0 = [1; 5] /\ want_v ZNum vx_wish vx0 = [2] /\ want_t ZNum vx_wish vx0 = [2].
Proof.
  split; [apply vx_ok; cbn; lia|]. split; [apply vx_uniform|]. split.
  { repeat split; repeat constructor; cbn; lia. }
  split; [|repeat split; vm_compute; reflexivity]. constructor; [apply vx_ok; cbn; lia|]. constructor; [apply vx_ok; cbn; lia|constructor].
Qed.
(* the file of step 1: node 1 has the temperature, node 2 and 3 get zero, element 2 has no pressure *)
Definition show (a : arr ZNum) : string * list (list Z) :=
  match a with Scal _ n d => (n, map (fun x => [x]) d) | Vecs _ n d => (n, map (fun v => match v with (a, b, c) => [a; b; c] end) d) end.
Example C68_content :
  match configure vx_wish with
  | Ok p => match vtk_run ZNum (fun x => x) "m" vx0 p [(1%N, vx1); (2%N, vx2)] [] with
            | Ok (_, d) => match get_file ZNum d "m1.vtk" with
                           | Some t => option_map (fun f => (f_cells ZNum f, map show (f_pdata ZNum f), map show (firstn 5 (f_cdata ZNum f)))) (read_vtk ZNum t)
                           | None => None end
            | _ => None end
  | _ => None end =
  Some ([[0; 1; 2]; [2; 0]]%N,
        [("disp", [[1; 3; 0]; [5; 6; 0]; [7; 8; 0]]); ("reaction", [[10; 30; 0]; [50; 60; 0]; [70; 80; 0]]); ("TEMP", [[4]; [0]; [0]])]%Z%string,
        [("HYDRO_PRESSURE", [[2]; [0]]); ("S_P", [[0]; [0]]); ("VOL", [[42]; [0]]); ("FLUX", [[1; 2; 3]; [0; 0; 0]]); ("PK2_XX", [[0]; [0]])]%Z%string).
Proof. vm_compute. reflexivity. Qed.

(* ---------------- C90 ---------------- *)
(* an element with one of the shapes 8..13 of ElementShape: the writer reports success, but the file has too few cell types *)
Theorem C90_unknown_shape_refuted : forall (K : Num) (pr : K -> K) m regs newm fixes w s0 s e,
  ready (nn K s0) (ne K s0) m regs newm fixes (vs_num K s0) -> uniform K s0 -> wish_ok w ->
  ready (nn K s) (ne K s) m regs newm fixes (vs_num K s) -> Forall (el_weak K (nn K s)) (vs_elems K s) ->
  (N.of_nat (nn K s) < word32)%N -> (total_size K (vs_elems K s) < word32)%N ->
  ns_ndofs (vs_num K s) <= List.length (vs_U K s) -> ns_ndofs (vs_num K s) <= List.length (vs_R K s) ->
  In e (vs_elems K s) -> 8 <= ve_shape K e ->
  exists p t, configure w = Ok p /\ write_file K pr s (prepare K s0 p) = Ok t /\ read_vtk K t = None.
Proof. intros K pr m regs newm fixes. exact (@unknown_shape K pr m regs newm fixes). Qed.
Print Assumptions C90_unknown_shape_refuted.
(* a pyramid of five nodes in the mesh of the example *)
Definition vx_pyr : vel ZNum := mkVel ZNum 7 8 [1; 2; 3; 1; 2]%N (fun q x => (x, false)) (fun q x => (x, false)) (fun q x => (x, false)).
Definition vx_bad : vstore ZNum := mkVstore ZNum vx_num [(0, 0, 0); (1, 0, 0); (0, 1, 0)]%Z [vx_pyr; vx_line] [1; 2; 3; 4; 5; 6; 7; 8]%Z [1; 2; 3; 4; 5; 6; 7; 8]%Z.
Example C90_inhabited : ready 3 2 [] vx_regs [] vx_fixes (vs_num ZNum vx_bad) /\ uniform ZNum vx_bad /\ Forall (el_weak ZNum 3) (vs_elems ZNum vx_bad) /\
  In vx_pyr (vs_elems ZNum vx_bad) /\ 8 <= ve_shape ZNum vx_pyr.
Proof.
  split; [apply vx_ready|]. split.
  { intros e e' [<-|[<-|[]]] [<-|[<-|[]]] T; try discriminate; repeat split; auto. }
  split; [repeat constructor; cbn; lia|]. split; [now left|]. cbn. lia.
Qed.

(* ---------------- C91 ---------------- *)
(* the step number is taken modulo 65536: the file of a step is replaced by that of the step 65536 later *)
Theorem C91_overwritten_refuted : forall (K : Num) (pr : K -> K) base s s' p k k' d d1 d2, (k mod 65536 = k' mod 65536)%N ->
  vtk_process K pr base s p k d = Ok d1 -> vtk_process K pr base s' p k' d1 = Ok d2 ->
  exists t, write_file K pr s' p = Ok t /\ get_file K d2 (file_of base (k mod 65536)) = Some t.
Proof. exact step_wrap. Qed.
Print Assumptions C91_overwritten_refuted.
(* of two steps, 65536 apart, the results of the first one are lost, and no file is named after the second one *)
Theorem C91_lost_step_refuted : forall (K : Num) (pr : K -> K) m regs newm fixes base w s0 s s' k d,
  store_ok K m regs newm fixes s0 -> uniform K s0 -> wish_ok w -> store_ok K m regs newm fixes s -> store_ok K m regs newm fixes s' -> (0 < k < 65536)%N ->
  exists p d' p', configure w = Ok p /\ vtk_run K pr base s0 p [(k, s); (k + 65536, s')%N] d = Ok (p', d') /\
    (exists t, get_file K d' (file_of base k) = Some t /\ read_vtk K t = Some (want_file K pr regs w s0 s')) /\
    get_file K d' (file_of base (k + 65536)) = get_file K d (file_of base (k + 65536)).
Proof. intros K pr m regs newm fixes. exact (@lost_step K pr m regs newm fixes). Qed.
Print Assumptions C91_lost_step_refuted.
Example C91_differ : want_file ZNum (fun x => x) vx_regs vx_wish vx0 vx1 <> want_file ZNum (fun x => x) vx_regs vx_wish vx0 vx2.
Proof. intros H. apply (f_equal (fun f => map show (firstn 1 (f_pdata ZNum f)))) in H. vm_compute in H. discriminate. Qed.
