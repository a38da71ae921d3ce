(* Vectors and views: C37, C38, C71, C72 *)
From Coq Require Import NArith.
From Verif Require Import Base BaseProofs VecModel SpecVec VecProofs VecOps VecFinal.
Local Open Scope nat_scope.

(* after every history each array belongs to exactly one vector and nothing points outside *)
Theorem C37_every_array_has_one_owner : forall (K : Num) (os : list (vop K)) s,
  Forall no_wrap os -> run_vops vstart os = Ok s -> wf s.
Proof. intros K os s F E. exact (run_vops_wf K os vstart s (wf_vstart K) F E). Qed.

(* and when all vectors are destroyed nothing is left, nothing is deleted twice *)
Theorem C37_no_leak_no_double_free : forall (K : Num) (os : list (vop K)) s,
  Forall no_wrap os -> run_vops vstart os = Ok s ->
  exists s', run_vops s (map VClear (seq 0 (length (vs_vars s)))) = Ok s' /\ Forall (fun a => a = None) (vs_heap s').
Proof. intros K os s F E. exact (clear_all K s (run_vops_wf K os vstart s (wf_vstart K) F E)). Qed.

(* calls within their preconditions are defined *)
Theorem C37_allowed_calls_are_defined : forall (K : Num) (os : list (vop K)) s o,
  Forall no_wrap os -> run_vops vstart os = Ok s -> no_wrap o -> allowed s o -> exists s', run_vop s o = Ok s'.
Proof. intros K os s o F E NW A. exact (allowed_ok K s o (run_vops_wf K os vstart s (wf_vstart K) F E) NW A). Qed.

(* the target gets the expected numbers *)
Theorem C37_result : forall (K : Num) (os : list (vop K)) s o s' m,
  Forall no_wrap os -> run_vops vstart os = Ok s -> no_wrap o -> run_vop s o = Ok s' ->
  clean o s -> expected s o = Ok m -> ~ dangling s' (target s o) -> contents s' (target s o) = Ok m.
Proof.
  intros K os s o s' m F E NW R Cl Em D.
  exact (proj2 (proj2 (proj2 (vop_sound K s o s' (run_vops_wf K os vstart s (wf_vstart K) F E) NW R))) Cl m Em D).
Qed.

(* vectors that share no number with the target keep their numbers *)
Theorem C37_others_unchanged : forall (K : Num) (os : list (vop K)) s o s' x,
  Forall no_wrap os -> run_vops vstart os = Ok s -> no_wrap o -> run_vop s o = Ok s' ->
  x <> target s o -> ~ moved o x -> var s' x = var s x /\
  (shared s (target s o) x = false \/ repoints s o (target s o) = true -> ~ dangling s' x -> contents s' x = contents s x).
Proof.
  intros K os s o s' x F E NW R.
  exact (proj1 (proj2 (vop_sound K s o s' (run_vops_wf K os vstart s (wf_vstart K) F E) NW R)) x).
Qed.

(* a vector loses its memory only when the owner of this memory is destroyed or gets another size *)
Theorem C37_cause_of_dangling : forall (K : Num) (os : list (vop K)) s o s' x,
  Forall no_wrap os -> run_vops vstart os = Ok s -> no_wrap o -> run_vop s o = Ok s' ->
  x <> target s o -> ~ moved o x -> dangling s' x ->
  dangling s x \/ (repoints s o (target s o) = true /\ dv_own (var s (target s o)) = true /\
    option_map fst (dv_data (var s (target s o))) = option_map fst (dv_data (var s x))).
Proof.
  intros K os s o s' x F E NW R. exact (dangling_cause K s o s' x (run_vops_wf K os vstart s (wf_vstart K) F E) NW R).
Qed.

(* a view shows its part of the vector as long as none of them is re-pointed, whatever is done to either *)
Theorem C37_view_shows_its_part : forall (K : Num) (os1 os2 : list (vop K)) s0 s1 s2 w v start n l,
  Forall no_wrap (os1 ++ VView w v start n :: os2) ->
  run_vops vstart os1 = Ok s0 -> run_vop s0 (VView w v start n) = Ok s1 -> run_vops s1 os2 = Ok s2 ->
  keeps s1 os2 w -> keeps s1 os2 v -> contents s2 v = Ok l ->
  contents s2 w = Ok (firstn n (skipn start l)).
Proof.
  intros K os1 os2 s0 s1 s2 w v start n l F E0 E1 E2 Kw Kv El. apply Forall_app in F. destruct F as [F1 F2]. inversion F2; subst.
  assert (W0 := run_vops_wf K os1 vstart s0 (wf_vstart K) F1 E0). destruct (view_created K s0 w v start n s1 W0 H1 E1) as [V [_ [Lw Lv]]].
  apply (view_reads K s2 w v start n l); [|exact El].
  exact (keeps_view K os2 s1 s2 w v start n (proj1 (vop_sound K s0 _ s1 W0 H1 E1)) H2 E2 Lw Lv Kw Kv V).
Qed.

(* an operation on a view (without re-pointing it) replaces exactly its part of the vector *)
Theorem C37_writing_to_a_view : forall (K : Num) (os : list (vop K)) s o s' v start n l m,
  Forall no_wrap os -> run_vops vstart os = Ok s -> no_wrap o -> clean o s -> run_vop s o = Ok s' ->
  target s o < length (vs_vars s) -> repoints s o (target s o) = false ->
  is_view s (target s o) v start n -> repoints s o v = false -> v < length (vs_vars s) ->
  contents s v = Ok l -> expected s o = Ok m ->
  length m = n /\ contents s' v = Ok (firstn start l ++ m ++ skipn (start + n) l).
Proof.
  intros K os s o s' v start n l m F E. exact (view_writes K s o s' v start n l m (run_vops_wf K os vstart s (wf_vstart K) F E)).
Qed.

(* a copy shares nothing with any other vector *)
Theorem C37_copy_is_independent : forall (K : Num) (os : list (vop K)) s r s' x,
  Forall no_wrap os -> run_vops vstart os = Ok s -> run_vop s (VCopyNew r) = Ok s' -> x <> length (vs_vars s) ->
  shared s' (length (vs_vars s)) x = false /\ shared s' x (length (vs_vars s)) = false.
Proof. intros K os s r s' x F E R. exact (copy_unshared K s r s' (run_vops_wf K os vstart s (wf_vstart K) F E) R x). Qed.

(* views on separate parts share nothing *)
Theorem C37_separate_views : forall (K : Num) (s : vst K) v w1 a1 n1 w2 a2 n2,
  is_view s w1 v a1 n1 -> is_view s w2 v a2 n2 -> a1 + n1 <= a2 \/ a2 + n2 <= a1 -> shared s w1 w2 = false.
Proof. intros K s v w1 a1 n1 w2 a2 n2. exact (views_disjoint K s v w1 a1 n1 w2 a2 n2). Qed.

(* a vector of 5 numbers (0), two views on it (1: 0-1, 2: 2-4), a copy (3) *)
Definition vdemo : list (vop ZNum) :=
  [VNew; VNew; VNew; VReinit 0 5 7%Z; VView 1 0 0 2; VView 2 0 2 3; VCopyNew 0].
Definition shown (os : list (vop ZNum)) : outcome (list (outcome (list Z))) :=
  s <- run_vops vstart os ;; Ok (map (fun v => contents s v) (seq 0 (length (vs_vars s)))).
Example vdemo_1 : shown (vdemo ++ [VFill 1 1%Z; VSet 2 1 2%Z; VAddTo Z.add 2 2; VSet 0 4 9%Z]) =
  Ok [Ok [1; 1; 14; 4; 9]; Ok [1; 1]; Ok [14; 4; 9]; Ok [7; 7; 7; 7; 7]]%Z.
Proof. reflexivity. Qed.
(* v = v + v, v = v - copy *)
Example vdemo_2 : shown (vdemo ++ [VEval 2 (EZip Z.add 2 2); VEval 0 (EZip Z.sub 0 3); VEval 1 (EMap Z.opp 1)]) =
  Ok [Ok [0; 0; 7; 7; 7]; Ok [0; 0]; Ok [7; 7; 7]; Ok [7; 7; 7; 7; 7]]%Z.
Proof. reflexivity. Qed.
(* += on arrays shifted by one place uses already changed numbers (excluded by clean) *)
Example vdemo_3 : shown [VNew; VNew; VNew; VReinit 0 4 1%Z; VView 1 0 0 3; VView 2 0 1 3; VAddTo Z.add 2 1] =
  Ok [Ok [1; 2; 3; 4]; Ok [1; 2; 3]; Ok [2; 3; 4]]%Z.
Proof. reflexivity. Qed.
(* a view outlives its vector: reading it is undefined *)
Example vdemo_4 : shown (vdemo ++ [VClear 0]) = Ok [Ok []; UB; UB; Ok [7; 7; 7; 7; 7]]%Z.
Proof. reflexivity. Qed.
Example vdemo_hyp : Forall no_wrap vdemo.
Proof. repeat constructor. Qed.

(* C38: an assignment of the same size stays within the view's memory *)
Theorem C38_same_size_partial : forall (K : Num) (os : list (vop K)) s w r s' v start n l m,
  Forall no_wrap os -> run_vops vstart os = Ok s -> run_vop s (VAssign w r) = Ok s' ->
  is_view s w v start n -> v <> w -> w < length (vs_vars s) -> v < length (vs_vars s) ->
  dv_data (var s r) <> None -> dv_size (var s r) = n ->
  contents s v = Ok l -> contents s r = Ok m ->
  is_view s' w v start n /\ contents s' v = Ok (firstn start l ++ m ++ skipn (start + n) l).
Proof.
  intros K os s w r s' v start n l m F E R V N Lw Lv D Sz El Em. assert (W := run_vops_wf K os vstart s (wf_vstart K) F E).
  assert (Sw : dv_size (var s w) = n) by (destruct V as [b [i [_ [_ [V _]]]]]; exact V).
  assert (Rw : repoints s (VAssign w r) w = false).
  { cbn. unfold is_init. destruct (dv_data (var s r)); [|congruence]. rewrite Sw, Sz, !Nat.eqb_refl. cbn. now rewrite andb_false_r. }
  assert (Rv : repoints s (VAssign w r) v = false) by (cbn; destruct (Nat.eqb_spec w v); [congruence|auto]).
  split.
  - unfold is_view. rewrite (keep_var K s (VAssign w r) s' w W I R Lw Rw), (keep_var K s (VAssign w r) s' v W I R Lv Rv). exact V.
  - exact (proj2 (view_writes K s (VAssign w r) s' v start n l m W I I R Lw Rw V Rv Lv El Em)).
Qed.

(* an assignment of another size silently turns the view into an independent vector *)
Theorem C38_other_size_refuted :
  exists (os : list (vop ZNum)), Forall no_wrap os /\
    shown (os ++ [VAssign 1 2]) = Ok [Ok [1; 1; 1; 1]; Ok [5; 5; 5]; Ok [5; 5; 5]]%Z /\
    shown (os ++ [VAssign 1 2; VFill 1 8%Z]) = Ok [Ok [1; 1; 1; 1]; Ok [8; 8; 8]; Ok [5; 5; 5]]%Z /\
    exists s, run_vops vstart os = Ok s /\ is_view s 1 0 1 2.
Proof.
  exists [VNew; VNew; VNew; VReinit 0 4 1%Z; VView 1 0 1 2; VReinit 2 3 5%Z].
  split; [repeat constructor|]. split; [reflexivity|]. split; [reflexivity|].
  eexists. split; [reflexivity|]. exists 0, 0. vm_compute. auto.
Qed.

(* C71: the bounds check of a view is done in 32 bits *)
Theorem C71_view_inside_partial : forall (K : Num) (os : list (vop K)) s w v start n s',
  Forall no_wrap os -> run_vops vstart os = Ok s -> no_wrap (VView (K := K) w v start n) -> run_vop s (VView w v start n) = Ok s' ->
  is_view s' w v start n.
Proof.
  intros K os s w v start n s' F E NW R. exact (proj1 (view_created K s w v start n s' (run_vops_wf K os vstart s (wf_vstart K) F E) NW R)).
Qed.

Theorem C71_view_inside_refuted : exists (start : nat) (s' : vst ZNum),
  run_vops vstart [VNew; VNew; VReinit 0 4 1%Z; VView 1 0 start 2] = Ok s' /\ contents s' 1 = UB.
Proof.
  set (start := N.to_nat 4294967295). exists start.
  assert (Wr : wrap32 (start + 2) = 1%N).
  { unfold wrap32, start. rewrite Nat2N.inj_add, N2Nat.id. reflexivity. }
  clearbody start || idtac.
  exists (mkVst [Some [1; 1; 1; 1]%Z] [mkDv true (Some (0, 0)) 4; mkDv false (Some (0, start)) 2]). split.
  - cbn [run_vops ofold run_vop]. cbn [vs_vars vs_heap aget nth_error app obind vstart clear_dv dv_own dv_empty new_dv repeat upd fst snd length dv_data dv_size asserting plus].
    cbn. rewrite Wr. reflexivity.
  - unfold contents, var, read_dv, read_mem. cbn [vs_vars nth dv_data dv_size vs_heap nth_error Nat.eqb length].
    destruct (Nat.leb_spec (start + 2) 4) as [H|H]; [|reflexivity]. exfalso. clear - H Wr.
    destruct start as [|[|[|start]]]; [discriminate|discriminate|discriminate|lia].
Qed.

(* C72: assigning a vector a view on a part of itself *)
Theorem C72_own_part_refuted :
  shown [VNew; VNew; VReinit 0 4 1%Z; VView 1 0 1 2; VAssign 0 1] = UB.
Proof. reflexivity. Qed.
(* through a copy (or any temporary) it works *)
Theorem C72_own_part_through_temporary_partial : forall (K : Num) (os : list (vop K)) s v e s' m,
  Forall no_wrap os -> run_vops vstart os = Ok s -> run_vop s (VEval v e) = Ok s' -> eval s e = Ok m ->
  ~ dangling s' v -> contents s' v = Ok m.
Proof.
  intros K os s v e s' m F E R Em D.
  exact (proj2 (proj2 (proj2 (vop_sound K s (VEval v e) s' (run_vops_wf K os vstart s (wf_vstart K) F E) I R))) I m Em D).
Qed.
Example own_part_ok : shown [VNew; VNew; VReinit 0 4 1%Z; VView 1 0 1 2; VEval 0 (EMap Z.opp 1)] = Ok [Ok [-1; -1]; UB]%Z.
Proof. reflexivity. Qed.

Print Assumptions C37_every_array_has_one_owner.
Print Assumptions C37_no_leak_no_double_free.
Print Assumptions C37_allowed_calls_are_defined.
Print Assumptions C37_result.
Print Assumptions C37_others_unchanged.
Print Assumptions C37_cause_of_dangling.
Print Assumptions C37_view_shows_its_part.
Print Assumptions C37_writing_to_a_view.
Print Assumptions C37_copy_is_independent.
Print Assumptions C37_separate_views.
Print Assumptions C38_same_size_partial.
Print Assumptions C38_other_size_refuted.
Print Assumptions C71_view_inside_partial.
Print Assumptions C71_view_inside_refuted.
Print Assumptions C72_own_part_refuted.
Print Assumptions C72_own_part_through_temporary_partial.
