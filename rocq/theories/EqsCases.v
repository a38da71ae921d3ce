(* Wrong uses of the equation solver objects *)
From Coq Require Import QArith Qcanon Qcabs.
From Verif Require Import Base BaseProofs SparseModel SpecSparse SparseProofs SolveModel SpecSolve SolveProofs GaussModel SpecGauss GaussProofs EqsModel SpecEqs EqsProofs.
Local Open Scope nat_scope.

(* ---- Gauss *)
Lemma g_not_factorised (K : GNum) (m : smat K) rhs x : q_run g_step g_new [QSubst m rhs x] = Ok (mkG 0 (0, 0, []), [(rhs, x)]).
Proof. reflexivity. Qed.

Definition qc (z : Z) : QcG := Q2Qc (inject_Z z).
Definition got (m : outcome (smat QcG)) : smat QcG := match m with Ok m => m | _ => mkSM (mkSI 0 0 0 [] [] 0 false) None end.
(* [2 1; 1 2], [2 0; 0 2] without the zeros, [4] *)
Definition full2 : smat QcG := got (filled_sym 2 2 [(1, 1); (1, 2); (2, 2)] [VAdd 1 1 (qc 2); VAdd 1 2 (qc 1); VAdd 2 2 (qc 2)]).
Definition diag2 : smat QcG := got (filled_sym 2 2 [(1, 1); (2, 2)] [VAdd 1 1 (qc 2); VAdd 2 2 (qc 2)]).
Definition one1 : smat QcG := got (filled_sym 1 1 [(1, 1)] [VAdd 1 1 (qc 4)]).
Definition texts (r : outcome (gobj QcG * list (answer QcG))) : outcome (list (list Q * list Q)) :=
  a <- r ;; Ok (map (fun b => (map this (fst b), map this (snd b))) (snd a)).
(* the numbers of a matrix *)
Definition rd (m : smat QcG) (i j : nat) : QcG := match sym_value m i j with Ok a => a | _ => r0 end.
Definition legible (m : smat QcG) : bool :=
  let n := si_nrows (sm_si m) in forallb (fun i => forallb (fun j => match sym_value m i j with Ok _ => true | _ => false end) (seq 1 n)) (seq 1 n).
Lemma legible_ok m : legible m = true -> forall i j, in_shape (si_nrows (sm_si m)) (si_nrows (sm_si m)) (i, j) -> sym_value m i j = Ok (rd m i j).
Proof.
  intros H i j [H1 H2]. cbn [fst snd] in H1, H2. unfold legible in H. rewrite forallb_forall in H. specialize (H i ltac:(apply in_seq; lia)). rewrite forallb_forall in H. specialize (H j ltac:(apply in_seq; lia)).
  unfold rd. destruct (sym_value m i j); congruence.
Qed.
Lemma solves_rd m b y : legible m = true -> (solves m b y <-> length y = si_nrows (sm_si m) /\ forall i, i < si_nrows (sm_si m) -> mv (rd m) (si_nrows (sm_si m)) y (S i) = nth i b r0).
Proof.
  intros H. pose proof (legible_ok m H) as HR. split.
  - intros [L S]. split; [exact L|]. exact (S (rd m) HR).
  - intros [L S]. split; [exact L|]. intros A HA i Hi. rewrite <- S by exact Hi. apply (mv_ext (GR QcG QcG_laws)); [|reflexivity]. intros j Hj. pose proof (HR (Datatypes.S i) j ltac:(unfold in_shape; cbn [fst snd]; lia)) as E1.
    pose proof (HA (Datatypes.S i) j ltac:(unfold in_shape; cbn [fst snd]; lia)) as E2. congruence.
Qed.
(* the same call twice: the second one solves another system *)
Lemma g_twice : exists (b y z : list QcG), 
  (a <- q_run g_step g_new [QSolve full2 (map qc [1; 1]%Z) (map qc [0; 0]%Z)] ;; Ok (snd a)) = Ok [(b, y)] /\
  (a <- q_run g_step g_new [QSolve full2 (map qc [1; 1]%Z) (map qc [0; 0]%Z); QSolve full2 b y] ;; Ok (map snd (snd a))) = Ok [y; z] /\
  solves full2 (map qc [1; 1]%Z) y /\ ~ solves full2 (map qc [1; 1]%Z) z.
Proof.
  eexists _, _, _. split; [vm_compute; reflexivity|]. split; [vm_compute; reflexivity|]. rewrite !solves_rd by reflexivity. split.
  - split; [reflexivity|]. intros i Hi. change (si_nrows (sm_si full2)) with 2 in Hi. destruct i as [|[|i]]; [| |lia]; apply Qc_is_canon; vm_compute; reflexivity.
  - intros [_ S]. specialize (S 1 ltac:(cbv; lia)). apply (f_equal this) in S. vm_compute in S. discriminate.
Qed.
(* the size is that of the matrix that was factorised *)
Lemma g_other_size : exists (b y : list QcG),
  (a <- q_run g_step g_new [QFact one1; QSubst full2 (map qc [3; 3]%Z) (map qc [7; 7]%Z)] ;; Ok (snd a)) = Ok [(b, y)] /\
  nth 1 y r0 = qc 7 /\ ~ solves full2 (map qc [3; 3]%Z) y /\ solves full2 (map qc [3; 3]%Z) (map qc [1; 1]%Z).
Proof.
  eexists _, _. split; [vm_compute; reflexivity|]. rewrite !solves_rd by reflexivity. split; [apply Qc_is_canon; vm_compute; reflexivity|]. split.
  - intros [_ S]. specialize (S 0 ltac:(cbv; lia)). apply (f_equal this) in S. vm_compute in S. discriminate.
  - split; [reflexivity|]. intros i Hi. change (si_nrows (sm_si full2)) with 2 in Hi. destruct i as [|[|i]]; [| |lia]; apply Qc_is_canon; vm_compute; reflexivity.
Qed.
Lemma g_smaller_matrix (o : gobj QcG) rhs x : q_run g_step o [QFact full2; QSubst one1 rhs x] = UB.
Proof.
  cbn [q_run g_step]. change (g_fact o full2) with (Ok (mkG 2 (g_A o))). cbn [obind fst snd]. unfold g_subst. rewrite (g_fill_dense QcG). cbn [g_neq].
  assert (E : fill_dense one1 2 = UB) by (vm_compute; reflexivity). rewrite E. reflexivity.
Qed.

(* ---- PARDISO *)
Section Pardiso.
  Variable K : Num.
  Variable L : library K.
  Local Open Scope Z_scope.
  Definition setting (c : qcall K) : Prop := match c with QSym _ | QPos _ => True | _ => False end.
  Lemma settings_run l : forall o, Forall setting l -> exists o', q_run (p_step L) o l = Ok (o', []) /\ p_pt o' = p_pt o /\ p_log o' = p_log o /\ p_mtype o' = p_mtype o.
  Proof.
    induction l as [|c l IH]; intros o H; [exists o; auto|]. inversion H as [|? ? H1 H2]; subst. destruct c as [b|b| | |]; try destruct H1; cbn [q_run p_step obind fst snd app].
    - destruct (IH (mkP (p_neq o) b (p_pos o) (p_first o) (p_mtype o) (p_pt o) (p_log o)) H2) as (o' & E & R). rewrite E. exists o'. split; [reflexivity|exact R].
    - destruct (IH (mkP (p_neq o) (p_sym o) b (p_first o) (p_mtype o) (p_pt o) (p_log o)) H2) as (o' & E & R). rewrite E. exists o'. split; [reflexivity|exact R].
  Qed.
  (* an object that was not given a matrix *)
  Lemma p_unused l : Forall setting l -> p_life L p_default_init l = UB /\ p_life L p_value_init l = Ok ([], [(-1, -2)]).
  Proof.
    intros H. unfold p_life. split.
    - destruct (settings_run l p_default_init H) as (o' & E & P & LG & M). rewrite E. cbn [obind fst snd]. unfold p_end. now rewrite P.
    - destruct (settings_run l p_value_init H) as (o' & E & P & LG & M). rewrite E. cbn [obind fst snd]. unfold p_end. rewrite P, LG, M. reflexivity.
  Qed.
  Hypothesis NE : forall ph mt m, lib_err L ph mt m = false.
  Lemma p_fact_first m : sm_vals m <> None -> storage_fit (sm_si m) = true ->
    p_fact L p_value_init m = Ok (mkP (si_nrows (sm_si m)) true true false 2 (Mem (sm_si m) 2 (Some m)) [(11, 2); (22, 2)]).
  Proof.
    intros HV HF. unfold p_fact, p_init. cbn [p_value_init p_first p_sym p_pos checking]. unfold lib_analyse. destruct (sm_vals m) as [v|] eqn:EV; [|congruence]. rewrite HF, NE. cbn [asserting negb checking obind p_neq].
    rewrite Nat.eqb_refl. cbn [checking p_mtype p_pt]. unfold lib_factor. rewrite EV, same_pattern_refl, NE. reflexivity.
  Qed.
  Lemma p_other_size m m' : sm_vals m <> None -> storage_fit (sm_si m) = true -> si_nrows (sm_si m) <> si_nrows (sm_si m') ->
    q_run (p_step L) p_value_init [QFact m; QFact m'] = Fatal.
  Proof.
    intros HV HF HN. cbn [q_run p_step]. rewrite p_fact_first by auto. cbn [obind fst snd]. unfold p_fact. cbn [p_first obind p_neq]. destruct (Nat.eqb_spec (si_nrows (sm_si m)) (si_nrows (sm_si m'))); [congruence|reflexivity].
  Qed.
  Lemma p_other_pattern m m' : sm_vals m <> None -> storage_fit (sm_si m) = true -> si_nrows (sm_si m) = si_nrows (sm_si m') -> same_pattern (sm_si m) (sm_si m') = false ->
    q_run (p_step L) p_value_init [QFact m; QFact m'] = UB.
  Proof.
    intros HV HF HN HP. cbn [q_run p_step]. rewrite p_fact_first by auto. cbn [obind fst snd]. unfold p_fact. cbn [p_first obind p_neq]. rewrite HN, Nat.eqb_refl. cbn [checking p_mtype p_pt]. unfold lib_factor. destruct (sm_vals m'); [|reflexivity].
    now rewrite HP.
  Qed.
  Lemma p_late_setting m b : sm_vals m <> None -> storage_fit (sm_si m) = true ->
    p_life L p_value_init [QFact m; QPos false; QSym b; QFact m] = Ok ([], [(11, 2); (22, 2); (22, 2); (-1, 2)]).
  Proof.
    intros HV HF. unfold p_life. cbn [q_run p_step]. rewrite p_fact_first by auto. cbn [obind fst snd p_neq p_sym p_pos p_first p_mtype p_pt p_log app]. unfold p_fact. cbn [p_first obind p_neq]. rewrite Nat.eqb_refl.
    cbn [checking p_mtype p_pt]. unfold lib_factor. destruct (sm_vals m) as [v|] eqn:EV; [|congruence]. rewrite same_pattern_refl, NE. reflexivity.
  Qed.
  Lemma p_not_symmetric m : q_run (p_step L) p_value_init [QSym false; QFact m] = Fatal.
  Proof. reflexivity. Qed.
  (* substitution without factorisation *)
  Lemma p_not_factorised m b x : q_run (p_step L) p_value_init [QSubst m b x] = UB.
  Proof. reflexivity. Qed.
End Pardiso.

(* a library for systems of two equations *)
Local Open Scope Qc_scope.
Definition det2 (m : smat QcG) : Qc := (rd m 1 1 : Qc) * rd m 2 2 - (rd m 1 2 : Qc) * rd m 2 1.
Definition cramer2 (m : smat QcG) (b : list Qc) : list Qc :=
  [(nth 0 b 0 * rd m 2 2 - nth 1 b 0 * rd m 1 2) / det2 m; (nth 1 b 0 * rd m 1 1 - nth 0 b 0 * rd m 2 1) / det2 m].
Definition lib2 : library QcG :=
  mkLib (K := QcG) (fun _ _ m => negb (legible m && (si_nrows (sm_si m) =? 2)%nat && negb (Qc_eq_bool (det2 m) 0))) (fun _ m b => cramer2 m b).
Lemma lib2_exact : exact_library lib2.
Proof.
  intros mt m b Lb E1 _. cbn [lib_err lib2] in E1. apply negb_false_iff in E1. apply andb_true_iff in E1 as [E1 E2]. apply andb_true_iff in E1 as [E0 E1]. apply Nat.eqb_eq in E1.
  apply solves_rd; [exact E0|]. rewrite E1. split; [reflexivity|]. assert (D : det2 m <> 0).
  { intros D. rewrite D in E2. discriminate. }
  change (lib_x lib2 m m b) with (cramer2 m b). unfold cramer2. set (b0 := nth 0 b 0). set (b1 := nth 1 b 0). unfold det2 in *.
  set (p := rd m 1 1 : Qc) in *. set (q := rd m 1 2 : Qc) in *. set (r := rd m 2 1 : Qc) in *. set (s := rd m 2 2 : Qc) in *.
  intros i Hi. destruct i as [|[|i]]; [| |lia].
  - change (p * ((b0 * s - b1 * q) / (p * s - q * r)) + (q * ((b1 * p - b0 * r) / (p * s - q * r)) + 0) = b0). field. exact D.
  - change (r * ((b0 * s - b1 * q) / (p * s - q * r)) + (s * ((b1 * p - b0 * r) / (p * s - q * r)) + 0) = b1). field. exact D.
Qed.
