(* What assembly is expected to produce. *)
From Verif Require Import Base SparseModel SpecSparse BlockModel SpecBlock DofModel SpecDof AsmModel.

(* equation number of a DoF *)
Definition eqn (s : numst) (x : key) : nat := match key_eq s x with Ok e => e | _ => 0 end.

(* MatSym::comp, src/lib/math/Mat.h:595-605: index of element (i,j) (from 0) in the packed
   upper triangle of an n x n matrix *)
Definition sym_comp (n i j : nat) : nat :=
  let a := Nat.min i j in
  let b := Nat.max i j in
  n * a - (a - 1) * a / 2 + (b - a).

Definition node_keys (nodes types : list nat) : list key :=
  flat_map (fun n => map (fun t => (KNode, n, t)) types) nodes.
(* the DoFs of an element: of its nodes and of the element itself *)
Definition el_key (mesh : list (list nat)) (en : nat) (x : key) : Prop :=
  match x with
  | (KNode, n, _) => In n (nth (en - 1) mesh [])
  | (KEl, e, _) => e = en
  end.

Section Spec.
  Variable K : Num.
  Local Open Scope rng_scope.

  (* reading the global matrix *)
  Definition gvalue (B : bmat K) (i j : nat) : outcome K :=
    bi <- b_locate B (Nat.min i j) ;;
    bj <- b_locate B (Nat.max i j) ;;
    block_value B (fst bi) (fst bj) (snd bi) (snd bj).

  (* the DoFs to which rows/columns 0, 1, ... of the element matrix belong *)
  Definition ckeys (en : nat) (nodes : list nat) (c : contrib K) : list key :=
    match c with
    | CK types _ | CKF types _ _ | CKEigen types _ | CC types _ | CM types _ => node_keys nodes types
    | CMixed _ _ _ _ _ => node_keys nodes [UX; UY; UZ] ++ [(KEl, en, HYDRO_PRESSURE)]
    | CPlane41 _ _ => node_keys nodes [UX; UY] ++ [(KEl, en, HYDRO_PRESSURE)]
    end.

  (* the element matrix (n is the number of nodal DoFs) and load vector *)
  Definition cmat (n : nat) (c : contrib K) (p q : nat) : K :=
    match c with
    | CK _ Ke | CKF _ Ke _ | CC _ Ke | CM _ Ke => nth (sym_comp n p q) Ke 0
    | CKEigen _ Ke => nth (Nat.max p q) (nth (Nat.min p q) Ke []) 0
    | CMixed Kuu Kup Kpp _ _ =>
        if (p <? n)%nat then if (q <? n)%nat then nth (sym_comp n p q) Kuu 0 else nth p Kup 0
        else if (q <? n)%nat then nth q Kup 0 else Kpp
    | CPlane41 Ke _ => nth q (nth p Ke []) 0
    end.
  Definition cvec (n : nat) (c : contrib K) (p : nat) : K :=
    match c with
    | CKF _ _ Fe => nth p Fe 0
    | CMixed _ _ _ Fu Fp => if (p <? n)%nat then nth p Fu 0 else Fp
    | CPlane41 _ Qe => nth p Qe 0
    | _ => 0
    end.
  Definition ctarget (c : contrib K) : target :=
    match c with CC _ _ => TC | CM _ _ => TM | _ => TK end.
  Definition ctypes (c : contrib K) : list nat :=
    match c with
    | CK types _ | CKF types _ _ | CKEigen types _ | CC types _ | CM types _ => types
    | CMixed _ _ _ _ _ => [UX; UY; UZ]
    | CPlane41 _ _ => [UX; UY]
    end.
  Definition cdim (nodes : list nat) (c : contrib K) : nat := (length nodes * length (ctypes c))%nat.

  (* element matrices and vectors of the right size (and symmetric where both triangles are given) *)
  Definition good_sizes (nodes : list nat) (c : contrib K) : Prop :=
    let n := cdim nodes c in
    match c with
    | CK _ Ke | CC _ Ke | CM _ Ke => length Ke = tri n
    | CKF _ Ke Fe => length Ke = tri n /\ length Fe = n
    | CKEigen _ Ke => length Ke = n /\ Forall (fun r => length r = n) Ke
    | CMixed Kuu Kup _ Fu _ => length Kuu = tri n /\ length Kup = n /\ length Fu = n
    | CPlane41 Ke Qe =>
        length nodes = 4%nat /\ length Ke = 9%nat /\ Forall (fun r => length r = 9%nat) Ke /\
        length Qe = 9%nat /\
        forall p q, (p < 9)%nat -> (q < 9)%nat -> nth q (nth p Ke []) 0 = nth p (nth q Ke []) 0
    end.

  (* a matrix / vector given for the DoFs keys, scattered to global equations *)
  Definition dkey : key := (KEl, 0%nat, 0%nat).
  Definition at_eq (s : numst) (keys : list key) (p a : nat) : bool := Nat.eqb (eqn s (nth p keys dkey)) a.
  Definition mat_part (s : numst) (keys : list key) (ke : nat -> nat -> K) (a b : nat) : K :=
    sumof (fun p => sumof (fun q => if at_eq s keys p a && at_eq s keys q b then ke p q else 0)
      (seq 0 (length keys))) (seq 0 (length keys)).
  Definition vec_part (s : numst) (keys : list key) (fe : nat -> K) (a : nat) : K :=
    sumof (fun p => if at_eq s keys p a then fe p else 0) (seq 0 (length keys)).
  (* the off-diagonal numbers ke p q, p < q, of rows belonging to the same DoF *)
  Definition dup_part (s : numst) (keys : list key) (ke : nat -> nat -> K) (a b : nat) : K :=
    if Nat.eqb a b then
      sumof (fun p => sumof (fun q => if at_eq s keys p a && at_eq s keys q a then ke p q else 0)
        (seq (S p) (length keys - S p))) (seq 0 (length keys))
    else 0.

  (* all contributions with element number and nodes *)
  Definition contribs (mesh : list (list nat)) (ks : list (list (contrib K)))
    : list (nat * list nat * contrib K) :=
    flat_map (fun x => map (fun c => (fst x, nth (fst x - 1) mesh [], c)) (snd x))
      (combine (seq 1 (length mesh)) ks).
  Definition tgt_eqb (x y : target) : bool :=
    match x, y with TK, TK | TC, TC | TM, TM => true | _, _ => false end.
  Definition kpart (s : numst) (a b : nat) (x : nat * list nat * contrib K) : K :=
    match x with (en, nodes, c) => mat_part s (ckeys en nodes c) (cmat (cdim nodes c) c) a b end.
  Definition dpart (s : numst) (a b : nat) (x : nat * list nat * contrib K) : K :=
    match x with (en, nodes, c) => dup_part s (ckeys en nodes c) (cmat (cdim nodes c) c) a b end.
  Definition fpart (s : numst) (a : nat) (x : nat * list nat * contrib K) : K :=
    match x with (en, nodes, c) => vec_part s (ckeys en nodes c) (cvec (cdim nodes c) c) a end.
  Definition has_target (t : target) (x : nat * list nat * contrib K) : bool :=
    tgt_eqb (ctarget (snd x)) t.

  (* sums over all elements *)
  Definition sum_matrix (s : numst) mesh ks (t : target) (a b : nat) : K :=
    sumof (kpart s a b) (filter (has_target t) (contribs mesh ks)).
  Definition sum_dup (s : numst) mesh ks (t : target) (a b : nat) : K :=
    sumof (dpart s a b) (filter (has_target t) (contribs mesh ks)).
  Definition sum_vector (s : numst) mesh ks (a : nat) : K :=
    sumof (fpart s a) (contribs mesh ks).
  (* MPC coefficients: equation e of the list, terms *)
  Definition mpc_matrix (s : numst) (mpcs : list (mpc K)) (a b : nat) : K :=
    sumof (fun x => sumof (fun t =>
        if same_pair (fst x) (eqn s (term_key t)) a b then snd t else 0) (mp_terms (snd x)))
      (mpc_list s mpcs).
End Spec.
Arguments gvalue {K} _ _ _.
Arguments ckeys {K} _ _ _.
Arguments cmat {K} _ _ _ _.
Arguments cvec {K} _ _ _.
Arguments ctarget {K} _.
Arguments ctypes {K} _.
Arguments cdim {K} _ _.
Arguments good_sizes {K} _ _.
Arguments mat_part {K} _ _ _ _ _.
Arguments vec_part {K} _ _ _ _.
Arguments dup_part {K} _ _ _ _ _.
Arguments contribs {K} _ _.
Arguments kpart {K} _ _ _ _.
Arguments dpart {K} _ _ _ _.
Arguments fpart {K} _ _ _.
Arguments has_target {K} _ _.
Arguments sum_matrix {K} _ _ _ _ _ _.
Arguments sum_dup {K} _ _ _ _ _ _.
Arguments sum_vector {K} _ _ _ _.
Arguments mpc_matrix {K} _ _ _ _.

(* a complete problem: everything refers to existing nodes and registered DoFs *)
Record good_problem {K : Num} (nn : nat) (mesh : list (list nat)) (regs : list reg)
  (fixes : list key) (mpcs : list (mpc K)) : Prop := {
  gp_nodes : forall nodes n, In nodes mesh -> In n nodes -> 1 <= n <= nn;
  gp_regs : Forall (good_reg nn (length mesh)) regs;
  gp_fixes : Forall (fun x => In x (reg_keys regs)) fixes;
  gp_free : exists x, In x (reg_keys regs) /\ ~ In x fixes;
  gp_terms : Forall (fun m => mp_terms m <> []) mpcs;
  gp_term_keys : forall m t, In m mpcs -> In t (mp_terms m) -> In (term_key t) (reg_keys regs) }.

(* numbering and creation of the matrices, as done by every solver *)
Definition prepare {K : Num} (transient : bool) (nn : nat) (mesh : list (list nat)) (regs : list reg)
  (fixes : list key) (mpcs : list (mpc K)) : outcome (gst K) :=
  s <- init_sequence (fresh_storage nn (length mesh) (map (fun m => length (mp_terms m)) mpcs)) regs [] fixes ;;
  initSolutionData transient s mesh mpcs.

(* no row of the matrix has more than max_in_row different columns *)
Definition capacity_ok {K : Num} (nn : nat) (mesh : list (list nat)) (regs : list reg)
  (fixes : list key) (mpcs : list (mpc K)) : Prop :=
  forall s es, init_sequence (fresh_storage nn (length mesh) (map (fun m => length (mp_terms m)) mpcs)) regs [] fixes = Ok s ->
    entries s mesh mpcs = Ok es ->
    fits_blocks [ns_ncon s; ns_nunk s + n_mpc s] max_in_row es.

(* elements hand over matrices of the right size for registered DoFs *)
Definition good_contribs {K : Num} (mesh : list (list nat)) (regs : list reg)
  (ks : list (list (contrib K))) : Prop :=
  length ks = length mesh /\
  forall en nodes c, In (en, nodes, c) (contribs mesh ks) ->
    good_sizes nodes c /\ Forall (fun x => In x (reg_keys regs)) (ckeys en nodes c).
(* only buildC/buildM may use assembleC, assembleM *)
Definition only_K {K : Num} (ks : list (list (contrib K))) : Prop :=
  Forall (Forall (fun c => ctarget c = TK)) ks.
Definition only_CM {K : Num} (cs : list (list (contrib K))) : Prop :=
  Forall (Forall (fun c => ctarget c <> TK)) cs.
Definition same_terms {K : Num} (m m' : mpc K) : Prop :=
  map term_key (mp_terms m) = map term_key (mp_terms m').

(* one assembly: what buildK of the elements adds, what buildC and buildM add, MPC equations *)
Record step {K : Num} := mkStep {
  st_ks : list (list (contrib K)); st_cs : list (list (contrib K)); st_mpcs : list (mpc K) }.
Arguments step : clear implicits.
Arguments mkStep {K} _ _ _.
Arguments st_ks {K} _.
Arguments st_cs {K} _.
Arguments st_mpcs {K} _.
Definition good_step {K : Num} (transient : bool) (mesh : list (list nat)) (regs : list reg)
  (mpcs : list (mpc K)) (h : step K) : Prop :=
  good_contribs mesh regs (st_ks h) /\ only_K (st_ks h) /\
  (transient = true -> good_contribs mesh regs (st_cs h)) /\ only_CM (st_cs h) /\
  Forall2 same_terms mpcs (st_mpcs h).
(* any number of assemblies one after the other *)
Definition assemble_all {K : Num} (g : gst K) (hist : list (step K)) : outcome (gst K) :=
  ofold (fun g h => assembleGlobal g (st_ks h) (st_cs h) (st_mpcs h)) hist g.
Definition g_size {K : Num} (g : gst K) : nat := ns_ndofs (g_num g) + n_mpc (g_num g).
(* no element has a repeated node, no repeated DoF type *)
Definition distinct_nodes {K : Num} (mesh : list (list nat)) (ks : list (list (contrib K))) : Prop :=
  Forall (fun nodes => NoDup nodes) mesh /\ Forall (Forall (fun c => NoDup (ctypes c))) ks.
(* x and y belong to the same element *)
Definition share_element (mesh : list (list nat)) (x y : key) : Prop :=
  exists en, 1 <= en <= length mesh /\ el_key mesh en x /\ el_key mesh en y.
