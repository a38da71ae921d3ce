(* Model of the assembly of the global equation system.
   Sources: src/lib/FEStorage.cpp:26-78 (assembleGlobalEqMatrices), 434-550 (initSolutionData),
            580-589 (learnTopology); src/lib/FEStorage.h:381-470 (addValue...);
            src/lib/elements/element.h:281-386, element.cpp:38-60 (assembleK/C/M);
            src/lib/elements/PLANE41.h:55-97, SOLID81.h:58-94. *)
From Verif Require Import Base SparseModel BlockModel DofModel.

(* concatenation of the lists produced by a fallible function *)
Definition oconcat {A B} (f : A -> outcome (list B)) (l : list A) : outcome (list B) :=
  r <- omap f l ;; Ok (concat r).

(* ------------------------------------------------------------------ *)
(* initSolutionData.  mesh: the node numbers of the elements. *)
Definition good_mesh (nn : nat) (mesh : list (list nat)) : bool :=
  forallb (forallb (fun n => (1 <=? n) && (n <=? nn))) mesh.

(* topology[nn-1]: the (ordered) set of the elements having node nn, FEStorage.cpp:580-589 *)
Definition topology (mesh : list (list nat)) (nn : nat) : list nat :=
  filter (fun en => existsb (Nat.eqb nn) (nth (en - 1) mesh [])) (seq 1 (length mesh)).

Definition eqs (ds : list dof) : list nat := map d_eq ds.

(* FEStorage.cpp:496-520: couplings of node nn *)
Definition node_entries (s : numst) (mesh : list (list nat)) (nn : nat) : outcome (list (nat * nat)) :=
  nd <- getEntityDofs (ns_node s) nn ;;
  oconcat (fun en =>
      ed <- getEntityDofs (ns_el s) en ;;
      nodes <- aget mesh (en - 1) ;;
      r <- oconcat (fun nn2 =>
              if nn2 <? nn then Ok [] else
              nd2 <- getEntityDofs (ns_node s) nn2 ;;
              Ok (list_prod (eqs nd2) (eqs nd))) nodes ;;
      Ok (list_prod (eqs ed) (eqs nd) ++ r))
    (topology mesh nn).

(* FEStorage.cpp:523-528: element DoFs vs element DoFs *)
Definition el_entries (s : numst) (en : nat) : outcome (list (nat * nat)) :=
  ed <- getEntityDofs (ns_el s) en ;; Ok (list_prod (eqs ed) (eqs ed)).

Section Asm.
  Variable K : Num.

  (* Mpc: right hand side b and terms (node, DoF type, coefficient), Mpc.h; the equation number
     is kept in ns_mpc *)
  Record mpc := mkMpc { mp_b : K; mp_terms : list (nat * nat * K) }.
  Definition term_key (t : nat * nat * K) : kind * nat * nat := (KNode, fst (fst t), snd (fst t)).
  Definition kd_eq (s : numst) (x : kind * nat * nat) : outcome nat :=
    match x with (k, n, t) => dof_eq s k n t end.

  (* FEStorage.cpp:531-539 *)
  Definition mpc_entries (s : numst) (x : nat * mpc) : outcome (list (nat * nat)) :=
    asserting (0 <? length (mp_terms (snd x)))
    (omap (fun t => e <- kd_eq s (term_key t) ;; Ok (fst x, e)) (mp_terms (snd x))).

  Definition mpc_list (s : numst) (mpcs : list mpc) : list (nat * mpc) :=
    combine (map snd (ns_mpc s)) mpcs.

  (* all positions registered by initSolutionData, in order *)
  Definition entries (s : numst) (mesh : list (list nat)) (mpcs : list mpc)
    : outcome (list (nat * nat)) :=
    if good_mesh (ns_nodes s) mesh then
      e1 <- oconcat (node_entries s mesh) (seq 1 (ns_nodes s)) ;;
      e2 <- oconcat (el_entries s) (seq 1 (ns_els s)) ;;
      e3 <- oconcat (mpc_entries s) (mpc_list s mpcs) ;;
      Ok (e1 ++ e2 ++ e3)
    else UB.                                  (* topology[noden-1] *)

  Definition n_mpc (s : numst) : nat := length (ns_mpc s).

  (* the part of FEStorage used by the assembly *)
  Record gst := mkGst {
    g_num : numst;
    g_mesh : list (list nat);
    g_K : bmat K;                             (* matK *)
    g_CM : option (bmat K * bmat K);          (* matC, matM: only if transient *)
    g_F : list K }.                           (* vecF *)

  (* FEStorage.cpp:434-550.  matC and matM share the SparsityInfo objects of matK (they are
     created before the positions are registered, the values are allocated by compress): the
     result is the same as copying the compressed matrix.  100 is the default of max_in_row
     (BlockSparseMatrix.h:45). *)
  Definition max_in_row : nat := 100.
  Definition initSolutionData (transient : bool) (s : numst) (mesh : list (list nat))
    (mpcs : list mpc) : outcome gst :=
    es <- entries s mesh mpcs ;;
    B0 <- b_new K 2 [ns_ncon s; ns_nunk s + n_mpc s] max_in_row ;;
    B1 <- ofold (fun B e => b_addEntry B (fst e) (snd e)) es B0 ;;
    B <- b_compress B1 ;;
    cm <- (if transient
           then C <- b_copy B ;; M <- b_copy B ;;
                C' <- b_compress C ;; M' <- b_compress M ;; Ok (Some (C', M'))
           else Ok None) ;;
    Ok (mkGst s mesh B cm (repeat r0 (ns_ndofs s + n_mpc s))).

  (* ---------------------------------------------------------------- *)
  (* Scatter loops of the elements: lists of calls of addValueK/C/M/F *)
  Inductive target := TK | TC | TM.
  Inductive call :=
  | AddM (t : target) (x y : kind * nat * nat) (v : K)
  | AddF (x : kind * nat * nat) (v : K).

  (* for i, for di, for j >= i, for dj, skipping dj < di if i == j: element.h:289-301 *)
  Definition loop_pairs (nn dim : nat) : list ((nat * nat) * (nat * nat)) :=
    flat_map (fun i => flat_map (fun di => flat_map (fun j => flat_map (fun dj =>
        if (i =? j) && (dj <? di) then [] else [((i, di), (j, dj))])
      (seq 0 dim)) (seq i (nn - i))) (seq 0 dim)) (seq 0 nn).
  Definition loop_nodes (nn dim : nat) : list (nat * nat) :=
    list_prod (seq 0 nn) (seq 0 dim).

  Definition nkey (nodes types : list nat) (x : nat * nat) : outcome (kind * nat * nat) :=
    n <- aget nodes (fst x) ;; t <- aget types (snd x) ;; Ok (KNode, n, t).

  (* the numbers are read through a running pointer *)
  Definition numbered_list {A} (l : list A) : list (nat * A) := combine (seq 0 (length l)) l.

  (* MatSym<dimM> has dimM*(dimM+1)/2 numbers *)
  Definition tri (n : nat) : nat := n * (n + 1) / 2.

  Definition sym_calls (tg : target) (nodes types : list nat) (Ke : list K) : outcome (list call) :=
    asserting (length Ke =? tri (length nodes * length types))
    (omap (fun x =>
        a <- nkey nodes types (fst (snd x)) ;;
        b <- nkey nodes types (snd (snd x)) ;;
        v <- aget Ke (fst x) ;;
        Ok (AddM tg a b v))
      (numbered_list (loop_pairs (length nodes) (length types)))).

  Definition vec_calls (nodes types : list nat) (Fe : list K) : outcome (list call) :=
    omap (fun x =>
        a <- nkey nodes types (snd x) ;; v <- aget Fe (fst x) ;; Ok (AddF a v))
      (numbered_list (loop_nodes (length nodes) (length types))).

  Definition aget2 (M : list (list K)) (i j : nat) : outcome K := r <- aget M i ;; aget r j.

  (* element.cpp:38-60; selfadjointView<Upper>()(a,b) reads the upper triangle *)
  Definition eigen_calls (nodes types : list nat) (Ke : list (list K)) : outcome (list call) :=
    let dim := length types in
    asserting (length Ke =? length nodes * dim)
    (omap (fun x =>
        a <- nkey nodes types (fst x) ;;
        b <- nkey nodes types (snd x) ;;
        let p := fst (fst x) * dim + snd (fst x) in
        let q := fst (snd x) * dim + snd (snd x) in
        v <- aget2 Ke (Nat.min p q) (Nat.max p q) ;;
        Ok (AddM TK a b v))
      (loop_pairs (length nodes) dim)).

  Definition UX := 0.  Definition UY := 1.  Definition UZ := 2.  Definition HYDRO_PRESSURE := 6.
  Definition pkey (en : nat) : kind * nat * nat := (KEl, en, HYDRO_PRESSURE).

  (* SOLID81.h:58-94 *)
  Definition solid81_types := [UX; UY; UZ].
  Definition mixed_calls (en : nat) (nodes : list nat) (Kuu Kup : list K) (Kpp : K) (Fu : list K)
    (Fp : K) : outcome (list call) :=
    uu <- sym_calls TK nodes solid81_types Kuu ;;
    up <- omap (fun x =>
            a <- nkey nodes solid81_types (snd x) ;; v <- aget Kup (fst x) ;;
            Ok (AddM TK a (pkey en) v))
          (numbered_list (loop_nodes (length nodes) 3)) ;;
    f <- vec_calls nodes solid81_types Fu ;;
    Ok (uu ++ up ++ [AddM TK (pkey en) (pkey en) Kpp] ++ f ++ [AddF (pkey en) Fp]).

  (* PLANE41.h:55-97: four nodes, dim = 2, eds = 8, eldofs = 1 *)
  Definition plane41_types := [UX; UY].
  Definition plane41_pairs : list ((nat * nat) * (nat * nat)) :=
    flat_map (fun i => flat_map (fun j => flat_map (fun di => flat_map (fun dj =>
        if (i =? j) && (di <? dj) then [] else [((i, di), (j, dj))])
      (seq 0 2)) (seq 0 2)) (seq i (4 - i))) (seq 0 4).
  Definition plane41_calls (en : nat) (nodes : list nat) (Ke : list (list K)) (Qe : list K)
    : outcome (list call) :=
    asserting (length nodes =? 4) (asserting (length Qe =? 9)
    (uu <- omap (fun x =>
            a <- nkey nodes plane41_types (fst x) ;;
            b <- nkey nodes plane41_types (snd x) ;;
            v <- aget2 Ke (fst (fst x) * 2 + snd (fst x)) (fst (snd x) * 2 + snd (snd x)) ;;
            Ok (AddM TK a b v)) plane41_pairs ;;
     up <- omap (fun x =>
            a <- nkey nodes plane41_types x ;;
            v <- aget2 Ke (fst x * 2 + snd x) 8 ;;
            Ok (AddM TK a (pkey en) v)) (loop_nodes 4 2) ;;
     pp <- aget2 Ke 8 8 ;;
     f <- omap (fun x =>
            a <- nkey nodes plane41_types x ;; v <- aget Qe (fst x * 2 + snd x) ;;
            Ok (AddF a v)) (loop_nodes 4 2) ;;
     fp <- aget Qe 8 ;;
     Ok (uu ++ up ++ [AddM TK (pkey en) (pkey en) pp] ++ f ++ [AddF (pkey en) fp]))).

  (* what an element hands to the storage in buildK / buildC / buildM *)
  Inductive contrib :=
  | CK (types : list nat) (Ke : list K)                    (* assembleK(MatSym, types) *)
  | CKF (types : list nat) (Ke Fe : list K)                (* assembleK(MatSym, Vec, types) *)
  | CKEigen (types : list nat) (Ke : list (list K))        (* assembleK(Eigen matrix, types) *)
  | CC (types : list nat) (Ce : list K)                    (* assembleC *)
  | CM (types : list nat) (Me : list K)                    (* assembleM: calls addValueC *)
  | CMixed (Kuu Kup : list K) (Kpp : K) (Fu : list K) (Fp : K)   (* SOLID81::assemble3 *)
  | CPlane41 (Ke : list (list K)) (Qe : list K).           (* PLANE41::assembleK *)

  Definition contrib_calls (en : nat) (nodes : list nat) (c : contrib) : outcome (list call) :=
    match c with
    | CK types Ke => sym_calls TK nodes types Ke
    | CKF types Ke Fe =>
        a <- sym_calls TK nodes types Ke ;; b <- vec_calls nodes types Fe ;; Ok (a ++ b)
    | CKEigen types Ke => eigen_calls nodes types Ke
    | CC types Ce => sym_calls TC nodes types Ce
    | CM types Me => sym_calls TC nodes types Me
    | CMixed Kuu Kup Kpp Fu Fp => mixed_calls en nodes Kuu Kup Kpp Fu Fp
    | CPlane41 Ke Qe => plane41_calls en nodes Ke Qe
    end.

  (* addValueF(eq, v), FEStorage.h:441-447 *)
  Definition addF (s : numst) (F : list K) (e : nat) (v : K) : outcome (list K) :=
    asserting (0 <? e) (asserting (e <=? length F) (asserting (e <=? ns_ndofs s + n_mpc s)
      (x <- aget F (e - 1) ;; aset F (e - 1) (radd x v)))).

  Definition run_call (g : gst) (c : call) : outcome gst :=
    let s := g_num g in
    match c with
    | AddM t x y v =>
        i <- kd_eq s x ;; j <- kd_eq s y ;;
        match t, g_CM g with
        | TK, _ => B <- b_addValue (g_K g) i j v ;; Ok (mkGst s (g_mesh g) B (g_CM g) (g_F g))
        | TC, Some (C, M) =>
            C' <- b_addValue C i j v ;; Ok (mkGst s (g_mesh g) (g_K g) (Some (C', M)) (g_F g))
        | TM, Some (C, M) =>
            M' <- b_addValue M i j v ;; Ok (mkGst s (g_mesh g) (g_K g) (Some (C, M')) (g_F g))
        | _, None => UB                       (* matC, matM are null pointers *)
        end
    | AddF x v =>
        e <- kd_eq s x ;; F <- addF s (g_F g) e v ;;
        Ok (mkGst s (g_mesh g) (g_K g) (g_CM g) F)
    end.

  (* buildK (buildC, buildM) of element en *)
  Definition run_element (g : gst) (x : nat * list contrib) : outcome gst :=
    nodes <- aget (g_mesh g) (fst x - 1) ;;
    ofold (fun g c => cs <- contrib_calls (fst x) nodes c ;; ofold run_call cs g) (snd x) g.

  (* FEStorage.cpp:52-63: one MPC equation *)
  Definition run_mpc (g : gst) (x : nat * mpc) : outcome gst :=
    let e := fst x in
    asserting (0 <? e) (asserting (e <=? length (g_F g))
    (asserting (e <=? ns_ndofs (g_num g) + n_mpc (g_num g))
    (F <- aset (g_F g) (e - 1) (mp_b (snd x)) ;;
     B <- ofold (fun B t => j <- kd_eq (g_num g) (term_key t) ;; b_addValue B e j (snd t))
            (mp_terms (snd x)) (g_K g) ;;
     Ok (mkGst (g_num g) (g_mesh g) B (g_CM g) F)))).

  (* FEStorage.cpp:26-78; ks: contributions made by buildK() of the elements 1, 2, ...;
     cs: by buildC() and buildM(); mpcs: the MPC equations after update() *)
  Definition assembleGlobal (g : gst) (ks cs : list (list contrib)) (mpcs : list mpc) : outcome gst :=
    let number l := combine (seq 1 (length (g_mesh g))) l in
    asserting (bm_compressed (g_K g))
    (B <- b_zero (g_K g) ;;
     let g0 := mkGst (g_num g) (g_mesh g) B (g_CM g) (repeat r0 (length (g_F g))) in
     g1 <- ofold run_element (number ks) g0 ;;
     g2 <- ofold run_mpc (mpc_list (g_num g) mpcs) g1 ;;
     match g_CM g2 with
     | None => Ok g2
     | Some (C, M) =>
         asserting (bm_compressed C) (asserting (bm_compressed M)
         (C' <- b_zero C ;; M' <- b_zero M ;;
          ofold run_element (number cs)
            (mkGst (g_num g2) (g_mesh g2) (g_K g2) (Some (C', M')) (g_F g2))))
     end).
End Asm.
Arguments mkMpc {K} _ _.
Arguments mp_b {K} _.
Arguments mp_terms {K} _.
Arguments term_key {K} _.
Arguments mpc_entries {K} _ _.
Arguments mpc_list {K} _ _.
Arguments entries {K} _ _ _.
Arguments mkGst {K} _ _ _ _ _.
Arguments g_num {K} _.
Arguments g_mesh {K} _.
Arguments g_K {K} _.
Arguments g_CM {K} _.
Arguments g_F {K} _.
Arguments initSolutionData {K} _ _ _ _.
Arguments AddM {K} _ _ _ _.
Arguments AddF {K} _ _.
Arguments sym_calls {K} _ _ _ _.
Arguments vec_calls {K} _ _ _.
Arguments eigen_calls {K} _ _ _.
Arguments mixed_calls {K} _ _ _ _ _ _ _.
Arguments plane41_calls {K} _ _ _ _.
Arguments aget2 {K} _ _ _.
Arguments CK {K} _ _.
Arguments CKF {K} _ _ _.
Arguments CKEigen {K} _ _.
Arguments CC {K} _ _.
Arguments CM {K} _ _.
Arguments CMixed {K} _ _ _ _ _.
Arguments CPlane41 {K} _ _.
Arguments contrib_calls {K} _ _ _.
Arguments addF {K} _ _ _ _.
Arguments run_call {K} _ _.
Arguments run_element {K} _ _.
Arguments run_mpc {K} _ _.
Arguments assembleGlobal {K} _ _ _ _.
