(* Model of the VTK writer.
   Sources: src/lib/VtkProcessor.cpp:19-66, 77-368, src/lib/elements/element.h:25-78, 396-418,
            src/lib/elements/query.h, src/lib/Dof.h:39-42, Dof.cpp:6-7, src/lib/solidmech.h:40,
            src/lib/FEStorage.cpp:105-120, 137-141, src/lib/FEStorage.h:590-632, src/lib/sys.h:101-106. *)
From Coq Require Import String NArith DecimalString.
From Verif Require Import Base DofModel ReactModel.
Local Open Scope nat_scope.
Local Open Scope list_scope.
Notation length := List.length.

(* element.h:25-41: VERTEX=0 TWIN_VERTEX LINE TRIANGLE QUAD TETRA HEXAHEDRON WEDGE PYRAMID QUADRARIC_EDGE
   QUADRATIC_TRIANGLE QUADRATIC_QUAD QUADRATIC_TETRA QUADRARIC_HEXAHEDRON UNDEFINED=14 *)
Definition shape_nnodes : list nat := [1; 2; 2; 3; 4; 4; 8; 6; 5; 3; 6; 8; 10; 20].
(* VtkProcessor.cpp:149-168; None: an error message, nothing is written *)
Definition cell_code (shape : nat) : option N :=
  match shape with
  | 4 => Some 9%N | 6 => Some 12%N | 5 => Some 10%N | 3 => Some 5%N | 2 => Some 3%N
  | 0 => Some 1%N | 1 => Some 2%N | 7 => Some 13%N | _ => None
  end.
(* query.h: UNDEF=0, ..., LAST *)
Definition s_last : nat := 6.
Definition v_last : nat := 4.
Definition t_last : nat := 6.
Definition s_labels : list string := ["UNDEFINED"; "S_P"; "W"; "WU"; "WP"; "VOL"; "LAST"]%string.
Definition v_labels : list string := ["UNDEFINEDS"; "IC"; "FLUX"; "GRADT"; "LAST"]%string.
Definition t_labels : list string := ["UNDEFINED"; "COUCHY"; "PK2"; "E"; "C"; "TSTRAIN"; "LAST"]%string.
Definition dof_labels : list string := ["UX"; "UY"; "UZ"; "ROTX"; "ROTY"; "ROTZ"; "HYDRO_PRESSURE"; "TEMP"; "UNDEFINED"]%string.
Definition comp_labels : list string := ["XX"; "XY"; "XZ"; "YY"; "YZ"; "ZZ"]%string.
Definition query_label (labels : list string) (last q : nat) : outcome string := asserting (q <? last) (aget labels q).
Definition dof_label (t : nat) : outcome string := asserting (t <? 8) (aget dof_labels t).
Definition word32 : N := (2 ^ 32)%N.

Section Vtk.
  Variable K : Num.
  Local Open Scope rng_scope.
  Definition v3 : Type := (K * K * K)%type.
  Definition zero3 : v3 := (0, 0, 0).
  (* MatSym<3>::data *)
  Definition t6 : Type := (K * K * K * K * K * K)%type.
  Definition zero6 : t6 := (0, 0, 0, 0, 0, 0).
  Definition tcomp (j : nat) (t : t6) : K :=
    match t with (a, b, c, d, e, f) => match j with 0%nat => a | 1%nat => b | 2%nat => c | 3%nat => d | 4%nat => e | _ => f end end.

  (* the tokens of the file, separated by white space; the lines of the header are single tokens;
     a number is printed by operator<< with six digits: pr *)
  Inductive vtok := W (w : string) | I (n : N) | X (x : K).
  Arguments W w%string_scope.
  Arguments I n%N_scope.
  Variable pr : K -> K.

  (* getScalar, getVector, getTensor: new contents of the argument and the returned flag *)
  Record vel := mkVel {
    ve_type : nat; ve_shape : nat; ve_nodes : list N;
    ve_scalar : nat -> K -> K * bool; ve_vector : nat -> v3 -> v3 * bool; ve_tensor : nat -> t6 -> t6 * bool }.
  Record vstore := mkVstore { vs_num : numst; vs_pos : list v3; vs_elems : list vel; vs_U : list K; vs_R : list K }.
  Record vproc := mkVproc { vp_all : bool; vp_disp : bool; vp_nd : list nat; vp_ed : list nat; vp_sq : list nat; vp_vq : list nat; vp_tq : list nat }.

  Definition nn (s : vstore) : nat := length (vs_pos s).
  Definition ne (s : vstore) : nat := length (vs_elems s).
  Fixpoint omap {A B} (f : A -> outcome B) (l : list A) : outcome (list B) :=
    match l with [] => Ok [] | a :: r => b <- f a ;; q <- omap f r ;; Ok (b :: q) end.

  Definition pr3 (v : v3) : list vtok := match v with (a, b, c) => [X (pr a); X (pr b); X (pr c)] end.
  (* getNNodes: UNDEFINED reads behind the table *)
  Definition nnodes (e : vel) : outcome nat := aget shape_nnodes (ve_shape e).
  (* getNodeNumber(j) - 1, uint32 *)
  Definition pred32 (n : N) : N := ((n + (word32 - 1)) mod word32)%N.
  Definition cell_line (e : vel) : outcome (list vtok) :=
    k <- nnodes e ;;
    l <- omap (fun j => asserting (j <? k)%nat (n <- aget (ve_nodes e) j ;; Ok (I (pred32 n)))) (seq 0 k) ;;
    Ok (I (N.of_nat k) :: l).
  Definition data_size (els : list vel) : outcome N :=
    ofold (fun a e => k <- nnodes e ;; Ok ((a + N.of_nat (k + 1)) mod word32)%N) els 0%N.
  Definition type_line (e : vel) : list vtok := match cell_code (ve_shape e) with Some c => [I c] | None => [] end.

  Definition header : list vtok :=
    map W ["# vtk DataFile Version 2.0"; "This file is generated by nla3D program"; "ASCII"; "DATASET UNSTRUCTURED_GRID"]%string.
  (* VtkProcessor.cpp:116-170, def = false *)
  Definition write_geometry (s : vstore) : outcome (list vtok) :=
    p <- omap (fun i => asserting ((0 <? i)%nat && (i <=? nn s)%nat) (v <- aget (vs_pos s) (i - 1) ;; Ok (pr3 v))) (seq 1 (nn s)) ;;
    z <- data_size (vs_elems s) ;;
    c <- omap cell_line (vs_elems s) ;;
    Ok ([W "POINTS"; I (N.of_nat (nn s)); W "float"] ++ concat p ++
        [W "CELLS"; I (N.of_nat (ne s)); I z] ++ concat c ++
        [W "CELL_TYPES"; I (N.of_nat (ne s))] ++ concat (map type_line (vs_elems s))).

  Definition node_used (s : vstore) (n t : nat) : outcome bool :=
    asserting (0 <? dc_n (ns_node (vs_num s)))%nat (isDofUsed (ns_node (vs_num s)) n t).
  Definition el_used (s : vstore) (n t : nat) : outcome bool :=
    asserting (0 <? dc_n (ns_el (vs_num s)))%nat (isDofUsed (ns_el (vs_num s)) n t).
  (* getNodeDofSolution, getElementDofSolution *)
  Definition solution (s : vstore) (k : kind) (n t : nat) : outcome K :=
    asserting (0 <? length (vs_U s))%nat (e <- dof_eq (vs_num s) k n t ;; if (e =? 0)%nat then UB else aget (vs_U s) (e - 1)).
  Definition value_or_0 (s : vstore) (k : kind) (n t : nat) : outcome K :=
    u <- match k with KNode => node_used s n t | KEl => el_used s n t end ;;
    if u then solution s k n t else Ok 0.

  Definition write_scalar (name : string) (data : list K) : list vtok :=
    [W "SCALARS"; W name; W "float"; I 1%N; W "LOOKUP_TABLE"; W "default"] ++ map (fun x => X (pr x)) data.
  Definition write_vector (name : string) (data : list v3) : list vtok :=
    [W "VECTORS"; W name; W "float"] ++ flat_map pr3 data.
  Definition write_tensor (name : string) (data : list t6) : list vtok :=
    flat_map (fun jl => write_scalar (name ++ "_" ++ snd jl)%string (map (tcomp (fst jl)) data)) (combine (seq 0 6) comp_labels).

  (* VtkProcessor.cpp:172-213 *)
  Definition write_point_data (s : vstore) (p : vproc) : outcome (list vtok) :=
    d <- (if vp_disp p then
            u <- omap (fun j => a <- value_or_0 s KNode j 0 ;; b <- value_or_0 s KNode j 1 ;; c <- value_or_0 s KNode j 2 ;; Ok (a, b, c)) (seq 1 (nn s)) ;;
            r <- omap (fun j => a <- getReaction (vs_num s) (vs_R s) j 0 ;; b <- getReaction (vs_num s) (vs_R s) j 1 ;;
                                c <- getReaction (vs_num s) (vs_R s) j 2 ;; Ok (a, b, c)) (seq 1 (nn s)) ;;
            Ok (write_vector "disp"%string u ++ write_vector "reaction"%string r)
          else Ok []) ;;
    l <- omap (fun t => x <- omap (fun j => value_or_0 s KNode j t) (seq 1 (nn s)) ;; n <- dof_label t ;; Ok (write_scalar n x)) (vp_nd p) ;;
    Ok ([W "POINT_DATA"; I (N.of_nat (nn s))] ++ d ++ concat l).
  (* VtkProcessor.cpp:218-273 *)
  Definition no_cell_data (p : vproc) : bool :=
    match vp_sq p, vp_vq p, vp_tq p, vp_ed p with [], [], [], [] => true | _, _, _, _ => false end.
  Definition write_cell_data (s : vstore) (p : vproc) : outcome (list vtok) :=
    if no_cell_data p then Ok [] else
    e <- omap (fun t => x <- omap (fun j => value_or_0 s KEl j t) (seq 1 (ne s)) ;; n <- dof_label t ;; Ok (write_scalar n x)) (vp_ed p) ;;
    a <- omap (fun q => n <- query_label s_labels s_last q ;; Ok (write_scalar n (map (fun el => fst (ve_scalar el q 0)) (vs_elems s)))) (vp_sq p) ;;
    b <- omap (fun q => n <- query_label v_labels v_last q ;; Ok (write_vector n (map (fun el => fst (ve_vector el q zero3)) (vs_elems s)))) (vp_vq p) ;;
    c <- omap (fun q => n <- query_label t_labels t_last q ;; Ok (write_tensor n (map (fun el => fst (ve_tensor el q zero6)) (vs_elems s)))) (vp_tq p) ;;
    Ok ([W "CELL_DATA"; I (N.of_nat (ne s))] ++ concat e ++ concat a ++ concat b ++ concat c).
  Definition write_file (s : vstore) (p : vproc) : outcome (list vtok) :=
    g <- write_geometry s ;; d <- write_point_data s p ;; c <- write_cell_data s p ;; Ok (header ++ g ++ d ++ c).

  (* VtkProcessor.cpp:77-107 *)
  Definition insert_all (l s : list nat) : list nat := fold_left (fun s t => set_insert t s) l s.
  Definition valid_query (last q : nat) : bool := (0 <? q)%nat && (q <? last)%nat.
  Definition register_scalars (p : vproc) (l : list nat) : outcome vproc :=
    asserting (forallb (valid_query s_last) l) (Ok (mkVproc (vp_all p) (vp_disp p) (vp_nd p) (vp_ed p) (insert_all l (vp_sq p)) (vp_vq p) (vp_tq p))).
  Definition register_vectors (p : vproc) (l : list nat) : outcome vproc :=
    asserting (forallb (valid_query v_last) l) (Ok (mkVproc (vp_all p) (vp_disp p) (vp_nd p) (vp_ed p) (vp_sq p) (insert_all l (vp_vq p)) (vp_tq p))).
  Definition register_tensors (p : vproc) (l : list nat) : outcome vproc :=
    asserting (forallb (valid_query t_last) l) (Ok (mkVproc (vp_all p) (vp_disp p) (vp_nd p) (vp_ed p) (vp_sq p) (vp_vq p) (insert_all l (vp_tq p)))).
  (* VtkProcessor.cpp:308-368: the first element of every type is asked *)
  Fixpoint reveal (els : list vel) (seen : list nat) (p : vproc) : vproc :=
    match els with
    | [] => p
    | e :: r =>
        if existsb (Nat.eqb (ve_type e)) seen then reveal r seen p else
        reveal r (ve_type e :: seen)
          (mkVproc (vp_all p) (vp_disp p) (vp_nd p) (vp_ed p)
             (insert_all (filter (fun q => snd (ve_scalar e q 0)) (seq 1 (s_last - 1))) (vp_sq p))
             (insert_all (filter (fun q => snd (ve_vector e q zero3)) (seq 1 (v_last - 1))) (vp_vq p))
             (insert_all (filter (fun q => snd (ve_tensor e q zero6)) (seq 1 (t_last - 1))) (vp_tq p)))
    end.
  (* VtkProcessor.cpp:19-46 *)
  Definition is_disp (t : nat) : bool := (t =? 0)%nat || (t =? 1)%nat || (t =? 2)%nat.
  Definition prepare (s : vstore) (p : vproc) : vproc :=
    let u := dc_unique (ns_node (vs_num s)) in
    let p' := mkVproc (vp_all p) (existsb is_disp u) (insert_all (filter (fun t => negb (is_disp t)) u) [])
                (insert_all (dc_unique (ns_el (vs_num s))) []) (vp_sq p) (vp_vq p) (vp_tq p) in
    if vp_all p then reveal (vs_elems s) [] p' else p'.

  (* the directory: names and contents; std::ios::trunc replaces the old contents *)
  Definition dir : Type := list (string * list vtok).
  Definition put_file (d : dir) (n : string) (c : list vtok) : dir := (n, c) :: filter (fun f => negb (fst f =? n)%string) d.
  Definition get_file (d : dir) (n : string) : option (list vtok) := option_map snd (find (fun f => fst f =? n)%string d).
  (* toStr *)
  Definition decimal (n : N) : string := NilZero.string_of_uint (N.to_uint n).
  Definition file_of (base : string) (step : N) : string := (base ++ decimal step ++ ".vtk")%string.
  Definition vtk_pre (base : string) (s : vstore) (p : vproc) (d : dir) : outcome (vproc * dir) :=
    let p' := prepare s p in f <- write_file s p' ;; Ok (p', put_file d (file_of base 0) f).
  (* the argument is a uint16 *)
  Definition vtk_process (base : string) (s : vstore) (p : vproc) (step : N) (d : dir) : outcome dir :=
    f <- write_file s p ;; Ok (put_file d (file_of base (step mod 65536)%N) f).
  (* pre(), then process() for every step with the vectors of that step *)
  Definition vtk_run (base : string) (s0 : vstore) (p : vproc) (steps : list (N * vstore)) (d : dir) : outcome (vproc * dir) :=
    pd <- vtk_pre base s0 p d ;;
    d' <- ofold (fun d x => vtk_process base (snd x) (fst pd) (fst x) d) steps (snd pd) ;;
    Ok (fst pd, d').
End Vtk.
