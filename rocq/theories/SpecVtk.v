(* A reader of legacy VTK files (unstructured grids, ASCII) and the contents expected in the files. *)
From Coq Require Import String NArith.
From Verif Require Import Base DofModel SpecDof AsmModel SpecAsm SolveModel SpecSolve ReactModel SpecReact VtkModel.
Local Open Scope nat_scope.
Local Open Scope list_scope.

Definition ocheck {A} (b : bool) (x : option A) : option A := if b then x else None.
Definition opt_bind {A B} (x : option A) (f : A -> option B) : option B := match x with Some a => f a | None => None end.
Notation "'do' x <- e ; k" := (opt_bind e (fun x => k)) (at level 200, x pattern, e at level 100, k at level 200).

Section Reader.
  Variable K : Num.
  Notation toks := (list (vtok K)).
  Inductive arr := Scal (name : string) (data : list K) | Vecs (name : string) (data : list (v3 K)).
  Record vfile := mkVfile { f_points : list (v3 K); f_cells : list (list N); f_types : list N; f_pdata : list arr; f_cdata : list arr }.
  Definition arr_name (a : arr) : string := match a with Scal n _ => n | Vecs n _ => n end.

  Definition rd_word (w : string) (t : toks) : option toks :=
    match t with W _ v :: r => ocheck (v =? w)%string (Some r) | _ => None end.
  Definition rd_any (t : toks) : option (string * toks) := match t with W _ v :: r => Some (v, r) | _ => None end.
  Definition rd_int (t : toks) : option (N * toks) := match t with I _ n :: r => Some (n, r) | _ => None end.
  Definition rd_num (t : toks) : option (K * toks) := match t with X _ x :: r => Some (x, r) | _ => None end.
  Definition rd_v3 (t : toks) : option (v3 K * toks) :=
    do (a, t) <- rd_num t ; do (b, t) <- rd_num t ; do (c, t) <- rd_num t ; Some ((a, b, c), t).
  Fixpoint rd_many {A} (f : toks -> option (A * toks)) (n : nat) (t : toks) : option (list A * toks) :=
    match n with
    | 0 => Some ([], t)
    | S n => do (a, t) <- f t ; do (l, t) <- rd_many f n t ; Some (a :: l, t)
    end.
  (* one cell: number of points, points *)
  Definition rd_cell (t : toks) : option (list N * toks) :=
    do (k, t) <- rd_int t ; rd_many rd_int (N.to_nat k) t.
  (* attributes with n entries each *)
  Fixpoint rd_arrays (fuel n : nat) (t : toks) : option (list arr * toks) :=
    match fuel with
    | 0 => Some ([], t)
    | S fuel =>
        match t with
        | W _ w :: r =>
            if (w =? "SCALARS")%string then
              do (name, r) <- rd_any r ; do r <- rd_word "float" r ; do (c, r) <- rd_int r ; ocheck (c =? 1)%N (
              do r <- rd_word "LOOKUP_TABLE" r ; do (tab, r) <- rd_any r ;
              do (d, r) <- rd_many rd_num n r ;
              do (l, r) <- rd_arrays fuel n r ; Some (Scal name d :: l, r))
            else if (w =? "VECTORS")%string then
              do (name, r) <- rd_any r ; do r <- rd_word "float" r ;
              do (d, r) <- rd_many rd_v3 n r ;
              do (l, r) <- rd_arrays fuel n r ; Some (Vecs name d :: l, r)
            else Some ([], t)
        | _ => Some ([], t)
        end
    end.
  (* an optional section of attributes *)
  Definition rd_section (w : string) (n : nat) (t : toks) : option (list arr * toks) :=
    match t with
    | W _ v :: r => if (v =? w)%string then do (k, r) <- rd_int r ; ocheck (k =? N.of_nat n)%N (rd_arrays (List.length r) n r) else Some ([], t)
    | _ => Some ([], t)
    end.
  Definition cells_size (l : list (list N)) : N := fold_right (fun c a => N.of_nat (List.length c + 1) + a)%N 0%N l.
  (* numbers of points of the cell types 1, 2 (any), 3, 5, 9, 10, 12, 13 *)
  Definition type_points (c : N) : option nat :=
    match c with
    | 1%N => Some 1 | 3%N => Some 2 | 5%N => Some 3 | 9%N => Some 4 | 10%N => Some 4 | 12%N => Some 8 | 13%N => Some 6 | _ => None
    end.
  Definition type_fits (c : N) (k : nat) : bool :=
    match type_points c with Some n => n =? k | None => (c =? 2)%N && (0 <? k) end.

  Definition read_vtk (t : toks) : option vfile :=
    do t <- rd_word "# vtk DataFile Version 2.0" t ;
    do (title, t) <- rd_any t ;
    do t <- rd_word "ASCII" t ;
    do t <- rd_word "DATASET UNSTRUCTURED_GRID" t ;
    do t <- rd_word "POINTS" t ; do (np, t) <- rd_int t ; do t <- rd_word "float" t ;
    do (ps, t) <- rd_many rd_v3 (N.to_nat np) t ;
    do t <- rd_word "CELLS" t ; do (nc, t) <- rd_int t ; do (sz, t) <- rd_int t ;
    do (cs, t) <- rd_many rd_cell (N.to_nat nc) t ;
    do t <- rd_word "CELL_TYPES" t ; do (nt, t) <- rd_int t ;
    do (ts, t) <- rd_many rd_int (N.to_nat nt) t ;
    ocheck (nt =? nc)%N (
    ocheck (sz =? cells_size cs)%N (
    ocheck (forallb (forallb (fun i => i <? np)%N) cs) (
    ocheck (forallb (fun ct => type_fits (snd ct) (List.length (fst ct))) (combine cs ts)) (
    do (pd, t) <- rd_section "POINT_DATA" (N.to_nat np) t ;
    do (cd, t) <- rd_section "CELL_DATA" (N.to_nat nc) t ;
    match t with [] => Some (mkVfile ps cs ts pd cd) | _ => None end)))).

  (* ---- the expected contents ---- *)
  Variable pr : K -> K.
  Definition map3 (f : K -> K) (v : v3 K) : v3 K := match v with (a, b, c) => (f a, f b, f c) end.
  (* elements: a known shape, as many node numbers, all of existing nodes *)
  Definition el_ok (nn : nat) (e : vel K) : Prop :=
    ve_shape K e < 8 /\ List.length (ve_nodes K e) = nth (ve_shape K e) shape_nnodes 0 /\
    Forall (fun n => (1 <= n <= N.of_nat nn)%N) (ve_nodes K e).
  Definition total_size (els : list (vel K)) : N := cells_size (map (ve_nodes K) els).
  Record store_ok (m : list nat) (regs : list reg) (newm : list nat) (fixes : list key) (s : vstore K) : Prop := {
    so_ready : ready (nn K s) (ne K s) m regs newm fixes (vs_num K s);
    so_els : Forall (el_ok (nn K s)) (vs_elems K s);
    so_small : (N.of_nat (nn K s) < word32)%N /\ (total_size (vs_elems K s) < word32)%N;
    so_U : ns_ndofs (vs_num K s) <= List.length (vs_U K s);
    so_R : ns_ndofs (vs_num K s) <= List.length (vs_R K s) }.

  (* value of a DoF, zero where it does not exist *)
  Definition val (regs : list reg) (s : vstore K) (V : list K) (k : kind) (t n : nat) : K :=
    if in_dec key_dec (k, n, t) (reg_keys regs) then vget (vs_num K s) V (k, n, t) else r0.
  Definition disp_of (regs : list reg) (s : vstore K) (V : list K) (n : nat) : v3 K :=
    (val regs s V KNode 0 n, val regs s V KNode 1 n, val regs s V KNode 2 n).
  (* types used by some node or element, in the order of the enumeration *)
  Definition uses (regs : list reg) (k : kind) (t : nat) : bool :=
    existsb (fun x => match x with (k', n, t') => (if kind_dec k k' then true else false) && (t' =? t) end) (reg_keys regs).
  Definition types_of (regs : list reg) (k : kind) : list nat := filter (uses regs k) (seq 0 n_dof_types).

  Definition want_points (s : vstore K) := map (map3 pr) (vs_pos K s).
  Definition want_cells (s : vstore K) := map (fun e => map (fun n => n - 1)%N (ve_nodes K e)) (vs_elems K s).
  Definition want_types (s : vstore K) := map (fun e => nth (ve_shape K e) [1; 2; 3; 5; 9; 10; 12; 13]%N 0%N) (vs_elems K s).
  (* displacements: UX, UY, UZ *)
  Definition displacement (t : nat) : bool := t <? 3.
  Definition want_pdata (regs : list reg) (s : vstore K) : list arr :=
    (if existsb displacement (types_of regs KNode) then
       [Vecs "disp"%string (map (fun n => map3 pr (disp_of regs s (vs_U K s) n)) (seq 1 (nn K s)));
        Vecs "reaction"%string (map (fun n => map3 pr (disp_of regs s (vs_R K s) n)) (seq 1 (nn K s)))] else []) ++
    map (fun t => Scal (nth t dof_labels ""%string) (map (fun n => pr (val regs s (vs_U K s) KNode t n)) (seq 1 (nn K s))))
      (filter (fun t => negb (displacement t)) (types_of regs KNode)).
  (* queries asked for, or answered by some element if all results are wanted *)
  Record wish := mkWish { w_all : bool; w_s : list nat; w_v : list nat; w_t : list nat }.
  Definition wanted (all : bool) (user : list nat) (last : nat) (answers : nat -> bool) : list nat :=
    filter (fun q => existsb (Nat.eqb q) user || (all && answers q)) (seq 1 (last - 1)).
  Definition want_s (w : wish) (s : vstore K) := wanted (w_all w) (w_s w) s_last (fun q => existsb (fun e => snd (ve_scalar K e q r0)) (vs_elems K s)).
  Definition want_v (w : wish) (s : vstore K) := wanted (w_all w) (w_v w) v_last (fun q => existsb (fun e => snd (ve_vector K e q (zero3 K))) (vs_elems K s)).
  Definition want_t (w : wish) (s : vstore K) := wanted (w_all w) (w_t w) t_last (fun q => existsb (fun e => snd (ve_tensor K e q (zero6 K))) (vs_elems K s)).
  Definition want_cdata (regs : list reg) (qs qv qt : list nat) (s : vstore K) : list arr :=
    map (fun t => Scal (nth t dof_labels ""%string) (map (fun n => pr (val regs s (vs_U K s) KEl t n)) (seq 1 (ne K s)))) (types_of regs KEl) ++
    map (fun q => Scal (nth q s_labels ""%string) (map (fun e => pr (fst (ve_scalar K e q r0))) (vs_elems K s))) qs ++
    map (fun q => Vecs (nth q v_labels ""%string) (map (fun e => map3 pr (fst (ve_vector K e q (zero3 K)))) (vs_elems K s))) qv ++
    flat_map (fun q => map (fun j => Scal (nth q t_labels "" ++ "_" ++ nth j comp_labels "")%string
                                       (map (fun e => pr (tcomp K j (fst (ve_tensor K e q (zero6 K))))) (vs_elems K s))) (seq 0 6)) qt.
  Definition want_file (regs : list reg) (w : wish) (s0 s : vstore K) : vfile :=
    mkVfile (want_points s) (want_cells s) (want_types s) (want_pdata regs s) (want_cdata regs (want_s w s0) (want_v w s0) (want_t w s0) s).
  (* valid queries only; elements of one type answer the same queries *)
  Definition wish_ok (w : wish) : Prop :=
    Forall (fun q => 0 < q < s_last) (w_s w) /\ Forall (fun q => 0 < q < v_last) (w_v w) /\ Forall (fun q => 0 < q < t_last) (w_t w).
  Definition uniform (s : vstore K) : Prop := forall e e', In e (vs_elems K s) -> In e' (vs_elems K s) -> ve_type K e = ve_type K e' ->
    (forall q, snd (ve_scalar K e q r0) = snd (ve_scalar K e' q r0)) /\
    (forall q, snd (ve_vector K e q (zero3 K)) = snd (ve_vector K e' q (zero3 K))) /\
    (forall q, snd (ve_tensor K e q (zero6 K)) = snd (ve_tensor K e' q (zero6 K))).
  (* the calls made by the user before the solution: writeAllResults, registerResults *)
  Definition configure (w : wish) : outcome vproc :=
    p <- register_scalars (mkVproc (w_all w) false [] [] [] [] []) (w_s w) ;;
    p <- register_vectors p (w_v w) ;; register_tensors p (w_t w).
End Reader.
