(* Model of the DoF tables and of the equation numbering.
   Sources: src/lib/Dof.h:12-98, src/lib/Dof.cpp:10-110,
            src/lib/FEStorage.cpp:81-102, 303-328, 338-432. *)
From Verif Require Import Base.

(* Dof.h:15-25: dofType is an enum; UX=0 ... TEMP=7, UNDEFINED=8;
   numberOfDofTypes = UNDEFINED = 8 (Dof.cpp:12) *)
Definition n_dof_types : nat := 8.

(* Dof.h:27-31 *)
Record dof := mkDof { d_type : nat; d_eq : nat; d_con : bool }.
Definition new_dof (t : nat) : dof := mkDof t 0 false.

(* DofCollection, Dof.h:45-75 *)
Record dofc := mkDofc {
  dc_used : nat;            (* numberOfUsedDofs *)
  dc_n : nat;               (* numberOfEntities *)
  dc_dofs : list dof;       (* dofs *)
  dc_pos : list nat;        (* dofPos *)
  dc_unique : list nat }.   (* uniqueDofTypes, a std::set *)

Definition cleared : dofc := mkDofc 0 0 [] [] [].

(* Dof.cpp:25-29 *)
Definition initDofTable (n : nat) : dofc := mkDofc 0 n [] (repeat 0 (n + 1)) [].

(* std::set<dofType>: increasing list without repetitions *)
Fixpoint set_insert (t : nat) (s : list nat) : list nat :=
  match s with
  | [] => [t]
  | x :: r => if t <? x then t :: s else if t =? x then s else x :: set_insert t r
  end.
Definition set_of (l : list nat) : list nat := fold_left (fun s t => set_insert t s) l [].

(* dofPos[n-1] and dofPos[n]; n = 0 reads dofPos[-1] *)
Definition segment (c : dofc) (n : nat) : outcome (nat * nat) :=
  asserting (n <=? dc_n c) (
  asserting (0 <? length (dc_pos c)) (
  if n =? 0 then UB else
  p <- aget (dc_pos c) (n - 1) ;;
  q <- aget (dc_pos c) n ;;
  Ok (p, q))).

(* the loop over [dofs.begin()+p, dofs.begin()+q) used by addDof, isDofUsed
   and getDof: index of the first DoF of type t *)
Fixpoint search (fuel : nat) (ds : list dof) (p q t : nat) : outcome (option nat) :=
  match fuel with
  | 0 => Ok None
  | S f => if p <? q
           then d <- aget ds p ;;
                if d_type d =? t then Ok (Some p) else search f ds (p + 1) q t
           else Ok None
  end.

(* Dof.cpp:92-105; the pointer is modelled by the index in dofs *)
Definition getDof (c : dofc) (n t : nat) : outcome (option nat) :=
  pq <- segment c n ;;
  search (snd pq - fst pq) (dc_dofs c) (fst pq) (snd pq) t.

(* Dof.cpp:80-88 *)
Definition isDofUsed (c : dofc) (n t : nat) : outcome bool :=
  pq <- segment c n ;;
  if fst pq =? snd pq then Ok false else
  r <- search (snd pq - fst pq) (dc_dofs c) (fst pq) (snd pq) t ;;
  Ok (match r with Some _ => true | None => false end).

(* Dof.h:88-95 (getEntityDofs): the range of DoFs of entity n *)
Definition getEntityDofs (c : dofc) (n : nat) : outcome (list dof) :=
  pq <- segment c n ;;
  Ok (firstn (snd pq - fst pq) (skipn (fst pq) (dc_dofs c))).

(* the new DoFs of addDof, Dof.cpp:38-56 *)
Fixpoint new_types (ds : list dof) (p q : nat) (ts : list nat) : outcome (list nat) :=
  match ts with
  | [] => Ok []
  | t :: r =>
      f <- (if p =? q then Ok None else search (q - p) ds p q t) ;;
      l <- new_types ds p q r ;;
      Ok (match f with Some _ => l | None => t :: l end)
  end.

(* Dof.cpp:33-67 *)
Definition addDof (c : dofc) (n : nat) (types : list nat) : outcome dofc :=
  pq <- segment c n ;;
  let ts := set_of types in
  l <- new_types (dc_dofs c) (fst pq) (snd pq) ts ;;
  match l with
  | [] => Ok c
  | _ =>
      let k := length l in
      Ok (mkDofc (dc_used c + k) (dc_n c)
            (firstn (snd pq) (dc_dofs c) ++ map new_dof l ++ skipn (snd pq) (dc_dofs c))
            (map (fun iv => if n <=? fst iv then snd iv + k else snd iv)
                 (combine (seq 0 (length (dc_pos c))) (dc_pos c)))
            (fold_left (fun s t => set_insert t s) ts (dc_unique c)))
  end.

(* a write through the pointer returned by getDof *)
Definition put_dof (c : dofc) (i : nat) (d : dof) : outcome dofc :=
  l <- aset (dc_dofs c) i d ;;
  Ok (mkDofc (dc_used c) (dc_n c) l (dc_pos c) (dc_unique c)).

(* ------------------------------------------------------------------ *)
(* The part of FEStorage concerned with numbering.  An Mpc is kept as the
   number of its terms (mpc->eq.size()) and its equation number. *)
Record numst := mkNumst {
  ns_nodes : nat;                 (* nNodes() *)
  ns_els : nat;                   (* nElements() *)
  ns_node : dofc;                 (* nodeDofs *)
  ns_el : dofc;                   (* elementDofs *)
  ns_ndofs : nat;                 (* _nDofs *)
  ns_ncon : nat;                  (* _nConstrainedDofs *)
  ns_nunk : nat;                  (* _nUnknownDofs *)
  ns_mpc : list (nat * nat) }.    (* mpcs: (eq.size(), eqNum) *)

(* a storage with a mesh of nn nodes, ne elements and m MPC equations
   (FEStorage.h:283-288: counters start at zero) *)
Definition fresh_storage (nn ne : nat) (m : list nat) : numst :=
  mkNumst nn ne cleared cleared 0 0 0 (map (fun k => (k, 0)) m).

(* a DoF registration made by Element::pre() or MpcCollection::pre():
   FEStorage.h:569-577 addNodeDof / addElementDof *)
Inductive kind := KEl | KNode.
Definition table (s : numst) (k : kind) : dofc :=
  match k with KEl => ns_el s | KNode => ns_node s end.
Definition with_table (s : numst) (k : kind) (c : dofc) : numst :=
  match k with
  | KEl => mkNumst (ns_nodes s) (ns_els s) (ns_node s) c (ns_ndofs s) (ns_ncon s) (ns_nunk s) (ns_mpc s)
  | KNode => mkNumst (ns_nodes s) (ns_els s) c (ns_el s) (ns_ndofs s) (ns_ncon s) (ns_nunk s) (ns_mpc s)
  end.
Definition reg : Type := kind * nat * list nat.
Definition register (s : numst) (r : reg) : outcome numst :=
  match r with (k, n, ts) => c <- addDof (table s k) n ts ;; Ok (with_table s k c) end.

(* FEStorage.cpp:338-379; regs: the registrations made by the pre() calls of
   elements and MPC collections; newm: sizes of the equations pushed by
   registerMpcsInStorage (Mpc.cpp:30-34) *)
Definition initDofs (s : numst) (regs : list reg) (newm : list nat) : outcome numst :=
  if (ns_nodes s <? 1) && (ns_els s <? 1) then Fatal else
  let s0 := mkNumst (ns_nodes s) (ns_els s) (initDofTable (ns_nodes s)) (initDofTable (ns_els s))
              (ns_ndofs s) (ns_ncon s) (ns_nunk s) (ns_mpc s) in
  s1 <- ofold register regs s0 ;;
  let nd := dc_used (ns_el s1) + dc_used (ns_node s1) in
  checking (negb (nd =? 0)) (
  Ok (mkNumst (ns_nodes s1) (ns_els s1) (ns_node s1) (ns_el s1) nd (ns_ncon s1) (ns_nunk s1)
        (ns_mpc s1 ++ map (fun k => (k, 0)) newm))).

(* FEStorage.cpp:81-90 (nodes), 93-102 (elements) *)
Definition setConstrained (s : numst) (k : kind) (n t : nat) : outcome numst :=
  o <- getDof (table s k) n t ;;
  match o with
  | None => UB                       (* assert(dof), then *nullptr *)
  | Some i =>
      d <- aget (dc_dofs (table s k)) i ;;
      if d_con d then Ok s else
      c <- put_dof (table s k) i (mkDof (d_type d) (d_eq d) true) ;;
      let s' := with_table s k c in
      Ok (mkNumst (ns_nodes s') (ns_els s') (ns_node s') (ns_el s') (ns_ndofs s')
            (ns_ncon s' + 1) (ns_nunk s') (ns_mpc s'))
  end.

(* one step of the loops FEStorage.cpp:392-404 and 406-418 *)
Definition assign_step (st : dofc * (nat * nat)) (it : nat * nat) : outcome (dofc * (nat * nat)) :=
  match st with (c, (nc, ns)) =>
  o <- getDof c (fst it) (snd it) ;;
  match o with
  | None => Ok st
  | Some i =>
      d <- aget (dc_dofs c) i ;;
      if d_con d
      then c' <- put_dof c i (mkDof (d_type d) nc (d_con d)) ;; Ok (c', (nc + 1, ns))
      else c' <- put_dof c i (mkDof (d_type d) ns (d_con d)) ;; Ok (c', (nc, ns + 1))
  end
  end.

(* (i, it) for i = 1..n, it = 0..numberOfDofTypes-1 *)
Definition dof_loop (n : nat) : list (nat * nat) :=
  flat_map (fun i => map (fun t => (i, t)) (seq 0 n_dof_types)) (seq 1 n).

(* mpc->eqNum = next_eq_solve++, FEStorage.cpp:423-426 *)
Fixpoint number_mpcs (l : list (nat * nat)) (next : nat) : outcome (list (nat * nat) * nat) :=
  match l with
  | [] => Ok ([], next)
  | (k, _) :: r =>
      asserting (0 <? k) (
      x <- number_mpcs r (next + 1) ;;
      Ok ((k, next) :: fst x, snd x))
  end.

(* FEStorage.cpp:382-432; _nUnknownDofs is a uint32, so nDofs < nConstrained
   would wrap to a huge number; the subtraction is then followed by asserts
   that fail *)
Definition assignEquationNumbers (s : numst) : outcome numst :=
  checking (negb (ns_ndofs s =? ns_ncon s)) (
  r1 <- ofold assign_step (dof_loop (ns_els s)) (ns_el s, (1, ns_ncon s + 1)) ;;
  r2 <- ofold assign_step (dof_loop (ns_nodes s)) (ns_node s, snd r1) ;;
  let nc := fst (snd r2) in
  let nx := snd (snd r2) in
  asserting (nc - 1 =? ns_ncon s) (
  asserting (nx - 1 =? ns_ndofs s) (
  m <- number_mpcs (ns_mpc s) nx ;;
  asserting (snd m - 1 =? ns_ndofs s + length (ns_mpc s)) (
  Ok (mkNumst (ns_nodes s) (ns_els s) (fst r2) (fst r1) (ns_ndofs s) (ns_ncon s)
        (ns_ndofs s - ns_ncon s) (fst m)))))).

(* FEStorage.cpp:303-328 (the part concerning this state; matrices and
   vectors are released as well); mpcs stays *)
Definition deleteSolutionData (s : numst) : numst :=
  mkNumst (ns_nodes s) (ns_els s) cleared cleared 0 0 0 (ns_mpc s).

(* FESolver.cpp:349-354 / 417-419 / 557-559: the sequence run by every solve *)
Definition init_sequence (s : numst) (regs : list reg) (newm : list nat)
    (fixes : list (kind * nat * nat)) : outcome numst :=
  s1 <- initDofs s regs newm ;;
  s2 <- ofold (fun s f => match f with (k, n, t) => setConstrained s k n t end) fixes s1 ;;
  assignEquationNumbers s2.

(* FEStorage.h:602-620: equation number of a DoF (null pointer if unknown) *)
Definition dof_eq (s : numst) (k : kind) (n t : nat) : outcome nat :=
  o <- getDof (table s k) n t ;;
  match o with
  | None => UB
  | Some i => d <- aget (dc_dofs (table s k)) i ;; Ok (d_eq d)
  end.
