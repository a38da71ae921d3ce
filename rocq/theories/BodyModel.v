(* Hyperelastic bodies of SOLID81 and PLANE41 elements solved by NonlinearFESolver: the elements (elements/SOLID81.cpp,
   elements/PLANE41.cpp, elements/isoparametric.h) put together with FESolver.cpp:403-521.
   One material for all elements (FEStorage::getMaterial). The integration points (makeJacob in pre()) depend on the node
   coordinates only, which the solution does not change. *)
From Coq Require Import Reals.
From Verif Require Import Base RealBase MatModel SparseModel BlockModel DofModel SpecDof AsmModel SpecAsm SolveModel GaussModel TimeModel
  NonlinModel IsoModel ElemModel HyperModel StructModel SpecStruct.
Local Open Scope R_scope.

(* be_ord: intOrder, 2 by default *)
Inductive solid := S81 | P41.
Record body_el := mkEl { be_kind : solid; be_ord : nat; be_nodes : list nat }.
Definition be_dofs (e : body_el) : list nat := match be_kind e with S81 => [UX; UY; UZ] | P41 => [UX; UY] end.

(* pre(): registered DoFs of element en, SOLID81.cpp:21-25, PLANE41.cpp:23-27 *)
Definition be_regs (en : nat) (e : body_el) : list reg :=
  map (fun n => (KNode, n, be_dofs e)) (be_nodes e) ++ [(KEl, en, [HYDRO_PRESSURE])].
Fixpoint body_regs (en : nat) (els : list body_el) : list reg :=
  match els with [] => [] | e :: els => be_regs en e ++ body_regs (S en) els end.

(* makeJacob: intWeight(np) and NiXj[np] of every integration point, isoparametric.cpp:55-106 and 140-188 *)
Definition be_geo (pos : nat -> nat -> R) (e : body_el) : list (R * (nat -> nat -> R)) :=
  let p := at_nodes pos (be_nodes e) in
  match be_kind e with
  | S81 => map (fun q => let '(r, s, t, w) := q in (dec w * hex_det p (dec r) (dec s) (dec t), hex_nixj p (dec r) (dec s) (dec t)))
             (quad_hex (i_int (be_ord e)))
  | P41 => map (fun q => let '(r, s, w) := q in (dec w * quad_det p (dec r) (dec s), quad_nixj p (dec r) (dec s)))
             (quad_quad (i_int (be_ord e)))
  end.

(* pre(): S, C, O, SOLID81.cpp:17-19, PLANE41.cpp:19-21 *)
Definition be_fresh (pos : nat -> nat -> R) (e : body_el) : list point :=
  map (fun _ => match be_kind e with
                | S81 => mkPoint (repeat 0 6) [1; 0; 0; 1; 0; 1] (repeat 0 9)
                | P41 => mkPoint (repeat 0 3) [1; 1; 0] (repeat 0 4)
                end) (be_geo pos e).

(* DoF values as read from the storage; v k: solution of the DoF k *)
Definition be_U (v : key -> R) (e : body_el) : list R :=
  flat_map (fun n => map (fun t => v (KNode, n, t)) (be_dofs e)) (be_nodes e).
Definition be_p (v : key -> R) (en : nat) : R := v (KEl, en, HYDRO_PRESSURE).

(* update(): SOLID81.cpp:81-111, PLANE41.cpp:125-160 *)
Definition be_update (m : hyper) (pos : nat -> nat -> R) (v : key -> R) (en : nat) (e : body_el) : outcome (list point) :=
  match be_kind e with
  | S81 => r <- s81_update_all m (be_geo pos e) (be_U v e) (be_p v en) ;; Ok (map snd r)
  | P41 => Ok (map snd (p41_update_all m (be_geo pos e) (arr (be_U v e)) (be_p v en)))
  end.

(* buildK(): SOLID81.cpp:29-78, PLANE41.cpp:30-108, on the stored pts. The sizes of the arrays S, C, O are part of
   their types; lists of other sizes stand for nothing and are UB here *)
Definition be_sized (pos : nat -> nat -> R) (e : body_el) (pts : list point) : bool :=
  (length pts =? length (be_geo pos e))%nat &&
  forallb (fun pt => (length (ptS pt) =? match be_kind e with S81 => 6 | P41 => 3 end)%nat) pts.
Definition be_build (m : hyper) (pos : nat -> nat -> R) (v : key -> R) (en : nat) (e : body_el) (pts : list point)
  : outcome (contrib RNum) :=
  if be_sized pos e pts then
    let w := combine (be_geo pos e) pts in
    match be_kind e with
    | S81 => r <- s81_buildK m (be_p v en) w ;; Ok (CMixed (K := RNum) (mKuu r) (mKup r) (mKpp r) (mFu r) (mFp r))
    | P41 => Ok (CPlane41 (K := RNum) (map (fun i => map (p41_Ke m (be_p v en) w i) (seq 0 9)) (seq 0 9))
                   (map (p41_Fe m (be_p v en) w) (seq 0 9)))
    end
  else UB.

(* all elements, numbered from en *)
Fixpoint body_build (m : hyper) (pos : nat -> nat -> R) (v : key -> R) (en : nat) (els : list body_el) (st : list (list point))
  : outcome (list (list (contrib RNum))) :=
  match els, st with
  | [], [] => Ok []
  | e :: els, pts :: st => c <- be_build m pos v en e pts ;; r <- body_build m pos v (S en) els st ;; Ok ([c] :: r)
  | _, _ => UB
  end.
Fixpoint body_update (m : hyper) (pos : nat -> nat -> R) (v : key -> R) (en : nat) (els : list body_el) : outcome (list (list point)) :=
  match els with
  | [] => Ok []
  | e :: els => pts <- be_update m pos v en e ;; r <- body_update m pos v (S en) els ;; Ok (pts :: r)
  end.

(* the elements as the solver sees them; the storage reads DoF k at its equation of the numbering s;
   mpf: the MPC equations after update() of the collections *)
Definition body_physics (m : hyper) (pos : nat -> nat -> R) (els : list body_el) (mpf : (key -> R) -> list (mpc RNum)) (s : numst)
  : physics RG (list (list point)) :=
  let v U k := nth (eqn s k - 1) U 0 in
  mkPhys (K := RG)
    (fun st U => ks <- body_build m pos (v U) 1 els st ;; Ok (st, (ks, mpf (v U))))
    (fun st U => body_update m pos (v U) 1 els).

(* NonlinearFESolver::solve on such a body; the numbering is that of FESolver.cpp:417-419 (initializeData etc.),
   which nonlin_solve computes again: init_sequence has no other effects *)
Definition body_solve (cfg : nlset RG) (big : R -> bool) (slv : eqsolver RNum) (fuel nn : nat) (m : hyper) (pos : nat -> nat -> R)
  (els : list body_el) (mpcs : list (mpc RNum)) (mpf : (key -> R) -> list (mpc RNum)) (start end_ : R) (loads fixes : list (bc RNum))
  : outcome (nlst RG (list (list point))) :=
  s <- init_sequence (fresh_storage nn (length els) (map (fun m => length (mp_terms m)) mpcs)) (body_regs 1 els) [] (map bc_key fixes) ;;
  nonlin_solve (K := RG) (body_physics m pos els mpf s) cfg big slv fuel nn (map be_nodes els) (body_regs 1 els) mpcs
    (map (be_fresh pos) els) start end_ loads fixes.
