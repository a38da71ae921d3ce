(* Vocabulary for the equation solver objects *)
From Verif Require Import Base SparseModel SpecSparse DofModel SpecDof AsmModel SpecAsm SolveModel SpecSolve GaussModel EqsModel.

Section Spec.
  Variable K : Num.
  Local Open Scope rng_scope.
  (* x solves the system of a matrix *)
  Definition solves (m : smat K) (b x : list K) : Prop :=
    let n := si_nrows (sm_si m) in
    length x = n /\ forall A, (forall i j, in_shape n n (i, j) -> sym_value m i j = Ok (A i j)) -> forall i, (i < n)%nat -> mv A n x (S i) = nth i b 0.
  (* the library solves the systems it does not report an error for *)
  Definition exact_library (L : library K) : Prop :=
    forall mt m b, length b = si_nrows (sm_si m) -> lib_err L 22 mt m = false -> lib_err L 33 mt m = false -> solves m b (lib_x L m m b).

  (* a sensible use of one object: the matrices have the pattern s, setSymmetric is not used to give up symmetry, substitutions
     are made with the matrix that was factorised last *)
  Fixpoint orderly (s : spinfo) (last : option (smat K)) (l : list (qcall K)) : Prop :=
    match l with
    | [] => True
    | QSym b :: l => b = true /\ orderly s last l
    | QPos _ :: l => orderly s last l
    | QFact m :: l => sm_si m = s /\ sm_vals m <> None /\ orderly s (Some m) l
    | QSubst m b _ :: l => last = Some m /\ length b = si_nrows s /\ orderly s last l
    | QSolve m b _ :: l => sm_si m = s /\ sm_vals m <> None /\ length b = si_nrows s /\ orderly s (Some m) l
    end.
  (* the systems that are to be solved *)
  Fixpoint systems (l : list (qcall K)) : list (smat K * list K) :=
    match l with
    | [] => []
    | QSubst m b _ :: l | QSolve m b _ :: l => (m, b) :: systems l
    | _ :: l => systems l
    end.
  Definition is_solve (c : qcall K) : Prop := match c with QSolve _ _ _ => True | _ => False end.
  (* the last setting before the first factorisation *)
  Fixpoint positive (p : bool) (l : list (qcall K)) : bool :=
    match l with
    | QPos b :: l => positive b l
    | QSym _ :: l => positive p l
    | _ => p
    end.
  Fixpoint factorises (l : list (qcall K)) : bool :=
    match l with [] => false | QFact _ :: _ | QSolve _ _ _ :: _ => true | _ :: l => factorises l end.
End Spec.
Arguments solves {K} _ _ _.
Arguments exact_library {K} _.
Arguments orderly {K} _ _ _.
Arguments systems {K} _.
Arguments is_solve {K} _.
Arguments positive {K} _ _.
Arguments factorises {K} _.
(* analysis, then factorisations and substitutions, then the end *)
Definition well_ordered (mt : Z) (lg : list (Z * Z)) : Prop :=
  exists mid, lg = (11, mt)%Z :: mid ++ [(-1, mt)%Z] /\ Forall (fun c => c = (22, mt)%Z \/ c = (33, mt)%Z) mid.
(* a matrix all numbers of which can be read *)
Definition readable {K : Num} (m : smat K) : Prop :=
  exists A, forall i j, in_shape (si_nrows (sm_si m)) (si_nrows (sm_si m)) (i, j) -> sym_value m i j = Ok (A i j).
(* matrices can be read, the unknowns have the size of the system *)
Definition fitting {K : Num} (n : nat) (c : qcall K) : Prop :=
  match c with
  | QSubst m _ x | QSolve m _ x => readable m /\ length x = n
  | _ => True
  end.
(* a DoF of an element *)
Definition in_element (mesh : list (list nat)) (x : key) : Prop := exists en, 1 <= en <= length mesh /\ el_key mesh en x.
