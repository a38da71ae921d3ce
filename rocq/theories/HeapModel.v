(* Objects owned by FEStorage: creation, use and deletion.
   Sources: src/lib/FEStorage.cpp:12-24, 175-318, 338-356, 421-427, 472-483, FEStorage.h:640-650, 675-696,
            src/lib/Mpc.h:31-60, src/lib/Mpc.cpp:30-68, src/lib/elements/ElementFactory.cpp:29-92,
            src/lib/materials/material.h:15-25.
   Only the life time of the objects, the tables of pointers to them and the numbers of the elements are
   modelled.  Objects handed over by the user (addNode, addElement, addMpc, ...) are new ones. *)
From Verif Require Import Base.

(* dynamic classes of the objects; OElem n: elNum = n; OColl k: a RigidBodyMpc with k equations;
   OMat d: d says if the class is derived from Material *)
Inductive obj := ONode | OElem (n : nat) | OMpc | OColl (k : nat) | OComp | OMat (derived : bool) | OMatrix.
Definition heap : Type := list (nat * obj).
Definition hget (h : heap) (a : nat) : option obj := option_map snd (find (fun x => fst x =? a) h).
Definition hdel (h : heap) (a : nat) : heap := filter (fun x => negb (fst x =? a)) h.
(* delete through a pointer to the base class is defined only with a virtual destructor: Element has one,
   MpcCollection (abstract) and Material have none *)
Definition deletable (o : obj) : bool :=
  match o with OColl _ => false | OMat d => negb d | _ => true end.
Definition del (h : heap) (a : nat) : outcome heap :=
  match hget h a with Some o => if deletable o then Ok (hdel h a) else UB | None => UB end.
Definition del_list (h : heap) (l : list nat) : outcome heap := ofold del l h.
(* any access through the pointers *)
Definition touch (h : heap) (l : list nat) : outcome unit :=
  ofold (fun _ a => match hget h a with Some _ => Ok tt | None => UB end) l tt.

Record hst := mkHst {
  hs_live : heap; hs_next : nat;
  hs_nodes : list nat; hs_els : list nat; hs_mpcs : list nat; hs_colls : list nat; hs_comps : list nat;
  hs_mat : list nat;                                              (* material: at most one *)
  hs_K : list nat; hs_C : list nat; hs_M : list nat }.            (* matK, matC, matM: at most one each *)
Definition empty_storage : hst := mkHst [] 0 [] [] [] [] [] [] [] [] [].

(* new: addresses are not reused, so that an old pointer never becomes valid again by chance *)
Fixpoint alloc (h : heap) (n : nat) (os : list obj) : heap :=
  match os with [] => h | o :: r => alloc ((n, o) :: h) (n + 1) r end.

Inductive op :=
| CreateNodes (k : nat) | AddNode
| CreateElements (known : bool) (k : nat)    (* known: the type has a case in ElementFactory *)
| AddElement | AddMpc | AddCollection (k : nat) | AddComponent | SetMaterial (derived : bool)
| InitDofs | AssignNumbers | InitSolutionData (transient : bool) | Assemble (transient : bool)
| GetNode (n : nat) | GetElement (n : nat)
| DeleteSolutionData | DeleteNodes | DeleteElements | DeleteMpcs | DeleteCollections | DeleteComponents | DeleteMesh.

Definition with_live (s : hst) (h : heap) (n : nat) : hst :=
  mkHst h n (hs_nodes s) (hs_els s) (hs_mpcs s) (hs_colls s) (hs_comps s) (hs_mat s) (hs_K s) (hs_C s) (hs_M s).
Definition new_objs (s : hst) (os : list obj) : hst := with_live s (alloc (hs_live s) (hs_next s) os) (hs_next s + length os).
Definition addrs (s : hst) (k : nat) : list nat := seq (hs_next s) k.

(* FEStorage.cpp:194-221 *)
Definition add_nodes (s : hst) (k : nat) : hst :=
  let s' := new_objs s (repeat ONode k) in
  mkHst (hs_live s') (hs_next s') (hs_nodes s ++ addrs s k) (hs_els s) (hs_mpcs s) (hs_colls s) (hs_comps s) (hs_mat s) (hs_K s) (hs_C s) (hs_M s).
(* FEStorage.cpp:224-244; elNum is written directly after the creation *)
Definition add_elements (s : hst) (k : nat) : hst :=
  let s' := new_objs s (map OElem (seq (length (hs_els s) + 1) k)) in
  mkHst (hs_live s') (hs_next s') (hs_nodes s) (hs_els s ++ addrs s k) (hs_mpcs s) (hs_colls s) (hs_comps s) (hs_mat s) (hs_K s) (hs_C s) (hs_M s).
(* FEStorage.cpp:175-179 *)
Definition add_mpcs (s : hst) (k : nat) : hst :=
  let s' := new_objs s (repeat OMpc k) in
  mkHst (hs_live s') (hs_next s') (hs_nodes s) (hs_els s) (hs_mpcs s ++ addrs s k) (hs_colls s) (hs_comps s) (hs_mat s) (hs_K s) (hs_C s) (hs_M s).

Definition s_DeleteNodes (s : hst) : outcome hst :=
  h <- del_list (hs_live s) (hs_nodes s) ;;
  Ok (mkHst h (hs_next s) [] (hs_els s) (hs_mpcs s) (hs_colls s) (hs_comps s) (hs_mat s) (hs_K s) (hs_C s) (hs_M s)).
Definition s_DeleteElements (s : hst) : outcome hst :=
  h <- del_list (hs_live s) (hs_els s) ;;
  Ok (mkHst h (hs_next s) (hs_nodes s) [] (hs_mpcs s) (hs_colls s) (hs_comps s) (hs_mat s) (hs_K s) (hs_C s) (hs_M s)).
(* FEStorage.cpp:270-276: mpcs is not cleared *)
Definition s_DeleteMpcs (s : hst) : outcome hst :=
  h <- del_list (hs_live s) (hs_mpcs s) ;; Ok (with_live s h (hs_next s)).
Definition s_DeleteCollections (s : hst) : outcome hst :=
  h <- del_list (hs_live s) (hs_colls s) ;;
  Ok (mkHst h (hs_next s) (hs_nodes s) (hs_els s) (hs_mpcs s) [] (hs_comps s) (hs_mat s) (hs_K s) (hs_C s) (hs_M s)).
Definition s_DeleteComponents (s : hst) : outcome hst :=
  h <- del_list (hs_live s) (hs_comps s) ;;
  Ok (mkHst h (hs_next s) (hs_nodes s) (hs_els s) (hs_mpcs s) (hs_colls s) [] (hs_mat s) (hs_K s) (hs_C s) (hs_M s)).
(* FEStorage.cpp:245-252 *)
Definition s_DeleteMesh (s : hst) : outcome hst :=
  s1 <- s_DeleteElements s ;; s2 <- s_DeleteNodes s1 ;; s3 <- s_DeleteMpcs s2 ;;
  s4 <- s_DeleteCollections s3 ;; s_DeleteComponents s4.
(* FEStorage.cpp:303-328 *)
Definition s_DeleteSolutionData (s : hst) : outcome hst :=
  h1 <- del_list (hs_live s) (hs_K s) ;; h2 <- del_list h1 (hs_C s) ;; h3 <- del_list h2 (hs_M s) ;;
  Ok (mkHst h3 (hs_next s) (hs_nodes s) (hs_els s) (hs_mpcs s) (hs_colls s) (hs_comps s) (hs_mat s) [] [] []).

(* the equations of all collections, FEStorage.cpp:350-353, Mpc.cpp:30-34, 52-68 *)
Definition coll_size (h : heap) (a : nat) : outcome nat :=
  match hget h a with Some (OColl k) => Ok k | _ => UB end.
Definition coll_pre (s : hst) : outcome hst :=
  ofold (fun s a => k <- coll_size (hs_live s) a ;; Ok (add_mpcs s k)) (hs_colls s) s.

Definition step (s : hst) (o : op) : outcome hst :=
  match o with
  | CreateNodes k => Ok (add_nodes s k)
  | AddNode => Ok (add_nodes s 1)
  | CreateElements known k => Ok (if known then add_elements s k else s)
  | AddElement => Ok (add_elements s 1)
  | AddMpc => Ok (add_mpcs s 1)
  | AddCollection k =>
      let s' := new_objs s [OColl k] in
      Ok (mkHst (hs_live s') (hs_next s') (hs_nodes s) (hs_els s) (hs_mpcs s) (hs_colls s ++ addrs s 1) (hs_comps s) (hs_mat s) (hs_K s) (hs_C s) (hs_M s))
  | AddComponent =>
      let s' := new_objs s [OComp] in
      Ok (mkHst (hs_live s') (hs_next s') (hs_nodes s) (hs_els s) (hs_mpcs s) (hs_colls s) (hs_comps s ++ addrs s 1) (hs_mat s) (hs_K s) (hs_C s) (hs_M s))
  | SetMaterial d =>                                  (* storage.material = mat *)
      let s' := new_objs s [OMat d] in
      Ok (mkHst (hs_live s') (hs_next s') (hs_nodes s) (hs_els s) (hs_mpcs s) (hs_colls s) (hs_comps s) (addrs s 1) (hs_K s) (hs_C s) (hs_M s))
  | InitDofs =>                                       (* FEStorage.cpp:338-356 *)
      if (length (hs_nodes s) <? 1) && (length (hs_els s) <? 1) then Fatal else
      _ <- touch (hs_live s) (hs_els s) ;; coll_pre s
  | AssignNumbers => _ <- touch (hs_live s) (hs_mpcs s) ;; Ok s          (* 421-427 *)
  | InitSolutionData tr =>                            (* 434-550: old matrices are not deleted *)
      _ <- touch (hs_live s) (hs_els s) ;; _ <- touch (hs_live s) (hs_mpcs s) ;;
      let n := hs_next s in
      let s' := new_objs s (repeat OMatrix (if tr then 3 else 1)) in
      Ok (mkHst (hs_live s') (hs_next s') (hs_nodes s) (hs_els s) (hs_mpcs s) (hs_colls s) (hs_comps s) (hs_mat s)
            [n] (if tr then [n + 1] else hs_C s) (if tr then [n + 2] else hs_M s))
  | Assemble tr =>                                    (* 26-78 *)
      asserting (0 <? length (hs_K s)) (
      _ <- touch (hs_live s) (hs_K s) ;; _ <- touch (hs_live s) (hs_els s) ;;
      _ <- touch (hs_live s) (hs_colls s) ;; _ <- touch (hs_live s) (hs_mpcs s) ;;
      (if tr then asserting (0 <? length (hs_C s)) (asserting (0 <? length (hs_M s)) (
         _ <- touch (hs_live s) (hs_C s) ;; _ <- touch (hs_live s) (hs_M s) ;; Ok s)) else Ok s))
  | GetNode n =>                                      (* FEStorage.h:640-643 *)
      asserting ((0 <? n) && (n <=? length (hs_nodes s))) (
      a <- aget (hs_nodes s) (n - 1) ;; _ <- touch (hs_live s) [a] ;; Ok s)
  | GetElement n =>                                   (* FEStorage.h:646-649 *)
      asserting (n <=? length (hs_els s)) (
      if n =? 0 then UB else
      a <- aget (hs_els s) (n - 1) ;; _ <- touch (hs_live s) [a] ;; Ok s)
  | DeleteSolutionData => s_DeleteSolutionData s
  | DeleteNodes => s_DeleteNodes s
  | DeleteElements => s_DeleteElements s
  | DeleteMpcs => s_DeleteMpcs s
  | DeleteCollections => s_DeleteCollections s
  | DeleteComponents => s_DeleteComponents s
  | DeleteMesh => s_DeleteMesh s
  end.
Definition run (ops : list op) : outcome hst := ofold step ops empty_storage.
(* FEStorage.cpp:16-23; result: the objects still alive *)
Definition destroy (s : hst) : outcome heap :=
  h <- del_list (hs_live s) (hs_mat s) ;;
  s1 <- s_DeleteSolutionData (with_live s h (hs_next s)) ;;
  s2 <- s_DeleteMesh s1 ;;
  Ok (hs_live s2).
(* the numbers returned by createNodes and createElements: FEStorage.cpp:206-220, 236-243 *)
Definition new_numbers (old new : list nat) : list nat := seq (length old + 1) (length new - length old).
