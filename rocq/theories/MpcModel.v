(* RigidBodyMpc: src/lib/Mpc.h:42-60, src/lib/Mpc.cpp:52-164, over the reals. *)
From Coq Require Import Reals.
From Verif Require Import Base RealBase DofModel AsmModel.
Local Open Scope R_scope.

(* Dof.h:15-25 *)
Notation UX := 0%nat (only parsing).
Notation UY := 1%nat (only parsing).
Notation UZ := 2%nat (only parsing).
Notation ROTX := 3%nat (only parsing).
Notation ROTY := 4%nat (only parsing).
Notation ROTZ := 5%nat (only parsing).

(* solidmech.h:24-38 *)
Definition LeviCivita (i j k : nat) : R :=
  match i, j, k with
  | 0%nat, 1%nat, 2%nat => 1 | 0%nat, 2%nat, 1%nat => -1
  | 1%nat, 0%nat, 2%nat => -1 | 1%nat, 2%nat, 0%nat => 1
  | 2%nat, 0%nat, 1%nat => 1 | 2%nat, 1%nat, 0%nat => -1
  | _, _, _ => 0
  end.
Definition Imat (i j : nat) : R :=
  match i, j with 0%nat, 0%nat => 1 | 1%nat, 1%nat => 1 | 2%nat, 2%nat => 1 | _, _ => 0 end.

Record rigid := mkRigid { rb_master : nat; rb_slaves : list nat; rb_dofs : list nat }.

(* pre, 52-68: the collection, and the DoFs added to the master node *)
Definition rb_pre (r : rigid) : list (mpc RNum) :=
  flat_map (fun s => map (fun d =>
      @mkMpc RNum 0 [(s, d, 1); (rb_master r, d, -1); (rb_master r, ROTX, 0); (rb_master r, ROTY, 0); (rb_master r, ROTZ, 0)])
    (rb_dofs r)) (rb_slaves r).
Definition rb_master_dofs : list nat := [UX; UY; UZ; ROTX; ROTY; ROTZ].

(* update, 70-164 *)
Definition small_angle : R := 1 / 1000.
(* Vec<3>::length, Vec.h *)
Definition vnorm (th : nat -> R) : R := sqrt (th 0%nat * th 0%nat + th 1%nat * th 1%nat + th 2%nat * th 2%nat).
Record coefs := mkCoefs { k1 : R; k2 : R; k3 : R; k4 : R }.
(* 93-106 *)
Definition rb_coefs (t : R) : coefs :=
  if Rlt_dec t small_angle then mkCoefs 1 (1 / 2) (- 1 / 3) (- 1 / 12)
  else mkCoefs (sin t / t) ((1 - cos t) / (t * t)) ((t * cos t - sin t) / (t * t * t))
               ((t * sin t - 2 + 2 * cos t) / (t * t * t * t)).
(* 109-111, 139-141 *)
Definition rb_theta0Mat (th : nat -> R) (i j : nat) : R :=
  LeviCivita i 0 j * th 0%nat + LeviCivita i 1 j * th 1%nat + LeviCivita i 2 j * th 2%nat.
(* 107-115 *)
Definition rb_C (th : nat -> R) (i j : nat) : R :=
  let t := vnorm th in let k := rb_coefs t in
  cos t * Imat i j + k1 k * rb_theta0Mat th i j + k2 k * th i * th j.
(* 136-146 *)
Definition rb_cDeriv (th : nat -> R) (i j l : nat) : R :=
  let k := rb_coefs (vnorm th) in
  Imat i j * (- k1 k) * th l + k3 k * th l * rb_theta0Mat th i j + k1 k * LeviCivita i l j
  + k4 k * th l * th i * th j + k2 k * (Imat i l * th j + th i * Imat j l).

(* 148-150 *)
Definition rb_b (th w0 pq : nat -> R) (u : R) (i : nat) : R :=
  w0 i + (rb_C th i 0 - Imat i 0) * pq 0%nat + (rb_C th i 1 - Imat i 1) * pq 1%nat + (rb_C th i 2 - Imat i 2) * pq 2%nat - u.
(* 155-161 *)
Definition rb_rot (th pq : nat -> R) (i l : nat) : R :=
  - (rb_cDeriv th i 0 l * pq 0%nat + rb_cDeriv th i 1 l * pq 1%nat + rb_cDeriv th i 2 l * pq 2%nat).

(* 124-135 *)
Definition rb_axis (d : nat) : outcome nat :=
  match d with UX => Ok 0%nat | UY => Ok 1%nat | UZ => Ok 2%nat | _ => Fatal end.
(* 151-161: the list iterator moves to the third, fourth and fifth term *)
Definition set_coefs (ts : list (nat * nat * R)) (c : nat -> R) : outcome (list (nat * nat * R)) :=
  match ts with
  | a :: b :: (n0, d0, _) :: (n1, d1, _) :: (n2, d2, _) :: r =>
      Ok (a :: b :: (n0, d0, c 0%nat) :: (n1, d1, c 1%nat) :: (n2, d2, c 2%nat) :: r)
  | _ => UB
  end.
Definition vec3 (f : nat -> outcome R) : outcome (nat -> R) :=
  a <- f 0%nat ;; b <- f 1%nat ;; c <- f 2%nat ;; Ok (fun i => match i with 0%nat => a | 1%nat => b | _ => c end).
(* pos n: getNodePosition(n, false); sol n d: getNodeDofSolution(n, d) *)
Definition rb_update (pos : nat -> outcome (nat -> R)) (sol : nat -> nat -> outcome R) (r : rigid) (coll : list (mpc RNum))
  : outcome (list (mpc RNum)) :=
  th <- vec3 (fun i => sol (rb_master r) (ROTX + i)%nat) ;;
  w0 <- vec3 (fun i => sol (rb_master r) i) ;;
  mp <- pos (rb_master r) ;;
  ofold (fun (coll : list (mpc RNum)) ns =>
      let '(n, s) := ns in
      sp <- pos s ;;
      let pq i := sp i - mp i in
      ofold (fun (coll : list (mpc RNum)) jd =>
          let '(j, d) := jd in
          i <- rb_axis d ;;
          let k := (n * length (rb_dofs r) + j)%nat in
          m <- aget coll k ;;
          u <- sol s d ;;
          ts <- set_coefs (@mp_terms RNum m) (rb_rot th pq i) ;;
          aset coll k (@mkMpc RNum (rb_b th w0 pq u i) ts))
        (combine (seq 0 (length (rb_dofs r))) (rb_dofs r)) coll)
    (combine (seq 0 (length (rb_slaves r))) (rb_slaves r)) coll.
