(* Interface of two triangles: src/lib/elements/INTER3.{h,cpp}, over the reals.
   pos nod i: coordinate i of the node nod (0..2 the first triangle). Operations on numbers that are not finite: Fatal. *)
From Coq Require Import Reals.
From Verif Require Import Base RealBase MatModel IsoModel ElemModel.
Local Open Scope R_scope.

(* a decimal literal with 10 digits *)
Definition d10 (z : Z) : R := IZR z / IZR 10000000000.
(* INTER3.h:126-130 _rado_o3: AJ, H, AI, AS *)
Definition rado_AJ (n : nat) : R := d10 (nth n [1127016654; 5000000000; 8872983346]%Z 0%Z).
Definition rado_H (n : nat) : R := d10 (nth n [2777777778; 4444444444; 2777777778]%Z 0%Z).
Definition rado_AI (n : nat) : R := d10 (nth n [885879595; 4094668644; 7876594618]%Z 0%Z).
Definition rado_AS (n : nat) : R := d10 (nth n [2204622112; 3881934688; 3288443200]%Z 0%Z).
(* INTER3.h:141-144: three points in both directions *)
Definition i3_points : list (nat * nat) := list_prod (seq 0 3) (seq 0 3).
(* INTER3.h:158-160, 166-168, 174-176, 182-184 *)
Definition i3_L (q : nat * nat) (a : nat) : R :=
  let l1 := rado_AI (fst q) in
  let l2 := rado_AJ (snd q) * (1 - l1) in
  match a with 0%nat => l1 | 1%nat => l2 | _ => 1 - l1 - l2 end.
Definition i3_weight (det : R) (q : nat * nat) : R := rado_AS (fst q) * rado_H (snd q) * (1 - i3_L q 0) * det.

(* INTER3.cpp:112-135 *)
Definition side1 (pos : nat -> nat -> R) (i : nat) : R := pos 1%nat i - pos 0%nat i.
Definition side2 (pos : nat -> nat -> R) (i : nat) : R := pos 2%nat i - pos 0%nat i.
Definition inter3_jacob (pos : nat -> nat -> R) : outcome R :=
  let t1 := side1 pos in let t2 := side2 pos in
  let mult := t1 0%nat * t2 0%nat + t1 1%nat * t2 1%nat + t1 2%nat * t2 2%nat in
  q <- rdiv mult (vlen 3 t1) ;;
  q <- rdiv q (vlen 3 t2) ;;
  let angle := acos q in
  let x2 := vlen 3 t1 in
  let x3 := vlen 3 t2 * cos angle in let y3 := vlen 3 t2 * sin angle in
  let det := (0 - x3) * (0 - y3) - (0 - y3) * (x2 - x3) in
  if Rlt_dec det 0 then Fatal else Ok det.

(* INTER3.cpp:185-210: the columns of T; the third one is the member normal *)
Definition cross (a b : nat -> R) : nat -> R :=
  vec3 (a 1%nat * b 2%nat - a 2%nat * b 1%nat) (a 2%nat * b 0%nat - a 0%nat * b 2%nat) (a 0%nat * b 1%nat - a 1%nat * b 0%nat).
Definition inter3_T (pos : nat -> nat -> R) : outcome (nat -> nat -> R) :=
  let s1 := side1 pos in let t2 := side2 pos in
  let n := cross s1 t2 in
  let s2 := cross n s1 in
  a <- rdiv 1 (vlen 3 n) ;;
  b <- rdiv 1 (vlen 3 s1) ;;
  c <- rdiv 1 (vlen 3 s2) ;;
  Ok (fun i k => match k with 0%nat => s1 i * b | 1%nat => s2 i * c | _ => n i * a end).
(* INTER3.cpp:137-141 *)
Definition inter3_D (ks kn : R) (k : nat) : R := match k with 0%nat => ks | 1%nat => ks | _ => kn end.
(* INTER3.cpp:164-183: column 3 a + m *)
Definition inter3_B (q : nat * nat) (k i : nat) : R :=
  if (i mod 3 =? k)%nat then if (i / 3 <? 3)%nat then i3_L q (i / 3) else - i3_L q (i / 3 - 3) else 0.
(* INTER3.cpp:24-31: the upper triangle only *)
Definition inter3_local (det ks kn : R) (i j : nat) : R :=
  if (i <=? j)%nat then rsuml i3_points (fun q => i3_weight det q * rsumn 3 (fun k => inter3_B q k i * inter3_D ks kn k * inter3_B q k j)) else 0.
(* INTER3.cpp:33-48: T_Ke has the blocks T^T on its diagonal *)
Definition inter3_TK (T : nat -> nat -> R) (p i : nat) : R := if (p / 3 =? i / 3)%nat then T (i mod 3)%nat (p mod 3)%nat else 0.
Definition inter3_glob (T K : nat -> nat -> R) (i j : nat) : R :=
  rsumn 18 (fun p => rsumn 18 (fun q => inter3_TK T p i * K p q * inter3_TK T q j)).
(* buildK: the member det, and the values assembleK reads (element.cpp:38-60, selfadjointView<Upper>) *)
Definition inter3_buildK (pos : nat -> nat -> R) (ks kn : R) : outcome (R * (nat -> R) * (nat -> nat -> R)) :=
  det <- inter3_jacob pos ;;
  T <- inter3_T pos ;;
  let G := inter3_glob T (inter3_local det ks kn) in
  Ok (det, fun i => T i 2%nat, fun i j => if (i <=? j)%nat then G i j else G j i).
(* INTER3.cpp:52-110; U nod i: displacements of the six nodes, det as left by buildK; T.inverse() by cofactors *)
Definition inter3_update (pos : nat -> nat -> R) (det ks kn : R) (U : nat -> nat -> R) : outcome ((nat -> R) * (nat -> R)) :=
  T <- inter3_T pos ;;
  let d := @mdet RRng 3 T in
  asserting (if Req_EM_T d 0 then false else true) (
  let Ti := @minv RFld 3 T d in
  let loc off a k := rsumn 3 (fun i => Ti k i * U (off + a)%nat i) in
  let US off k := rsuml i3_points (fun q => i3_weight det q * rsumn 3 (fun a => i3_L q a * loc off a k)) in
  let e k := US 3%nat k - US 0%nat k in
  let s k := inter3_D ks kn k * e k in
  Ok (fun i => rsumn 3 (fun k => T i k * e k), fun i => rsumn 3 (fun k => T i k * s k))).

(* INTER3.cpp:216-234. Query numbers of query.h:41-53: UNDEF, COUCHY, PK2, E, C, TSTRAIN. Leaving the function without a
   return statement: UB. The tensor is a packed symmetric matrix *)
Definition q_E : nat := 3.
Definition q_C : nat := 4.
Definition diag_add (t : list R) (v : nat -> R) : list R :=
  map (fun k => nth k t 0 + match k with 0%nat => v 0%nat | 3%nat => v 1%nat | 5%nat => v 2%nat | _ => 0 end) (seq 0 6).
Definition inter3_tensor (strains stress : nat -> R) (q : nat) (scale : R) (t : list R) : outcome (list R * bool) :=
  if (q =? q_C)%nat then Ok (diag_add t strains, true)
  else if (q =? q_E)%nat then Ok (diag_add t stress, true)
  else UB.
