(* Linear elements: src/lib/elements/{TRUSS3,TETRA0,TETRA1,TRIANGLE4,INTER0}.cpp, over the reals.
   pos nod i: coordinate i of the node nod of the element; nodal values U as a list in the order of the
   element equations. *)
From Coq Require Import Reals.
From Verif Require Import Base RealBase MatModel IsoModel.
Local Open Scope R_scope.

(* an array of n doubles: zero(), then assignments a[p] = x *)
Definition put (l : list R) (px : nat * R) : list R := upd l (fst px) (snd px).
Definition filled (n : nat) (ws : list (nat * R)) : list R := fold_left put ws (repeat 0 n).
(* MatSym<n>: zero(), then comp(i, j) = x *)
Definition sym_filled (n : nat) (ws : list (nat * nat * R)) : list R :=
  filled (n * (n + 1) / 2) (map (fun w => let '(i, j, x) := w in (comp16 n i j, x)) ws).

(* ---- TRUSS3.cpp:17-60: Ke is the upper triangle of T^T K T *)
Definition truss_T (pos : nat -> nat -> R) (k i : nat) : R :=
  let d j := pos 1%nat j - pos 0%nat j in
  let inv_length := 1 / vlen 3 d in
  match k, i with
  | 0%nat, 0%nat => d 0%nat * inv_length
  | 0%nat, 1%nat => d 1%nat * inv_length
  | 0%nat, 2%nat => d 2%nat * inv_length
  | 1%nat, 3%nat => d 0%nat * inv_length
  | 1%nat, 4%nat => d 1%nat * inv_length
  | 1%nat, 5%nat => d 2%nat * inv_length
  | _, _ => 0
  end.
Definition truss_K (A E : R) (pos : nat -> nat -> R) (k l : nat) : R :=
  let inv_length := 1 / vlen 3 (fun j => pos 1%nat j - pos 0%nat j) in
  (if (k =? l)%nat then 1 else -1) * (A * E * inv_length).
Definition truss_Ke (A E : R) (pos : nat -> nat -> R) (i j : nat) : R :=
  if (i <=? j)%nat
  then rsumn 2 (fun l => rsumn 2 (fun k => truss_T pos k i * truss_K A E pos k l) * truss_T pos l j)
  else 0.
(* assembleK reads the upper triangle for both halves (AsmModel.eigen_calls) *)
Definition upper (K : nat -> nat -> R) (i j : nat) : R := K (Nat.min i j) (Nat.max i j).
(* TRUSS3.cpp:64-97: S = E * (B * T * U)(0,0) *)
Definition truss_stress (E : R) (pos : nat -> nat -> R) (U : nat -> R) : R :=
  let inv_length := 1 / vlen 3 (fun j => pos 1%nat j - pos 0%nat j) in
  let B k := match k with 0%nat => - inv_length | _ => inv_length end in
  E * rsumn 6 (fun i => rsumn 2 (fun k => B k * truss_T pos k i) * U i).

(* ---- tetrahedra: TETRA0.cpp:19-26, TETRA1.cpp:16-21 *)
Definition tet_S (pos : nat -> nat -> R) (i j : nat) : R := match j with 0%nat => 1 | S j => pos i j end.
Definition tet_vol (pos : nat -> nat -> R) : R := @mdet RRng 4 (tet_S pos) / 6.
(* TETRA0.cpp:110-167, TETRA1.cpp:57-115; x12 = pos 0 - pos 1, x21 = -1.*x12 *)
Section TetB.
  Variable pos : nat -> nat -> R.
  Let p (k i j : nat) : R := pos (i - 1)%nat k - pos (j - 1)%nat k.
  Let m (k i j : nat) : R := -1 * p k j i.
  Let x := 0%nat.
  Let y := 1%nat.
  Let z := 2%nat.
  Definition tet_b (i : nat) : R :=
    match i with
    | 0%nat => m y 4 2 * m z 3 2 - m y 3 2 * m z 4 2
    | 1%nat => m y 3 1 * m z 4 3 - p y 3 4 * p z 1 3
    | 2%nat => p y 2 4 * p z 1 4 - p y 1 4 * p z 2 4
    | _ => p y 1 3 * m z 2 1 - p y 1 2 * m z 3 1
    end.
  Definition tet_c (i : nat) : R :=
    match i with
    | 0%nat => m x 3 2 * m z 4 2 - m x 4 2 * m z 3 2
    | 1%nat => m x 4 3 * m z 3 1 - p x 1 3 * p z 3 4
    | 2%nat => p x 1 4 * p z 2 4 - p x 2 4 * p z 1 4
    | _ => m x 2 1 * p z 1 3 - m x 3 1 * p z 1 2
    end.
  Definition tet_d (i : nat) : R :=
    match i with
    | 0%nat => m x 4 2 * m y 3 2 - m x 3 2 * m y 4 2
    | 1%nat => m x 3 1 * m y 4 3 - p x 3 4 * p y 1 3
    | 2%nat => p x 2 4 * p y 1 4 - p x 1 4 * p y 2 4
    | _ => p x 1 3 * m y 2 1 - p x 1 2 * m y 3 1
    end.
End TetB.

(* ---- TETRA0.cpp:169-183: the 6 x 12 strain matrix *)
Definition tet0_B (pos : nat -> nat -> R) (vol : R) : list R :=
  let A := -1 / 6 / vol in
  filled 72 (flat_map (fun i =>
    [((0 + 3 * i)%nat, tet_b pos i * A); ((13 + 3 * i)%nat, tet_c pos i * A); ((26 + 3 * i)%nat, tet_d pos i * A);
     ((36 + 3 * i)%nat, tet_c pos i * A); ((37 + 3 * i)%nat, tet_b pos i * A);
     ((49 + 3 * i)%nat, tet_d pos i * A); ((50 + 3 * i)%nat, tet_c pos i * A);
     ((60 + 3 * i)%nat, tet_d pos i * A); ((62 + 3 * i)%nat, tet_b pos i * A)]) (seq 0 4)).
(* TETRA0.cpp:186-199 *)
Definition tet0_C (E my : R) : list R :=
  let A := E / ((1 + my) * (1 - 2 * my)) in
  sym_filled 6 [(0%nat, 0%nat, (1 - my) * A); (0%nat, 1%nat, my * A); (0%nat, 2%nat, my * A); (1%nat, 1%nat, (1 - my) * A); (1%nat, 2%nat, my * A);
                (2%nat, 2%nat, (1 - my) * A); (3%nat, 3%nat, (1 / 2 - my) * A); (4%nat, 4%nat, (1 / 2 - my) * A); (5%nat, 5%nat, (1 / 2 - my) * A)].

Record tetra0 := mkTetra0 { t0_E : R; t0_my : R; t0_alpha : R; t0_T : R;
                            t0_stress : list R; t0_strains : list R; t0_vol : R }.
Definition qlength (v : list R) : R := rsuml v (fun a => a * a).
Definition nonzero (a : R) : bool := if Req_EM_T a 0 then false else true.
Definition vadd (a b : list R) : list R := map (fun p => fst p + snd p) (combine a b).
Definition cmat (C : list R) (k l : nat) : R := nth (comp16 6 k l) C 0.

(* TETRA0.cpp:18-78; result: the element afterwards, Ke (packed) and Fe when there is one *)
Definition tet0_buildK (pos : nat -> nat -> R) (e : tetra0) : outcome (tetra0 * list R * option (list R)) :=
  let vol := tet_vol pos in
  let C := tet0_C (t0_E e) (t0_my e) in
  let B := tet0_B pos vol in
  Ke <- @matBTDBprod RNum 6 12 B C vol (repeat 0 78) ;;
  let thermal := nonzero (t0_alpha e) && nonzero (t0_T e) in
  if thermal || nonzero (qlength (t0_strains e)) || nonzero (qlength (t0_stress e)) then
    let BTC := map (fun q => rsumn 6 (fun l => nth (l * 12 + q / 6) B 0 * cmat C l (q mod 6))) (seq 0 72) in
    let strains :=
      if nonzero (qlength (t0_stress e))
      then map (fun k => rsumn 6 (fun l => @minv RFld 6 (cmat C) (@mdet RRng 6 (cmat C)) k l * nth l (t0_stress e) 0)) (seq 0 6)
      else t0_strains e in
    let a := t0_alpha e * t0_T e in
    let strains := if thermal then vadd strains [a; a; a; 0; 0; 0] else strains in
    Fe <- @matBVprod RNum 12 6 BTC strains (- vol) (repeat 0 12) ;;
    Ok (mkTetra0 (t0_E e) (t0_my e) (t0_alpha e) (t0_T e) (t0_stress e) strains vol, Ke, Some Fe)
  else
    Ok (mkTetra0 (t0_E e) (t0_my e) (t0_alpha e) (t0_T e) (t0_stress e) (t0_strains e) vol, Ke, None).

(* TETRA0.cpp:81-108; vol as left by the last buildK *)
Definition tet0_update (pos : nat -> nat -> R) (e : tetra0) (U : list R) : outcome tetra0 :=
  strains <- @matBVprod RNum 6 12 (tet0_B pos (t0_vol e)) U (-1) (repeat 0 6) ;;
  stress <- @matSymBVprod RNum 6 (tet0_C (t0_E e) (t0_my e)) strains 1 (repeat 0 6) ;;
  Ok (mkTetra0 (t0_E e) (t0_my e) (t0_alpha e) (t0_T e) stress strains (t0_vol e)).

(* ---- TETRA1.cpp *)
Definition tet1_B (pos : nat -> nat -> R) (vol : R) : list R :=
  let A := -1 / 6 / vol in
  map (fun i => tet_b pos i * A) (seq 0 4) ++ map (fun i => tet_c pos i * A) (seq 0 4) ++ map (fun i => tet_d pos i * A) (seq 0 4).
Definition tet1_C (k : R) : list R := sym_filled 3 [(0%nat, 0%nat, - k); (1%nat, 1%nat, - k); (2%nat, 2%nat, - k)].
Definition tet1_buildK (pos : nat -> nat -> R) (k : R) : outcome (list R) :=
  @matBTDBprod RNum 3 4 (tet1_B pos (tet_vol pos)) (tet1_C k) (tet_vol pos) (repeat 0 10).
(* update (37-55): flux *)
Definition tet1_update (pos : nat -> nat -> R) (k : R) (U : list R) : outcome (list R) :=
  @matBVprod RNum 3 4 (tet1_B pos (tet_vol pos)) U k (repeat 0 3).
(* getVector (147-157): what is added to *vector *)
Definition tet1_FLUX (flux : list R) (scale : R) : list R := map (fun f => f * scale) flux.
Definition tet1_GRADT (k : R) (flux : list R) (scale : R) : list R := map (fun f => f * (scale / k)) flux.

(* ---- TRIANGLE4.cpp *)
Definition tri_S (pos : nat -> nat -> R) (i j : nat) : R := match j with 0%nat => 1 | S j => pos i j end.
Definition tri_area (pos : nat -> nat -> R) : R := @mdet RRng 3 (tri_S pos) / 2.
(* 76-101 *)
Definition tri_B (pos : nat -> nat -> R) (area : R) : list R :=
  let b i := match i with
             | 0%nat => pos 1%nat 1%nat - pos 2%nat 1%nat
             | 1%nat => pos 2%nat 1%nat - pos 0%nat 1%nat
             | _ => pos 0%nat 1%nat - pos 1%nat 1%nat end in
  let c i := match i with
             | 0%nat => pos 2%nat 0%nat - pos 1%nat 0%nat
             | 1%nat => pos 0%nat 0%nat - pos 2%nat 0%nat
             | _ => pos 1%nat 0%nat - pos 0%nat 0%nat end in
  let A := 1 / 2 / area in
  filled 18 [((0 * 6 + 0)%nat, b 0%nat * A); ((0 * 6 + 2)%nat, b 1%nat * A); ((0 * 6 + 4)%nat, b 2%nat * A);
             ((1 * 6 + 1)%nat, c 0%nat * A); ((1 * 6 + 3)%nat, c 1%nat * A); ((1 * 6 + 5)%nat, c 2%nat * A);
             ((2 * 6 + 0)%nat, c 0%nat * A); ((2 * 6 + 1)%nat, b 0%nat * A); ((2 * 6 + 2)%nat, c 1%nat * A);
             ((2 * 6 + 3)%nat, b 1%nat * A); ((2 * 6 + 4)%nat, c 2%nat * A); ((2 * 6 + 5)%nat, b 2%nat * A)].
(* 103-120 *)
Inductive pstate := PStrain | PStress.
Definition tri_C (state : pstate) (E my : R) : list R :=
  match state with
  | PStrain => let A := E * (1 - my) / ((1 + my) * (1 - 2 * my)) in
      sym_filled 3 [(0%nat, 0%nat, 1 * A); (0%nat, 1%nat, my / (1 - my) * A); (1%nat, 1%nat, 1 * A); (2%nat, 2%nat, (1 - 2 * my) / (2 * (1 - my)) * A)]
  | PStress => let A := E * (1 - my * my) in
      sym_filled 3 [(0%nat, 0%nat, 1 * A); (0%nat, 1%nat, my * A); (1%nat, 1%nat, 1 * A); (2%nat, 2%nat, (1 - my) / 2 * A)]
  end.
Definition tri_buildK (pos : nat -> nat -> R) (state : pstate) (E my : R) : outcome (list R) :=
  @matBTDBprod RNum 3 6 (tri_B pos (tri_area pos)) (tri_C state E my) (tri_area pos) (repeat 0 21).
(* update (51-74): strains and stress before, nodal values; the vectors are not set to zero *)
Definition tri_update (pos : nat -> nat -> R) (state : pstate) (E my : R) (s : list R * list R) (U : list R)
  : outcome (list R * list R) :=
  strains <- @matBVprod RNum 3 6 (tri_B pos (tri_area pos)) U 1 (fst s) ;;
  stress <- @matSymBVprod RNum 3 (tri_C state E my) strains 1 (snd s) ;;
  Ok (strains, stress).

(* ---- INTER0.cpp:15-56.  A division by zero gives numbers that are not finite: Fatal stands for that.
   Result: the normalised n and Ke *)
Definition rdiv (a b : R) : outcome R := if Req_EM_T b 0 then Fatal else Ok (a / b).
Definition vec3 (a b c : R) (i : nat) : R := match i with 0%nat => a | 1%nat => b | _ => c end.
Definition inter_basis (n : nat -> R) : outcome ((nat -> R) * (nat -> R) * (nat -> R)) :=
  let s1 := vec3 (n 0%nat) (n 1%nat + 1) (n 2%nat + 1) in
  q <- rdiv (s1 0%nat * n 0%nat + s1 1%nat * n 1%nat + s1 2%nat * n 2%nat) (rsumn 3 (fun i => n i * n i)) ;;
  let s1 := fun i => s1 i - n i * q in
  let s2 := vec3 (n 1%nat * s1 2%nat - n 2%nat * s1 1%nat) (n 2%nat * s1 0%nat - n 0%nat * s1 2%nat)
                 (n 0%nat * s1 1%nat - n 1%nat * s1 0%nat) in
  a <- rdiv 1 (vlen 3 n) ;;
  b <- rdiv 1 (vlen 3 s1) ;;
  c <- rdiv 1 (vlen 3 s2) ;;
  Ok (fun i => s1 i * b, fun i => s2 i * c, fun i => n i * a).
Definition inter_Ke (ks kn : R) (n : nat -> R) : outcome ((nat -> R) * (nat -> nat -> R)) :=
  f <- inter_basis n ;;
  let '(s1, s2, n) := f in
  let T k := match k with 0%nat => s1 | 1%nat => s2 | _ => n end in
  let D k := match k with 0%nat => ks | 1%nat => ks | _ => kn end in
  let K i j := rsumn 3 (fun k => T k i * D k * T k j) in
  Ok (n, fun i j => if xorb (i <? 3)%nat (j <? 3)%nat then - K (i mod 3)%nat (j mod 3)%nat else K (i mod 3)%nat (j mod 3)%nat).
