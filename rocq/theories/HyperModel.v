(* Hyperelastic materials and the mixed elements: src/lib/solidmech.cpp,
   src/lib/materials/materials_hyperelastic.cpp, src/lib/elements/{SOLID81,PLANE41}.{h,cpp}, over the reals.
   Symmetric tensors are arrays of 6 doubles in the order M_XX .. M_ZZ (solidmech.h:12-19). *)
From Coq Require Import Reals.
From Verif Require Import Base RealBase MatModel IsoModel ElemModel.
Local Open Scope R_scope.

Notation XX := 0%nat (only parsing).
Notation XY := 1%nat (only parsing).
Notation XZ := 2%nat (only parsing).
Notation YY := 3%nat (only parsing).
Notation YZ := 4%nat (only parsing).
Notation ZZ := 5%nat (only parsing).

(* ---- solidmech.cpp:10-44 *)
Definition J_C (C : nat -> R) : R :=
  sqrt (C XX * (C YY * C ZZ - C YZ * C YZ) - C XY * (C XY * C ZZ - C YZ * C XZ) + C XZ * (C XY * C YZ - C YY * C XZ)).
Definition invC_C (C : nat -> R) (J : R) (k : nat) : R :=
  let oo := 1 / (J * J) in
  match k with
  | XX => oo * (C YY * C ZZ - C YZ * C YZ)
  | XY => oo * (C XZ * C YZ - C XY * C ZZ)
  | XZ => oo * (C XY * C YZ - C XZ * C YY)
  | YY => oo * (C XX * C ZZ - C XZ * C XZ)
  | YZ => oo * (C XY * C XZ - C XX * C YZ)
  | _ => oo * (C XX * C YY - C XY * C XY)
  end.
Definition IC_C (C : nat -> R) (k : nat) : R :=
  match k with
  | 0%nat => C XX + C YY + C ZZ
  | 1%nat => C XX * C YY + C YY * C ZZ + C XX * C ZZ - C XY * C XY - C YZ * C YZ - C XZ * C XZ
  | _ => J_C C
  end.

(* ---- material.cpp:9, materials_hyperelastic.cpp:9-14 *)
Definition mI (k : nat) : R := match k with XX => 1 | YY => 1 | ZZ => 1 | _ => 0 end.
Definition mII (k l : nat) : R :=
  match k, l with
  | XX, XX => 1 | XY, XY => (1 / 2) | XZ, XZ => (1 / 2) | YY, YY => 1 | YZ, YZ => (1 / 2) | ZZ, ZZ => 1
  | _, _ => 0
  end.

(* the virtual functions; arguments I1, I2, I3; alpha[AL_1], alpha[AL_2] and AL_1, AL_2, AL_11, AL_12, AL_22 *)
Record hyper := mkHyper {
  W_first : R -> R -> R -> list R;
  W_second : R -> R -> R -> list R;
  hW : R -> R -> R -> R;
  hK : R }.
Definition al (alpha : list R) (k : nat) : R := nth k alpha 0.
Notation AL_1 := 0%nat (only parsing).
Notation AL_2 := 1%nat (only parsing).
Notation AL_11 := 2%nat (only parsing).
Notation AL_12 := 3%nat (only parsing).
Notation AL_22 := 4%nat (only parsing).

(* materials_hyperelastic.cpp:157-179; MC = [G; K] *)
Definition neo_hookean (G K : R) : hyper :=
  mkHyper (fun _ _ _ => [(1 / 2) * G; 0])
          (fun _ _ _ => [(1 / 2) * G; 0; 0; 0; 0])
          (fun I1 _ _ => (1 / 2) * G * (I1 - 3))
          K.
(* 184-205 *)
Definition biderman (C10 C20 C30 C01 K : R) : hyper :=
  mkHyper (fun I1 _ _ => [C10 + 2 * C20 * (I1 - 3) + 3 * C30 * (I1 - 3) * (I1 - 3); C01])
          (fun I1 _ _ => [C10 + 2 * C20 * (I1 - 3) + 3 * C30 * (I1 - 3) * (I1 - 3); C01; 2 * C20 + 6 * C30 * (I1 - 3); 0; 0])
          (fun I1 I2 _ => C10 * (I1 - 3) + C20 * (I1 - 3) * (I1 - 3) + C30 * (I1 - 3) * (I1 - 3) * (I1 - 3) + C01 * (I2 - 3))
          K.
(* 210-232 *)
Definition mooney_rivlin (C10 C01 K : R) : hyper :=
  mkHyper (fun _ _ _ => [C10; C01])
          (fun _ _ _ => [C10; C01; 0; 0; 0])
          (fun I1 I2 _ => C10 * (I1 - 3) + C01 * (I2 - 3))
          K.

(* pow(J, -2.0/3.0) *)
Definition pow_m23 (J : R) : R := Rpower J (- (2) / 3).
(* the arrays A and B, lines 50-53, 96-99 *)
Definition hA (C Ci : nat -> R) (k : nat) : R := mI k - 1 / 3 * IC_C C 0 * Ci k.
Definition hB (C Ci : nat -> R) (k : nat) : R := IC_C C 0 * mI k - C k - 2 / 3 * IC_C C 1 * Ci k.

(* getS_UP, lines 29-60: S[i] for i < ncomp *)
Definition S_comp (m : hyper) (C : nat -> R) (press : R) (ij : nat) : R :=
  let J := IC_C C 2 in
  let pp := pow_m23 J in
  let pppp := pp * pp in
  let Ci := invC_C C J in
  let alpha := W_first m (IC_C C 0 * pp) (IC_C C 1 * pppp) 0 in
  let ko1 := 2 * al alpha AL_1 * pp in
  let ko2 := 2 * al alpha AL_2 * pppp in
  ko1 * hA C Ci ij + ko2 * hB C Ci ij + press * J * Ci ij.
Definition getS_UP (m : hyper) (comps : list nat) (C : nat -> R) (press : R) : list R :=
  map (S_comp m C press) comps.

(* the table IIt, lines 101-118 *)
Definition hIIt (Ci : nat -> R) (k l : nat) : R :=
  match k, l with
  | XX, XX => - Ci XX * Ci XX
  | XX, XY => - Ci XX * Ci XY
  | XX, XZ => - Ci XX * Ci XZ
  | XX, YY => - Ci XY * Ci XY
  | XX, YZ => - Ci XY * Ci XZ
  | XX, ZZ => - Ci XZ * Ci XZ
  | XY, XX => - Ci XX * Ci XY
  | XY, XY => - (1 / 2) * (Ci XX * Ci YY + Ci XY * Ci XY)
  | XY, XZ => - (1 / 2) * (Ci XX * Ci YZ + Ci XZ * Ci XY)
  | XY, YY => - Ci XY * Ci YY
  | XY, YZ => - (1 / 2) * (Ci XY * Ci YZ + Ci XZ * Ci YY)
  | XY, ZZ => - Ci XZ * Ci YZ
  | XZ, XX => - Ci XX * Ci XZ
  | XZ, XY => - (1 / 2) * (Ci XX * Ci YZ + Ci XY * Ci XZ)
  | XZ, XZ => - (1 / 2) * (Ci XX * Ci ZZ + Ci XZ * Ci XZ)
  | XZ, YY => - Ci XY * Ci YZ
  | XZ, YZ => - (1 / 2) * (Ci XY * Ci ZZ + Ci XZ * Ci YZ)
  | XZ, ZZ => - Ci XZ * Ci ZZ
  | YY, XX => - Ci XY * Ci XY
  | YY, XY => - Ci XY * Ci YY
  | YY, XZ => - Ci XY * Ci YZ
  | YY, YY => - Ci YY * Ci YY
  | YY, YZ => - Ci YY * Ci YZ
  | YY, ZZ => - Ci YZ * Ci YZ
  | YZ, XX => - Ci XY * Ci XZ
  | YZ, XY => - (1 / 2) * (Ci XY * Ci YZ + Ci YY * Ci XZ)
  | YZ, XZ => - (1 / 2) * (Ci XY * Ci ZZ + Ci YZ * Ci XZ)
  | YZ, YY => - Ci YY * Ci YZ
  | YZ, YZ => - (1 / 2) * (Ci YY * Ci ZZ + Ci YZ * Ci YZ)
  | YZ, ZZ => - Ci YZ * Ci ZZ
  | ZZ, XX => - Ci XZ * Ci XZ
  | ZZ, XY => - Ci XZ * Ci YZ
  | ZZ, XZ => - Ci XZ * Ci ZZ
  | ZZ, YY => - Ci YZ * Ci YZ
  | ZZ, YZ => - Ci YZ * Ci ZZ
  | ZZ, ZZ => - Ci ZZ * Ci ZZ
  | _, _ => 0
  end.
(* lines 129-136 *)
Definition D_comp (m : hyper) (C : nat -> R) (press : R) (ij kl : nat) : R :=
  let J := IC_C C 2 in
  let pp := pow_m23 J in
  let oo := 1 / (J * J) in
  let pppp := pp * pp in
  let Ci := invC_C C J in
  let A := hA C Ci in
  let B := hB C Ci in
  let IIt := hIIt Ci in
  let alpha := W_second m (IC_C C 0 * pp) (IC_C C 1 * pppp) 1 in
  (4 * al alpha AL_11 * pppp * A ij * A kl + 4 * al alpha AL_12 * oo * (B ij * A kl + A ij * B kl)
   + 4 * al alpha AL_22 * pppp * pppp * B ij * B kl
   - 4 / 3 * al alpha AL_1 * pp * (Ci ij * A kl + A ij * Ci kl + 1 / 3 * IC_C C 0 * Ci ij * Ci kl + IC_C C 0 * IIt ij kl)
   - 8 / 3 * al alpha AL_2 * pppp * (Ci ij * B kl + B ij * Ci kl + 2 / 3 * IC_C C 1 * Ci ij * Ci kl
                                     - 3 / 2 * mI ij * mI kl + 3 / 2 * mII ij kl + IC_C C 1 * IIt ij kl)
   + press * J * (Ci ij * Ci kl + 2 * IIt ij kl)) / 2.
Definition Dp_comp (C : nat -> R) (ij : nat) : R := let J := IC_C C 2 in J * invC_C C J ij.
(* getDdDp_UP, lines 63-141: Dd row by row from the diagonal, Dp *)
Fixpoint tails {A} (l : list A) : list (A * list A) := match l with [] => [] | x :: t => (x, l) :: tails t end.
Definition getDdDp_UP (m : hyper) (comps : list nat) (C : nat -> R) (press : R) : list R * list R :=
  (flat_map (fun t => map (D_comp m C press (fst t)) (snd t)) (tails comps), map (Dp_comp C) comps).
Definition defaultTensorComponents : list nat := [XX; XY; XZ; YY; YZ; ZZ].

(* ---- SOLID81; nx i j: NiXj[np][i][j] at one integration point *)
(* make_B_L, SOLID81.cpp:117-131: a 6 x 24 matrix *)
Definition s81_B_L (nx : nat -> nat -> R) : list R :=
  filled 144 (flat_map (fun i =>
    [((0 * 24 + (i * 3 + 0))%nat, 2 * nx i 0%nat);
     ((1 * 24 + (i * 3 + 0))%nat, 2 * nx i 1%nat); ((1 * 24 + (i * 3 + 1))%nat, 2 * nx i 0%nat);
     ((2 * 24 + (i * 3 + 0))%nat, 2 * nx i 2%nat); ((2 * 24 + (i * 3 + 2))%nat, 2 * nx i 0%nat);
     ((3 * 24 + (i * 3 + 1))%nat, 2 * nx i 1%nat);
     ((4 * 24 + (i * 3 + 1))%nat, 2 * nx i 2%nat); ((4 * 24 + (i * 3 + 2))%nat, 2 * nx i 1%nat);
     ((5 * 24 + (i * 3 + 2))%nat, 2 * nx i 2%nat)]) (seq 0 8)).
(* make_B_NL, 134-148: 9 x 24 *)
Definition s81_B_NL (nx : nat -> nat -> R) : list R :=
  filled 216 (flat_map (fun i =>
    [((0 * 24 + (i * 3 + 0))%nat, nx i 0%nat); ((1 * 24 + (i * 3 + 0))%nat, nx i 1%nat); ((2 * 24 + (i * 3 + 0))%nat, nx i 2%nat);
     ((3 * 24 + (i * 3 + 1))%nat, nx i 0%nat); ((4 * 24 + (i * 3 + 1))%nat, nx i 1%nat); ((5 * 24 + (i * 3 + 1))%nat, nx i 2%nat);
     ((6 * 24 + (i * 3 + 2))%nat, nx i 0%nat); ((7 * 24 + (i * 3 + 2))%nat, nx i 1%nat); ((8 * 24 + (i * 3 + 2))%nat, nx i 2%nat)])
    (seq 0 8)).
(* make_S, 152-175: packed 9 x 9 *)
Definition s81_S (S : nat -> R) : list R :=
  filled 45 [(0%nat, S XX); (1%nat, S XY); (2%nat, S XZ); (9%nat, S YY); (10%nat, S YZ); (17%nat, S ZZ);
             (24%nat, S XX); (25%nat, S XY); (26%nat, S XZ); (30%nat, S YY); (31%nat, S YZ); (35%nat, S ZZ);
             (39%nat, S XX); (40%nat, S XY); (41%nat, S XZ); (42%nat, S YY); (43%nat, S YZ); (44%nat, S ZZ)].
(* make_Omega, 178-191: 6 x 9 *)
Definition s81_Omega (O : nat -> R) : list R :=
  filled 54 (flat_map (fun i =>
    [((0 * 9 + (i * 3 + 0))%nat, O (0 + i * 3)%nat);
     ((1 * 9 + (i * 3 + 0))%nat, O (1 + i * 3)%nat); ((1 * 9 + (i * 3 + 1))%nat, O (0 + i * 3)%nat);
     ((2 * 9 + (i * 3 + 0))%nat, O (2 + i * 3)%nat); ((2 * 9 + (i * 3 + 2))%nat, O (0 + i * 3)%nat);
     ((3 * 9 + (i * 3 + 1))%nat, O (1 + i * 3)%nat);
     ((4 * 9 + (i * 3 + 1))%nat, O (2 + i * 3)%nat); ((4 * 9 + (i * 3 + 2))%nat, O (1 + i * 3)%nat);
     ((5 * 9 + (i * 3 + 2))%nat, O (2 + i * 3)%nat)]) (seq 0 3)).

(* what the element stores at an integration point: S, C, O *)
Record point := mkPoint { ptS : list R; ptC : list R; ptO : list R }.
Definition arr (l : list R) (k : nat) : R := nth k l 0.
(* SOLID81.cpp:101-106 *)
Definition s81_C (O : nat -> R) : list R :=
  [1 + 2 * O 0%nat + pow (O 0%nat) 2 + pow (O 3%nat) 2 + pow (O 6%nat) 2;
   O 1%nat + O 3%nat + O 0%nat * O 1%nat + O 3%nat * O 4%nat + O 6%nat * O 7%nat;
   O 2%nat + O 6%nat + O 0%nat * O 2%nat + O 3%nat * O 5%nat + O 6%nat * O 8%nat;
   1 + 2 * O 4%nat + pow (O 1%nat) 2 + pow (O 4%nat) 2 + pow (O 7%nat) 2;
   O 5%nat + O 7%nat + O 1%nat * O 2%nat + O 4%nat * O 5%nat + O 7%nat * O 8%nat;
   1 + 2 * O 8%nat + pow (O 2%nat) 2 + pow (O 5%nat) 2 + pow (O 8%nat) 2].
(* update, 81-111, at one point *)
Definition s81_update (m : hyper) (nx : nat -> nat -> R) (U : list R) (p_e : R) : outcome point :=
  O <- @matBVprod RNum 9 24 (s81_B_NL nx) U 1 (repeat 0 9) ;;
  let C := s81_C (arr O) in
  Ok (mkPoint (getS_UP m defaultTensorComponents (arr C) p_e) C O).

(* the loop over the integration points: geo = intWeight(np), NiXj[np] *)
Fixpoint s81_update_all (m : hyper) (geo : list (R * (nat -> nat -> R))) (U : list R) (p_e : R)
  : outcome (list (R * (nat -> nat -> R) * point)) :=
  match geo with
  | [] => Ok []
  | g :: geo' => pt <- s81_update m (snd g) U p_e ;; r <- s81_update_all m geo' U p_e ;; Ok ((g, pt) :: r)
  end.

(* buildK, 30-78 *)
Record mixed := mkMixed { mKuu : list R; mKup : list R; mKpp : R; mFu : list R; mFp : R }.
Definition s81_point (m : hyper) (p_e : R) (a : mixed) (w : R * (nat -> nat -> R) * point) : outcome mixed :=
  let '(dWt, nx, pt) := w in
  let C := arr (ptC pt) in
  let '(D_d, D_p) := getDdDp_UP m defaultTensorComponents C p_e in
  let J := J_C C in
  let B_NL := s81_B_NL nx in
  matB <- @matABprod RNum 6 9 24 (s81_Omega (arr (ptO pt))) B_NL 2 (s81_B_L nx) ;;
  Kuu <- @matBTDBprod RNum 6 24 matB D_d ((1 / 2) * dWt) (mKuu a) ;;
  Kuu <- @matBTDBprod RNum 9 24 B_NL (s81_S (arr (ptS pt))) dWt Kuu ;;
  Fu <- @matBTVprod RNum 6 24 matB (ptS pt) (- (1 / 2) * dWt) (mFu a) ;;
  Kup <- @matBTVprod RNum 6 24 matB D_p ((1 / 2) * dWt) (mKup a) ;;
  Ok (mkMixed Kuu Kup (mKpp a + - 1 / hK m * dWt) Fu (mFp a + - (J - 1 - p_e / hK m) * dWt)).
Definition s81_buildK (m : hyper) (p_e : R) (pts : list (R * (nat -> nat -> R) * point)) : outcome mixed :=
  ofold (s81_point m p_e) pts (mkMixed (repeat 0 300) (repeat 0 24) 0 (repeat 0 24) 0).

(* getTensor, 275-344; the value of *tensor after the call *)
Inductive tquery := COUCHY | PK2 | TC | TE.
Definition s81_tensor (pe : R) (pt : point) (q : tquery) (scale : R) (tensor : list R) : outcome (list R) :=
  let C := arr (ptC pt) in
  let O := arr (ptO pt) in
  let J := J_C C in
  let cInv := invC_C C J in
  match q with
  | COUCHY =>
      let matF := [1 + O 0%nat; O 3%nat; O 6%nat; O 1%nat; 1 + O 4%nat; O 7%nat; O 2%nat; O 5%nat; 1 + O 8%nat] in
      let matS := map (fun i => arr (ptS pt) i + pe * J * cInv i) (seq 0 6) in
      @matBTDBprod RNum 3 3 matF matS (1 / J * scale) tensor
  | PK2 => Ok (map (fun i => nth i tensor 0 + (arr (ptS pt) i + pe * J * cInv i) * scale) (seq 0 6))
  | TC => Ok (map (fun i => nth i tensor 0 + C i * scale) (seq 0 6))
  | TE => Ok (map (fun i => nth i tensor 0 + (C i - mI i) * (1 / 2) * scale) (seq 0 6))
  end.
(* gp == GP_MEAN: w np = intWeight(np) *)
Definition mean_tensor {P} (get : P -> R -> list R -> outcome (list R)) (pts : list (R * P)) (scale : R) (tensor : list R)
  : outcome (list R) :=
  let dWtSum := rsuml pts fst in
  ofold (fun t wp => get (snd wp) (fst wp / dWtSum * scale) t) pts tensor.
(* getScalar, 193-236 *)
Inductive squery := SP | WU | WP.
Definition s81_scalar (m : hyper) (pe : R) (pt : point) (q : squery) (scale : R) (scalar : R) : R :=
  let C := arr (ptC pt) in
  match q with
  | SP => scalar + pe * scale
  | WU => scalar + hW m (0 + IC_C C 0 * 1) (0 + IC_C C 1 * 1) (0 + IC_C C 2 * 1) * scale
  | WP => let J := J_C C in scalar + (1 / 2) * hK m * (J - 1) * (J - 1) * scale
  end.

(* ---- PLANE41: C = [C11; C22; C12], O = [dU/dx; dU/dy; dV/dx; dV/dy] *)
Definition p41_components : list nat := [XX; YY; XY].
Definition p41_CVec (C : nat -> R) (k : nat) : R :=
  match k with XX => C 0%nat | XY => C 2%nat | YY => C 1%nat | ZZ => 1 | _ => 0 end.
(* make_B, PLANE41.cpp:110-115; make_Bomega, 117-123 *)
Definition p41_B (nx : nat -> nat -> R) (k c : nat) : R :=
  let i := (c / 2)%nat in
  match k, (c mod 2)%nat with
  | 0%nat, 0%nat => nx i 0%nat | 0%nat, _ => 0
  | 1%nat, 0%nat => 0 | 1%nat, _ => nx i 1%nat
  | _, 0%nat => nx i 1%nat | _, _ => nx i 0%nat
  end.
Definition p41_Bomega (nx : nat -> nat -> R) (k c : nat) : R :=
  let i := (c / 2)%nat in
  match k, (c mod 2)%nat with
  | 0%nat, 0%nat => nx i 0%nat
  | 1%nat, 0%nat => nx i 1%nat
  | 2%nat, 1%nat => nx i 0%nat
  | 3%nat, 1%nat => nx i 1%nat
  | _, _ => 0
  end.
(* update, 125-160 *)
Definition p41_C (O : nat -> R) : list R :=
  [1 + 2 * O 0%nat + 1 * (O 0%nat * O 0%nat + O 2%nat * O 2%nat);
   1 + 2 * O 3%nat + 1 * (O 3%nat * O 3%nat + O 1%nat * O 1%nat);
   O 1%nat + O 2%nat + O 0%nat * O 1%nat + O 2%nat * O 3%nat].
Definition p41_update (m : hyper) (nx : nat -> nat -> R) (U : nat -> R) (p_e : R) : point :=
  let O := map (fun k => rsumn 8 (fun c => p41_Bomega nx k c * U c)) (seq 0 4) in
  let C := p41_C (arr O) in
  mkPoint (getS_UP m p41_components (p41_CVec (arr C)) p_e) C O.
Definition p41_update_all (m : hyper) (geo : list (R * (nat -> nat -> R))) (U : nat -> R) (p_e : R)
  : list (R * (nat -> nat -> R) * point) := map (fun g => (g, p41_update m (snd g) U p_e)) geo.
(* the matrices matS and matO, 67-76 *)
Definition p41_matS (S : nat -> R) (k l : nat) : R :=
  match k, l with
  | 0%nat, 0%nat => S 0%nat | 0%nat, 1%nat => S 2%nat | 1%nat, 0%nat => S 2%nat | 1%nat, 1%nat => S 1%nat
  | 2%nat, 2%nat => S 0%nat | 2%nat, 3%nat => S 2%nat | 3%nat, 2%nat => S 2%nat | 3%nat, 3%nat => S 1%nat
  | _, _ => 0
  end.
Definition p41_matO (O : nat -> R) (k l : nat) : R :=
  match k, l with
  | 0%nat, 0%nat => O 0%nat | 0%nat, 2%nat => O 2%nat
  | 1%nat, 1%nat => O 1%nat | 1%nat, 3%nat => O 3%nat
  | 2%nat, 0%nat => O 1%nat | 2%nat, 1%nat => O 0%nat | 2%nat, 2%nat => O 3%nat | 2%nat, 3%nat => O 2%nat
  | _, _ => 0
  end.
(* buildK, 29-108, with the products of Mat.h:129-168; Ke is 9 x 9 *)
Record mixed41 := mkMixed41 { pKuu : nat -> nat -> R; pKup : nat -> R; pKpp : R; pQe : nat -> R; pFp : R }.
Definition p41_matB (nx : nat -> nat -> R) (O : nat -> R) (k c : nat) : R :=
  p41_B nx k c + rsumn 4 (fun r => p41_matO O k r * p41_Bomega nx r c).
Definition p41_point (m : hyper) (p_e : R) (a : mixed41) (w : R * (nat -> nat -> R) * point) : mixed41 :=
  let '(dWt, nx, pt) := w in
  let CVec := p41_CVec (arr (ptC pt)) in
  let '(D_d, D_p) := getDdDp_UP m p41_components CVec p_e in
  let E_c k l := nth (comp16 3 k l) D_d 0 in
  let J := J_C CVec in
  let matB := p41_matB nx (arr (ptO pt)) in
  let Bomega := p41_Bomega nx in
  let matS := p41_matS (arr (ptS pt)) in
  mkMixed41
    (fun i j => pKuu a i j
       + (rsumn 3 (fun l => rsumn 3 (fun k => matB k i * E_c k l) * matB l j) * 2
          + rsumn 4 (fun l => rsumn 4 (fun k => Bomega k i * matS k l) * Bomega l j)) * dWt)
    (fun i => pKup a i + rsumn 3 (fun k => matB k i * arr D_p k) * dWt)
    (pKpp a - 1 / hK m * dWt)
    (fun i => pQe a i + rsumn 3 (fun k => matB k i * arr (ptS pt) k) * dWt)
    (pFp a + (J - 1 - p_e / hK m) * dWt).
Definition p41_sum (m : hyper) (p_e : R) (pts : list (R * (nat -> nat -> R) * point)) : mixed41 :=
  fold_left (p41_point m p_e) pts (mkMixed41 (fun _ _ => 0) (fun _ => 0) 0 (fun _ => 0) 0).
Definition p41_Ke (m : hyper) (p_e : R) (pts : list (R * (nat -> nat -> R) * point)) (i j : nat) : R :=
  let a := p41_sum m p_e pts in
  if (i <? 8)%nat then if (j <? 8)%nat then pKuu a i j else pKup a i
  else if (j <? 8)%nat then pKup a j else pKpp a.
Definition p41_Fe (m : hyper) (p_e : R) (pts : list (R * (nat -> nat -> R) * point)) (i : nat) : R :=
  let a := p41_sum m p_e pts in
  if (i <? 8)%nat then - pQe a i else - pFp a.

(* getTensor, 223-297 *)
Definition p41_tensor (m : hyper) (p_e : R) (pt : point) (q : tquery) (scale : R) (tensor : list R) : outcome (list R) :=
  let C := p41_CVec (arr (ptC pt)) in
  let O := arr (ptO pt) in
  let matS := getS_UP m defaultTensorComponents C p_e in
  match q with
  | COUCHY =>
      let F := [1 + O 0%nat; O 1%nat; 0; O 2%nat; 1 + O 3%nat; 0; 0; 0; 1] in
      let f := arr F in
      let J := f 0%nat * (f 4%nat * f 8%nat - f 5%nat * f 7%nat) - f 1%nat * (f 3%nat * f 8%nat - f 5%nat * f 6%nat)
               + f 2%nat * (f 3%nat * f 7%nat - f 4%nat * f 6%nat) in
      @matBTDBprod RNum 3 3 F matS (1 / J) tensor
  | PK2 => Ok (map (fun i => nth i tensor 0 + arr matS i * scale) (seq 0 6))
  | TC => Ok (map (fun i => nth i tensor 0 + C i * scale) (seq 0 6))
  | TE => Ok (map (fun i => nth i tensor 0 + (C i - mI i) * (1 / 2) * scale) (seq 0 6))
  end.

(* getVector, 189-219. Vec<3>::operator+= takes a Vec, which Vec(double first, ...) (Vec.h:22-29) builds by
   reading dim doubles with va_arg; fewer than dim arguments: undefined *)
Definition vec_va (dim : nat) (args : list R) : outcome (list R) :=
  if (length args <? dim)%nat then UB else Ok (firstn dim args).
(* vectors: the array of Vec<3> that the argument points into *)
Definition p41_IC (pt : point) (scale : R) (vectors : list (list R)) : outcome (list (list R)) :=
  let C := p41_CVec (arr (ptC pt)) in
  ofold (fun vs i => v <- vec_va 3 [IC_C C i * scale] ;; old <- aget vs i ;; aset vs i (vadd old v)) (seq 0 3) vectors.
Definition s81_IC (pt : point) (scale : R) (vector : list R) : list R :=
  map (fun i => nth i vector 0 + IC_C (arr (ptC pt)) i * scale) (seq 0 3).
