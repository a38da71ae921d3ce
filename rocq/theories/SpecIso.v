(* Specification side of the isoparametric elements: reference nodes, polynomials, iterated integrals, areas. *)
From Coq Require Import Reals.
Set Warnings "-ambiguous-paths".
From Coquelicot Require Import Coquelicot.
From Verif Require Import Base RealBase MatModel IsoModel.
Local Open Scope R_scope.

(* local coordinates of the nodes of the reference elements *)
Definition line_node (n : nat) : R := match n with 0%nat => -1 | _ => 1 end.
Definition quad_node (n : nat) : R * R :=
  match n with 0%nat => (-1, -1) | 1%nat => (1, -1) | 2%nat => (1, 1) | _ => (-1, 1) end.
Definition hex_node (n : nat) : R * R * R :=
  match n with
  | 0%nat => (-1, -1, -1) | 1%nat => (1, -1, -1) | 2%nat => (1, 1, -1) | 3%nat => (-1, 1, -1)
  | 4%nat => (-1, -1, 1) | 5%nat => (1, -1, 1) | 6%nat => (1, 1, 1) | _ => (-1, 1, 1)
  end.

(* a polynomial in several variables: coefficients and exponents *)
Definition poly := list (R * list nat).
Fixpoint meval (e : list nat) (x : list R) : R :=
  match e, x with
  | a :: e, y :: x => y ^ a * meval e x
  | _, _ => 1
  end.
Definition peval (p : poly) (x : list R) : R := rsuml p (fun m => fst m * meval (snd m) x).
Definition pnorm (p : poly) : R := rsuml p (fun m => Rabs (fst m)).
(* every exponent is less than d, for n variables *)
Definition pdeg (n d : nat) (p : poly) : Prop :=
  Forall (fun m => length (snd m) = n /\ Forall (fun a => (a < d)%nat) (snd m)) p.

(* integral over [-1,1]^n, as iterated Riemann integrals *)
Fixpoint is_int (n : nat) (f : list R -> R) (I : R) : Prop :=
  match n with
  | 0%nat => I = f []
  | S n => exists g, (forall x, is_int n (fun l => f (x :: l)) (g x)) /\ is_RInt g (-1) 1 I
  end.

(* the quadrature sums over the tables *)
Definition line_sum (k : nat) (f : R -> R) : R :=
  rsuml (quad_line k) (fun q => let '(r, w) := q in dec w * f (dec r)).
Definition quad_sum (k : nat) (f : R -> R -> R) : R :=
  rsuml (quad_quad k) (fun q => let '(r, s, w) := q in dec w * f (dec r) (dec s)).
Definition hex_sum (k : nat) (f : R -> R -> R -> R) : R :=
  rsuml (quad_hex k) (fun q => let '(r, s, t, w) := q in dec w * f (dec r) (dec s) (dec t)).

(* area of a polygon with four corners *)
Definition shoelace (pos : nat -> nat -> R) : R :=
  (let c a b := pos a 0%nat * pos b 1%nat - pos b 0%nat * pos a 1%nat in
   c 0%nat 1%nat + c 1%nat 2%nat + c 2%nat 3%nat + c 3%nat 0%nat) / 2.
(* the parallelepiped with corner p and edges a, b, c *)
Definition box (p a b c : nat -> R) (n i : nat) : R :=
  let '(r, s, t) := hex_node n in p i + (1 + r) / 2 * a i + (1 + s) / 2 * b i + (1 + t) / 2 * c i.
Definition triple (a b c : nat -> R) : R :=
  a 0%nat * (b 1%nat * c 2%nat - b 2%nat * c 1%nat)
  - a 1%nat * (b 0%nat * c 2%nat - b 2%nat * c 0%nat)
  + a 2%nat * (b 0%nat * c 1%nat - b 1%nat * c 0%nat).
(* sums of the weights in units of the area / volume of the reference element; the third order tables
   miss it in the last printed digits *)
Definition quad_unit (ord : nat) : R := if (ord <=? 2)%nat then 1 else dec 39999999999999998 / 4.
Definition hex_unit (ord : nat) : R := if (ord <=? 2)%nat then 1 else dec 80000000000000007 / 8.
(* distance of two points *)
Definition dist3 (p q : nat -> R) : R :=
  sqrt ((q 0%nat - p 0%nat) ^ 2 + (q 1%nat - p 1%nat) ^ 2 + (q 2%nat - p 2%nat) ^ 2).
