(* Isoparametric LINE, QUAD and HEXAHEDRON: src/lib/elements/isoparametric.{h,cpp}.
   pos nod i is coordinate i of the node number nod of the element. *)
From Coq Require Import Reals.
From Verif Require Import Base RealBase MatModel.
Local Open Scope R_scope.

(* A decimal literal with 16 digits after the point, e.g. 0.5773502691896258 = dec 5773502691896258 *)
Definition dec (z : Z) : R := IZR z / IZR 10000000000000000.

(* isoparametric.h:43-56 _quad_line_o1..o3: (r, w) *)
Definition quad_line (k : nat) : list (Z * Z) :=
  match k with
  | 0%nat => [(0, 20000000000000000)]
  | 1%nat => [(-5773502691896258, 10000000000000000); (5773502691896258, 10000000000000000)]
  | _ => [(-7745966692414834, 5555555555555556); (0, 8888888888888888); (7745966692414834, 5555555555555556)]
  end%Z.

(* isoparametric.h:74-100 _quad_quad_o1..o3: (r, s, w) *)
Definition quad_quad (k : nat) : list (Z * Z * Z) :=
  match k with
  | 0%nat => [(0, 0, 40000000000000000)]
  | 1%nat => [(-5773502691896258, -5773502691896258, 10000000000000000);
          ( 5773502691896258, -5773502691896258, 10000000000000000);
          (-5773502691896258,  5773502691896258, 10000000000000000);
          ( 5773502691896258,  5773502691896258, 10000000000000000)]
  | _ => [(-7745966692414834, -7745966692414834, 3086419753086420);
          ( 0,                -7745966692414834, 4938271604938271);
          ( 7745966692414834, -7745966692414834, 3086419753086420);
          (-7745966692414834,  0,                4938271604938271);
          ( 0,                 0,                7901234567901234);
          ( 7745966692414834,  0,                4938271604938271);
          (-7745966692414834,  7745966692414834, 3086419753086420);
          ( 0,                 7745966692414834, 4938271604938271);
          ( 7745966692414834,  7745966692414834, 3086419753086420)]
  end%Z.

(* isoparametric.h:121-181 _quad_hexahedron_o1..o3: (r, s, t, w) *)
Definition quad_hex (k : nat) : list (Z * Z * Z * Z) :=
  match k with
  | 0%nat => [(0, 0, 0, 80000000000000000)]
  | 1%nat => [(-5773502691896258, -5773502691896258, -5773502691896258, 10000000000000000);
          ( 5773502691896258, -5773502691896258, -5773502691896258, 10000000000000000);
          (-5773502691896258,  5773502691896258, -5773502691896258, 10000000000000000);
          ( 5773502691896258,  5773502691896258, -5773502691896258, 10000000000000000);
          (-5773502691896258, -5773502691896258,  5773502691896258, 10000000000000000);
          ( 5773502691896258, -5773502691896258,  5773502691896258, 10000000000000000);
          (-5773502691896258,  5773502691896258,  5773502691896258, 10000000000000000);
          ( 5773502691896258,  5773502691896258,  5773502691896258, 10000000000000000)]
  | _ => [(-7745966692414834, -7745966692414834, -7745966692414834, 1714677640603567);
          ( 0,                -7745966692414834, -7745966692414834, 2743484224965707);
          ( 7745966692414834, -7745966692414834, -7745966692414834, 1714677640603567);
          (-7745966692414834,  0,                -7745966692414834, 2743484224965707);
          ( 0,                 0,                -7745966692414834, 4389574759945130);
          ( 7745966692414834,  0,                -7745966692414834, 2743484224965707);
          (-7745966692414834,  7745966692414834, -7745966692414834, 1714677640603567);
          ( 0,                 7745966692414834, -7745966692414834, 2743484224965707);
          ( 7745966692414834,  7745966692414834, -7745966692414834, 1714677640603567);
          (-7745966692414834, -7745966692414834,  0,                2743484224965707);
          ( 0,                -7745966692414834,  0,                4389574759945130);
          ( 7745966692414834, -7745966692414834,  0,                2743484224965707);
          (-7745966692414834,  0,                 0,                4389574759945130);
          ( 0,                 0,                 0,                7023319615912207);
          ( 7745966692414834,  0,                 0,                4389574759945130);
          (-7745966692414834,  7745966692414834,  0,                2743484224965707);
          ( 0,                 7745966692414834,  0,                4389574759945130);
          ( 7745966692414834,  7745966692414834,  0,                2743484224965707);
          (-7745966692414834, -7745966692414834,  7745966692414834, 1714677640603567);
          ( 0,                -7745966692414834,  7745966692414834, 2743484224965707);
          ( 7745966692414834, -7745966692414834,  7745966692414834, 1714677640603567);
          (-7745966692414834,  0,                 7745966692414834, 2743484224965707);
          ( 0,                 0,                 7745966692414834, 4389574759945130);
          ( 7745966692414834,  0,                 7745966692414834, 2743484224965707);
          (-7745966692414834,  7745966692414834,  7745966692414834, 1714677640603567);
          ( 0,                 7745966692414834,  7745966692414834, 2743484224965707);
          ( 7745966692414834,  7745966692414834,  7745966692414834, 1714677640603567)]
  end%Z.

(* isoparametric.cpp:17-21 (and 58-62, 140-142): intOrder bounded to 1..3, i_int = intOrder - 1 *)
Definition i_int (intOrder : nat) : nat :=
  (let o := if intOrder <? 1 then 1 else intOrder in
   let o := if 3 <? o then 3 else o in o - 1)%nat.

(* --- LINE: isoparametric.cpp:12-55 --- *)
Definition line_N (r : R) (n : nat) : R :=
  match n with 0%nat => 0.5 * (1 - r) | _ => 0.5 * (1 + r) end.
Definition line_dN (r : R) (n : nat) : R :=
  match n with 0%nat => -0.5 | _ => 0.5 end.

(* Vec<3>::length of n2pos - n1pos *)
Definition vlen (n : nat) (v : nat -> R) : R := sqrt (rsumn n (fun i => v i * v i)).
Definition line_det (pos : nat -> nat -> R) : R := vlen 3 (fun i => pos 1%nat i - pos 0%nat i) * 0.5.

(* isoparametric.h:241-246: asserts det > 0 *)
Definition line_weight (ord : nat) (pos : nat -> nat -> R) (np : nat) : outcome R :=
  asserting (np <? length (quad_line (i_int ord)))%nat
    (asserting (if Rlt_dec 0 (line_det pos) then true else false)
       (Ok (dec (snd (nth np (quad_line (i_int ord)) (0, 0)%Z)) * line_det pos))).
(* isoparametric.cpp:29-35 *)
Definition line_volume (ord : nat) (pos : nat -> nat -> R) : outcome R :=
  ofold (fun v np => w <- line_weight ord pos np ;; Ok (v + w)) (seq 0 (length (quad_line (i_int ord)))) 0.

(* --- the Jacobian block of makeJacob: isoparametric.cpp:76-106 (QUAD), 155-183 (HEXAHEDRON) --- *)
Section Jacob.
  Variables (nn dim : nat) (dN pos : nat -> nat -> R).
  Definition jac (i j : nat) : R := rsumn nn (fun nod => dN nod i * pos nod j).
  Definition jdet : R := @mdet RRng dim jac.
  Definition jinv : nat -> nat -> R := @minv RFld dim jac jdet.
  Definition nixj (nod i : nat) : R := rsumn dim (fun j => jinv i j * dN nod j).
End Jacob.

(* --- QUAD: isoparametric.cpp:109-137 --- *)
Definition quad_N (r s : R) (n : nat) : R :=
  match n with
  | 0%nat => 0.25 * (1 - r) * (1 - s)
  | 1%nat => 0.25 * (1 + r) * (1 - s)
  | 2%nat => 0.25 * (1 + r) * (1 + s)
  | _ => 0.25 * (1 - r) * (1 + s)
  end.
Definition quad_dN (r s : R) (n i : nat) : R :=
  match n, i with
  | 0%nat, 0%nat => -0.25 * (1 - s) | 0%nat, _ => -0.25 * (1 - r)
  | 1%nat, 0%nat => 0.25 * (1 - s)  | 1%nat, _ => -0.25 * (1 + r)
  | 2%nat, 0%nat => 0.25 * (1 + s)  | 2%nat, _ => 0.25 * (1 + r)
  | _, 0%nat => -0.25 * (1 + s)     | _, _ => 0.25 * (1 - r)
  end.

(* one integration point: (shape functions, global derivatives, weight * det) *)
Definition quad_det (pos : nat -> nat -> R) (r s : R) : R := jdet 4 2 (quad_dN r s) pos.
Definition quad_nixj (pos : nat -> nat -> R) (r s : R) : nat -> nat -> R := nixj 4 2 (quad_dN r s) pos.
(* volume(): Σ intWeight(np) *)
Definition quad_volume (ord : nat) (pos : nat -> nat -> R) : R :=
  rsuml (quad_quad (i_int ord)) (fun q => let '(r, s, w) := q in dec w * quad_det pos (dec r) (dec s)).

(* --- HEXAHEDRON: isoparametric.cpp:186-231 --- *)
Definition hex_N (r s t : R) (n : nat) : R :=
  match n with
  | 0%nat => 0.125 * (1 - r) * (1 - s) * (1 - t)
  | 1%nat => 0.125 * (1 + r) * (1 - s) * (1 - t)
  | 2%nat => 0.125 * (1 + r) * (1 + s) * (1 - t)
  | 3%nat => 0.125 * (1 - r) * (1 + s) * (1 - t)
  | 4%nat => 0.125 * (1 - r) * (1 - s) * (1 + t)
  | 5%nat => 0.125 * (1 + r) * (1 - s) * (1 + t)
  | 6%nat => 0.125 * (1 + r) * (1 + s) * (1 + t)
  | _ => 0.125 * (1 - r) * (1 + s) * (1 + t)
  end.
Definition hex_dN (r s t : R) (n i : nat) : R :=
  match n with
  | 0%nat => match i with 0%nat => -0.125 * (1 - s) * (1 - t) | 1%nat => -0.125 * (1 - r) * (1 - t) | _ => -0.125 * (1 - r) * (1 - s) end
  | 1%nat => match i with 0%nat => 0.125 * (1 - s) * (1 - t) | 1%nat => -0.125 * (1 + r) * (1 - t) | _ => -0.125 * (1 + r) * (1 - s) end
  | 2%nat => match i with 0%nat => 0.125 * (1 + s) * (1 - t) | 1%nat => 0.125 * (1 + r) * (1 - t) | _ => -0.125 * (1 + r) * (1 + s) end
  | 3%nat => match i with 0%nat => -0.125 * (1 + s) * (1 - t) | 1%nat => 0.125 * (1 - r) * (1 - t) | _ => -0.125 * (1 - r) * (1 + s) end
  | 4%nat => match i with 0%nat => -0.125 * (1 - s) * (1 + t) | 1%nat => -0.125 * (1 - r) * (1 + t) | _ => 0.125 * (1 - r) * (1 - s) end
  | 5%nat => match i with 0%nat => 0.125 * (1 - s) * (1 + t) | 1%nat => -0.125 * (1 + r) * (1 + t) | _ => 0.125 * (1 + r) * (1 - s) end
  | 6%nat => match i with 0%nat => 0.125 * (1 + s) * (1 + t) | 1%nat => 0.125 * (1 + r) * (1 + t) | _ => 0.125 * (1 + r) * (1 + s) end
  | _ => match i with 0%nat => -0.125 * (1 + s) * (1 + t) | 1%nat => 0.125 * (1 - r) * (1 + t) | _ => 0.125 * (1 - r) * (1 + s) end
  end.
Definition hex_det (pos : nat -> nat -> R) (r s t : R) : R := jdet 8 3 (hex_dN r s t) pos.
Definition hex_nixj (pos : nat -> nat -> R) (r s t : R) : nat -> nat -> R := nixj 8 3 (hex_dN r s t) pos.
Definition hex_volume (ord : nat) (pos : nat -> nat -> R) : R :=
  rsuml (quad_hex (i_int ord)) (fun q => let '(r, s, t, w) := q in dec w * hex_det pos (dec r) (dec s) (dec t)).
