(* Thermal elements: src/lib/elements/QUADTH.{h,cpp}, over the reals.
   pos nod i: coordinate i of the node nod of the element. The members det, NiXj of the isoparametric base classes
   are those of IsoModel (filled by makeJacob in pre()). *)
From Coq Require Import Reals.
From Verif Require Import Base RealBase MatModel IsoModel ElemModel.
Local Open Scope R_scope.

(* Vec<n>: a += b * c *)
Definition vaxpy (n : nat) (a b : list R) (c : R) : list R := map (fun i => nth i a 0 + nth i b 0 * c) (seq 0 n).

(* ---- ElementQUADTH; ord is intOrder, 2 unless setIntegrationOrder was called *)
(* QUADTH.cpp:72-75 *)
Definition quadth_B (pos : nat -> nat -> R) (r s : R) : list R :=
  let b n i := quad_nixj pos r s n i in
  [b 0%nat 0%nat; b 1%nat 0%nat; b 2%nat 0%nat; b 3%nat 0%nat;
   b 0%nat 1%nat; b 1%nat 1%nat; b 2%nat 1%nat; b 3%nat 1%nat].
(* QUADTH.cpp:29-32 *)
Definition quadth_D (k : R) : list R := sym_filled 2 [(0%nat, 0%nat, k); (1%nat, 1%nat, k)].
Definition quad_ff (r s : R) : list R := map (quad_N r s) (seq 0 4).
(* QUADTH.cpp:22-47 *)
Definition quadth_K (ord : nat) (k volFlux : R) (pos : nat -> nat -> R) : outcome (list R * list R) :=
  ofold (fun KF q => let '(r, s, w) := q in
      let dWt := dec w * quad_det pos (dec r) (dec s) in
      Ke <- @matBTDBprod RNum 2 4 (quadth_B pos (dec r) (dec s)) (quadth_D k) dWt (fst KF) ;;
      Ok (Ke, if Req_EM_T volFlux 0 then snd KF else vaxpy 4 (snd KF) (quad_ff (dec r) (dec s)) (volFlux * dWt)))
    (quad_quad (i_int ord)) (repeat 0 10, repeat 0 4).
(* QUADTH.cpp:50-66 *)
Definition quadth_C (ord : nat) (rho c : R) (pos : nat -> nat -> R) : list R :=
  fold_left (fun Ce q => let '(r, s, w) := q in
      let dWt := dec w * quad_det pos (dec r) (dec s) in
      let ff := quad_ff (dec r) (dec s) in
      fold_left (fun Ce i => fold_left (fun Ce j =>
          upd Ce (comp16 4 i j) (nth (comp16 4 i j) Ce 0 + nth i ff 0 * nth j ff 0 * rho * c * dWt)) (seq i (4 - i)) Ce) (seq 0 4) Ce)
    (quad_quad (i_int ord)) (repeat 0 10).

(* ---- SurfaceLINETH *)
(* QUADTH.cpp:90-93 *)
Definition line_pre (etemp : R * R) : R * R := if Req_EM_T (snd etemp) 0 then (fst etemp, fst etemp) else etemp.
Definition line_ff (r : R) : list R := map (line_N r) (seq 0 2).
(* QUADTH.cpp:97-131; etemp after pre() *)
Definition line_points (ord : nat) (pos : nat -> nat -> R) (f : list R * list R -> list R -> R -> outcome (list R * list R))
  (s : list R * list R) : outcome (list R * list R) :=
  ofold (fun s np => w <- line_weight ord pos np ;; f s (line_ff (dec (fst (nth np (quad_line (i_int ord)) (0, 0)%Z)))) w)
    (seq 0 (length (quad_line (i_int ord)))) s.
Definition lineth_K (ord : nat) (flux htc : R) (etemp : R * R) (pos : nat -> nat -> R) : outcome (list R * list R) :=
  s <- (if Req_EM_T flux 0 then Ok (repeat 0 3, repeat 0 2)
        else line_points ord pos (fun s Ns w => Ok (fst s, vaxpy 2 (snd s) Ns (flux * w))) (repeat 0 3, repeat 0 2)) ;;
  if Req_EM_T htc 0 then Ok s
  else line_points ord pos (fun s Ns w =>
      let n i := nth i Ns 0 in
      let tmp := sym_filled 2 [(0%nat, 0%nat, n 0%nat * n 0%nat * htc * w); (0%nat, 1%nat, n 0%nat * n 1%nat * htc * w);
                               (1%nat, 0%nat, n 0%nat * n 1%nat * htc * w); (1%nat, 1%nat, n 1%nat * n 1%nat * htc * w)] in
      Ke <- @sym_add RNum 2 (fst s) tmp ;;
      Fe <- @matSymBVprod RNum 2 tmp [fst etemp; snd etemp] 1 (snd s) ;;
      Ok (Ke, Fe)) s.
