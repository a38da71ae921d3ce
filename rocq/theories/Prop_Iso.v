(* C51-C54: isoparametric elements (src/lib/elements/isoparametric.{h,cpp}), over the reals *)
From Coq Require Import Reals Lra.
Set Warnings "-ambiguous-paths".
From Coquelicot Require Import Coquelicot.
From Verif Require Import Base RealBase MatModel IsoModel SpecIso IsoProofs IsoQuad IsoHex.
Local Open Scope R_scope.

(* ---------------- C51 ---------------- *)
Theorem C51_partition_of_unity :
  (forall r, rsumn 2 (line_N r) = 1) /\ (forall r s, rsumn 4 (quad_N r s) = 1) /\ (forall r s t, rsumn 8 (hex_N r s t) = 1).
Proof. exact (conj line_pou (conj quad_pou hex_pou)). Qed.
Print Assumptions C51_partition_of_unity.
Theorem C51_nodal_values :
  (forall m n, (m < 2)%nat -> (n < 2)%nat -> line_N (line_node m) n = dlt m n) /\
  (forall m n, (m < 4)%nat -> (n < 4)%nat -> quad_N (fst (quad_node m)) (snd (quad_node m)) n = dlt m n) /\
  (forall m n, (m < 8)%nat -> (n < 8)%nat ->
    hex_N (fst (fst (hex_node m))) (snd (fst (hex_node m))) (snd (hex_node m)) n = dlt m n).
Proof. exact (conj line_kron (conj quad_kron hex_kron)). Qed.
Print Assumptions C51_nodal_values.
Theorem C51_derivatives :
  (forall r n, (n < 2)%nat -> is_derive (fun x => line_N x n) r (line_dN r n)) /\
  (forall r s n, (n < 4)%nat ->
    is_derive (fun x => quad_N x s n) r (quad_dN r s n 0) /\ is_derive (fun y => quad_N r y n) s (quad_dN r s n 1)) /\
  (forall r s t n, (n < 8)%nat ->
    is_derive (fun x => hex_N x s t n) r (hex_dN r s t n 0)
    /\ is_derive (fun y => hex_N r y t n) s (hex_dN r s t n 1)
    /\ is_derive (fun z => hex_N r s z n) t (hex_dN r s t n 2)).
Proof. exact (conj line_der (conj quad_der hex_der)). Qed.
Print Assumptions C51_derivatives.

(* ---------------- C52 ---------------- *)
(* k = i_int: order k + 1; every polynomial with exponents at most 2 k + 1 in each variable *)
Theorem C52_line : forall k p, (k < 3)%nat -> pdeg 1 (2 * S k) p ->
  exists I, is_int 1 (peval p) I /\ Rabs (line_sum k (fun r => peval p [r]) - I) <= pnorm p / 10 ^ 15.
Proof. exact line_accurate. Qed.
Print Assumptions C52_line.
Theorem C52_quad : forall k p, (k < 3)%nat -> pdeg 2 (2 * S k) p ->
  exists I, is_int 2 (peval p) I /\ Rabs (quad_sum k (fun r s => peval p [r; s]) - I) <= pnorm p / 10 ^ 15.
Proof. exact quad_accurate. Qed.
Print Assumptions C52_quad.
Theorem C52_hexahedron : forall k p, (k < 3)%nat -> pdeg 3 (2 * S k) p ->
  exists I, is_int 3 (peval p) I /\ Rabs (hex_sum k (fun r s t => peval p [r; s; t]) - I) <= pnorm p / 10 ^ 15.
Proof. exact hex_accurate. Qed.
Print Assumptions C52_hexahedron.
(* the integral in these statements is unique *)
Theorem C52_integral_unique : forall n f I J, is_int n f I -> is_int n f J -> I = J.
Proof. exact is_int_unique. Qed.
Print Assumptions C52_integral_unique.
Example C52_example : pdeg 3 (2 * 2) [(1, [3; 0; 2]%nat); (-5, [0; 1; 1]%nat)].
Proof. constructor; [|constructor; [|constructor]]; (split; [reflexivity|]); repeat (constructor; [lia|]); constructor. Qed.

(* ---------------- C53 ---------------- *)
Theorem C53_quad : forall pos r s, quad_det pos r s <> 0 ->
  forall c g i, (i < 2)%nat ->
  rsumn 4 (fun nod => quad_nixj pos r s nod i * (c + rsumn 2 (fun m => g m * pos nod m))) = g i.
Proof. exact quad_grad. Qed.
Print Assumptions C53_quad.
Theorem C53_hexahedron : forall pos r s t, hex_det pos r s t <> 0 ->
  forall c g i, (i < 3)%nat ->
  rsumn 8 (fun nod => hex_nixj pos r s t nod i * (c + rsumn 3 (fun m => g m * pos nod m))) = g i.
Proof. exact hex_grad. Qed.
Print Assumptions C53_hexahedron.
(* chain rule at any point of any element: ∂N/∂r_i = Σ_j ∂x_j/∂r_i ∂N/∂x_j *)
Theorem C53_chain_rule : forall nn dim dN pos, (1 <= dim <= 3)%nat -> jdet nn dim dN pos <> 0 ->
  forall nod i, (i < dim)%nat ->
  rsumn dim (fun j => jac nn dN pos i j * nixj nn dim dN pos nod j) = dN nod i.
Proof. exact chain_rule. Qed.
Print Assumptions C53_chain_rule.
Example C53_example : hex_det (box (fun _ => 0) (dlt 0) (dlt 1) (dlt 2)) 0 0 0 <> 0.
Proof. rewrite hex_box_det. unfold triple, dlt. cbn. lra. Qed.

(* ---------------- C54 ---------------- *)
Theorem C54_line : forall ord pos, (exists i, (i < 3)%nat /\ pos 1%nat i <> pos 0%nat i) ->
  line_volume ord pos = Ok (dist3 (pos 0%nat) (pos 1%nat)).
Proof. exact line_vol'. Qed.
Print Assumptions C54_line.
Theorem C54_quad : forall ord pos, quad_volume ord pos = quad_unit ord * shoelace pos.
Proof. exact quad_vol. Qed.
Print Assumptions C54_quad.
Theorem C54_parallelepiped : forall ord p a b c, hex_volume ord (box p a b c) = hex_unit ord * triple a b c.
Proof. exact hex_vol. Qed.
Print Assumptions C54_parallelepiped.
(* any hexahedron, from the second order on: the integral of the Jacobian *)
Theorem C54_any_hexahedron : forall ord pos L, (2 <= ord)%nat ->
  (forall n j, (n < 8)%nat -> (j < 3)%nat -> Rabs (pos n j) <= L) ->
  exists V, is_int 3 (fun x => hex_det pos (nth 0 x 0) (nth 1 x 0) (nth 2 x 0)) V
    /\ Rabs (hex_volume ord pos - V) <= 384 * L ^ 3 / 10 ^ 15.
Proof. exact hex_vol_any. Qed.
Print Assumptions C54_any_hexahedron.
Theorem C54_units : forall ord, Rabs (quad_unit ord - 1) <= / 10 ^ 16 /\ Rabs (hex_unit ord - 1) <= / 10 ^ 16.
Proof.
  intros ord. unfold quad_unit, hex_unit, dec. destruct (ord <=? 2)%nat; split; apply Rabs_le; lra.
Qed.
Print Assumptions C54_units.
