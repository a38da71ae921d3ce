(* C61-C64, C80-C83: hyperelastic materials and elements. *)
From Coq Require Import Reals Lra Lia.
Set Warnings "-ambiguous-paths".
From Coquelicot Require Import Coquelicot.
From Verif Require Import Base RealBase MatModel AsmModel SpecAsm ElemModel SpecElem HyperModel SpecHyper HyperProofs HyperMore HyperElem HyperTangent HyperPlane HyperBalance HyperBalance2 HyperQuery HyperFinal.
Local Open Scope R_scope.

(* ---- C61 *)
Theorem C61_stress_is_energy_gradient : forall m, known m -> forall C t dC p, curve C t dC -> 0 < det3 (m3 (C t)) ->
  is_derive (fun s => iso_energy m (C s) + p * (vol_ratio (C s) - 1)) t (1 / 2 * ddot (stress m (C t) p) (m3 dC)).
Proof. exact energy_stress. Qed.
Theorem C61_reference_state : forall m p i j, (i < 3)%nat -> (j < 3)%nat -> stress m mI p i j = p * dlt i j.
Proof. exact stress_ref. Qed.
Theorem C61_pressure_is_mean_stress : forall m C p, 0 < det3 (m3 C) -> ddot (stress m C p) (m3 C) = 3 * (p * vol_ratio C).
Proof. exact stress_mean. Qed.

(* ---- C62 *)
Theorem C62_material_tangent : forall m, known m -> forall C p t dC dp, curve C t dC -> is_derive p t dp -> 0 < det3 (m3 (C t)) ->
  forall i j, (i < 3)%nat -> (j < 3)%nat ->
  is_derive (fun s => stress m (C s) (p s) i j) t
    (ddot (fun k l => nth (sym_comp 6 (comp6 i j) (comp6 k l)) (fst (getDdDp_UP m defaultTensorComponents (C t) (p t))) 0) (m3 dC)
     + dp * m3 (arr (snd (getDdDp_UP m defaultTensorComponents (C t) (p t)))) i j).
Proof. exact tangent. Qed.
Theorem C62_tangent_of_components : forall m, known m -> forall comps C p t h dp, Forall (fun k => (k < 6)%nat) comps ->
  curve C t (along comps h) -> is_derive p t dp -> 0 < det3 (m3 (C t)) ->
  forall i, (i < length comps)%nat ->
  is_derive (fun s => nth i (getS_UP m comps (C s) (p s)) 0) t
    (rsumn (length comps) (fun j => wt (nth j comps 0%nat)
        * nth (sym_comp (length comps) i j) (fst (getDdDp_UP m comps (C t) (p t))) 0 * h j)
     + dp * nth i (snd (getDdDp_UP m comps (C t) (p t))) 0).
Proof. exact tangent_part. Qed.

(* ---- C63 *)
Theorem C63_solid81 : forall m nx U p, length U = 24%nat -> exists pt, s81_update m nx U p = Ok pt /\
  meq (m3 (arr (ptC pt))) (cauchy_green (defgrad (grad3 nx (arr U)))) /\
  meq (m3 (arr (ptS pt))) (pk2 m (defgrad (grad3 nx (arr U))) p).
Proof.
  exact (fun m nx U p L => ex_intro _ (s81_pt m nx U p) (conj (proj1 (s81_pt_ok m nx U p L)) (conj (s81_cg m nx U p L) (s81_S_F m nx U p L)))).
Qed.
Theorem C63_plane41 : forall m nx U p, meq (m3 (p41_CVec (arr (ptC (p41_update m nx U p))))) (cauchy_green (defgrad (grad2 nx U))).
Proof. exact (fun m nx U p => p41_C_F nx U). Qed.
Theorem C63_measures : forall C F, meq (m3 C) (cauchy_green F) -> det3 F <> 0 ->
  J_C C = Rabs (det3 F) /\ meq (mmul (m3 (invC_C C (J_C C))) (m3 C)) dlt /\ meq (mmul (m3 C) (m3 (invC_C C (J_C C)))) dlt /\
  forall k, (k < 3)%nat -> IC_C C k = invariant F k.
Proof.
  intros C F H HF. assert (D : 0 < det3 (m3 C)).
  { rewrite (det3_ext _ _ H). unfold cauchy_green. rewrite det_mul, det_tr. destruct (Rtotal_order (det3 F) 0) as [L|[L|L]]; nra. }
  exact (conj (J_F C F H) (conj (inv_C' C D) (conj (inv_C C D) (fun k => inv_F C F k H)))).
Qed.

(* ---- C64 *)
Theorem C64_solid81_strain : forall m nx U p scale t, length U = 24%nat -> length t = 6%nat ->
  (exists t', s81_query m nx U p TC scale t = Ok t' /\ adds t t' scale (cauchy_green (defgrad (grad3 nx (arr U))))) /\
  (exists t', s81_query m nx U p TE scale t = Ok t' /\
     adds t t' scale (fun i j => (cauchy_green (defgrad (grad3 nx (arr U))) i j - dlt i j) / 2)).
Proof. exact (fun m nx U p scale t LU Lt => conj (s81_TC m nx U p scale t LU Lt) (s81_TE m nx U p scale t LU Lt)). Qed.
(* what the query returns: true stress plus once more the pressure *)
Theorem C64_solid81_couchy_value : forall m nx U p scale t, length U = 24%nat -> length t = 6%nat -> 0 < det3 (defgrad (grad3 nx (arr U))) ->
  exists t', s81_query m nx U p COUCHY scale t = Ok t' /\
    adds t t' scale (fun i j => cauchy (defgrad (grad3 nx (arr U))) (pk2 m (defgrad (grad3 nx (arr U))) p) i j + p * dlt i j).
Proof. exact (fun m nx U p scale t LU Lt H => s81_COUCHY m nx U p scale t LU Lt (Rgt_not_eq _ _ H) H). Qed.
Theorem C64_solid81_couchy_partial : forall m nx U scale t, length U = 24%nat -> length t = 6%nat -> 0 < det3 (defgrad (grad3 nx (arr U))) ->
  exists t', s81_query m nx U 0 COUCHY scale t = Ok t' /\
    adds t t' scale (cauchy (defgrad (grad3 nx (arr U))) (pk2 m (defgrad (grad3 nx (arr U))) 0)).
Proof. exact s81_couchy_p0. Qed.
Theorem C64_solid81_couchy_refuted : forall m nx U p scale t, length U = 24%nat -> length t = 6%nat -> 0 < det3 (defgrad (grad3 nx (arr U))) ->
  p <> 0 -> scale <> 0 -> exists t', s81_query m nx U p COUCHY scale t = Ok t' /\
    ~ adds t t' scale (cauchy (defgrad (grad3 nx (arr U))) (pk2 m (defgrad (grad3 nx (arr U))) p)).
Proof. exact s81_couchy_wrong. Qed.
Theorem C64_solid81_pk2_refuted : forall m nx U p scale t, length U = 24%nat -> length t = 6%nat -> det3 (defgrad (grad3 nx (arr U))) <> 0 ->
  p <> 0 -> scale <> 0 -> exists t', s81_query m nx U p PK2 scale t = Ok t' /\
    ~ adds t t' scale (pk2 m (defgrad (grad3 nx (arr U))) p).
Proof. exact s81_pk2_wrong. Qed.
Theorem C64_plane41_strain_and_pk2 : forall m nx U p scale t, length t = 6%nat ->
  (exists t', p41_query m nx U p TC scale t = Ok t' /\ adds t t' scale (cauchy_green (defgrad (grad2 nx U)))) /\
  (exists t', p41_query m nx U p TE scale t = Ok t' /\ adds t t' scale (fun i j => (cauchy_green (defgrad (grad2 nx U)) i j - dlt i j) / 2)) /\
  (exists t', p41_query m nx U p PK2 scale t = Ok t' /\ adds t t' scale (pk2 m (defgrad (grad2 nx U)) p)).
Proof. exact (fun m nx U p scale t Lt => conj (p41_TC m nx U p scale t Lt) (conj (p41_TE m nx U p scale t Lt) (p41_PK2 m nx U p scale t Lt))). Qed.
(* what the query returns: F^T S F / J, whatever the scale *)
Theorem C64_plane41_couchy_value : forall m nx U p scale t, length t = 6%nat -> det3 (defgrad (grad2 nx U)) <> 0 ->
  exists t', p41_query m nx U p COUCHY scale t = Ok t' /\
    adds t t' 1 (cauchy (mtr (defgrad (grad2 nx U))) (pk2 m (defgrad (grad2 nx U)) p)).
Proof. exact p41_COUCHY. Qed.
Theorem C64_plane41_couchy_refuted : exists nx U t', 0 < det3 (defgrad (grad2 nx U)) /\
  p41_query (neo_hookean 1 1) nx U 0 COUCHY 1 zero6 = Ok t' /\
  ~ adds zero6 t' 1 (cauchy (defgrad (grad2 nx U)) (pk2 (neo_hookean 1 1) (defgrad (grad2 nx U)) 0)).
Proof. exact p41_couchy_wrong. Qed.
Theorem C64_plane41_mean_refuted : forall nx w, 0 < w -> exists t',
  mean_tensor (fun nx s t => p41_query (neo_hookean 1 1) nx (fun _ => 0) 1 COUCHY s t) [(w, nx); (w, nx); (w, nx); (w, nx)] 1 zero6 = Ok t' /\
  adds zero6 t' 4 (cauchy (defgrad (grad2 nx (fun _ => 0))) (pk2 (neo_hookean 1 1) (defgrad (grad2 nx (fun _ => 0))) 1)) /\
  ~ adds zero6 t' 1 (cauchy (defgrad (grad2 nx (fun _ => 0))) (pk2 (neo_hookean 1 1) (defgrad (grad2 nx (fun _ => 0))) 1)).
Proof. exact p41_mean_wrong. Qed.
(* GP_MEAN of the other queries is the weighted mean *)
Theorem C64_plane41_mean_pk2 : forall m U p pts scale t, length t = 6%nat ->
  exists t', mean_tensor (fun nx s t => p41_query m nx U p PK2 s t) pts scale t = Ok t' /\
    adds t t' scale (fun i j => rsuml pts (fun wq => fst wq / rsuml pts fst * pk2 m (defgrad (grad2 (snd wq) U)) p i j)).
Proof.
  exact (fun m U p pts scale t Lt => mean_adds _ (fun nx s t => p41_query m nx U p PK2 s t) (fun nx => pk2 m (defgrad (grad2 nx U)) p) pts scale t Lt
           (fun w q s t _ L => p41_PK2 m q U p s t L)).
Qed.
Theorem C64_solid81_mean_strain : forall m U p pts scale t, length U = 24%nat -> length t = 6%nat ->
  exists t', mean_tensor (fun nx s t => s81_query m nx U p TC s t) pts scale t = Ok t' /\
    adds t t' scale (fun i j => rsuml pts (fun wq => fst wq / rsuml pts fst * cauchy_green (defgrad (grad3 (snd wq) (arr U))) i j)).
Proof.
  exact (fun m U p pts scale t LU Lt => mean_adds _ (fun nx s t => s81_query m nx U p TC s t) (fun nx => cauchy_green (defgrad (grad3 nx (arr U)))) pts scale t Lt
           (fun w q s t _ L => s81_TC m q U p s t LU L)).
Qed.

(* ---- C80: SOLID81 *)
Theorem C80_nodal_forces : forall m geo U p, length U = 24%nat ->
  exists r, s81_run m geo U p = Ok r /\
    (forall n i, (n < 8)%nat -> (i < 3)%nat -> nth (n * 3 + i) (mFu r) 0
       = - rsuml geo (fun g => fst g * rsumn 3 (fun j => pk1 m (defgrad (grad3 (snd g) (arr U))) p i j * snd g n j))) /\
    mFp r = - rsuml geo (fun g => fst g * (Rabs (det3 (defgrad (grad3 (snd g) (arr U)))) - 1 - p / hK m)).
Proof. exact s81_forces. Qed.
Theorem C80_consistent_tangent : forall m geo (U : R -> list R) (p : R -> R) (dU : nat -> R) (dp t : R), known m -> hK m <> 0 ->
  (forall s, length (U s) = 24%nat) -> (forall e, (e < 24)%nat -> is_derive (fun s => nth e (U s) 0) t (dU e)) -> is_derive p t dp ->
  (forall g, In g geo -> det3 (defgrad (grad3 (snd g) (arr (U t)))) <> 0) ->
  exists r : R -> mixed, (forall s, s81_run m geo (U s) (p s) = Ok (r s)) /\
    (forall c, (c < 24)%nat -> is_derive (fun s => nth c (mFu (r s)) 0) t
       (- (rsumn 24 (fun e => nth (sym_comp 24 c e) (mKuu (r t)) 0 * dU e) + nth c (mKup (r t)) 0 * dp))) /\
    is_derive (fun s => mFp (r s)) t (- (rsumn 24 (fun e => nth e (mKup (r t)) 0 * dU e) + mKpp (r t) * dp)).
Proof. exact s81_tangent. Qed.

(* ---- C81: PLANE41 *)
Theorem C81_nodal_forces : forall m geo U p,
  (forall n i, (n < 4)%nat -> (i < 2)%nat -> p41_Fe m p (p41_update_all m geo U p) (n * 2 + i)
     = - rsuml geo (fun g => fst g * rsumn 2 (fun j => pk1 m (defgrad (grad2 (snd g) U)) p i j * snd g n j))) /\
  p41_Fe m p (p41_update_all m geo U p) 8 = - rsuml geo (fun g => fst g * (Rabs (det3 (defgrad (grad2 (snd g) U))) - 1 - p / hK m)).
Proof. exact p41_forces. Qed.
Theorem C81_consistent_tangent : forall m geo (U : R -> nat -> R) (p : R -> R) (dU : nat -> R) (dp t : R), known m -> hK m <> 0 ->
  (forall e, (e < 8)%nat -> is_derive (fun s => U s e) t (dU e)) -> is_derive p t dp ->
  (forall g, In g geo -> det3 (defgrad (grad2 (snd g) (U t))) <> 0) ->
  forall i, (i < 9)%nat -> is_derive (fun s => p41_Fe m (p s) (p41_update_all m geo (U s) (p s)) i) t
    (- rsumn 9 (fun j => p41_Ke m (p t) (p41_update_all m geo (U t) (p t)) i j * (if (j <? 8)%nat then dU j else dp))).
Proof. exact p41_tangent. Qed.

(* ---- C82 *)
Theorem C82_solid81_balance : forall m geo X p, (forall g, In g geo -> reproduces 8 3 (snd g) X) ->
  forall U r, length U = 24%nat -> s81_run m geo U p = Ok r ->
    let f n i := nth (n * 3 + i) (mFu r) 0 in
    let x n i := X n i + arr U (n * 3 + i)%nat in
    (forall i, (i < 3)%nat -> rsumn 8 (fun n => f n i) = 0) /\
    (forall i j, (i < 3)%nat -> (j < 3)%nat -> rsumn 8 (fun n => x n i * f n j - x n j * f n i) = 0).
Proof. exact s81_balance. Qed.
Theorem C82_solid81_objective : forall m geo X p, (forall g, In g geo -> reproduces 8 3 (snd g) X) ->
  forall Q c U U' r r', orthogonal 3 Q -> length U = 24%nat -> length U' = 24%nat ->
    (forall n i, (n < 8)%nat -> (i < 3)%nat ->
       X n i + arr U' (n * 3 + i)%nat = c i + rsumn 3 (fun k => Q i k * (X n k + arr U (n * 3 + k)%nat))) ->
    s81_run m geo U p = Ok r -> s81_run m geo U' p = Ok r' ->
    (forall n i, (n < 8)%nat -> (i < 3)%nat -> nth (n * 3 + i) (mFu r') 0 = rsumn 3 (fun k => Q i k * nth (n * 3 + k) (mFu r) 0)) /\
    mFp r' = mFp r.
Proof. exact s81_objective. Qed.
Theorem C82_solid81_rigid_motion : forall m geo X, (forall g, In g geo -> reproduces 8 3 (snd g) X) ->
  forall Q c U r, orthogonal 3 Q -> length U = 24%nat ->
    (forall n i, (n < 8)%nat -> (i < 3)%nat -> X n i + arr U (n * 3 + i)%nat = c i + rsumn 3 (fun k => Q i k * X n k)) ->
    s81_run m geo U 0 = Ok r ->
    (forall k, (k < 24)%nat -> nth k (mFu r) 0 = 0) /\ mFp r = 0.
Proof. exact s81_rigid. Qed.
Theorem C82_plane41_balance : forall m geo X p, (forall g, In g geo -> reproduces 4 2 (snd g) X) -> forall U,
    let f n i := p41_Fe m p (p41_update_all m geo U p) (n * 2 + i)%nat in
    let x n i := X n i + U (n * 2 + i)%nat in
    (forall i, (i < 2)%nat -> rsumn 4 (fun n => f n i) = 0) /\
    rsumn 4 (fun n => x n 0%nat * f n 1%nat - x n 1%nat * f n 0%nat) = 0.
Proof. exact p41_balance. Qed.
Theorem C82_plane41_objective : forall m geo X p, (forall g, In g geo -> reproduces 4 2 (snd g) X) ->
  forall Q c U U', orthogonal 2 Q ->
    (forall n i, (n < 4)%nat -> (i < 2)%nat ->
       X n i + U' (n * 2 + i)%nat = c i + rsumn 2 (fun k => Q i k * (X n k + U (n * 2 + k)%nat))) ->
    (forall n i, (n < 4)%nat -> (i < 2)%nat -> p41_Fe m p (p41_update_all m geo U' p) (n * 2 + i)%nat
       = rsumn 2 (fun k => Q i k * p41_Fe m p (p41_update_all m geo U p) (n * 2 + k)%nat)) /\
    p41_Fe m p (p41_update_all m geo U' p) 8%nat = p41_Fe m p (p41_update_all m geo U p) 8%nat.
Proof. exact p41_objective. Qed.
Theorem C82_plane41_rigid_motion : forall m geo X, (forall g, In g geo -> reproduces 4 2 (snd g) X) ->
  forall Q c U, orthogonal 2 Q ->
    (forall n i, (n < 4)%nat -> (i < 2)%nat -> X n i + U (n * 2 + i)%nat = c i + rsumn 2 (fun k => Q i k * X n k)) ->
    forall k, (k < 9)%nat -> p41_Fe m 0 (p41_update_all m geo U 0) k = 0.
Proof. exact p41_rigid. Qed.

(* ---- C83 *)
Theorem C83_solid81_pressure_energy : forall m nx U p scale x, length U = 24%nat ->
  s81_squery m nx U p SP scale x = Ok (x + scale * p) /\
  s81_squery m nx U p WP scale x = Ok (x + scale * (hK m / 2 * (Rabs (det3 (defgrad (grad3 nx (arr U)))) - 1) ^ 2)).
Proof. exact s81_scalars. Qed.
Theorem C83_solid81_invariants : forall m nx U p scale v, length U = 24%nat ->
  exists v', s81_vquery m nx U p scale v = Ok v' /\ length v' = 3%nat /\
    forall k, (k < 3)%nat -> nth k v' 0 = nth k v 0 + scale * invariant (defgrad (grad3 nx (arr U))) k.
Proof. exact s81_invariants. Qed.
Theorem C83_solid81_energy_partial : forall m nx U p scale x, known m -> length U = 24%nat -> Rabs (det3 (defgrad (grad3 nx (arr U)))) = 1 ->
  s81_squery m nx U p WU scale x = Ok (x + scale * iso_energy m (vec6 (cauchy_green (defgrad (grad3 nx (arr U)))))).
Proof. exact s81_WU_iso. Qed.
Theorem C83_solid81_energy_refuted : exists m nx U, known m /\ length U = 24%nat /\ 0 < det3 (defgrad (grad3 nx (arr U))) /\
  s81_squery m nx U 0 WU 1 0 = Ok (9 / 2) /\ iso_energy m (vec6 (cauchy_green (defgrad (grad3 nx (arr U))))) = 0.
Proof. exact s81_WU_wrong. Qed.
Theorem C83_plane41_invariants_refuted : forall m nx U p scale v, p41_vquery m nx U p scale v = UB.
Proof. exact p41_invariants. Qed.

(* ---- examples: the hypotheses are met *)
(* a curve through the reference state *)
Example curve_ex : curve (fun s k => mI k + s * INR k) 0 INR /\ 0 < det3 (m3 (fun k => mI k + 0 * INR k)).
Proof.
  split.
  - intros k Hk. eapply der_eq; [apply d_plus; [apply d_const|apply (d_mult (fun s => s) (fun _ => INR k) 0 1 0); [apply d_id|apply d_const]]|]. ring.
  - unfold det3, m3. cbv [comp6 Nat.min Nat.max mI]. lra.
Qed.
Example along_ex : curve (fun s k => mI k + s * along p41_components INR k) 0 (along p41_components INR).
Proof.
  intros k Hk. eapply der_eq; [apply d_plus; [apply d_const|apply (d_mult (fun s => s) (fun _ => along p41_components INR k) 0 1 0); [apply d_id|apply d_const]]|]. ring.
Qed.
Example cube_ex : reproduces 8 3 nx_cube corner.
Proof.
  split; intros; unfold rsumn; cbn [seq]; rewrite !rsuml_cons, rsuml_nil; unfold nx_cube, corner.
  - case3 H; cbv [Nat.testbit Nat.odd Nat.even negb Nat.div2]; field.
  - case3 H; case3 H0; cbv [Nat.testbit Nat.odd Nat.even negb Nat.div2 dlt Nat.eqb]; field.
Qed.
Example square_ex : reproduces 4 2 nx_square corner.
Proof.
  split; intros; unfold rsumn; cbn [seq]; rewrite !rsuml_cons, rsuml_nil; unfold nx_square, corner.
  - case2 H; cbv [Nat.testbit Nat.odd Nat.even negb Nat.div2]; field.
  - case2 H; case2 H0; cbv [Nat.testbit Nat.odd Nat.even negb Nat.div2 dlt Nat.eqb]; field.
Qed.
Example rotation_ex : orthogonal 2 (fun i j => nth (i * 2 + j) [0; -1; 1; 0] 0).
Proof. intros i j Hi Hj. rewrite rs2. case2 Hi; case2 Hj; cbv [dlt Nat.eqb Nat.mul Nat.add nth]; ring. Qed.
Example rotation3_ex : orthogonal 3 (fun i j => nth (i * 3 + j) [0; -1; 0; 1; 0; 0; 0; 0; 1] 0).
Proof. intros i j Hi Hj. rewrite rs3. case3 Hi; case3 Hj; cbv [dlt Nat.eqb Nat.mul Nat.add nth]; ring. Qed.
(* a deformed element: twice as large; the deformation gradient is regular *)
Example deformed_ex : length (map double (seq 0 24)) = 24%nat /\ det3 (defgrad (grad3 nx_cube (arr (map double (seq 0 24))))) = 8.
Proof. split; [reflexivity|]. unfold det3. rewrite !double_F by lia. cbv [dlt Nat.eqb]. ring. Qed.
Example deformed2_ex : det3 (defgrad (grad2 nx_square shear)) = 1.
Proof. exact shear_det. Qed.
(* displacements depending on a parameter, as in the tangent theorems *)
Example moving_ex : forall e, (e < 24)%nat -> is_derive (fun s => nth e (map (fun c => s * double c) (seq 0 24)) 0) 1 (double e).
Proof.
  intros e He. apply (is_derive_ext (fun s => s * double e)); [intros s; rewrite (ElemBase.nth_map_seq (fun c => s * double c) 24 e) by exact He; reflexivity|].
  eapply der_eq; [apply (d_mult (fun s => s) (fun _ => double e) 1 1 0); [apply d_id|apply d_const]|]. ring.
Qed.
Print Assumptions C61_stress_is_energy_gradient.
Print Assumptions C61_reference_state.
Print Assumptions C61_pressure_is_mean_stress.
Print Assumptions C62_material_tangent.
Print Assumptions C62_tangent_of_components.
Print Assumptions C63_solid81.
Print Assumptions C63_plane41.
Print Assumptions C63_measures.
Print Assumptions C64_solid81_strain.
Print Assumptions C64_solid81_couchy_value.
Print Assumptions C64_solid81_couchy_partial.
Print Assumptions C64_solid81_couchy_refuted.
Print Assumptions C64_solid81_pk2_refuted.
Print Assumptions C64_plane41_strain_and_pk2.
Print Assumptions C64_plane41_couchy_value.
Print Assumptions C64_plane41_couchy_refuted.
Print Assumptions C64_plane41_mean_refuted.
Print Assumptions C64_plane41_mean_pk2.
Print Assumptions C64_solid81_mean_strain.
Print Assumptions C80_nodal_forces.
Print Assumptions C80_consistent_tangent.
Print Assumptions C81_nodal_forces.
Print Assumptions C81_consistent_tangent.
Print Assumptions C82_solid81_balance.
Print Assumptions C82_solid81_objective.
Print Assumptions C82_solid81_rigid_motion.
Print Assumptions C82_plane41_balance.
Print Assumptions C82_plane41_objective.
Print Assumptions C82_plane41_rigid_motion.
Print Assumptions C83_solid81_pressure_energy.
Print Assumptions C83_solid81_invariants.
Print Assumptions C83_solid81_energy_partial.
Print Assumptions C83_solid81_energy_refuted.
Print Assumptions C83_plane41_invariants_refuted.
