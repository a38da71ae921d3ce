(* The transient solution in terms of the DoFs and of the element matrices *)
From Verif Require Import Base SparseModel BlockModel DofModel SpecDof AsmModel SpecAsm SolveModel SpecSolve GaussModel
  TransModel SpecTrans SpecBal.

(* buildC hands over damping matrices only *)
Definition only_C {K : Num} (cs : list (list (contrib K))) : Prop := Forall (Forall (fun c => ctarget c = TC)) cs.

Section Spec.
  Variable K : Num.
  Local Open Scope rng_scope.
  Variables (mesh : list (list nat)) (regs : list reg) (ks cs : list (list (contrib K))) (loads fixes : list (bc K)).
  (* the values v with the prescribed ones replaced by zero *)
  Definition free (v : key -> K) (k : key) : K := match last_fix fixes k with None => v k | Some _ => 0 end.
  (* C v + K u = F + loads at the DoFs that are not prescribed; the prescribed values of u are taken for zero *)
  Definition flow_holds (u v : key -> K) : Prop :=
    forall k, In k (reg_keys regs) -> last_fix fixes k = None ->
      sumof (stiff_on v k) (contribs mesh cs) + sumof (force_on (free u) k) (contribs mesh ks) = total_load loads k.
  (* a field that the matrix c C + K of a step does not feel *)
  Definition step_free (c : K) (w : key -> K) (k : key) : K :=
    c * sumof (stiff_on w k) (contribs mesh cs) + sumof (stiff_on w k) (contribs mesh ks).
End Spec.
Arguments free {K} _ _ _.
Arguments flow_holds {K} _ _ _ _ _ _ _ _.
Arguments step_free {K} _ _ _ _ _ _.

(* U, DU and DDU of a DoF *)
Definition mU {K : Num} (g : gst K) (s : motion K) (k : key) : K := vget (g_num g) (mo_U s) k.
Definition mV {K : Num} (g : gst K) (s : motion K) (k : key) : K := vget (g_num g) (mo_V s) k.
Definition mA {K : Num} (g : gst K) (s : motion K) (k : key) : K := vget (g_num g) (mo_A s) k.
