(* One equilibrium iteration, DoF by DoF *)
From Verif Require Import Base SparseModel SpecSparse BlockModel SpecBlock DofModel SpecDof AsmModel SpecAsm SolveModel SpecSolve
  GaussModel TimeModel NonlinModel SpecBal SpecLaws.

(* values of the Lagrange multipliers in a vector *)
Definition mults {K : Num} (s : numst) (V : list K) : list K := map (fun e => nth (e - 1) V r0) (map snd (ns_mpc s)).

(* ks, mps: matrices, vectors and MPC equations of this iteration. The increments d hold the structure given by ks, mps in
   balance with the loads at the current time; prescribed DoFs get their values for that time. The reactions are
   the forces that hold the prescribed increments, as long as none of these is under the threshold of matBVprod *)
Record one_step {K : GNum} (big : K -> bool) (mesh : list (list nat)) (regs : list reg) (loads fixes : list (bc K)) (s : numst)
  (ks : list (list (contrib K))) (mps : list (mpc K)) (it : iter K) : Prop := {
  os_free : forall k, In k (reg_keys regs) -> last_fix fixes k = None ->
    radd (sumof (force_on (vget s (it_d it)) k) (contribs mesh ks)) (mpc_pull (mults s (it_d it)) mps k) = rmul (total_load loads k) (it_time it);
  os_load : forall k, In k (reg_keys regs) -> last_fix fixes k = None -> vget s (it_R it) k = rmul (total_load loads k) (it_time it);
  os_held : (forall k, In k (map bc_key fixes) -> big (vget s (it_d it) k) = false -> vget s (it_d it) k = r0) ->
    forall k, In k (reg_keys regs) ->
    radd (sumof (force_on (vget s (it_d it)) k) (contribs mesh ks)) (mpc_pull (mults s (it_d it)) mps k) = vget s (it_R it) k;
  os_fix : forall k y, last_fix fixes k = Some y -> vget s (it_after it) k = rmul y (it_time it);
  os_upd : forall k, In k (reg_keys regs) -> vget s (it_after it) k = radd (vget s (it_before it) k) (vget s (it_d it) k);
  os_mult : mults s (it_after it) = mults s (it_d it) /\ length (mults s (it_d it)) = length mps;
  os_mpc : forall m, In m mps -> mpc_value (vget s (it_d it)) m = mp_b m }.
