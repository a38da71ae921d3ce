(* Load cases: solved cases can be combined *)
From Verif Require Import Base BaseProofs SparseModel SpecSparse BlockModel SpecBlock DofModel SpecDof AsmModel SpecAsm SolveModel SpecSolve GaussModel SpecGauss
  SpecBal SpecLaws LawsProofs LawsMore LawsSolve.
Section Both.
  Variable K : GNum.
  Variable L : glaws K.
  Local Open Scope rng_scope.
  Variables (big : K -> bool) (u : nat -> list K).
  Hypothesis HU : forall n, length (u n) = n.
  Notation plain fixes := (forall x v, last_fix fixes x = Some v -> big v = false -> v = 0).
  Lemma comb_same (a b : K) c1 c2 c3 : comb_contrib a b c1 c2 c3 -> same_stiff c1 c3.
  Proof. destruct c1, c2, c3; cbn; intuition. Qed.
  Lemma f3_13 {A B C} (P : A -> B -> C -> Prop) (Q : A -> C -> Prop) la lb lc : (forall a b c, P a b c -> Q a c) -> Forall3 P la lb lc -> Forall2 Q la lc.
  Proof. intros H. induction 1; constructor; eauto. Qed.
  Lemma superposed (a b : K) nn mesh regs ks1 ks2 ks3 mpcs1 mpcs2 mpcs3 loads1 loads2 loads3 fixes1 fixes2 fixes3 st1 st2 :
    good_linear nn mesh regs ks1 mpcs1 loads1 fixes1 -> good_linear nn mesh regs ks2 mpcs2 loads2 fixes2 -> good_linear nn mesh regs ks3 mpcs3 loads3 fixes3 ->
    distinct_nodes mesh ks1 -> distinct_nodes mesh ks2 -> distinct_nodes mesh ks3 ->
    plain fixes1 -> plain fixes2 -> plain fixes3 ->
    Forall3 (Forall3 (comb_contrib a b)) ks1 ks2 ks3 -> Forall3 (comb_mpc a b) mpcs1 mpcs2 mpcs3 ->
    (forall k, total_load loads3 k = a * total_load loads1 k + b * total_load loads2 k) ->
    (forall k, comb_fix a b (last_fix fixes1 k) (last_fix fixes2 k) (last_fix fixes3 k)) ->
    linear_solve big (gauss_slv u) nn mesh regs ks1 mpcs1 loads1 fixes1 = Ok st1 ->
    linear_solve big (gauss_slv u) nn mesh regs ks2 mpcs2 loads2 fixes2 = Ok st2 ->
    map bc_key fixes3 = map bc_key fixes1 ->
    exists st3, linear_solve big (gauss_slv u) nn mesh regs ks3 mpcs3 loads3 fixes3 = Ok st3 /\
      forall k, In k (reg_keys regs) -> sol_U st3 k = a * sol_U st1 k + b * sol_U st2 k /\ sol_R st3 k = a * sol_R st1 k + b * sol_R st2 k.
  Proof.
    intros G1 G2 G3 D1 D2 D3 P1 P2 P3 FK FM HL HF S1 S2 EK.
    destruct (solvable K L big u HU nn mesh regs ks1 ks3 mpcs1 mpcs3 loads1 loads3 fixes1 fixes3 st1 G1 G3) as (st3 & S3); auto.
    - refine (f3_13 _ _ _ _ _ _ FK). intros. eapply f3_13; [|eassumption]. intros. eapply comb_same; eauto.
    - refine (f3_13 _ _ _ _ _ _ FM). intros x y z H. apply H.
    - exists st3. split; [exact S3|]. exact (superposition K L big u HU a b nn mesh regs ks1 ks2 ks3 mpcs1 mpcs2 mpcs3 loads1 loads2 loads3 fixes1 fixes2 fixes3 st1 st2 st3
        G1 G2 G3 D1 D2 D3 P1 P2 P3 FK FM HL HF S1 S2 S3).
  Qed.
End Both.
