(* The determinant and inverse of Mat against mathcomp's theory of determinants *)
From Verif Require Import Base MatModel MatElem.
Set Warnings "-notation-overridden,-ambiguous-paths".
From mathcomp Require Import all_ssreflect all_algebra.
Set Implicit Arguments.
Unset Strict Implicit.
Unset Printing Implicit Defensive.
Import GRing.Theory.

Lemma fold_left_ext (A B : Type) (f g : A -> B -> A) (H : forall s j, f s j = g s j) (l : list B) (s : A) :
  List.fold_left f l s = List.fold_left g l s.
Proof. by elim: l s => [|b l IH] s //=; rewrite H IH. Qed.

Section Inst.
  Local Open Scope ring_scope.
  Variable F : fieldType.
  Definition NumF : Base.Num := mkNum F (0 : F) 1 (@GRing.add F) (@GRing.mul F) (fun x y => x - y) (@GRing.opp F).
  Lemma NumF_ring : ring_theory (@Base.r0 NumF) r1 radd rmul rsub ropp (@eq NumF).
  Proof.
    constructor => //=.
    - exact: add0r.
    - exact: addrC.
    - exact: addrA.
    - exact: mul1r.
    - exact: mulrC.
    - exact: mulrA.
    - exact: mulrDl.
    - exact: subrr.
  Qed.
  Definition RngF : Rng := mkRng NumF NumF_ring.
  Lemma RngF_field : field_theory (@Base.r0 RngF) r1 radd rmul rsub ropp (fun x y => x / y) (@GRing.inv F) (@eq RngF).
  Proof.
    constructor => //=.
    - exact: NumF_ring.
    - by move/eqP; rewrite oner_eq0.
    - by move=> p /eqP H; exact: mulVf.
  Qed.
  Definition FldF : Fld := mkFld RngF (fun x y => x / y) (@GRing.inv F) RngF_field.

  Definition mx (n : nat) (A : nat -> nat -> F) : 'M[F]_n := \matrix_(i < n, j < n) A i j.

  Lemma npow1_exp p : @npow1 NumF p = (-1) ^+ p.
  Proof. elim: p => [|p IH] /=; first by rewrite expr0. by rewrite IH exprSr. Qed.

  Lemma leb_leq (c i : nat) : Nat.leb c i = leq c i.
  Proof.
    apply/idP/idP.
    - by move/Nat.leb_le => H; apply/leP.
    - by move=> H; apply/Nat.leb_le/leP.
  Qed.
  Lemma bump_if (c i : nat) : (if Nat.leb c i then S i else i) = bump c i.
  Proof. by rewrite /bump leb_leq; case: (leq c i). Qed.

  Lemma cut_mx n (A : nat -> nat -> F) (i j : 'I_n.+1) :
    mx n (@cross_cut NumF A i j) = row' i (col' j (mx n.+1 A)).
  Proof. apply/matrixP => a b. by rewrite !mxE /cross_cut !bump_if. Qed.

  (* the alternating factor: after j steps it is (-1)^j *)
  Lemma fold_alt (f : nat -> F) (a : nat) (l : nat) (s : F) :
    fst (List.fold_left (fun (s : F * F) j => (fst s + snd s * f j, snd s * - 1)) (List.seq a l) (s, (-1) ^+ a))
    = s + \sum_(a <= j < a + l) (-1) ^+ j * f j.
  Proof.
    elim: l a s => [|l IH] a s /=.
    - by rewrite addn0 big_geq // addr0.
    - rewrite -exprSr IH [in RHS]big_ltn ?addnS ?ltnS ?leq_addr // addSn addrA.
      by [].
  Qed.

  Theorem mdet_det n (A : nat -> nat -> F) : @mdet NumF n.+1 A = \det (mx n.+1 A).
  Proof.
    elim: n A => [|n IH] A; first by rewrite det_mx11 mxE.
    rewrite (expand_det_row _ ord0).
    have E : \sum_(j < n.+2) mx n.+2 A ord0 j * cofactor (mx n.+2 A) ord0 j
           = \sum_(0 <= j < n.+2) (-1) ^+ j * (A 0%N j * @mdet NumF n.+1 (@cross_cut NumF A 0%N j)).
    { rewrite big_mkord. apply: eq_bigr => j _.
      by rewrite mxE /cofactor add0n IH -(@cut_mx n.+1 A ord0 j) /= mulrCA. }
    rewrite E (@mdet_step RngF n A).
    have := fold_alt (fun j => A 0%N j * @mdet NumF n.+1 (@cross_cut NumF A 0%N j)) 0 n.+2 0.
    rewrite add0r => <-. rewrite expr0.
    congr (fst _). apply: fold_left_ext => s j /=. by rewrite mulrA.
  Qed.

  Theorem minv_adj n (A : nat -> nat -> F) d : (3 < n.+1)%N ->
    mx n.+1 (@minv FldF n.+1 A d) = d^-1 *: \adj (mx n.+1 A).
  Proof.
    case: n => [|[|[|n]]] // _. apply/matrixP => i j.
    rewrite !mxE /cofactor -(@cut_mx _ A j i) -mdet_det.
    change (@npow1 NumF (j + i) * @mdet NumF n.+3 (@cross_cut NumF A j i) * (1 / d)
            = d^-1 * ((-1) ^+ (j + i) * @mdet NumF n.+3 (@cross_cut NumF A j i))).
    by rewrite npow1_exp mul1r mulrC.
  Qed.

  Lemma mx_mul n (A B : nat -> nat -> F) : mx n (@mmul FldF n A B) = mx n A *m mx n B.
  Proof.
    apply/matrixP => i j. rewrite !mxE /mmul /sumof.
    have -> : forall f : nat -> F, @rsum NumF (List.map f (List.seq 0 n)) = \sum_(0 <= k < n) f k.
    { move=> f. rewrite -[n in RHS]add0n. move: 0%N. elim: n {i j} => [|n IH] a /=.
      - by rewrite addn0 big_geq.
      - by rewrite IH [in RHS]big_ltn ?addnS ?ltnS ?leq_addr // addSn. }
    by rewrite big_mkord; apply: eq_bigr => k _; rewrite !mxE.
  Qed.
  Lemma mx_eye n : mx n (@eye FldF) = 1%:M.
  Proof.
    apply/matrixP => i j. rewrite !mxE /eye.
    have -> : Nat.eqb i j = (i == j).
    { by apply/idP/idP => [/Nat.eqb_eq H|/eqP ->]; [apply/eqP/val_inj|apply/Nat.eqb_eq]. }
    by case: (i == j).
  Qed.
  Lemma mx_ext n (A B : nat -> nat -> F) : mx n A = mx n B -> forall i j, lt i n -> lt j n -> A i j = B i j.
  Proof.
    move=> E i j /ltP Hi /ltP Hj. by move/matrixP: E => /(_ (Ordinal Hi) (Ordinal Hj)); rewrite !mxE.
  Qed.

  Theorem minv_inverse n (A : nat -> nat -> F) : lt 0 n -> @mdet NumF n A <> 0 ->
    forall i j, lt i n -> lt j n ->
      @mmul FldF n A (@minv FldF n A (@mdet NumF n A)) i j = @eye FldF i j /\
      @mmul FldF n (@minv FldF n A (@mdet NumF n A)) A i j = @eye FldF i j.
  Proof.
    case: n => [/ltP //|n] _ Hd i j Hi Hj.
    case Hn: (3 < n.+1)%N; last first.
    - apply: (@minv_small FldF) => //. split; first by apply/ltP.
      by apply/leP; rewrite leqNgt Hn.
    - move/eqP: Hd; rewrite mdet_det => Hd.
      split; apply: mx_ext Hi Hj; rewrite mx_mul mx_eye minv_adj // -?scalemxAl -?scalemxAr ?mul_mx_adj ?mul_adj_mx;
        by rewrite scale_scalar_mx mulVf.
  Qed.
End Inst.
