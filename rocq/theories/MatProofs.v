(* Packed storage and the product routines *)
From Verif Require Import Base BaseProofs MatModel SparseModel SpecSparse BlockModel SpecBlock DofModel SpecDof AsmModel SpecAsm AsmLists.
Local Open Scope nat_scope.

(* ---- packed storage *)
Lemma comp16_small n i j : i < n -> j < n -> (Z.of_nat (tri n) < 65536)%Z -> comp16 n i j = sym_comp n i j.
Proof.
  intros Hi Hj HT. pose proof (comp_lt n i j Hi Hj) as L. unfold comp16, sym_comp in *.
  set (a := Nat.min i j) in *. set (b := Nat.max i j) in *.
  assert (a <= b) by lia. assert (a < n) by lia.
  pose proof (double_tri a) as D.
  assert ((a - 1) * a / 2 <= n * a) by nia.
  assert (E : Z.quot ((Z.of_nat a - 1) * Z.of_nat a) 2 = Z.of_nat ((a - 1) * a / 2)).
  { destruct (Nat.eq_dec a 0) as [->|Na]; [reflexivity|].
    replace (Z.of_nat a - 1)%Z with (Z.of_nat (a - 1)) by lia. 
    assert (EZ : (Z.of_nat (a - 1) * Z.of_nat a = Z.of_nat ((a - 1) * a / 2) * 2)%Z) by lia.
    rewrite EZ. apply Z.quot_mul. lia. }
  rewrite E, <- Nat2Z.inj_mul, <- Nat2Z.inj_sub, <- Nat2Z.inj_sub, <- Nat2Z.inj_add by lia.
  rewrite Z.mod_small by lia. apply Nat2Z.id.
Qed.
Lemma wrap16_small x : (Z.of_nat x < 65536)%Z -> wrap16 x = x.
Proof. intros H. unfold wrap16. rewrite Z.mod_small by lia. apply Nat2Z.id. Qed.
Lemma length16_small n : (Z.of_nat (tri n) < 65536)%Z -> length16 n = tri n.
Proof.
  intros H. pose proof (tri_double n) as D. unfold length16.
  replace (Z.of_nat n * (Z.of_nat n + 1))%Z with (Z.of_nat (tri n) * 2)%Z by lia.
  rewrite Z.div_mul by lia. rewrite Z.mod_small by lia. apply Nat2Z.id.
Qed.

Lemma sym_comp_inj n i j i' j' : i < n -> j < n -> i' < n -> j' < n -> sym_comp n i j = sym_comp n i' j' ->
  (i = i' /\ j = j') \/ (i = j' /\ j = i').
Proof.
  intros Hi Hj Hi' Hj' E.
  assert (ND : NoDup (map (fun x => sym_comp n (fst x) (snd x)) (U n))) by (rewrite comp_U; apply seq_NoDup).
  assert (N : forall a b, sym_comp n (Nat.min a b) (Nat.max a b) = sym_comp n a b).
  { intros a b. unfold sym_comp. rewrite (Nat.min_l (Nat.min a b)), (Nat.max_r (Nat.min a b)) by lia. reflexivity. }
  rewrite <- (N i j), <- (N i' j') in E.
  set (f := fun x => sym_comp n (fst x) (snd x)) in ND.
  assert (G : forall l : list (nat * nat), NoDup (map f l) -> forall x y, In x l -> In y l -> f x = f y -> x = y).
  { clear. induction l as [|z l IH]; intros ND x y Hx Hy E; [destruct Hx|]. inversion ND as [|? ? N1 N2]; subst.
    destruct Hx as [->|Hx], Hy as [->|Hy]; auto.
    - exfalso. apply N1. rewrite E. now apply in_map.
    - exfalso. apply N1. rewrite <- E. now apply in_map. }
  assert (P : (Nat.min i j, Nat.max i j) = (Nat.min i' j', Nat.max i' j')).
  { apply (G (U n) ND); [apply U_in; lia|apply U_in; lia|exact E]. }
  injection P as P1 P2. lia.
Qed.
Lemma sym_comp_onto n p : p < tri n -> exists i j, i <= j < n /\ sym_comp n i j = p.
Proof.
  intros H. assert (I : In p (map (fun x => sym_comp n (fst x) (snd x)) (U n))) by (rewrite comp_U; apply in_seq; lia).
  apply in_map_iff in I as ([i j] & E & I). apply U_in in I. exists i, j. cbn in E. auto.
Qed.
Lemma U_comp n : combine (U n) (seq 0 (tri n)) = map (fun x => (x, sym_comp n (fst x) (snd x))) (U n).
Proof. rewrite <- comp_U. generalize (U n). induction l as [|a l IH]; cbn; congruence. Qed.

(* ---- generic facts about loops *)
Lemma of_ext {A S} (f g : S -> A -> outcome S) l : (forall s a, In a l -> f s a = g s a) -> forall s, ofold f l s = ofold g l s.
Proof.
  induction l as [|a l IH]; intros H s; cbn; auto. rewrite H by (left; auto).
  destruct (g s a); cbn; auto. apply IH. intros; apply H; now right.
Qed.
Lemma of_map {A B S} (f : S -> B -> outcome S) (h : A -> B) l : forall s, ofold f (map h l) s = ofold (fun s a => f s (h a)) l s.
Proof. induction l as [|a l IH]; intros s; cbn; auto. destruct (f s (h a)); cbn; auto. Qed.
Lemma of_flat {A B S} (f : S -> B -> outcome S) (h : A -> list B) l : forall s,
  ofold f (flat_map h l) s = ofold (fun s a => ofold f (h a) s) l s.
Proof. induction l as [|a l IH]; intros s; cbn; auto. rewrite ofold_app. destruct (ofold f (h a) s); cbn; auto. Qed.
(* nested loops visit the cells (i, j) in order *)
Lemma of_nest {S} (f : nat -> S -> nat -> outcome S) (lo len : nat -> nat) l s :
  ofold (fun s i => ofold (f i) (seq (lo i) (len i)) s) l s
  = ofold (fun s x => f (fst x) s (snd x)) (flat_map (fun i => map (pair i) (seq (lo i) (len i))) l) s.
Proof.
  rewrite of_flat. apply of_ext. intros t i _. rewrite of_map. reflexivity.
Qed.
(* a pointer which moves by one with each cell *)
Lemma of_count {S X} (f : S -> X * nat -> outcome S) L : forall s dp,
  ofold (fun (t : S * nat) x => s' <- f (fst t) (x, snd t) ;; Ok (s', Datatypes.S (snd t))) L (s, dp)
  = (s' <- ofold f (combine L (seq dp (length L))) s ;; Ok (s', dp + length L)).
Proof.
  induction L as [|x L IH]; intros s dp.
  - cbn. now rewrite Nat.add_0_r.
  - cbn. destruct (f s (x, dp)) as [s1| | |]; cbn; auto. rewrite IH.
    replace (Datatypes.S dp + length L) with (dp + Datatypes.S (length L)) by lia. reflexivity.
Qed.
(* the same for the cells of the upper triangle *)
Lemma of_count_U {S} n (f : S -> (nat * nat) * nat -> outcome S) s :
  ofold (fun (t : S * nat) x => s' <- f (fst t) (x, snd t) ;; Ok (s', Datatypes.S (snd t))) (U n) (s, 0)
  = (s' <- ofold (fun s x => f s (x, sym_comp n (fst x) (snd x))) (U n) s ;; Ok (s', tri n)).
Proof. rewrite of_count, U_length, U_comp, of_map. reflexivity. Qed.

Section Prods.
  Variable K : Rng.
  Add Ring Kr : (rth K).
  Open Scope rng_scope.
  Notation sumof_cons := (sumof_cons K). Notation sumof_app := (sumof_app K). Notation sumof_map := (sumof_map K).
  Notation sumof_ext := (sumof_ext K). Notation sumof_zero := (sumof_zero K).

  Definition ups {X} (idx : X -> nat) (val : X -> K) (l : list X) (A : list K) : outcome (list K) :=
    ofold (fun A x => addat A (idx x) (val x)) l A.
  Lemma addat_ok (A : list K) p x : (p < length A)%nat -> addat A p x = Ok (upd A p (nth p A 0 + x)).
  Proof. intros H. unfold addat. rewrite (aget_nth _ _ 0) by auto. cbn. now apply aset_ok. Qed.
  Lemma upd_len {T} (l : list T) i a : length (upd l i a) = length l.
  Proof. revert i; induction l; intros [|i]; cbn; auto. Qed.
  Lemma ups_ok {X} (idx : X -> nat) (val : X -> K) l : forall A,
    (forall x, In x l -> (idx x < length A)%nat) ->
    exists A', ups idx val l A = Ok A' /\ length A' = length A /\
      forall p, nth p A' 0 = nth p A 0 + sumof (fun x => if Nat.eqb (idx x) p then val x else 0) l.
  Proof.
    induction l as [|x l IH]; intros A H.
    - exists A. split; [reflexivity|]. split; auto. intros p. rewrite (sumof_nil K). ring.
    - assert (Hx : (idx x < length A)%nat) by (apply H; left; auto).
      destruct (IH (upd A (idx x) (nth (idx x) A 0 + val x))) as (A' & E & L & N).
      { intros y Hy. rewrite upd_len. apply H. now right. }
      exists A'. split; [unfold ups; cbn; rewrite addat_ok by auto; exact E|].
      split; [now rewrite upd_len in L|].
      intros p. rewrite N, sumof_cons, (nth_upd _ _ _ _ _ Hx).
      destruct (Nat.eqb_spec (idx x) p) as [->|Ne]; ring.
  Qed.

  (* loop bodies that read two arrays *)
  Lemma body2 (B D A : list K) b d p (F : K -> K -> K) : (b < length B)%nat -> (d < length D)%nat ->
    (x <- aget B b ;; y <- aget D d ;; addat A p (F x y)) = addat A p (F (nth b B 0) (nth d D 0)).
  Proof. intros H1 H2. rewrite (aget_nth B b 0), (aget_nth D d 0) by auto. reflexivity. Qed.

  Definition mat (N : nat) (B : list K) (i j : nat) : K := nth (i * N + j) B 0.
  Definition sym (M : nat) (D : list K) (i j : nat) : K := nth (sym_comp M i j) D 0.

  Lemma flat_lt i j M N : (i < M)%nat -> (j < N)%nat -> (i * N + j < M * N)%nat.
  Proof. intros. nia. Qed.
  Lemma flat_eqb i j i' j' N : (j < N)%nat -> (j' < N)%nat ->
    Nat.eqb (i * N + j) (i' * N + j') = Nat.eqb i i' && Nat.eqb j j'.
  Proof.
    intros H H'. destruct (Nat.eqb_spec i i') as [->|Ne]; cbn [andb].
    - destruct (Nat.eqb_spec j j') as [->|Nj]; [apply Nat.eqb_refl|]. apply Nat.eqb_neq. lia.
    - apply Nat.eqb_neq. intros E. apply Ne. nia.
  Qed.
  Lemma delta (n m : nat) (f : nat -> K) : (m < n)%nat -> sumof (fun x => if Nat.eqb x m then f x else 0) (seq 0 n) = f m.
  Proof. intros H. apply sumof_delta_nat; [apply seq_NoDup|apply in_seq; lia]. Qed.
  Lemma sum_flat {X Y} (h : X -> list Y) (f : Y -> K) l : sumof f (flat_map h l) = sumof (fun x => sumof f (h x)) l.
  Proof. induction l as [|x l IH]; cbn [flat_map]; auto. now rewrite sumof_app, sumof_cons, IH. Qed.
  (* sum over the triangle as a double sum *)
  Lemma sum_U n (g : nat -> nat -> K) :
    sumof (fun x => g (fst x) (snd x)) (U n)
    = sumof (fun i => sumof (fun j => if (i <=? j)%nat then g i j else 0) (seq 0 n)) (seq 0 n).
  Proof.
    unfold U, Useg. rewrite sum_flat. apply sumof_ext. intros i Hi. apply in_seq in Hi. rewrite sumof_map.
    cbn [fst snd]. replace (seq 0 n) with (seq 0 i ++ seq i (n - i)).
    2:{ rewrite <- seq_app. f_equal. lia. }
    rewrite sumof_app. rewrite (sumof_zero _ (seq 0 i)).
    2:{ intros j Hj. apply in_seq in Hj. destruct (Nat.leb_spec i j); [lia|auto]. }
    replace (0 + n - i)%nat with (n - i)%nat by lia.
    rewrite (sumof_ext (fun j => if (i <=? j)%nat then g i j else 0) (g i) (seq i (n - i))).
    2:{ intros j Hj. apply in_seq in Hj. destruct (Nat.leb_spec i j); [auto|lia]. }
    ring_simplify. reflexivity.
  Qed.
  Lemma sum_cond {X} (c : X -> bool) (b : bool) (f : X -> K) l :
    sumof (fun x => if b && c x then f x else 0) l = if b then sumof (fun x => if c x then f x else 0) l else 0.
  Proof. destruct b; cbn; auto. apply sumof_zero; auto. Qed.

  (* ---- B^T D B *)

  Definition cells3 (L : list (nat * nat)) (n : nat) : list ((nat * nat) * nat) :=
    flat_map (fun x => map (pair x) (seq 0 n)) L.
  Lemma cells3_in L n x i : In (x, i) (cells3 L n) <-> In x L /\ (i < n)%nat.
  Proof.
    unfold cells3. rewrite in_flat_map. split.
    - intros (y & Hy & H). apply in_map_iff in H as (k & E & H). injection E as -> ->. apply in_seq in H. split; auto; lia.
    - intros (Hx & Hi). exists x. split; auto. apply in_map_iff. exists i. split; auto. apply in_seq. lia.
  Qed.
  Lemma sum_cells3 L n (f : (nat * nat) * nat -> K) :
    sumof f (cells3 L n) = sumof (fun x => sumof (fun i => f (x, i)) (seq 0 n)) L.
  Proof. unfold cells3. rewrite sum_flat. apply sumof_ext. intros x _. apply sumof_map. Qed.

  Section BTDB.
  Variables (M N : nat) (B D : list K).
  Hypothesis LB : length B = (M * N)%nat.
  Hypothesis LD : length D = tri M.

  Lemma step1 (A : list K) : length A = (N * M)%nat ->
    for_ 0 M (fun s k =>
      for_ k (M - k) (fun s j =>
        A <- for_ 0 N (fun A i => b <- aget B (k * N + i) ;; d <- aget D (snd s) ;; addat A (i * M + j) (b * d)) (fst s) ;;
        Ok (A, S (snd s))) s) (A, 0%nat)
    = (A' <- ups (fun y => snd y * M + snd (fst y))%nat
              (fun y => mat N B (fst (fst y)) (snd y) * sym M D (fst (fst y)) (snd (fst y))) (cells3 (U M) N) A ;; Ok (A', tri M)).
  Proof.
    intros LA. unfold for_. rewrite (of_nest (fun k s j => A0 <- ofold (fun A i => b <- aget B (k * N + i) ;; d <- aget D (snd s) ;; addat A (i * M + j) (b * d)) (seq 0 N) (fst s) ;; Ok (A0, S (snd s))) (fun k => k) (fun k => (M - k)%nat)).
    change (flat_map (fun i => map (pair i) (seq i (M - i))) (seq 0 M)) with (U M).
    pose (f := fun (A : list K) (y : (nat * nat) * nat) => ofold (fun A i => b <- aget B (fst (fst y) * N + i) ;; d <- aget D (snd y) ;; addat A (i * M + snd (fst y)) (b * d)) (seq 0 N) A).
    etransitivity; [apply (of_count_U M f)|].
    f_equal. unfold ups, cells3. rewrite of_flat. apply of_ext. intros A0 [k j] Hx. rewrite of_map.
    unfold f. cbn [fst snd]. apply of_ext. intros A1 i Hi. apply in_seq in Hi. apply U_in in Hx.
    rewrite body2; auto.
    - rewrite LB. apply flat_lt; lia.
    - rewrite LD. apply comp_lt; lia.
  Qed.
  Lemma of_nest2 {S} (f : nat -> S -> nat -> outcome S) (h : S -> S) n s :
    ofold (fun s j => ofold (f j) (seq (j + 1) (n - (j + 1))) (h s)) (seq 0 n) s
    = ofold (fun s x => if Nat.eqb (fst x) (snd x) then Ok (h s) else f (fst x) s (snd x)) (U n) s.
  Proof.
    unfold U, Useg. rewrite of_flat. apply of_ext. intros t j Hj. apply in_seq in Hj. rewrite of_map.
    replace (seq j (0 + n - j)) with (j :: seq (j + 1) (n - (j + 1))).
    2:{ replace (0 + n - j)%nat with (Datatypes.S (n - (j + 1))) by lia. cbn [seq]. now rewrite Nat.add_1_r. }
    cbn [ofold fst snd]. rewrite Nat.eqb_refl. cbn [obind]. apply of_ext. intros u k Hk. apply in_seq in Hk.
    destruct (Nat.eqb_spec j k); [lia|reflexivity].
  Qed.
  Lemma addat_0 (A : list K) p : (p < length A)%nat -> addat A p 0 = Ok A.
  Proof.
    intros H. rewrite addat_ok by auto. f_equal. clear -H. revert p H. induction A as [|a A IH]; intros [|p] H; cbn in *; try lia.
    - f_equal. ring.
    - f_equal. apply IH. lia.
  Qed.
  Lemma step2 (A : list K) : length A = (N * M)%nat ->
    for_ 0 M (fun s j =>
      for_ (j + 1) (M - (j + 1)) (fun s k =>
        A <- for_ 0 N (fun A i => b <- aget B (k * N + i) ;; d <- aget D (snd s) ;; addat A (i * M + j) (b * d)) (fst s) ;;
        Ok (A, S (snd s))) (fst s, S (snd s))) (A, 0%nat)
    = (A' <- ups (fun y => snd y * M + fst (fst y))%nat
              (fun y => mat N B (snd (fst y)) (snd y) * sym M D (fst (fst y)) (snd (fst y)))
              (cells3 (filter (fun x => negb (Nat.eqb (fst x) (snd x))) (U M)) N) A ;; Ok (A', tri M)).
  Proof.
    intros LA. unfold for_.
    rewrite (of_nest2 (fun j s k => A0 <- ofold (fun A i => b <- aget B (k * N + i) ;; d <- aget D (snd s) ;; addat A (i * M + j) (b * d)) (seq 0 N) (fst s) ;; Ok (A0, S (snd s))) (fun s => (fst s, S (snd s)))).
    pose (f := fun (A : list K) (y : (nat * nat) * nat) => if Nat.eqb (fst (fst y)) (snd (fst y)) then Ok A else
       ofold (fun A i => b <- aget B (snd (fst y) * N + i) ;; d <- aget D (snd y) ;; addat A (i * M + fst (fst y)) (b * d)) (seq 0 N) A).
    etransitivity; [|etransitivity; [apply (of_count_U M f)|]].
    - apply of_ext. intros [A0 dp] [j k] _. unfold f. cbn [fst snd]. destruct (Nat.eqb j k); reflexivity.
    - f_equal. unfold ups, cells3. rewrite of_flat.
      assert (G : forall L A, (forall x, In x L -> In x (U M)) ->
        ofold (fun s x => f s (x, sym_comp M (fst x) (snd x))) L A =
        ofold (fun s a => ofold (fun A0 x => addat A0 (snd x * M + fst (fst x)) (mat N B (snd (fst x)) (snd x) * sym M D (fst (fst x)) (snd (fst x)))) (map (pair a) (seq 0 N)) s)
          (filter (fun x => negb (Nat.eqb (fst x) (snd x))) L) A).
      { clear A LA. induction L as [|[j k] L IH]; intros A HL; [reflexivity|].
        assert (Hx : In (j, k) (U M)) by (apply HL; left; auto). apply U_in in Hx.
        cbn [ofold filter fst snd]. unfold f at 1. cbn [fst snd]. destruct (Nat.eqb_spec j k) as [->|Ne]; cbn [negb].
        - cbn [obind]. apply IH. intros; apply HL; now right.
        - cbn [ofold]. rewrite of_map. cbn [fst snd].
          match goal with |- obind ?a _ = obind ?b _ => assert (Eab : a = b) end.
          { apply of_ext. intros A1 i Hi. apply in_seq in Hi. rewrite body2; auto.
            - rewrite LB. apply flat_lt; lia.
            - rewrite LD. apply comp_lt; lia. }
          rewrite Eab. match goal with |- obind ?a _ = _ => destruct a as [A2| | |] end; cbn [obind]; auto.
          apply IH. intros; apply HL; now right. }
      apply G. auto.
  Qed.

  (* A = B^T D *)
  Definition BTD (i j : nat) : K := sumof (fun k => mat N B k i * sym M D k j) (seq 0 M).
  Lemma stepA : exists A, 
    (s1 <- for_ 0 M (fun s k =>
            for_ k (M - k) (fun s j =>
              A <- for_ 0 N (fun A i => b <- aget B (k * N + i) ;; d <- aget D (snd s) ;; addat A (i * M + j) (b * d)) (fst s) ;;
              Ok (A, S (snd s))) s) (repeat 0 (N * M), 0%nat) ;;
     for_ 0 M (fun s j =>
      for_ (j + 1) (M - (j + 1)) (fun s k =>
        A <- for_ 0 N (fun A i => b <- aget B (k * N + i) ;; d <- aget D (snd s) ;; addat A (i * M + j) (b * d)) (fst s) ;;
        Ok (A, S (snd s))) (fst s, S (snd s))) (fst s1, 0%nat)) = Ok (A, tri M)
    /\ length A = (N * M)%nat /\ forall i j, (i < N)%nat -> (j < M)%nat -> mat M A i j = BTD i j.
  Proof.
    assert (L0 : length (repeat (0 : K) (N * M)) = (N * M)%nat) by apply repeat_length.
    rewrite (step1 _ L0).
    edestruct (@ups_ok _ (fun y : (nat * nat) * nat => snd y * M + snd (fst y))%nat
       (fun y => mat N B (fst (fst y)) (snd y) * sym M D (fst (fst y)) (snd (fst y))) (cells3 (U M) N) (repeat 0 (N * M))) as (A1 & E1 & L1 & N1).
    { intros [[k j] i] Hx. apply cells3_in in Hx as (Hx & Hi). apply U_in in Hx. rewrite L0. cbn [fst snd]. apply flat_lt; lia. }
    rewrite E1. cbn [obind fst]. rewrite step2 by congruence.
    edestruct (@ups_ok _ (fun y : (nat * nat) * nat => snd y * M + fst (fst y))%nat
       (fun y => mat N B (snd (fst y)) (snd y) * sym M D (fst (fst y)) (snd (fst y)))
       (cells3 (filter (fun x => negb (Nat.eqb (fst x) (snd x))) (U M)) N) A1) as (A2 & E2 & L2 & N2).
    { intros [[k j] i] Hx. apply cells3_in in Hx as (Hx & Hi). apply filter_In in Hx as (Hx & _). apply U_in in Hx. rewrite L1, L0. cbn [fst snd]. apply flat_lt; lia. }
    exists A2. rewrite E2. cbn [obind]. split; [auto|]. split; [congruence|].
    intros i j Hi Hj. unfold mat at 1. rewrite N2, N1.
    replace (nth (i * M + j) (repeat (0 : K) (N * M)) 0) with (0 : K).
    2:{ symmetry. rewrite nth_repeat. reflexivity. }
    rewrite !sum_cells3, (sumof_filter K).
    rewrite (sumof_ext _ (fun x => (if Nat.eqb (snd x) j then mat N B (fst x) i * sym M D (fst x) (snd x) else 0)) (U M)).
    2:{ intros [k j'] Hx. apply U_in in Hx. cbn [fst snd].
        rewrite (sumof_ext _ (fun i' => if Nat.eqb i' i then (if Nat.eqb j' j then mat N B k i' * sym M D k j' else 0) else 0)).
        2:{ intros i' Hi'. apply in_seq in Hi'. rewrite flat_eqb by lia. destruct (Nat.eqb i' i), (Nat.eqb j' j); reflexivity. }
        now rewrite delta. }
    rewrite (sum_U M (fun k j' => if Nat.eqb j' j then mat N B k i * sym M D k j' else 0)).
    rewrite (sumof_ext (fun x : nat * nat => if negb (Nat.eqb (fst x) (snd x)) then _ else _)
               (fun x => (if Nat.eqb (fst x) j then if Nat.eqb (fst x) (snd x) then 0 else mat N B (snd x) i * sym M D (fst x) (snd x) else 0)) (U M)).
    2:{ intros [j' k] Hx. apply U_in in Hx. cbn [fst snd]. destruct (Nat.eqb_spec j' k) as [->|Ne]; cbn [negb].
        { destruct (Nat.eqb k j); reflexivity. }
        rewrite (sumof_ext _ (fun i' => if Nat.eqb i' i then (if Nat.eqb j' j then mat N B k i' * sym M D j' k else 0) else 0)).
        2:{ intros i' Hi'. apply in_seq in Hi'. rewrite flat_eqb by lia. destruct (Nat.eqb i' i), (Nat.eqb j' j); reflexivity. }
        now rewrite delta. }
    rewrite (sum_U M (fun j' k => if Nat.eqb j' j then if Nat.eqb j' k then 0 else mat N B k i * sym M D j' k else 0)).
    rewrite (sumof_swap K). 
    rewrite (sumof_ext (fun j' => sumof (fun k => if (k <=? j')%nat then _ else _) _)
       (fun j' => if Nat.eqb j' j then sumof (fun k => if (k <=? j')%nat then mat N B k i * sym M D k j' else 0) (seq 0 M) else 0)).
    2:{ intros j' Hj'. destruct (Nat.eqb j' j); auto. apply sumof_zero. intros k _. now destruct (k <=? j')%nat. }
    rewrite delta by auto.
    rewrite (sumof_ext (fun j' => sumof (fun k => if (j' <=? k)%nat then _ else _) _)
       (fun j' => if Nat.eqb j' j then sumof (fun k => if (j' <=? k)%nat then if Nat.eqb j' k then 0 else mat N B k i * sym M D j' k else 0) (seq 0 M) else 0)).
    2:{ intros j' Hj'. destruct (Nat.eqb j' j); auto. apply sumof_zero. intros k _. now destruct (j' <=? k)%nat. }
    rewrite delta by auto.
    match goal with |- 0 + ?a + ?b = _ => replace (0 + a + b) with (a + b) by ring end.
    rewrite <- (sumof_add K). apply sumof_ext. intros k Hk.
    destruct (Nat.leb_spec k j), (Nat.leb_spec j k), (Nat.eqb_spec j k); try lia; unfold sym; rewrite ?(comp_sym M j k); try ring.
  Qed.

  Definition BTDB (i j : nat) : K := sumof (fun k => sumof (fun l => mat N B k i * sym M D k l * mat N B l j) (seq 0 M)) (seq 0 M).
  Lemma BTDB_sym i j : BTDB i j = BTDB j i.
  Proof.
    unfold BTDB. rewrite (sumof_swap K). apply sumof_ext. intros l _. apply sumof_ext. intros k _.
    unfold sym. rewrite (comp_sym M k l). ring.
  Qed.
  Lemma step3 (A R : list K) coef : length A = (N * M)%nat -> length R = tri N ->
    for_ 0 N (fun s i =>
      for_ i (N - i) (fun s j =>
        R <- for_ 0 M (fun R k => a <- aget A (i * M + k) ;; b <- aget B (k * N + j) ;; addat R (snd s) (a * b * coef)) (fst s) ;;
        Ok (R, S (snd s))) s) (R, 0%nat)
    = (R' <- ups (fun y => sym_comp N (fst (fst y)) (snd (fst y)))
              (fun y => mat M A (fst (fst y)) (snd y) * mat N B (snd y) (snd (fst y)) * coef) (cells3 (U N) M) R ;; Ok (R', tri N)).
  Proof.
    intros LA LR. unfold for_. rewrite (of_nest (fun i s j => R0 <- ofold (fun R k => a <- aget A (i * M + k) ;; b <- aget B (k * N + j) ;; addat R (snd s) (a * b * coef)) (seq 0 M) (fst s) ;; Ok (R0, S (snd s))) (fun k => k) (fun k => (N - k)%nat)).
    change (flat_map (fun i => map (pair i) (seq i (N - i))) (seq 0 N)) with (U N).
    pose (f := fun (R : list K) (y : (nat * nat) * nat) => ofold (fun R k => a <- aget A (fst (fst y) * M + k) ;; b <- aget B (k * N + snd (fst y)) ;; addat R (snd y) (a * b * coef)) (seq 0 M) R).
    etransitivity; [apply (of_count_U N f)|].
    f_equal. unfold ups, cells3. rewrite of_flat. apply of_ext. intros A0 [i j] Hx. rewrite of_map.
    unfold f. cbn [fst snd]. apply of_ext. intros A1 k Hi. apply in_seq in Hi. apply U_in in Hx.
    rewrite (body2 A B A1 _ _ _ (fun a b => a * b * coef)); auto.
    - rewrite LA. apply flat_lt; lia.
    - rewrite LB. apply flat_lt; lia.
  Qed.
  Lemma sym_comp_eqb i j i' j' : (i <= j < N)%nat -> (i' <= j' < N)%nat ->
    Nat.eqb (sym_comp N i j) (sym_comp N i' j') = Nat.eqb i i' && Nat.eqb j j'.
  Proof.
    intros H H'. destruct (Nat.eqb_spec i i') as [->|Ni]; [destruct (Nat.eqb_spec j j') as [->|Nj]; [apply Nat.eqb_refl|]|];
    cbn [andb]; apply Nat.eqb_neq; intros E; apply sym_comp_inj in E; lia.
  Qed.

  Theorem matBTDB_ok coef (R : list K) : length R = tri N ->
    exists R', matBTDBprod M N B D coef R = Ok R' /\ length R' = length R /\
      forall i j, (i < N)%nat -> (j < N)%nat -> sym N R' i j = sym N R i j + coef * BTDB i j.
  Proof.
    intros LR. destruct stepA as (A & EA & LA & NA). unfold matBTDBprod.
    apply obind_ok in EA as (s1 & E1 & E2). rewrite E1. cbn [obind]. rewrite E2. cbn [obind fst].
    rewrite step3 by auto.
    edestruct (@ups_ok _ (fun y : (nat * nat) * nat => sym_comp N (fst (fst y)) (snd (fst y)))
       (fun y => mat M A (fst (fst y)) (snd y) * mat N B (snd y) (snd (fst y)) * coef) (cells3 (U N) M) R) as (R' & ER & LR' & NR).
    { intros [[i j] k] Hx. apply cells3_in in Hx as (Hx & Hi). apply U_in in Hx. rewrite LR. cbn [fst snd]. apply comp_lt; lia. }
    rewrite ER. cbn [obind fst]. exists R'. split; [auto|]. split; [auto|].
    assert (G : forall i j, (i <= j < N)%nat -> sym N R' i j = sym N R i j + coef * BTDB i j).
    { intros i j H. unfold sym at 1 2. rewrite NR. f_equal. rewrite sum_cells3.
      rewrite (sumof_ext _ (fun x => if Nat.eqb (fst x) i then (if Nat.eqb (snd x) j then sumof (fun k => mat M A i k * mat N B k j * coef) (seq 0 M) else 0) else 0)).
      2:{ intros [i' j'] Hx. apply U_in in Hx. cbn [fst snd]. rewrite sym_comp_eqb by auto.
          destruct (Nat.eqb_spec i' i) as [->|]; [destruct (Nat.eqb_spec j' j) as [->|]|]; cbn [andb]; auto; apply sumof_zero; auto. }
      rewrite (sum_U N (fun i' j' => if Nat.eqb i' i then (if Nat.eqb j' j then sumof (fun k => mat M A i k * mat N B k j * coef) (seq 0 M) else 0) else 0)).
      rewrite (sumof_ext _ (fun i' => if Nat.eqb i' i then sumof (fun j' => if Nat.eqb j' j then (if (i' <=? j')%nat then sumof (fun k => mat M A i k * mat N B k j * coef) (seq 0 M) else 0) else 0) (seq 0 N) else 0)).
      2:{ intros i' _. destruct (Nat.eqb i' i).
          - apply sumof_ext. intros j' _. now destruct (i' <=? j')%nat, (Nat.eqb j' j).
          - apply sumof_zero. intros j' _. now destruct (i' <=? j')%nat. }
      rewrite delta, delta by lia. destruct (Nat.leb_spec i j); [|lia].
      rewrite (sumof_scal_r K), (sumof_ext _ (fun k => BTD i k * mat N B k j)).
      2:{ intros k Hk. apply in_seq in Hk. now rewrite NA by lia. }
      unfold BTDB. rewrite (sumof_swap K). rewrite (sumof_ext (fun k => BTD i k * mat N B k j) (fun a => sumof (fun b => mat N B b i * sym M D b a * mat N B a j) (seq 0 M))); [ring|].
      intros l _. unfold BTD. now rewrite <- (sumof_scal_r K). }
    intros i j Hi Hj. destruct (Nat.le_gt_cases i j) as [H|H]; [apply G; lia|].
    rewrite BTDB_sym. unfold sym. rewrite (comp_sym N i j). apply G. lia.
  Qed.
  End BTDB.

  (* ---- the other products *)
  Definition grid2 (m n : nat) : list (nat * nat) := flat_map (fun i => map (pair i) (seq 0 n)) (seq 0 m).
  Lemma grid2_in m n i j : In (i, j) (grid2 m n) <-> (i < m)%nat /\ (j < n)%nat.
  Proof.
    unfold grid2. rewrite in_flat_map. split.
    - intros (a & Ha & H). apply in_map_iff in H as (b & E & Hb). injection E as -> ->. apply in_seq in Ha, Hb. lia.
    - intros (H1 & H2). exists i. split; [apply in_seq; lia|]. apply in_map. apply in_seq. lia.
  Qed.
  Lemma sum_grid2 m n (f : nat * nat -> K) : sumof f (grid2 m n) = sumof (fun i => sumof (fun j => f (i, j)) (seq 0 n)) (seq 0 m).
  Proof. unfold grid2. rewrite sum_flat. apply sumof_ext. intros. apply sumof_map. Qed.
  Lemma grid2_pos n : forall m, map (fun x => fst x * n + snd x)%nat (grid2 m n) = seq 0 (m * n).
  Proof.
    unfold grid2. induction m as [|m IH]; [reflexivity|].
    rewrite seq_S, flat_map_app, map_app, IH. cbn [flat_map]. rewrite app_nil_r, map_map. cbn [fst snd].
    rewrite (map_ext _ (fun d => m * n + d)%nat) by auto. rewrite map_add_seq.
    replace (S m * n)%nat with (m * n + n)%nat by lia. rewrite seq_app. f_equal. f_equal; lia.
  Qed.
  Lemma of_count_grid {S} m n (f : S -> (nat * nat) * nat -> outcome S) s :
    ofold (fun (t : S * nat) x => s' <- f (fst t) (x, snd t) ;; Ok (s', Datatypes.S (snd t))) (grid2 m n) (s, 0%nat)
    = (s' <- ofold (fun s x => f s (x, fst x * n + snd x)%nat) (grid2 m n) s ;; Ok (s', m * n)%nat).
  Proof.
    rewrite of_count. assert (L : length (grid2 m n) = (m * n)%nat).
    { rewrite <- (map_length (fun x => fst x * n + snd x)%nat), grid2_pos. apply seq_length. }
    rewrite L. rewrite <- (grid2_pos n m).
    assert (E : forall l : list (nat * nat), combine l (map (fun x => fst x * n + snd x)%nat l) = map (fun x => (x, fst x * n + snd x)%nat) l).
    { induction l as [|a l IH]; cbn; congruence. }
    rewrite E, of_map. reflexivity.
  Qed.

  (* result arrays filled cell by cell: nested loops over rows and summation index *)
  Lemma rowloop m n (R : list K) (g : nat -> nat -> K) (body : nat -> list K -> nat -> outcome (list K)) :
    (m <= length R)%nat ->
    (forall i R j, (i < m)%nat -> (j < n)%nat -> body i R j = addat R i (g i j)) ->
    exists R', for_ 0 m (fun R i => for_ 0 n (body i) R) R = Ok R' /\ length R' = length R /\
      forall i, nth i R' 0 = nth i R 0 + if (i <? m)%nat then sumof (g i) (seq 0 n) else 0.
  Proof.
    intros LR HB. unfold for_. rewrite (of_nest body (fun _ => 0%nat) (fun _ => n)). fold (grid2 m n).
    destruct (@ups_ok _ (fun x : nat * nat => fst x) (fun x => g (fst x) (snd x)) (grid2 m n) R) as (R' & E & L & V).
    { intros [i j] H. apply grid2_in in H. cbn. lia. }
    exists R'. split.
    { rewrite <- E. apply of_ext. intros s [i j] H. apply grid2_in in H. apply HB; apply H. }
    split; auto. intros i. rewrite V, sum_grid2. f_equal. cbn [fst snd].
    rewrite (sumof_ext _ (fun i' => if Nat.eqb i' i then sumof (g i') (seq 0 n) else 0)).
    2:{ intros i' _. destruct (Nat.eqb i' i); auto. apply sumof_zero; auto. }
    destruct (Nat.ltb_spec i m).
    - now rewrite delta.
    - apply sumof_zero. intros i' Hi'. apply in_seq in Hi'. destruct (Nat.eqb_spec i' i); [lia|auto].
  Qed.
  Lemma cellloop m n l (R : list K) (g : nat -> nat -> nat -> K) (body : nat -> nat -> list K * nat -> list K -> nat -> outcome (list K)) :
    (m * n <= length R)%nat ->
    (forall i j R s k, (i < m)%nat -> (j < n)%nat -> (k < l)%nat -> body i j s R k = addat R (snd s) (g i j k)) ->
    exists R', (s <- for_ 0 m (fun s i => for_ 0 n (fun s j => R <- for_ 0 l (body i j s) (fst s) ;; Ok (R, S (snd s))) s) (R, 0%nat) ;; Ok (fst s)) = Ok R'
      /\ length R' = length R /\
      (forall i j, (i < m)%nat -> (j < n)%nat -> mat n R' i j = mat n R i j + sumof (g i j) (seq 0 l)) /\
      (forall p, (m * n <= p)%nat -> nth p R' 0 = nth p R 0).
  Proof.
    intros LR HB. unfold for_.
    rewrite (of_nest (fun i (s : list K * nat) j => R0 <- ofold (body i j s) (seq 0 l) (fst s) ;; Ok (R0, S (snd s))) (fun _ => 0%nat) (fun _ => n)).
    fold (grid2 m n).
    pose (f := fun (R : list K) (y : (nat * nat) * nat) => ofold (fun R k => addat R (snd y) (g (fst (fst y)) (snd (fst y)) k)) (seq 0 l) R).
    destruct (@ups_ok _ (fun y : (nat * nat) * nat => fst (fst y) * n + snd (fst y))%nat (fun y => g (fst (fst y)) (snd (fst y)) (snd y)) (cells3 (grid2 m n) l) R) as (R' & E & L & V).
    { intros [[i j] k] H. apply cells3_in in H as (H & Hk). apply grid2_in in H. cbn [fst snd].
      pose proof (flat_lt i j m n). lia. }
    exists R'. split.
    { replace (ofold (fun (s : list K * nat) (x : nat * nat) => R0 <- ofold (body (fst x) (snd x) s) (seq 0 l) (fst s);; Ok (R0, S (snd s))) (grid2 m n) (R, 0%nat))
        with (s' <- ofold (fun s x => f s (x, fst x * n + snd x)%nat) (grid2 m n) R ;; Ok (s', m * n)%nat).
      2:{ rewrite <- of_count_grid. apply of_ext. intros s [i j] H. apply grid2_in in H. unfold f. cbn [fst snd]. f_equal.
          apply of_ext. intros R1 k Hk. apply in_seq in Hk. symmetry. apply HB; lia. }
      replace (ofold (fun s x => f s (x, fst x * n + snd x)%nat) (grid2 m n) R) with (Ok R'); [reflexivity|].
      rewrite <- E. unfold ups, cells3. rewrite of_flat. apply of_ext. intros s [i j] _. rewrite of_map. reflexivity. }
    split; auto. split.
    - intros i j Hi Hj. unfold mat. rewrite V, sum_cells3, sum_grid2. f_equal. cbn [fst snd].
      rewrite (sumof_ext _ (fun i' => if Nat.eqb i' i then sumof (fun j' => if Nat.eqb j' j then sumof (g i' j') (seq 0 l) else 0) (seq 0 n) else 0)).
      2:{ intros i' _. destruct (Nat.eqb_spec i' i) as [->|Ni].
          - apply sumof_ext. intros j' Hj'. apply in_seq in Hj'. rewrite flat_eqb by lia. rewrite Nat.eqb_refl. cbn [andb].
            destruct (Nat.eqb j' j); auto. apply sumof_zero; auto.
          - apply sumof_zero. intros j' Hj'. apply in_seq in Hj'. rewrite flat_eqb by lia. destruct (Nat.eqb_spec i' i); [lia|].
            cbn [andb]. apply sumof_zero; auto. }
      now rewrite delta, delta.
    - intros p Hp. rewrite V, sum_cells3, sum_grid2. rewrite sumof_zero; [ring|]. intros i Hi. apply sumof_zero. intros j Hj.
      apply in_seq in Hi, Hj. cbn [fst snd]. pose proof (flat_lt i j m n). destruct (Nat.eqb_spec (i * n + j) p); [lia|]. apply sumof_zero; auto.
  Qed.

  (* B: M x N *)
  Theorem matBTV_ok M N (B V : list K) coef R : length B = (M * N)%nat -> length V = M -> length R = N ->
    exists R', matBTVprod M N B V coef R = Ok R' /\ length R' = N /\
      forall i, (i < N)%nat -> nth i R' 0 = nth i R 0 + coef * sumof (fun j => mat N B j i * nth j V 0) (seq 0 M).
  Proof.
    intros LB LV LR.
    destruct (rowloop N M R (fun i j => mat N B j i * nth j V 0 * coef)
      (fun i R j => b <- aget B (j * N + i) ;; v <- aget V j ;; addat R i (b * v * coef))) as (R' & E & L & W); [lia| |].
    { intros i R0 j Hi Hj. rewrite (body2 B V R0 _ _ _ (fun b v => b * v * coef)); auto; [|lia].
      rewrite LB. apply flat_lt; lia. }
    exists R'. split; [exact E|]. split; [congruence|]. intros i Hi. rewrite W. apply Nat.ltb_lt in Hi. rewrite Hi.
    rewrite (sumof_scal_r K). ring.
  Qed.
  Theorem matBV_ok M N (B V : list K) coef R : length B = (M * N)%nat -> length V = N -> length R = M ->
    exists R', matBVprod M N B V coef R = Ok R' /\ length R' = M /\
      forall i, (i < M)%nat -> nth i R' 0 = nth i R 0 + coef * sumof (fun j => mat N B i j * nth j V 0) (seq 0 N).
  Proof.
    intros LB LV LR.
    destruct (rowloop M N R (fun i j => mat N B i j * nth j V 0 * coef)
      (fun i R j => b <- aget B (i * N + j) ;; v <- aget V j ;; addat R i (b * v * coef))) as (R' & E & L & W); [lia| |].
    { intros i R0 j Hi Hj. rewrite (body2 B V R0 _ _ _ (fun b v => b * v * coef)); auto; [|lia].
      rewrite LB. apply flat_lt; lia. }
    exists R'. split; [exact E|]. split; [congruence|]. intros i Hi. rewrite W. apply Nat.ltb_lt in Hi. rewrite Hi.
    rewrite (sumof_scal_r K). ring.
  Qed.
  Theorem matAB_ok M1 N1 N2 (A B : list K) coef R : length A = (M1 * N1)%nat -> length B = (N1 * N2)%nat -> length R = (M1 * N2)%nat ->
    exists R', matABprod M1 N1 N2 A B coef R = Ok R' /\ length R' = (M1 * N2)%nat /\
      forall i j, (i < M1)%nat -> (j < N2)%nat ->
        mat N2 R' i j = mat N2 R i j + coef * sumof (fun k => mat N1 A i k * mat N2 B k j) (seq 0 N1).
  Proof.
    intros LA LB LR.
    destruct (cellloop M1 N2 N1 R (fun i j k => mat N1 A i k * mat N2 B k j * coef)
      (fun i j s R k => a <- aget A (i * N1 + k) ;; b <- aget B (k * N2 + j) ;; addat R (snd s) (a * b * coef))) as (R' & E & L & W & _); [lia| |].
    { intros i j R0 s k Hi Hj Hk. rewrite (body2 A B R0 _ _ _ (fun b v => b * v * coef)); auto.
      - rewrite LA. apply flat_lt; lia.
      - rewrite LB. apply flat_lt; lia. }
    exists R'. split; [exact E|]. split; [congruence|]. intros i j Hi Hj. rewrite W by auto. rewrite (sumof_scal_r K). ring.
  Qed.
  Theorem matATB_ok M1 N1 N2 (A B : list K) coef R : length A = (M1 * N1)%nat -> length B = (M1 * N2)%nat -> length R = (N1 * N2)%nat ->
    exists R', matATBprod M1 N1 N2 A B coef R = Ok R' /\ length R' = (N1 * N2)%nat /\
      forall i j, (i < N1)%nat -> (j < N2)%nat ->
        mat N2 R' i j = mat N2 R i j + coef * sumof (fun k => mat N1 A k i * mat N2 B k j) (seq 0 M1).
  Proof.
    intros LA LB LR.
    destruct (cellloop N1 N2 M1 R (fun i j k => mat N1 A k i * mat N2 B k j * coef)
      (fun i j s R k => a <- aget A (k * N1 + i) ;; b <- aget B (k * N2 + j) ;; addat R (snd s) (a * b * coef))) as (R' & E & L & W & _); [lia| |].
    { intros i j R0 s k Hi Hj Hk. rewrite (body2 A B R0 _ _ _ (fun b v => b * v * coef)); auto.
      - rewrite LA. apply flat_lt; lia.
      - rewrite LB. apply flat_lt; lia. }
    exists R'. split; [exact E|]. split; [congruence|]. intros i j Hi Hj. rewrite W by auto. rewrite (sumof_scal_r K). ring.
  Qed.

  (* toMat *)
  Lemma count_wrap {S} n (f : S -> (nat * nat) * nat -> outcome S) s : (Z.of_nat (tri n) < 65536)%Z ->
    ofold (fun (t : S * nat) x => s' <- f (fst t) (x, snd t) ;; Ok (s', wrap16 (Datatypes.S (snd t)))) (U n) (s, 0%nat)
    = ofold (fun (t : S * nat) x => s' <- f (fst t) (x, snd t) ;; Ok (s', Datatypes.S (snd t))) (U n) (s, 0%nat).
  Proof.
    intros H. rewrite <- U_length in H. revert H. generalize (U n). intros L.
    assert (G : forall L s dp, (Z.of_nat (dp + length L) < 65536)%Z ->
      ofold (fun (t : S * nat) (x : nat * nat) => s' <- f (fst t) (x, snd t) ;; Ok (s', wrap16 (Datatypes.S (snd t)))) L (s, dp)
      = ofold (fun (t : S * nat) x => s' <- f (fst t) (x, snd t) ;; Ok (s', Datatypes.S (snd t))) L (s, dp)).
    { clear. induction L as [|x L IH]; intros s dp H; [reflexivity|]. cbn [length] in H. cbn.
      destruct (f s (x, dp)) as [s1| | |]; cbn; auto. rewrite wrap16_small by lia. apply IH. lia. }
    intros H. apply G. exact H.
  Qed.
  Theorem toMat_ok n (D : list K) : length D = tri n -> (Z.of_nat (tri n) < 65536)%Z ->
    exists Mt, sym_toMat n D = Ok Mt /\ length Mt = (n * n)%nat /\
      forall i j, (i < n)%nat -> (j < n)%nat -> mat n Mt i j = sym n D i j.
  Proof.
    intros LD HT. unfold sym_toMat, for_.
    rewrite (of_nest (fun i (s : list K * nat) j => d <- aget D (snd s) ;; m1 <- aset (fst s) (i * n + j) d ;; m2 <- aset m1 (j * n + i) d ;; Ok (m2, wrap16 (S (snd s)))) (fun i => i) (fun i => n - i)%nat).
    change (flat_map (fun i => map (pair i) (seq i (n - i))) (seq 0 n)) with (U n).
    pose (f := fun (m : list K) (y : (nat * nat) * nat) => d <- aget D (snd y) ;; m1 <- aset m (fst (fst y) * n + snd (fst y)) d ;; aset m1 (snd (fst y) * n + fst (fst y)) d).
    replace (ofold _ (U n) (repeat 0 (n * n), 0%nat)) with (s' <- ofold (fun s x => f s (x, sym_comp n (fst x) (snd x))) (U n) (repeat 0 (n * n)) ;; Ok (s', tri n)).
    2:{ rewrite <- of_count_U, <- count_wrap by auto. apply of_ext. intros [m dp] [i j] _. unfold f. cbn [fst snd].
        destruct (aget D dp) as [d| | |]; cbn [obind]; auto. destruct (aset m (i * n + j) d) as [m1| | |]; cbn [obind]; auto. }
    assert (G : forall L, (forall x, In x L -> In x (U n)) -> forall m0 : list K, length m0 = (n * n)%nat ->
       (exists m, ofold (fun s x => f s (x, sym_comp n (fst x) (snd x))) L m0 = Ok m /\ length m = (n * n)%nat /\
         (forall i j, (i < n)%nat -> (j < n)%nat -> (In (Nat.min i j, Nat.max i j) L \/ mat n m0 i j = sym n D i j) -> mat n m i j = sym n D i j))).
    { clear HT. induction L as [|[i j] L IH]; intros HL m0 Lm.
      - exists m0. split; [reflexivity|]. split; auto. intros i j Hi Hj [[]|H]; auto.
      - assert (Hx : In (i, j) (U n)) by (apply HL; left; auto). apply U_in in Hx.
        assert (Ef : f m0 ((i, j), sym_comp n i j) = Ok (upd (upd m0 (i * n + j) (nth (sym_comp n i j) D 0)) (j * n + i) (nth (sym_comp n i j) D 0))).
        { unfold f. cbn [fst snd].
          rewrite (aget_nth D _ 0) by (rewrite LD; apply comp_lt; lia). cbn [obind].
          rewrite aset_ok by (rewrite Lm; apply flat_lt; lia). cbn [obind].
          apply aset_ok. rewrite upd_len, Lm; apply flat_lt; lia. }
        cbn [ofold fst snd]. rewrite Ef. cbn [obind].
        destruct (IH (fun x H => HL x (or_intror H)) (upd (upd m0 (i * n + j) (nth (sym_comp n i j) D 0)) (j * n + i) (nth (sym_comp n i j) D 0))) as (m & E & L' & W).
        { now rewrite !upd_len. }
        exists m. split; [exact E|]. split; auto. intros i' j' Hi' Hj' H. apply W; auto.
        assert (F : mat n (upd (upd m0 (i * n + j) (nth (sym_comp n i j) D 0)) (j * n + i) (nth (sym_comp n i j) D 0)) i' j'
                    = if Nat.eqb j i' && Nat.eqb i j' then sym n D i j else if Nat.eqb i i' && Nat.eqb j j' then sym n D i j else mat n m0 i' j').
        { unfold mat. rewrite nth_upd by (rewrite upd_len, Lm; apply flat_lt; lia). rewrite flat_eqb by lia.
          destruct (Nat.eqb j i' && Nat.eqb i j'); auto.
          rewrite nth_upd by (rewrite Lm; apply flat_lt; lia). rewrite flat_eqb by lia. reflexivity. }
        rewrite F. clear F W E IH HL.
        assert (S2 : (j = i' -> i = j' -> sym n D i j = sym n D i' j')%nat) by (intros -> ->; unfold sym; now rewrite comp_sym).
        assert (S3 : (i = i' -> j = j' -> sym n D i j = sym n D i' j')%nat) by (intros -> ->; reflexivity).
        destruct H as [[H|H]|H]; [|left; exact H|].
        + injection H as H1 H2. right.
          destruct (Nat.eqb_spec j i'), (Nat.eqb_spec i j'), (Nat.eqb_spec i i'), (Nat.eqb_spec j j'); cbn [andb]; solve [auto|lia].
        + right.
          destruct (Nat.eqb_spec j i'), (Nat.eqb_spec i j'), (Nat.eqb_spec i i'), (Nat.eqb_spec j j'); cbn [andb]; solve [auto|lia]. }
    destruct (G (U n) (fun _ H => H) (repeat 0 (n * n)) (repeat_length _ _)) as (m & E & L & W).
    rewrite E. cbn [obind fst]. exists m. split; auto. split; auto. intros i j Hi Hj. apply W; auto. left. apply U_in. lia.
  Qed.
  Theorem matSymBV_ok n (B V : list K) coef R : length B = tri n -> (Z.of_nat (tri n) < 65536)%Z -> length V = n -> length R = n ->
    exists R', matSymBVprod n B V coef R = Ok R' /\ length R' = n /\
      forall i, (i < n)%nat -> nth i R' 0 = nth i R 0 + coef * sumof (fun j => sym n B i j * nth j V 0) (seq 0 n).
  Proof.
    intros LB HT LV LR. destruct (toMat_ok n B LB HT) as (Mt & E & L & W).
    destruct (matBV_ok n n Mt V coef R L LV LR) as (R' & E' & L' & W').
    exists R'. unfold matSymBVprod. rewrite E. cbn [obind]. split; [exact E'|]. split; auto.
    intros i Hi. rewrite W' by auto. do 2 f_equal. apply sumof_ext. intros j Hj. apply in_seq in Hj. now rewrite W by lia.
  Qed.
  Theorem sym_add_ok n (A B : list K) : length A = tri n -> length B = tri n -> (Z.of_nat (tri n) < 65536)%Z ->
    exists A', sym_add n A B = Ok A' /\ length A' = tri n /\ forall i j, (i < n)%nat -> (j < n)%nat -> sym n A' i j = sym n A i j + sym n B i j.
  Proof.
    intros LA LB HT. unfold sym_add, for_. rewrite length16_small by auto.
    destruct (@ups_ok _ (fun i : nat => i) (fun i => nth i B 0) (seq 0 (tri n)) A) as (A' & E & L & W).
    { intros x Hx. apply in_seq in Hx. lia. }
    exists A'. split.
    { rewrite <- E. apply of_ext. intros s i Hi. apply in_seq in Hi. rewrite (aget_nth B i 0) by lia. reflexivity. }
    split; [congruence|]. intros i j Hi Hj. unfold sym. rewrite W. f_equal.
    apply (delta (tri n) (sym_comp n i j) (fun x => nth x B 0)). now apply comp_lt.
  Qed.

  (* ---- BLAS versions *)
  Lemma nth_map_seq' (f : nat -> K) n i d : (i < n)%nat -> nth i (map f (seq 0 n)) d = f i.
  Proof.
    intros H. rewrite (nth_indep _ d (f 0%nat)) by (rewrite map_length, seq_length; lia).
    rewrite map_nth, seq_nth by lia. reflexivity.
  Qed.
  Theorem blas_BTV M N (B V : list K) coef : length B = (M * N)%nat -> length V = M ->
    matBTVprod M N B V coef (repeat 0 N) = matBTVprod_blas M N B V coef (repeat 0 N).
  Proof.
    intros LB LV. destruct (matBTV_ok M N B V coef (repeat 0 N) LB LV (repeat_length _ _)) as (R & E & L & W).
    rewrite E. unfold matBTVprod_blas. f_equal. rewrite skipn_all2 by (rewrite repeat_length; lia). rewrite app_nil_r.
    apply (nth_ext _ _ 0 0); [unfold dgemv_trans; now rewrite map_length, seq_length|].
    intros i Hi. rewrite W by lia. rewrite nth_repeat. unfold dgemv_trans. rewrite nth_map_seq' by lia. unfold dot, mat. ring.
  Qed.
  Theorem blas_BV M N (B V : list K) coef : length B = (M * N)%nat -> length V = N ->
    matBVprod M N B V coef (repeat 0 M) = matBVprod_blas M N B V coef (repeat 0 M).
  Proof.
    intros LB LV. destruct (matBV_ok M N B V coef (repeat 0 M) LB LV (repeat_length _ _)) as (R & E & L & W).
    rewrite E. unfold matBVprod_blas. f_equal. rewrite skipn_all2 by (rewrite repeat_length; lia). rewrite app_nil_r.
    apply (nth_ext _ _ 0 0); [unfold dgemv; now rewrite map_length, seq_length|].
    intros i Hi. rewrite W by lia. rewrite nth_repeat. unfold dgemv. rewrite nth_map_seq' by lia. unfold dot, mat. ring.
  Qed.
  Lemma mat_of_flat N (R : list K) p : (0 < N)%nat -> mat N R (p / N) (p mod N) = nth p R 0.
  Proof. intros H. unfold mat. f_equal. pose proof (Nat.div_mod p N). lia. Qed.
  Theorem blas_AB M1 N1 N2 (A B : list K) coef : length A = (M1 * N1)%nat -> length B = (N1 * N2)%nat ->
    matABprod M1 N1 N2 A B coef (repeat 0 (M1 * N2)) = matABprod_blas M1 N1 N2 A B coef (repeat 0 (M1 * N2)).
  Proof.
    intros LA LB. destruct (matAB_ok M1 N1 N2 A B coef (repeat 0 (M1 * N2)) LA LB (repeat_length _ _)) as (R & E & L & W).
    rewrite E. unfold matABprod_blas. f_equal. unfold dgemm.
    apply (nth_ext _ _ 0 0); [now rewrite map_length, seq_length|].
    intros p Hp. assert (0 < N2)%nat by (destruct N2; [lia|lia]).
    rewrite <- (mat_of_flat N2) by auto. rewrite nth_map_seq' by lia.
    rewrite W; [|apply Nat.div_lt_upper_bound; lia|apply Nat.mod_upper_bound; lia].
    rewrite mat_of_flat, nth_repeat by auto. unfold dot, mat. ring.
  Qed.
  Theorem blas_ATB M1 N1 N2 (A B : list K) coef : length A = (M1 * N1)%nat -> length B = (M1 * N2)%nat ->
    matATBprod M1 N1 N2 A B coef (repeat 0 (N1 * N2)) = matATBprod_blas M1 N1 N2 A B coef (repeat 0 (N1 * N2)).
  Proof.
    intros LA LB. destruct (matATB_ok M1 N1 N2 A B coef (repeat 0 (N1 * N2)) LA LB (repeat_length _ _)) as (R & E & L & W).
    rewrite E. unfold matATBprod_blas. f_equal. unfold dgemm.
    apply (nth_ext _ _ 0 0); [now rewrite map_length, seq_length|].
    intros p Hp. assert (0 < N2)%nat by (destruct N2; [lia|lia]).
    rewrite <- (mat_of_flat N2) by auto. rewrite nth_map_seq' by lia.
    rewrite W; [|apply Nat.div_lt_upper_bound; lia|apply Nat.mod_upper_bound; lia].
    rewrite mat_of_flat, nth_repeat by auto. unfold dot, mat. ring.
  Qed.
End Prods.
Arguments mat {K} _ _ _ _.
Arguments sym {K} _ _ _ _.
Arguments BTDB {K} _ _ _ _ _ _.

Lemma packed_ok : forall n, (Z.of_nat (tri n) < 65536)%Z ->
  length16 n = tri n /\
  (forall i j, i < n -> j < n -> comp16 n i j < tri n /\ comp16 n i j = comp16 n j i) /\
  (forall i j i' j', i < n -> j < n -> i' < n -> j' < n -> comp16 n i j = comp16 n i' j' ->
     (i = i' /\ j = j') \/ (i = j' /\ j = i')) /\
  (forall p, p < tri n -> exists i j, i <= j < n /\ comp16 n i j = p) /\
  map (fun x => comp16 n (fst x) (snd x)) (flat_map (fun i => map (pair i) (seq i (n - i))) (seq 0 n)) = seq 0 (tri n).
Proof.
  intros n H. split; [now apply length16_small|]. split; [|split; [|split]].
  - intros i j Hi Hj. rewrite !comp16_small by auto. split; [now apply comp_lt|apply comp_sym].
  - intros i j i' j' Hi Hj Hi' Hj'. rewrite !comp16_small by auto. now apply sym_comp_inj.
  - intros p Hp. destruct (sym_comp_onto n p Hp) as (i & j & Hij & E). exists i, j. split; auto.
    rewrite comp16_small by lia. auto.
  - change (flat_map (fun i => map (pair i) (seq i (n - i))) (seq 0 n)) with (U n). rewrite <- comp_U.
    apply map_ext_in. intros [i j] Hx. apply U_in in Hx. cbn [fst snd]. apply comp16_small; lia.
Qed.
Lemma toMat_comp : forall (K : Rng) n (D : list K), length D = tri n -> (Z.of_nat (tri n) < 65536)%Z ->
  exists Mt, sym_toMat n D = Ok Mt /\ length Mt = n * n /\
    forall i j, i < n -> j < n -> nth (i * n + j) Mt r0 = nth (comp16 n i j) D r0.
Proof.
  intros K n D LD HT. destruct (toMat_ok K n D LD HT) as (Mt & E & L & W). exists Mt. split; auto. split; auto.
  intros i j Hi Hj. rewrite comp16_small by auto. apply W; auto.
Qed.
Lemma sym_add_comp : forall (K : Rng) n (A B : list K), length A = tri n -> length B = tri n -> (Z.of_nat (tri n) < 65536)%Z ->
  exists A', sym_add n A B = Ok A' /\ length A' = tri n /\
    forall i j, i < n -> j < n -> nth (comp16 n i j) A' r0 = radd (nth (comp16 n i j) A r0) (nth (comp16 n i j) B r0).
Proof.
  intros K n A B LA LB HT. destruct (sym_add_ok K n A B LA LB HT) as (A' & E & L & W). exists A'. split; auto. split; auto.
  intros i j Hi Hj. rewrite comp16_small by auto. apply W; auto.
Qed.
Lemma blas_same : forall (K : Rng),
  (forall M N (B V : list K) coef, length B = M * N -> length V = M ->
     matBTVprod M N B V coef (repeat r0 N) = matBTVprod_blas M N B V coef (repeat r0 N)) /\
  (forall M N (B V : list K) coef, length B = M * N -> length V = N ->
     matBVprod M N B V coef (repeat r0 M) = matBVprod_blas M N B V coef (repeat r0 M)) /\
  (forall M1 N1 N2 (A B : list K) coef, length A = M1 * N1 -> length B = N1 * N2 ->
     matABprod M1 N1 N2 A B coef (repeat r0 (M1 * N2)) = matABprod_blas M1 N1 N2 A B coef (repeat r0 (M1 * N2))) /\
  (forall M1 N1 N2 (A B : list K) coef, length A = M1 * N1 -> length B = M1 * N2 ->
     matATBprod M1 N1 N2 A B coef (repeat r0 (N1 * N2)) = matATBprod_blas M1 N1 N2 A B coef (repeat r0 (N1 * N2))).
Proof.
  intros K. split; [intros; now apply blas_BTV|]. split; [intros; now apply blas_BV|]. split; [intros; now apply blas_AB|intros; now apply blas_ATB].
Qed.
