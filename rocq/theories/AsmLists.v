(* Lists of index pairs and sums used by the assembly proofs *)
From Coq Require Import Permutation.
From Verif Require Import Base BaseProofs SparseModel SpecSparse BlockModel DofModel SpecDof AsmModel SpecAsm.

Lemma omap_map {A C} (f : A -> outcome C) (g : A -> C) l :
  (forall x, In x l -> f x = Ok (g x)) -> omap f l = Ok (map g l).
Proof.
  induction l as [|a l IH]; intros H; cbn [omap map]; auto.
  rewrite H by now left. cbn [obind]. rewrite IH by (intros; apply H; now right). reflexivity.
Qed.
Lemma oconcat_map {A C} (f : A -> outcome (list C)) (g : A -> list C) l :
  (forall x, In x l -> f x = Ok (g x)) -> oconcat f l = Ok (flat_map g l).
Proof. intros H. unfold oconcat. rewrite (omap_map f g) by auto. cbn [obind]. now rewrite flat_map_concat_map. Qed.

(* the upper triangle of a matrix with rows s .. s+n-1, row by row *)
Definition Useg (s n : nat) : list (nat * nat) :=
  flat_map (fun p => map (pair p) (seq p (s + n - p))) (seq s n).
Definition U (n : nat) : list (nat * nat) := Useg 0 n.

Lemma Useg_S s n : Useg s (S n) = map (pair s) (seq s (S n)) ++ Useg (S s) n.
Proof.
  unfold Useg. cbn [seq flat_map]. f_equal; [now replace (s + S n - s) with (S n) by lia|].
  apply flat_map_ext. intros p. replace (S s + n) with (s + S n) by lia. reflexivity.
Qed.
Lemma U_in n p q : In (p, q) (U n) <-> p <= q < n.
Proof.
  unfold U, Useg. rewrite in_flat_map. split.
  - intros (x & Hx & Hi). apply in_map_iff in Hi as (y & [= <- <-] & Hy).
    apply in_seq in Hx, Hy. lia.
  - intros H. exists p. split; [apply in_seq; lia|]. apply in_map_iff. exists q. split; auto. apply in_seq; lia.
Qed.

Lemma flat_map_map {A B C} (f : B -> list C) (g : A -> B) l :
  flat_map f (map g l) = flat_map (fun x => f (g x)) l.
Proof. induction l; cbn; congruence. Qed.
Lemma map_flat_map {A B C} (f : B -> C) (g : A -> list B) l :
  map f (flat_map g l) = flat_map (fun x => map f (g x)) l.
Proof. induction l; cbn; auto. now rewrite map_app, IHl. Qed.
Lemma flat_map_ext_in {A B} (f g : A -> list B) l :
  (forall x, In x l -> f x = g x) -> flat_map f l = flat_map g l.
Proof. induction l; intros H; cbn; auto. rewrite H, IHl; auto; [intros; apply H; now right|now left]. Qed.
Lemma flat_map_flat_map {A B C} (f : B -> list C) (g : A -> list B) l :
  flat_map f (flat_map g l) = flat_map (fun x => flat_map f (g x)) l.
Proof. induction l; cbn; auto. now rewrite flat_map_app, IHl. Qed.

(* the grid of (i, di) numbers *)
Lemma map_add_seq a : forall n s, map (fun d => a + d) (seq s n) = seq (a + s) n.
Proof. induction n; intros s; cbn [seq map]; auto. f_equal. rewrite IHn. f_equal; lia. Qed.
Lemma grid dim : forall m a,
  flat_map (fun i => map (fun d => i * dim + d) (seq 0 dim)) (seq a m) = seq (a * dim) (m * dim).
Proof.
  induction m as [|m IH]; intros a; cbn [seq flat_map]; [now rewrite Nat.mul_0_l|].
  rewrite IH. replace (S m * dim) with (dim + m * dim) by lia. rewrite seq_app. f_equal.
  - rewrite map_add_seq. f_equal; lia.
  - f_equal; lia.
Qed.

Lemma filter_ge_seq d : forall n s, s <= d -> d <= s + n ->
  filter (fun x => negb (x <? d)) (seq s n) = seq d (s + n - d).
Proof.
  induction n; intros s H1 H2; cbn [seq filter].
  - replace (s + 0 - d) with 0 by lia. auto.
  - destruct (Nat.ltb_spec s d); cbn [negb].
    + rewrite IHn by lia. f_equal; lia.
    + assert (s = d) as -> by lia.
      assert (E : forall n' s', d <= s' -> filter (fun x => negb (x <? d)) (seq s' n') = seq s' n').
      { clear. induction n'; intros s' H; cbn [seq filter]; auto.
        destruct (Nat.ltb_spec s' d); [lia|]. cbn [negb]. now rewrite IHn' by lia. }
      rewrite E by lia. replace (d + S n - d) with (S n) by lia. reflexivity.
Qed.
Lemma flat_map_if {A B} (p : A -> bool) (f : A -> B) l :
  flat_map (fun x => if p x then [] else [f x]) l = map f (filter (fun x => negb (p x)) l).
Proof. induction l; cbn; auto. destruct (p a); cbn; now rewrite IHl. Qed.
Lemma filter_all {A} (p : A -> bool) l : (forall x, In x l -> p x = true) -> filter p l = l.
Proof. induction l; intros H; cbn; auto. rewrite H by now left. f_equal. apply IHl. intros; apply H; now right. Qed.

(* the scatter loop visits the upper triangle row by row *)
Definition loc2 (dim : nat) (x : (nat * nat) * (nat * nat)) : nat * nat :=
  (fst (fst x) * dim + snd (fst x), fst (snd x) * dim + snd (snd x)).
Lemma loop_pairs_U nn dim : map (loc2 dim) (loop_pairs nn dim) = U (nn * dim).
Proof.
  unfold loop_pairs, U, Useg.
  pose proof (grid dim nn 0) as G. rewrite Nat.mul_0_l in G. rewrite <- G. rewrite flat_map_flat_map.
  rewrite map_flat_map. apply flat_map_ext_in. intros i Hi. apply in_seq in Hi.
  rewrite map_flat_map, flat_map_map. apply flat_map_ext_in. intros di Hdi. apply in_seq in Hdi.
  replace (nn - i) with (S (nn - i - 1)) by lia. cbn [seq flat_map].
  rewrite flat_map_if, Nat.eqb_refl. cbn [andb]. rewrite filter_ge_seq by lia.
  rewrite map_app, map_map. 
  replace (map (fun x => loc2 dim (i, di, (i, x))) (seq di (0 + dim - di)))
    with (map (pair (i * dim + di)) (map (fun d => i * dim + d) (seq di (0 + dim - di))))
    by (rewrite map_map; reflexivity).
  rewrite map_add_seq.
  replace (0 + nn * dim - (i * dim + di)) with ((0 + dim - di) + (nn - i - 1) * dim) by nia.
  rewrite seq_app, map_app. f_equal.
  replace (i * dim + di + (0 + dim - di)) with (S i * dim) by nia.
  rewrite <- grid. rewrite !map_flat_map. apply flat_map_ext_in. intros j Hj. apply in_seq in Hj.
  rewrite flat_map_if, filter_all.
  - rewrite !map_map. reflexivity.
  - intros d _. destruct (Nat.eqb_spec i j); [lia|]. reflexivity.
Qed.
Lemma loop_pairs_in nn dim x : In x (loop_pairs nn dim) ->
  fst (fst x) < nn /\ snd (fst x) < dim /\ fst (snd x) < nn /\ snd (snd x) < dim.
Proof.
  unfold loop_pairs. rewrite in_flat_map. intros (i & Hi & H). rewrite in_flat_map in H.
  destruct H as (di & Hdi & H). rewrite in_flat_map in H. destruct H as (j & Hj & H).
  rewrite in_flat_map in H. destruct H as (dj & Hdj & H). apply in_seq in Hi, Hdi, Hj, Hdj.
  destruct ((i =? j) && (dj <? di)); [contradiction|]. destruct H as [<-|[]]. cbn [fst snd]. lia.
Qed.
Lemma loop_nodes_seq nn dim : map (fun x => fst x * dim + snd x) (loop_nodes nn dim) = seq 0 (nn * dim).
Proof.
  unfold loop_nodes. pose proof (grid dim nn 0) as G. rewrite Nat.mul_0_l in G. rewrite <- G. clear G.
  generalize (seq 0 nn) as l. induction l as [|i l IH]; cbn [list_prod flat_map]; auto.
  rewrite map_app, map_map. cbn [fst snd]. f_equal. apply IH.
Qed.

(* position in the packed triangle *)
Lemma double_tri i : 2 * ((i - 1) * i / 2) = (i - 1) * i.
Proof.
  destruct i as [|i]; auto. replace (S i - 1) with i by lia.
  assert (E : Nat.even (i * S i) = true).
  { rewrite Nat.even_mul, Nat.even_succ, <- Nat.negb_even. destruct (Nat.even i); auto. }
  apply Nat.even_spec in E as [k Hk]. rewrite Hk. replace (2 * k) with (k * 2) by lia.
  rewrite Nat.div_mul by lia. lia.
Qed.
Lemma comp_rows n : forall m, m <= n ->
  map (fun x => sym_comp n (fst x) (snd x)) (flat_map (fun p => map (pair p) (seq p (0 + n - p))) (seq 0 m))
  = seq 0 (n * m - (m - 1) * m / 2).
Proof.
  induction m as [|m IH]; intros H.
  - now rewrite Nat.mul_0_r.
  - rewrite seq_S, flat_map_app, map_app, IH by lia. cbn [flat_map]. rewrite app_nil_r, map_map.
    cbn [fst snd]. rewrite (map_ext_in _ (fun q => (n * m - (m - 1) * m / 2 - m) + q)).
    + rewrite map_add_seq.
      pose proof (double_tri m) as D1. pose proof (double_tri (S m)) as D2.
      replace (S m - 1) with m in D2 by lia.
      assert ((m - 1) * m / 2 + m = (S m - 1) * S m / 2) as E.
      { replace (S m - 1) with m by lia. destruct m; [reflexivity|]. nia. }
      assert ((m - 1) * m <= n * m) by nia.
      replace (n * S m - (S m - 1) * S m / 2) with ((n * m - (m - 1) * m / 2) + (n - m)) by nia.
      rewrite seq_app. f_equal.
      assert (m <= n * m - (m - 1) * m / 2) by nia. f_equal; lia.
    + intros q Hq. apply in_seq in Hq. unfold sym_comp.
      rewrite Nat.min_l, Nat.max_r by lia. pose proof (double_tri m) as D.
      assert (m <= n * m - (m - 1) * m / 2).
      { clear IH Hq. assert (n * m >= (m + 1) * m) by nia. assert ((m - 1) * m <= m * m) by nia. nia. }
      cbn beta. rewrite !Nat.add_0_l in *. revert H0. generalize (n * m - (m - 1) * m / 2). intros X HX. lia.
Qed.
Lemma tri_double n : 2 * tri n = n * (n + 1).
Proof. unfold tri. pose proof (double_tri (S n)). replace (S n - 1) with n in H by lia. replace (n + 1) with (S n) by lia. lia. Qed.
Lemma comp_U n : map (fun x => sym_comp n (fst x) (snd x)) (U n) = seq 0 (tri n).
Proof.
  unfold U, Useg. rewrite comp_rows by lia. f_equal. pose proof (tri_double n). pose proof (double_tri n).
  destruct n; [reflexivity|]. nia.
Qed.
Lemma U_length n : length (U n) = tri n.
Proof. rewrite <- (map_length (fun x => sym_comp n (fst x) (snd x))), comp_U. apply seq_length. Qed.
Lemma comp_lt n p q : p < n -> q < n -> sym_comp n p q < tri n.
Proof.
  intros Hp Hq. assert (In (Nat.min p q, Nat.max p q) (U n)) by (apply U_in; lia).
  apply (in_map (fun x => sym_comp n (fst x) (snd x))) in H. rewrite comp_U in H. apply in_seq in H.
  cbn [fst snd] in H. unfold sym_comp in *.
  rewrite (Nat.min_l (Nat.min p q)), (Nat.max_r (Nat.min p q)) in H by lia. lia.
Qed.
Lemma comp_sym n p q : sym_comp n p q = sym_comp n q p.
Proof. unfold sym_comp. now rewrite Nat.min_comm, Nat.max_comm. Qed.

Lemma combine_map_r {A B C} (f : B -> C) (l : list A) l' :
  combine l (map f l') = map (fun x => (fst x, f (snd x))) (combine l l').
Proof. revert l'; induction l; intros [|b l']; cbn; auto. now rewrite IHl. Qed.
Lemma combine_map_same {A B} (f : A -> B) l : combine (map f l) l = map (fun x => (f x, x)) l.
Proof. induction l; cbn; congruence. Qed.

(* keys *)
Lemma node_keys_length nodes types : length (node_keys nodes types) = length nodes * length types.
Proof.
  unfold node_keys. induction nodes as [|n nodes IH]; cbn [flat_map length]; auto.
  rewrite app_length, map_length. unfold key in IH. rewrite IH. lia.
Qed.
Lemma node_keys_nth types d : forall nodes i di, i < length nodes -> di < length types ->
  nth (i * length types + di) (node_keys nodes types) d = (KNode, nth i nodes 0, nth di types 0).
Proof.
  unfold node_keys. induction nodes as [|n nodes IH]; intros i di Hi Hd; cbn [length] in Hi; [lia|].
  cbn [flat_map]. destruct i.
  - rewrite app_nth1 by (rewrite map_length; lia). cbn [Nat.mul Nat.add nth].
    rewrite (nth_map_lt _ _ _ _ 0) by lia. reflexivity.
  - rewrite app_nth2 by (rewrite map_length; cbn; lia). rewrite map_length.
    replace (S i * length types + di - length types) with (i * length types + di) by (cbn; lia).
    cbn [nth]. apply IH; lia.
Qed.
Lemma nkey_ok nodes types x d : fst x < length nodes -> snd x < length types ->
  nkey nodes types x = Ok (nth (fst x * length types + snd x) (node_keys nodes types) d).
Proof.
  intros H1 H2. unfold nkey. rewrite (aget_nth _ _ 0), (aget_nth types _ 0) by auto. cbn [obind].
  now rewrite node_keys_nth.
Qed.

Section Sums.
  Variable K : Rng.
  Add Ring Kr : (rth K).
  Local Open Scope rng_scope.
  Notation sumof_cons := (sumof_cons K). Notation sumof_app := (sumof_app K). Notation sumof_map := (sumof_map K).

  (* a double sum over all pairs as a sum over the upper triangle *)
  Lemma double_sum (h : nat -> nat -> K) : forall n s,
    sumof (fun p => sumof (h p) (seq s n)) (seq s n) =
    sumof (fun x => if Nat.eqb (fst x) (snd x) then h (fst x) (fst x)
                    else h (fst x) (snd x) + h (snd x) (fst x)) (Useg s n).
  Proof.
    induction n as [|n IH]; intros s; [reflexivity|].
    rewrite Useg_S, sumof_app, <- IH, sumof_map. cbn [seq]. rewrite !sumof_cons. cbn [fst snd].
    rewrite Nat.eqb_refl.
    rewrite (sumof_ext K (fun p => sumof (h p) (s :: seq (S s) n)) (fun p => h p s + sumof (h p) (seq (S s) n))).
    2:{ intros p _. apply sumof_cons. }
    rewrite sumof_add.
    rewrite (sumof_ext K (fun x => if Nat.eqb s x then h s s else h s x + h x s) (fun x => h s x + h x s)).
    2:{ intros x Hx. apply in_seq in Hx. destruct (Nat.eqb_spec s x); [lia|reflexivity]. }
    rewrite sumof_add. ring.
  Qed.
  Lemma strict_sum (h : nat -> nat -> K) : forall n s,
    sumof (fun p => sumof (h p) (seq (S p) (s + n - S p))) (seq s n) =
    sumof (fun x => if Nat.eqb (fst x) (snd x) then 0 else h (fst x) (snd x)) (Useg s n).
  Proof.
    induction n as [|n IH]; intros s; [reflexivity|].
    rewrite Useg_S, sumof_app, sumof_map. cbn [seq]. rewrite !sumof_cons. cbn [fst snd]. rewrite Nat.eqb_refl.
    replace (s + S n - S s)%nat with n by lia.
    rewrite (sumof_ext K (fun x => if Nat.eqb s x then 0 else h s x) (h s)).
    2:{ intros x Hx. apply in_seq in Hx. destruct (Nat.eqb_spec s x); [lia|reflexivity]. }
    replace (s + S n)%nat with (S s + n)%nat by lia. rewrite IH. ring.
  Qed.

  (* additions for the upper triangle only against the full double sum *)
  Lemma upper_sum (g : nat -> nat) (ke : nat -> nat -> K) n a b :
    (forall p q, (p < n)%nat -> (q < n)%nat -> ke p q = ke q p) ->
    sumof (fun x => if same_pair (g (fst x)) (g (snd x)) a b then ke (fst x) (snd x) else 0) (U n) =
    sumof (fun p => sumof (fun q => if Nat.eqb (g p) a && Nat.eqb (g q) b then ke p q else 0) (seq 0 n)) (seq 0 n)
    - (if Nat.eqb a b then
         sumof (fun p => sumof (fun q => if Nat.eqb (g p) a && Nat.eqb (g q) a then ke p q else 0)
           (seq (S p) (n - S p))) (seq 0 n)
       else 0).
  Proof.
    intros Hs.
    pose proof (strict_sum (fun p q => if Nat.eqb (g p) a && Nat.eqb (g q) a then ke p q else 0) n 0) as S1.
    cbn [Nat.add] in S1. rewrite S1. rewrite double_sum. fold (U n). clear S1.
    destruct (Nat.eqb_spec a b) as [<-|Nab].
    - rewrite <- sumof_sub. apply sumof_ext. intros [p q] Hx. apply U_in in Hx. cbn [fst snd].
      unfold same_pair, here. rewrite (Hs q p) by lia.
      destruct (Nat.eqb_spec p q) as [E|_]; [subst p|destruct (Nat.eqb (g p) a)]; destruct (Nat.eqb (g q) a);
        cbn [andb orb]; ring.
    - transitivity (sumof (fun x => if Nat.eqb (fst x) (snd x)
        then if Nat.eqb (g (fst x)) a && Nat.eqb (g (fst x)) b then ke (fst x) (fst x) else 0
        else (if Nat.eqb (g (fst x)) a && Nat.eqb (g (snd x)) b then ke (fst x) (snd x) else 0) +
             (if Nat.eqb (g (snd x)) a && Nat.eqb (g (fst x)) b then ke (snd x) (fst x) else 0)) (U n)); [|ring].
      apply sumof_ext. intros [p q] Hx. apply U_in in Hx. cbn [fst snd].
      unfold same_pair, here. rewrite (Hs q p) by lia.
      destruct (Nat.eqb_spec p q) as [E|_]; [subst p|destruct (Nat.eqb_spec (g p) a), (Nat.eqb_spec (g p) b)];
        destruct (Nat.eqb_spec (g q) a), (Nat.eqb_spec (g q) b); cbn [andb orb]; try ring; congruence.
  Qed.

  Lemma same_pair_swap i j a b : same_pair i j a b = same_pair j i a b.
  Proof. unfold same_pair. apply orb_comm. Qed.

  (* another order of the additions *)
  Lemma upper_sum_perm (g : nat -> nat) (ke : nat -> nat -> K) n l a b :
    (forall p q, (p < n)%nat -> (q < n)%nat -> ke p q = ke q p) ->
    Permutation (map up l) (U n) ->
    sumof (fun x => if same_pair (g (fst x)) (g (snd x)) a b then ke (fst x) (snd x) else 0) l =
    sumof (fun x => if same_pair (g (fst x)) (g (snd x)) a b then ke (fst x) (snd x) else 0) (U n).
  Proof.
    intros Hs HP. rewrite <- (sumof_perm K _ _ _ HP), sumof_map. apply sumof_ext. intros [p q] Hx.
    assert (In (up (p, q)) (U n)) as HU.
    { eapply Permutation_in; [exact HP|]. now apply in_map. }
    unfold up in *. cbn [fst snd] in *. destruct (Nat.ltb_spec q p); cbn [fst snd]; auto.
    apply U_in in HU. rewrite (Hs p q), (same_pair_swap (g p)) by lia. reflexivity.
  Qed.
End Sums.
