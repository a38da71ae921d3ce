From Coq Require Import Sorting.Sorted.
From Verif Require Import Base BaseProofs SparseModel SpecSparse SparseProofs SolveModel SpecSolve GaussModel SpecGauss GaussProofs EqsModel SpecEqs.

(* ---------------------------------------------------------------- *)
Section Gauss.
  Variable K : GNum.
  Local Open Scope rng_scope.
  Implicit Types (m : smat K).

  Lemma upd_at {A} (l : list A) (a : A) x r : upd (l ++ x :: r) (length l) a = l ++ a :: r.
  Proof. induction l as [|y l IH]; cbn [app length upd]; [reflexivity|]. now rewrite IH. Qed.
  Lemma d_set_at n acc r z v i j : (i < n)%nat -> (j < n)%nat -> (i * n + j)%nat = length acc ->
    d_set K (n, n, acc ++ z :: r) i j v = Ok (n, n, (acc ++ [v]) ++ r).
  Proof.
    intros H1 H2 H3. unfold d_set. replace ((i <? n)%nat && (j <? n)%nat) with true by (symmetry; apply andb_true_iff; split; now apply Nat.ltb_lt). cbn [asserting].
    unfold aset. rewrite app_length, H3. cbn [length]. replace (length acc <? length acc + S (length r))%nat with true by (symmetry; apply Nat.ltb_lt; lia). cbn [obind].
    rewrite upd_at, <- app_assoc. reflexivity.
  Qed.
  Lemma fill_pos m n l : forall acc, (forall k, (k < length l)%nat -> (fst (nth k l (0, 0)%nat) < n)%nat /\ (snd (nth k l (0, 0)%nat) < n)%nat /\
      (fst (nth k l (0, 0)) * n + snd (nth k l (0, 0)) = length acc + k)%nat) ->
    ofold (fun A ij => v <- sym_value m (fst ij + 1) (snd ij + 1) ;; d_set K A (fst ij) (snd ij) v) l (n, n, acc ++ repeat 0 (length l)) =
    D <- ofold (fun l ij => v <- sym_value m (fst ij + 1) (snd ij + 1) ;; Ok (l ++ [v])) l acc ;; Ok (n, n, D).
  Proof.
    induction l as [|[i j] l IH]; intros acc H; [cbn; now rewrite app_nil_r|]. cbn [ofold]. destruct (H 0%nat) as (H1 & H2 & H3); [cbn; lia|]. cbn [nth fst snd] in H1, H2, H3.
    cbn [fst snd]. destruct (sym_value m (i + 1) (j + 1)) as [v| | |]; cbn [obind]; try reflexivity.
    cbn [length repeat]. rewrite (d_set_at n acc (repeat 0 (length l)) 0 v i j H1 H2) by lia. cbn [obind].
    rewrite (IH (acc ++ [v])); [reflexivity|]. intros k Hk. destruct (H (S k)) as (G1 & G2 & G3); [cbn; lia|]. cbn [nth] in G1, G2, G3. rewrite app_length. cbn [length]. split; [exact G1|]. split; [exact G2|]. lia.
  Qed.
  Lemma pairs_nth n k : (k < n * n)%nat -> let p := nth k (flat_map (fun i => map (fun j => (i, j)) (seq 0 n)) (seq 0 n)) (0, 0)%nat in
    (fst p < n)%nat /\ (snd p < n)%nat /\ (fst p * n + snd p = k)%nat.
  Proof.
    intros Hk. cbv zeta. assert (Hn : n <> 0%nat) by (intros ->; cbn in Hk; lia).
    assert (D : (k / n < n)%nat) by (apply Nat.div_lt_upper_bound; auto). assert (M : (k mod n < n)%nat) by (apply Nat.mod_upper_bound; auto).
    pose proof (Nat.div_mod k n Hn) as E. pose proof (nth_pairs n n 0 (k / n) (k mod n) (0, 0)%nat D M) as P.
    assert (E' : k = (k / n * n + k mod n)%nat) by (rewrite Nat.mul_comm; exact E). rewrite <- E' in P. cbn [Nat.add] in P. rewrite P. cbn [fst snd]. lia.
  Qed.
  Lemma g_fill_dense o m : g_fill o m = D <- fill_dense m (g_neq o) ;; Ok (g_neq o, g_neq o, D).
  Proof.
    unfold g_fill. set (n := g_neq o).
    replace (if (fst (fst (g_A o)) =? n)%nat && (snd (fst (g_A o)) =? n)%nat then d_zero K (g_A o) else d_resize K n n) with (n, n, [] ++ repeat (0 : K) (n * n)%nat).
    - pose proof (pairs_length n n 0) as PL. rewrite <- PL at 1. apply fill_pos. intros k Hk. cbn [length Nat.add]. apply pairs_nth. now rewrite <- PL.
    - destruct (g_A o) as [[M N] d]. cbn [fst snd]. destruct (Nat.eqb_spec M n) as [->|]; [|reflexivity]. destruct (Nat.eqb_spec N n) as [->|]; reflexivity.
  Qed.
  (* the unknowns after substituteEquations, whatever the object holds *)
  Definition unknowns {O} (r : outcome (O * answer K)) : outcome (list K) := a <- r ;; Ok (snd (snd a)).
  Lemma g_subst_dense o m rhs x : (g_neq o < 1000)%nat -> g_neq o = si_nrows (sm_si m) -> unknowns (g_subst o m rhs x) = gauss_dense x m rhs.
  Proof.
    intros L1 L2. unfold unknowns, g_subst, gauss_dense. rewrite g_fill_dense. rewrite <- L2. replace (g_neq o <? 1000)%nat with true by (symmetry; now apply Nat.ltb_lt). cbn [checking].
    destruct (fill_dense m (g_neq o)) as [D| | |]; cbn [obind]; try reflexivity. unfold gauss_solve. cbn [fst snd].
    destruct (ofold (elim_step (g_neq o)) (seq 0 (g_neq o)) (Some (D, rhs, None))) as [[[[d B] im]|]| | |]; cbn [obind]; try reflexivity.
    destruct (ofold (back_step (g_neq o) d B) (rev (seq 0 (g_neq o))) (Some x)) as [[X|]| | |]; reflexivity.
  Qed.
  Lemma g_solve_dense o m rhs x : unknowns (o' <- g_fact o m ;; g_subst o' m rhs x) = gauss_dense x m rhs.
  Proof.
    unfold g_fact. destruct (Nat.ltb_spec (si_nrows (sm_si m)) 1000) as [H|H]; cbn [checking obind].
    - rewrite (g_subst_dense (mkG (si_nrows (sm_si m)) (g_A o))); auto.
    - unfold unknowns, gauss_dense. replace (_ <? 1000)%nat with false by (symmetry; now apply Nat.ltb_ge). reflexivity.
  Qed.
  (* one object for many systems *)
  Fixpoint each_fresh (l : list (smat K * list K * list K)) : outcome (list (list K)) :=
    match l with
    | [] => Ok []
    | (m, rhs, x) :: l => y <- gauss_dense x m rhs ;; ys <- each_fresh l ;; Ok (y :: ys)
    end.
  Lemma g_history l : forall o, (r <- q_run g_step o (map (fun c => QSolve (fst (fst c)) (snd (fst c)) (snd c)) l) ;; Ok (map snd (snd r))) = each_fresh l.
  Proof.
    induction l as [|[[m rhs] x] l IH]; intros o; [reflexivity|]. cbn [map q_run each_fresh g_step fst snd]. rewrite <- (g_solve_dense o). unfold unknowns.
    destruct (g_fact o m) as [o'| | |]; cbn [obind]; try reflexivity. destruct (g_subst o' m rhs x) as [[o2 a]| | |]; cbn [obind fst snd]; try reflexivity.
    specialize (IH o2). destruct (q_run g_step o2 _) as [[o3 as3]| | |]; cbn [obind fst snd] in IH |- *; rewrite <- IH; reflexivity.
  Qed.
  Lemma g_factorised o m m0 rhs x : si_nrows (sm_si m0) = si_nrows (sm_si m) ->
    (r <- q_run g_step o [QFact m0; QSubst m rhs x] ;; Ok (map snd (snd r))) = y <- gauss_dense x m rhs ;; Ok [y].
  Proof.
    intros E. cbn [q_run g_step]. unfold g_fact. destruct (Nat.ltb_spec (si_nrows (sm_si m0)) 1000) as [H|H]; cbn [checking obind fst snd].
    - pose proof (g_subst_dense (mkG (si_nrows (sm_si m0)) (g_A o)) m rhs x H E) as G. unfold unknowns in G. rewrite <- G.
      destruct (g_subst _ m rhs x) as [[o2 a]| | |]; reflexivity.
    - unfold gauss_dense. rewrite <- E. replace (_ <? 1000)%nat with false by (symmetry; now apply Nat.ltb_ge). reflexivity.
  Qed.
End Gauss.

(* ---------------------------------------------------------------- *)
Lemma slots_eqb_refl l : slots_eqb l l = true.
Proof.
  unfold slots_eqb. rewrite Nat.eqb_refl. cbn [andb]. induction l as [|[x|] l IH]; [reflexivity| |]; cbn [combine forallb fst snd]; rewrite ?Nat.eqb_refl; exact IH.
Qed.
Lemma same_pattern_refl s : same_pattern s s = true.
Proof.
  unfold same_pattern. rewrite !Nat.eqb_refl, slots_eqb_refl. cbn [andb]. rewrite andb_true_r. induction (si_iofeir s) as [|x l IH]; [reflexivity|]. cbn [combine forallb fst snd]. now rewrite Nat.eqb_refl.
Qed.
Section Pardiso.
  Variable K : Num.
  Variable L : library K.
  Hypothesis EX : exact_library L.
  Variable s : spinfo.
  Hypothesis FIT : storage_fit s = true.
  Local Open Scope Z_scope.

  (* after a factorisation *)
  Definition ready (mt : Z) (f : smat K) (o : pobj K) : Prop :=
    p_first o = false /\ p_neq o = si_nrows s /\ p_mtype o = mt /\ p_pt o = Mem s mt (Some f) /\ sm_si f = s /\ sm_vals f <> None /\ lib_err L 22 mt f = false /\
    exists mid, p_log o = (11, mt) :: mid /\ Forall (fun c => c = (22, mt) \/ c = (33, mt)) mid.
  (* before the first one *)
  Definition waiting (o : pobj K) : Prop := p_first o = true /\ p_sym o = true /\ p_log o = [].

  Lemma factor_ready mt f o m : ready mt f o -> sm_si m = s -> sm_vals m <> None -> p_fact L o m = Fatal \/ exists o', p_fact L o m = Ok o' /\ ready mt m o'.
  Proof.
    intros (F & N & M & P & Fs & Fv & Fe & mid & LG & LM) Hm Hv. unfold p_fact. rewrite F. cbn [obind]. rewrite N, Hm, Nat.eqb_refl. cbn [checking]. rewrite P, M. unfold lib_factor.
    destruct (sm_vals m) as [v|] eqn:EV; [|congruence]. rewrite Hm, same_pattern_refl, Z.eqb_refl. cbn [andb asserting]. destruct (lib_err L 22 mt m) eqn:EE; cbn [negb checking obind]; [now left|].
    right. eexists; split; [reflexivity|]. split; [reflexivity|]. split; [reflexivity|]. split; [reflexivity|]. split; [reflexivity|]. split; [exact Hm|]. split; [congruence|]. split; [exact EE|].
    cbn [p_log]. rewrite LG. exists (mid ++ [(22, mt)]). split; [reflexivity|]. apply Forall_app. split; [exact LM|]. repeat constructor.
  Qed.
  Lemma factor_first o m : waiting o -> sm_si m = s -> sm_vals m <> None -> let mt := if p_pos o then 2 else -2 in p_fact L o m = Fatal \/ exists o', p_fact L o m = Ok o' /\ ready mt m o'.
  Proof.
    intros (F & S & LG) Hm Hv mt. unfold p_fact. rewrite F. unfold p_init. rewrite S. cbn [checking]. fold mt. unfold lib_analyse. destruct (sm_vals m) as [v|] eqn:EV; [|congruence].
    rewrite Hm, FIT. cbn [asserting]. destruct (lib_err L 11 mt m); cbn [negb checking obind]; [now left|]. cbn [p_neq]. rewrite Nat.eqb_refl. cbn [checking p_pt p_mtype]. unfold lib_factor. rewrite EV.
    rewrite Hm, same_pattern_refl, Z.eqb_refl. cbn [andb asserting]. destruct (lib_err L 22 mt m) eqn:EE; cbn [negb checking obind]; [now left|].
    right. eexists; split; [reflexivity|]. split; [reflexivity|]. split; [reflexivity|]. split; [reflexivity|]. split; [reflexivity|]. split; [exact Hm|]. split; [congruence|]. split; [exact EE|].
    cbn [p_log]. rewrite LG. exists [(22, mt)]. split; [reflexivity|]. repeat constructor.
  Qed.
  Lemma subst_ready mt f o b x : ready mt f o -> length b = si_nrows s ->
    p_subst L o f b x = Fatal \/ exists o' y, p_subst L o f b x = Ok (o', (b, y)) /\ ready mt f o' /\ solves f b y.
  Proof.
    intros (F & N & M & P & Fs & Fv & Fe & mid & LG & LM) Hb. unfold p_subst. rewrite P, M. unfold lib_subst. destruct (sm_vals f) as [v|] eqn:EV; [|congruence].
    rewrite Fs, same_pattern_refl, Z.eqb_refl. cbn [andb asserting]. destruct (lib_err L 33 mt f) eqn:EE; cbn [negb checking obind]; [now left|]. right. do 2 eexists. split; [reflexivity|]. split.
    - split; [exact F|]. split; [exact N|]. split; [reflexivity|]. split; [reflexivity|]. split; [exact Fs|]. split; [congruence|]. split; [exact Fe|]. cbn [p_log]. rewrite LG. exists (mid ++ [(33, mt)]). split; [reflexivity|].
      apply Forall_app. split; [exact LM|]. constructor; [now right|constructor].
    - apply (EX mt); auto. now rewrite Fs.
  Qed.
  Definition good_answers (l : list (qcall K)) (as_ : list (answer K)) : Prop :=
    Forall2 (fun q a => fst a = snd q /\ solves (fst q) (snd q) (snd a)) (systems l) as_.
  Lemma ready_run l : forall mt f o, ready mt f o -> orderly s (Some f) l ->
    q_run (p_step L) o l = Fatal \/ exists o' as_ f', q_run (p_step L) o l = Ok (o', as_) /\ ready mt f' o' /\ good_answers l as_.
  Proof.
    induction l as [|c l IH]; intros mt f o RD OR; [right; exists o, [], f; split; [reflexivity|]; split; [exact RD|constructor]|].
    assert (NX : forall o1 f1 as1 q1, p_step L o c = Ok (o1, as1) -> ready mt f1 o1 -> orderly s (Some f1) l -> systems (c :: l) = q1 ++ systems l ->
      Forall2 (fun q a => fst a = snd q /\ solves (fst q) (snd q) (snd a)) q1 as1 ->
      q_run (p_step L) o (c :: l) = Fatal \/ exists o' as_ f', q_run (p_step L) o (c :: l) = Ok (o', as_) /\ ready mt f' o' /\ good_answers (c :: l) as_).
    { intros o1 f1 as1 q1 E R1 O1 S1 A1. cbn [q_run]. rewrite E. cbn [obind fst snd]. destruct (IH mt f1 o1 R1 O1) as [F|(o' & as_ & f' & E' & R' & A')].
      - left. now rewrite F.
      - right. rewrite E'. cbn [obind fst snd]. exists o', (as1 ++ as_), f'. split; [reflexivity|]. split; [exact R'|]. unfold good_answers. rewrite S1. now apply Forall2_app. }
    destruct c as [b|b|m|m b x|m b x]; cbn [orderly] in OR.
    - destruct OR as [-> OR]. eapply (NX _ f [] []); [reflexivity| |exact OR|reflexivity|constructor]. exact RD.
    - eapply (NX _ f [] []); [reflexivity| |exact OR|reflexivity|constructor]. exact RD.
    - destruct OR as (Hm & Hv & OR). destruct (factor_ready mt f o m RD Hm Hv) as [F|(o1 & E & R1)].
      + left. cbn [q_run p_step]. now rewrite F.
      + eapply (NX o1 m [] []); [cbn [p_step]; now rewrite E|exact R1|exact OR|reflexivity|constructor].
    - destruct OR as (E & Hb & OR). injection E as ->. destruct (subst_ready mt m o b x RD Hb) as [F|(o1 & y & E & R1 & SO)].
      + left. cbn [q_run p_step]. now rewrite F.
      + eapply (NX o1 m [(b, y)] [(m, b)]); [cbn [p_step]; rewrite E; reflexivity|exact R1|exact OR|reflexivity|]. constructor; [split; [reflexivity|exact SO]|constructor].
    - destruct OR as (Hm & Hv & Hb & OR). destruct (factor_ready mt f o m RD Hm Hv) as [F|(o1 & E & R1)].
      + left. cbn [q_run p_step]. now rewrite F.
      + destruct (subst_ready mt m o1 b x R1 Hb) as [F|(o2 & y & E2 & R2 & SO)].
        * left. cbn [q_run p_step]. rewrite E. cbn [obind]. now rewrite F.
        * eapply (NX o2 m [(b, y)] [(m, b)]); [cbn [p_step]; rewrite E; cbn [obind]; rewrite E2; reflexivity|exact R2|exact OR|reflexivity|]. constructor; [split; [reflexivity|exact SO]|constructor].
  Qed.
  Lemma waiting_run l : forall o, waiting o -> orderly s None l ->
    q_run (p_step L) o l = Fatal \/ exists o' as_, q_run (p_step L) o l = Ok (o', as_) /\ good_answers l as_ /\
      (if factorises l then exists f, ready (if positive (p_pos o) l then 2 else -2) f o' else waiting o' /\ p_pt o' = p_pt o /\ p_mtype o' = p_mtype o).
  Proof.
    induction l as [|c l IH]; intros o W OR; [right; exists o, []; repeat split; try apply W; constructor|].
    destruct c as [b|b|m|m b x|m b x]; cbn [orderly] in OR.
    - destruct OR as [-> OR]. cbn [q_run p_step obind fst snd factorises positive systems]. destruct W as (F & S & LG).
      destruct (IH (mkP (p_neq o) true (p_pos o) (p_first o) (p_mtype o) (p_pt o) (p_log o))) as [H|(o' & as_ & E & A & R)]; [repeat split; auto|exact OR| |].
      + left. now rewrite H.
      + right. rewrite E. cbn [obind fst snd app]. exists o', as_. split; [reflexivity|]. split; [exact A|]. exact R.
    - cbn [q_run p_step obind fst snd factorises positive systems]. destruct W as (F & S & LG).
      destruct (IH (mkP (p_neq o) (p_sym o) b (p_first o) (p_mtype o) (p_pt o) (p_log o))) as [H|(o' & as_ & E & A & R)]; [repeat split; auto|exact OR| |].
      + left. now rewrite H.
      + right. rewrite E. cbn [obind fst snd app]. exists o', as_. split; [reflexivity|]. split; [exact A|]. exact R.
    - destruct OR as (Hm & Hv & OR). cbn [q_run p_step factorises positive]. destruct (factor_first o m W Hm Hv) as [F|(o1 & E & R1)]; [left; now rewrite F|]. rewrite E. cbn [obind fst snd].
      destruct (ready_run l _ m o1 R1 OR) as [F|(o' & as_ & f' & E' & R' & A')]; [left; now rewrite F|]. right. rewrite E'. cbn [obind fst snd app]. exists o', as_. split; [reflexivity|]. split; [exact A'|]. now exists f'.
    - destruct OR as (E & _). discriminate.
    - destruct OR as (Hm & Hv & Hb & OR). cbn [q_run p_step factorises positive]. destruct (factor_first o m W Hm Hv) as [F|(o1 & E & R1)]; [left; now rewrite F|]. rewrite E. cbn [obind fst snd].
      destruct (subst_ready _ m o1 b x R1 Hb) as [F|(o2 & y & E2 & R2 & SO)]; [left; now rewrite F|]. rewrite E2. cbn [obind fst snd].
      destruct (ready_run l _ m o2 R2 OR) as [F|(o' & as_ & f' & E' & R' & A')]; [left; now rewrite F|]. right. rewrite E'. cbn [obind fst snd app]. exists o', ((b, y) :: as_). split; [reflexivity|].
      split; [|now exists f']. unfold good_answers. cbn [systems]. constructor; [split; [reflexivity|exact SO]|exact A'].
  Qed.
  (* the life of an object *)
  Lemma pardiso_life o l : o = p_value_init \/ o = p_default_init /\ factorises l = true -> orderly s None l ->
    p_life L o l = Fatal \/ exists as_ lg, p_life L o l = Ok (as_, lg) /\ good_answers l as_ /\
      (if factorises l then well_ordered (if positive true l then 2 else -2) lg else lg = [(-1, -2)]).
  Proof.
    intros HO OR. assert (W : waiting o) by (destruct HO as [->|[-> _]]; repeat split). unfold p_life. destruct (waiting_run l o W OR) as [F|(o' & as_ & E & A & R)]; [left; now rewrite F|].
    right. rewrite E. cbn [obind fst snd]. assert (PP : p_pos o = true) by (destruct HO as [->|[-> _]]; reflexivity). rewrite PP in R. destruct (factorises l) eqn:FL.
    - destruct R as (f & F & N & M & P & _ & _ & _ & mid & LG & LM). unfold p_end. rewrite P. cbn [lib_release obind]. do 2 eexists. split; [reflexivity|]. split; [exact A|].
      exists mid. split; [rewrite LG, M; reflexivity|exact LM].
    - destruct R as ((_ & _ & LG) & P & M). unfold p_end. rewrite P. destruct HO as [->|[_ H]]; [|discriminate]. cbn [p_pt p_value_init lib_release obind]. do 2 eexists. split; [reflexivity|]. split; [exact A|]. rewrite LG, M. reflexivity.
  Qed.
End Pardiso.
