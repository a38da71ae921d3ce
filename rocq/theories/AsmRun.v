(* Running the assembly *)
From Coq Require Import Permutation.
From Verif Require Import Base BaseProofs SparseModel SpecSparse SparseMatProofs SparseFinal BlockModel SpecBlock BlockProofs
  DofModel SpecDof DofProofs NumberingProofs AsmModel SpecAsm AsmLists AsmCalls AsmProofs.

Section BlockExtra.
  Variable K : Rng.
  Lemma brep_ext k rows es (B : bmat K) F F' : brep K k rows es B F -> (forall a b, F a b = F' a b) ->
    brep K k rows es B F'.
  Proof.
    intros (W & R & N & T & H) E. repeat (split; [assumption|]). intros a b V.
    eapply mrep_ext; [apply H; auto|]. intros p q Hp Hq. split; [tauto|]. now rewrite E.
  Qed.
  Lemma addValue_compressed (B B' : bmat K) i j x : b_addValue B i j x = Ok B' ->
    bm_compressed B' = bm_compressed B.
  Proof.
    unfold b_addValue, b_route. intros H.
    apply obind_ok in H as (bi & _ & H). apply obind_ok in H as (bj & _ & H).
    apply obind_ok in H as (m & _ & H). apply obind_ok in H as (m' & _ & H).
    unfold block_put in H. destruct (fst bi =? fst bj).
    - apply asserting_ok in H as [_ H]. apply obind_ok in H as (d & _ & [= <-]). reflexivity.
    - apply obind_ok in H as (k & _ & H). apply obind_ok in H as (u & _ & [= <-]). reflexivity.
  Qed.
  Lemma zero_compressed (B B' : bmat K) : b_zero B = Ok B' -> bm_compressed B' = bm_compressed B.
  Proof.
    unfold b_zero. intros H. apply obind_ok in H as (d & _ & H). apply obind_ok in H as (u & _ & [= <-]). reflexivity.
  Qed.
  Lemma copy_brep k rows es (B : bmat K) F : brep K k rows es B F -> bm_compressed B = true ->
    exists B' x, b_copy B = Ok B' /\ bm_compressed B' = true /\ brep K x rows es B' (fun _ _ => r0).
  Proof.
    intros HB HC. destruct (b_copy_ok K k rows es B F HB) as (B' & E & W & N & R & T & C & H).
    pose proof HB as (_ & _ & N0 & _).
    exists B', (list_sum rows + k). split; auto. split; [congruence|].
    split; auto. split; auto. split; [congruence|]. split; [lia|].
    intros a b V. destruct (H a b V) as [HM _].
    eapply mrep_ext; [exact HM|]. intros p q Hp Hq. split; [tauto|]. destruct ((a =? b) && (q <? p)); reflexivity.
  Qed.
  (* compress of an already compressed matrix leaves the values *)
  Lemma recompress_brep k rows es (B : bmat K) F : brep K k rows es B F ->
    exists B', b_compress B = Ok B' /\ bm_compressed B' = true /\ brep K k rows es B' F.
  Proof.
    intros (W & R & N & T & H).
    assert (HC : forall a b, valid (length rows) a b -> mat_compress (bget K B a b) = Ok (bget K B a b)).
    { intros a b V. destruct (H a b V) as (rws & v & HR & D1 & D2 & Ev & Lv & Hf).
      destruct (mrep_dims K _ _ _ _ _ (H a b V)) as (_ & _ & C).
      unfold mat_compress. rewrite C, Ev. reflexivity. }
    destruct (each_block K mat_compress B true W) as (B2 & E2 & W2 & N2 & R2 & T2 & C2 & H2).
    { rewrite N. intros a b V. eauto. }
    exists B2. split; [exact E2|]. split; auto. split; auto. split; [congruence|]. split; [congruence|].
    split; [lia|]. intros a b V. pose proof (HC a b V) as E.
    rewrite H2 in E by now rewrite N. injection E as ->. now apply H.
  Qed.
End BlockExtra.

Section Run.
  Variable K : Rng.
  Add Ring Kr : (rth K).
  Local Open Scope rng_scope.
  Variables (nn : nat) (mesh : list (list nat)) (regs : list reg) (fixes : list key) (s : numst) (nm : nat).
  Hypothesis HN : prob_num nn (length mesh) regs fixes nm s.
  Hypothesis HM : forall nodes n, In nodes mesh -> In n nodes -> (1 <= n <= nn)%nat.
  Variable es : list (nat * nat).
  Notation rows := [ns_ncon s; (ns_nunk s + n_mpc s)%nat].
  Notation total := (ns_ndofs s + nm)%nat.
  Hypothesis Hes : forall e, In e es -> in_shape (list_sum rows) (list_sum rows) e.
  Hypothesis Hco : forall x y, In x (reg_keys regs) -> In y (reg_keys regs) -> coupled mesh x y ->
    sym_in es (eqn s x) (eqn s y).

  Definition fn2 := nat -> nat -> K.
  Definition cm_inv (g : gst K) (cm : option (fn2 * fn2)) : Prop :=
    match cm with
    | None => g_CM g = None
    | Some (FC, FM) => exists C M x y, g_CM g = Some (C, M) /\
        brep K x rows es C FC /\ brep K y rows es M FM /\ bm_compressed C = true /\ bm_compressed M = true
    end.
  Record ginv (g : gst K) (FK : fn2) (cm : option (fn2 * fn2)) (Fv : nat -> K) : Prop := {
    gi_num : g_num g = s;
    gi_mesh : g_mesh g = mesh;
    gi_K : brep K 0 rows es (g_K g) FK;
    gi_Kc : bm_compressed (g_K g) = true;
    gi_CM : cm_inv g cm;
    gi_FL : length (g_F g) = total;
    gi_F : forall a, (1 <= a <= total)%nat -> nth (a - 1) (g_F g) 0 = Fv a }.

  Definition cm_add (cm : option (fn2 * fn2)) (fc fm : fn2) : option (fn2 * fn2) :=
    match cm with
    | None => None
    | Some (FC, FM) => Some (fun a b => FC a b + fc a b, fun a b => FM a b + fm a b)
    end.

  Lemma ginv_ext g FK FK' cm cm' Fv Fv' : ginv g FK cm Fv -> (forall a b, FK a b = FK' a b) ->
    match cm, cm' with
    | None, None => True
    | Some (c, m), Some (c', m') => (forall a b, c a b = c' a b) /\ (forall a b, m a b = m' a b)
    | _, _ => False
    end -> (forall a, Fv a = Fv' a) -> ginv g FK' cm' Fv'.
  Proof.
    intros [A1 A2 A3 A4 A5 A6 A7] E1 E2 E3. split; auto.
    - eapply brep_ext; eauto.
    - unfold cm_inv in *. destruct cm as [[c m]|], cm' as [[c' m']|]; try contradiction; auto.
      destruct E2 as [E2 E4]. destruct A5 as (C & M & x & y & Q & B1 & B2 & Q1 & Q2).
      exists C, M, x, y. repeat (split; [solve [auto|eapply brep_ext; eauto]|]). auto.
    - intros a Ha. rewrite A7 by auto. auto.
  Qed.

  Lemma n_mpc_nm : n_mpc s = nm.
  Proof.
    pose proof (pn_mpc _ _ _ _ _ _ HN) as E. apply (f_equal (@length nat)) in E.
    rewrite map_length, seq_length in E. exact E.
  Qed.

  Lemma add_ok k B F i j x : brep K k rows es B F -> bm_compressed B = true -> sym_in es i j ->
    exists B', b_addValue B i j x = Ok B' /\ bm_compressed B' = true /\
      brep K k rows es B' (fun a b => F a b + if same_pair i j a b then x else 0).
  Proof.
    intros HB HC HS. destruct (brep_add K k rows es B F i j x HB Hes HS) as (B' & E & HB').
    exists B'. split; auto. split; [apply addValue_compressed in E; congruence|].
    eapply brep_ext; [exact HB'|]. intros a b. cbn [spec_sym_vop]. destruct (same_pair i j a b); ring.
  Qed.

  Lemma addF_ok (F : list K) e v : length F = total -> (1 <= e <= total)%nat ->
    addF s F e v = Ok (upd F (e - 1) (nth (e - 1) F 0 + v)).
  Proof.
    intros L He. unfold addF. rewrite L, n_mpc_nm.
    replace (0 <? e)%nat with true by (symmetry; apply Nat.ltb_lt; lia).
    replace (e <=? total)%nat with true by (symmetry; apply Nat.leb_le; lia).
    cbn [asserting]. rewrite (aget_nth _ _ 0) by lia. cbn [obind]. apply aset_ok. lia.
  Qed.

  (* a call of an element *)
  Definition call_ok (cm : option (fn2 * fn2)) (c : call K) : Prop :=
    match c with
    | AddM t x y _ => In x (reg_keys regs) /\ In y (reg_keys regs) /\ coupled mesh x y /\
        (t <> TK -> cm <> None)
    | AddF x _ => In x (reg_keys regs)
    end.

  Lemma run_call_ok g FK cm Fv c : ginv g FK cm Fv -> call_ok cm c ->
    exists g', run_call g c = Ok g' /\
      ginv g' (fun a b => FK a b + callM K s TK a b c)
        (cm_add cm (fun a b => callM K s TC a b c) (fun a b => callM K s TM a b c))
        (fun a => Fv a + callF K s a c).
  Proof.
    intros G. pose proof G as [A1 A2 A3 A4 A5 A6 A7]. destruct c as [t x y v|x v]; cbn [call_ok run_call].
    - intros (Rx & Ry & Cxy & Ht). rewrite A1.
      rewrite (kd_ok nn mesh regs fixes s nm HN x), (kd_ok nn mesh regs fixes s nm HN y) by auto. cbn [obind].
      pose proof (Hco x y Rx Ry Cxy) as HS.
      destruct t.
      + destruct (add_ok 0 (g_K g) FK _ _ v A3 A4 HS) as (B' & E & C' & HB). rewrite E. cbn [obind].
        eexists; split; [reflexivity|]. eapply ginv_ext.
        * split; [reflexivity|exact A2|exact HB|exact C'| |exact A6|exact A7]. exact A5.
        * intros a b. reflexivity.
        * destruct cm as [[c m]|]; cbn [cm_add]; auto. split; intros a b; cbn; ring.
        * intros a. cbn. ring.
      + destruct cm as [[FC FM]|]; [|exfalso; now apply Ht].
        destruct A5 as (C & M & p & q & Q & B1 & B2 & Q1 & Q2). rewrite Q.
        destruct (add_ok p C FC _ _ v B1 Q1 HS) as (C' & E & CC' & HB). rewrite E. cbn [obind].
        eexists; split; [reflexivity|]. eapply ginv_ext with (cm := Some (_, FM)).
        * split; [reflexivity|exact A2|exact A3|exact A4| |exact A6|exact A7].
          exists C', M, p, q. repeat (split; [solve [eauto]|]). auto.
        * intros a b. cbn. ring.
        * cbn [cm_add]. split; intros a b; cbn; ring.
        * intros a. cbn. ring.
      + destruct cm as [[FC FM]|]; [|exfalso; now apply Ht].
        destruct A5 as (C & M & p & q & Q & B1 & B2 & Q1 & Q2). rewrite Q.
        destruct (add_ok q M FM _ _ v B2 Q2 HS) as (M' & E & CM' & HB). rewrite E. cbn [obind].
        eexists; split; [reflexivity|]. eapply ginv_ext with (cm := Some (FC, _)).
        * split; [reflexivity|exact A2|exact A3|exact A4| |exact A6|exact A7].
          exists C, M', p, q. repeat (split; [solve [eauto]|]). auto.
        * intros a b. cbn. ring.
        * cbn [cm_add]. split; intros a b; cbn; ring.
        * intros a. cbn. ring.
    - intros Rx. rewrite A1, (kd_ok nn mesh regs fixes s nm HN x) by auto. cbn [obind].
      destruct (pn_eq _ _ _ _ _ _ HN x Rx) as (_ & Hr & _).
      rewrite addF_ok by (auto; lia). cbn [obind]. eexists; split; [reflexivity|].
      eapply ginv_ext with (Fv := fun a => Fv a + callF K s a (AddF x v)).
      + split; [reflexivity|exact A2|exact A3|exact A4|exact A5| |].
        * cbn [g_F]. now rewrite upd_length.
        * intros a Ha. cbn [g_F callF]. rewrite nth_upd by lia. rewrite A7 by lia.
          destruct (Nat.eqb_spec (eqn s x - 1) (a - 1)), (Nat.eqb_spec (eqn s x) a); try lia.
          -- now subst a.
          -- rewrite A7 by lia. ring.
      + intros a b. cbn. ring.
      + destruct cm as [[c m]|]; cbn [cm_add]; auto. split; intros a b; cbn; ring.
      + reflexivity.
  Qed.
  Lemma run_calls_ok cs : forall g FK cm Fv, ginv g FK cm Fv -> Forall (call_ok cm) cs ->
    exists g', ofold run_call cs g = Ok g' /\
      ginv g' (fun a b => FK a b + sumof (callM K s TK a b) cs)
        (cm_add cm (fun a b => sumof (callM K s TC a b) cs) (fun a b => sumof (callM K s TM a b) cs))
        (fun a => Fv a + sumof (callF K s a) cs).
  Proof.
    induction cs as [|c cs IH]; intros g FK cm Fv G HF.
    - exists g. split; [reflexivity|]. eapply ginv_ext; [exact G| | |].
      + intros a b. rewrite sumof_nil. ring.
      + destruct cm as [[c m]|]; cbn [cm_add]; auto. split; intros a b; rewrite sumof_nil; ring.
      + intros a. rewrite sumof_nil. ring.
    - inversion HF as [|? ? Hc Hcs]; subst. destruct (run_call_ok g FK cm Fv c G Hc) as (g1 & E1 & G1).
      cbn [ofold]. rewrite E1. cbn [obind].
      destruct (IH _ _ _ _ G1) as (g2 & E2 & G2).
      { eapply Forall_impl; [|exact Hcs]. intros [t x y v|x v]; cbn [call_ok]; auto.
        intros (R1 & R2 & R3 & R4). repeat (split; [assumption|]). intros Ht. specialize (R4 Ht).
        destruct cm as [[c' m]|]; [discriminate|congruence]. }
      exists g2. split; auto. eapply ginv_ext; [exact G2| | |].
      + intros a b. cbn beta. rewrite sumof_cons. ring.
      + destruct cm as [[c' m]|]; cbn [cm_add]; auto. split; intros a b; cbn beta; rewrite sumof_cons; ring.
      + intros a. cbn beta. rewrite sumof_cons. ring.
  Qed.

  (* contributions of elements *)
  Definition eff (t : target) (a b : nat) (x : nat * list nat * contrib K) : K :=
    if tgt_eqb (real_target K (snd x)) t then kpart s a b x - dpart s a b x else 0.
  Definition good_c (cm : option (fn2 * fn2)) (en : nat) (nodes : list nat) (c : contrib K) : Prop :=
    good_sizes nodes c /\ Forall (fun x => In x (reg_keys regs)) (ckeys en nodes c) /\
    (ctarget c <> TK -> cm <> None).

  Lemma ckeys_el en (c : contrib K) : (1 <= en <= length mesh)%nat ->
    forall x, In x (ckeys en (nodes_of mesh en) c) -> el_key mesh en x.
  Proof.
    intros He x Hx.
    assert (NK : forall types, In x (node_keys (nodes_of mesh en) types) -> el_key mesh en x).
    { intros types H. unfold node_keys in H. apply in_flat_map in H as (n & Hn & H).
      apply in_map_iff in H as (t & <- & _). exact Hn. }
    destruct c; cbn [ckeys] in Hx; eauto.
    - apply in_app_iff in Hx as [Hx|[<-|[]]]; [eauto|reflexivity].
    - apply in_app_iff in Hx as [Hx|[<-|[]]]; [eauto|reflexivity].
  Qed.

  Lemma run_contrib_ok g FK cm Fv en c : ginv g FK cm Fv -> (1 <= en <= length mesh)%nat ->
    good_c cm en (nodes_of mesh en) c ->
    exists g', (cs <- contrib_calls en (nodes_of mesh en) c ;; ofold run_call cs g) = Ok g' /\
      ginv g' (fun a b => FK a b + eff TK a b (en, nodes_of mesh en, c))
        (cm_add cm (fun a b => eff TC a b (en, nodes_of mesh en, c)) (fun a b => eff TM a b (en, nodes_of mesh en, c)))
        (fun a => Fv a + fpart s a (en, nodes_of mesh en, c)).
  Proof.
    intros G He (GS & GK & GT).
    destruct (contrib_ok K s en (nodes_of mesh en) c GS) as (cs & E & [S1 S2 S3]).
    rewrite E. cbn [obind].
    destruct (run_calls_ok cs g FK cm Fv G) as (g' & E' & G').
    { rewrite Forall_forall in S1, GK |- *. intros c' Hc'. specialize (S1 c' Hc').
      assert (T : match c' with AddM t _ _ _ => t <> TK -> cm <> None | _ => True end).
      { destruct c' as [t x y v|]; auto. intros Ht. apply GT. intros EC.
        assert (AT : real_target K c = TK) by (destruct c; cbn in EC |- *; congruence).
        clear -E Hc' AT Ht.
        assert (AllT : Forall (fun c' => match c' with AddM t _ _ _ => t = real_target K c | _ => True end) cs).
        { assert (OM : forall (X : Type) (f : X -> outcome (call K)) l r,
            omap f l = Ok r -> (forall x c', f x = Ok c' -> match c' with AddM t _ _ _ => t = real_target K c | _ => True end) ->
            Forall (fun c' => match c' with AddM t _ _ _ => t = real_target K c | _ => True end) r).
          { intros X f l. induction l as [|z l IH]; cbn [omap]; intros r H HF; [injection H as <-; constructor|].
            apply obind_ok in H as (u & Eu & H). apply obind_ok in H as (w & Ew & H). injection H as <-.
            constructor; [exact (HF _ _ Eu)|exact (IH _ Ew HF)]. }
          assert (SC : forall tg nodes types (Ke : list K) r, sym_calls tg nodes types Ke = Ok r -> tg = real_target K c ->
            Forall (fun c' => match c' with AddM t _ _ _ => t = real_target K c | _ => True end) r).
          { intros tg nodes types Ke r H Htg. unfold sym_calls in H. apply asserting_ok in H as [_ H].
            eapply OM; [exact H|]. intros z c0 Hz. cbn beta in Hz.
            repeat (apply obind_ok in Hz as (? & _ & Hz)). injection Hz as <-. exact Htg. }
          assert (FC : forall nodes types (Fe : list K) r, vec_calls nodes types Fe = Ok r ->
            Forall (fun c' : call K => match c' with AddM t _ _ _ => t = real_target K c | _ => True end) r).
          { intros nodes types Fe r H. unfold vec_calls in H.
            eapply OM; [exact H|]. intros z c0 Hz. cbn beta in Hz.
            repeat (apply obind_ok in Hz as (? & _ & Hz)). injection Hz as <-. exact I. }
          destruct c; cbn [contrib_calls real_target] in *; try discriminate AT.
          - eapply SC; eauto.
          - apply obind_ok in E as (u & Eu & E). apply obind_ok in E as (w & Ew & E). injection E as <-.
            apply Forall_app. split; [eapply SC; eauto|eapply FC; eauto].
          - unfold eigen_calls in E. apply asserting_ok in E as [_ E]. eapply OM; [exact E|].
            intros z c0 Hz. cbn beta in Hz. repeat (apply obind_ok in Hz as (? & _ & Hz)). injection Hz as <-. reflexivity.
          - unfold mixed_calls in E. apply obind_ok in E as (u1 & E1 & E). apply obind_ok in E as (u2 & E2 & E).
            apply obind_ok in E as (u3 & E3 & E). injection E as <-.
            repeat match goal with |- Forall _ (_ ++ _) => apply Forall_app; split | |- Forall _ (_ :: _) => constructor; [first [reflexivity|exact I]|] | |- Forall _ [] => constructor end;
              [eapply SC; eauto| |eapply FC; eauto].
            eapply OM; [exact E2|]. intros z c0 Hz. cbn beta in Hz.
            repeat (apply obind_ok in Hz as (? & _ & Hz)). injection Hz as <-. reflexivity.
          - unfold plane41_calls in E. apply asserting_ok in E as [_ E]. apply asserting_ok in E as [_ E].
            apply obind_ok in E as (u1 & E1 & E). apply obind_ok in E as (u2 & E2 & E).
            apply obind_ok in E as (u3 & E3 & E). apply obind_ok in E as (u4 & E4 & E).
            apply obind_ok in E as (u5 & E5 & E). injection E as <-.
            repeat match goal with |- Forall _ (_ ++ _) => apply Forall_app; split | |- Forall _ (_ :: _) => constructor; [first [reflexivity|exact I]|] | |- Forall _ [] => constructor end;
              (eapply OM; [eassumption|]; intros z c0 Hz; cbn beta in Hz;
               repeat (apply obind_ok in Hz as (? & _ & Hz)); injection Hz as <-; reflexivity || exact I). }
        rewrite Forall_forall in AllT. specialize (AllT _ Hc'). cbn beta iota in AllT. congruence. }
      destruct c' as [t x y v|x v]; cbn [call_in call_ok] in *.
      - destruct S1 as [Hx Hy]. repeat (split; [solve [auto]|]). split; [|exact T].
        exists en. split; auto. split; eapply ckeys_el; eauto.
      - auto. }
    exists g'. split; auto. eapply ginv_ext; [exact G'| | |].
    - intros a b. cbn beta. rewrite S2. reflexivity.
    - destruct cm as [[c0 m]|]; cbn [cm_add]; auto. split; intros a b; cbn beta; rewrite S2; reflexivity.
    - intros a. cbn beta. rewrite S3. reflexivity.
  Qed.

  Lemma run_contribs_ok en l : (1 <= en <= length mesh)%nat -> forall g FK cm Fv, ginv g FK cm Fv ->
    Forall (good_c cm en (nodes_of mesh en)) l ->
    exists g', ofold (fun g c => cs <- contrib_calls en (nodes_of mesh en) c ;; ofold run_call cs g) l g = Ok g' /\
      ginv g' (fun a b => FK a b + sumof (fun c => eff TK a b (en, nodes_of mesh en, c)) l)
        (cm_add cm (fun a b => sumof (fun c => eff TC a b (en, nodes_of mesh en, c)) l)
                   (fun a b => sumof (fun c => eff TM a b (en, nodes_of mesh en, c)) l))
        (fun a => Fv a + sumof (fun c => fpart s a (en, nodes_of mesh en, c)) l).
  Proof.
    intros He. induction l as [|c l IH]; intros g FK cm Fv G HF.
    - exists g. split; [reflexivity|]. eapply ginv_ext; [exact G| | |].
      + intros a b. rewrite sumof_nil. ring.
      + destruct cm as [[c m]|]; cbn [cm_add]; auto. split; intros a b; rewrite sumof_nil; ring.
      + intros a. rewrite sumof_nil. ring.
    - inversion HF as [|? ? Hc Hcs]; subst. destruct (run_contrib_ok g FK cm Fv en c G He Hc) as (g1 & E1 & G1).
      cbn [ofold]. rewrite E1. cbn [obind].
      destruct (IH _ _ _ _ G1) as (g2 & E2 & G2).
      { eapply Forall_impl; [|exact Hcs]. intros c' (R1 & R2 & R3). repeat (split; [assumption|]).
        intros Ht. specialize (R3 Ht). destruct cm as [[c'' m]|]; [discriminate|congruence]. }
      exists g2. split; auto. eapply ginv_ext; [exact G2| | |].
      + intros a b. cbn beta. rewrite sumof_cons. ring.
      + destruct cm as [[c' m]|]; cbn [cm_add]; auto. split; intros a b; cbn beta; rewrite sumof_cons; ring.
      + intros a. cbn beta. rewrite sumof_cons. ring.
  Qed.

  Definition flat (l : list (nat * list (contrib K))) : list (nat * list nat * contrib K) :=
    flat_map (fun x => map (fun c => (fst x, nth (fst x - 1) mesh [], c)) (snd x)) l.

  Lemma run_elements_ok l : forall g FK cm Fv, ginv g FK cm Fv ->
    Forall (fun x => (1 <= fst x <= length mesh)%nat /\ Forall (good_c cm (fst x) (nodes_of mesh (fst x))) (snd x)) l ->
    exists g', ofold run_element l g = Ok g' /\
      ginv g' (fun a b => FK a b + sumof (eff TK a b) (flat l))
        (cm_add cm (fun a b => sumof (eff TC a b) (flat l)) (fun a b => sumof (eff TM a b) (flat l)))
        (fun a => Fv a + sumof (fpart s a) (flat l)).
  Proof.
    induction l as [|[en cs] l IH]; intros g FK cm Fv G HF.
    - exists g. split; [reflexivity|]. eapply ginv_ext; [exact G| | |].
      + intros a b. cbn [flat flat_map]. rewrite sumof_nil. ring.
      + destruct cm as [[c m]|]; cbn [cm_add flat flat_map]; auto. split; intros a b; rewrite sumof_nil; ring.
      + intros a. cbn [flat flat_map]. rewrite sumof_nil. ring.
    - inversion HF as [|? ? [He Hc] Hcs]; subst. cbn [fst snd] in *.
      cbn [ofold]. unfold run_element at 1. cbn [fst snd]. rewrite (gi_mesh _ _ _ _ G).
      rewrite (aget_nth _ _ []) by lia. cbn [obind]. fold (nodes_of mesh en).
      destruct (run_contribs_ok en cs He g FK cm Fv G Hc) as (g1 & E1 & G1). rewrite E1. cbn [obind].
      destruct (IH _ _ _ _ G1) as (g2 & E2 & G2).
      { eapply Forall_impl; [|exact Hcs]. intros x [R1 R2]. split; auto. eapply Forall_impl; [|exact R2].
        intros c' (P1 & P2 & P3). repeat (split; [assumption|]).
        intros Ht. specialize (P3 Ht). destruct cm as [[c'' m]|]; [discriminate|congruence]. }
      exists g2. split; auto. cbn [flat flat_map fst snd]. fold (flat l). fold (nodes_of mesh en).
      eapply ginv_ext; [exact G2| | |].
      + intros a b. cbn beta. rewrite sumof_app, sumof_map. ring.
      + destruct cm as [[c' m]|]; cbn [cm_add]; auto.
        split; intros a b; cbn beta; rewrite sumof_app, sumof_map; ring.
      + intros a. cbn beta. rewrite sumof_app, sumof_map. ring.
  Qed.

  (* MPC equations *)
  Definition mpc_ok (x : nat * mpc K) : Prop :=
    (ns_ndofs s + 1 <= fst x <= total)%nat /\
    forall t, In t (mp_terms (snd x)) -> In (term_key t) (reg_keys regs) /\ sym_in es (fst x) (eqn s (term_key t)).
  Definition mpc_part (a b : nat) (x : nat * mpc K) : K :=
    sumof (fun t => if same_pair (fst x) (eqn s (term_key t)) a b then snd t else 0) (mp_terms (snd x)).

  Lemma run_mpc_ok g FK cm Fv x : ginv g FK cm Fv -> mpc_ok x ->
    exists g', run_mpc g x = Ok g' /\
      ginv g' (fun a b => FK a b + mpc_part a b x) cm (fun a => if Nat.eqb a (fst x) then mp_b (snd x) else Fv a).
  Proof.
    intros G [Hr Ht]. pose proof G as [A1 A2 A3 A4 A5 A6 A7]. unfold run_mpc. rewrite A1, A6, n_mpc_nm.
    replace (0 <? fst x)%nat with true by (symmetry; apply Nat.ltb_lt; lia).
    replace (fst x <=? total)%nat with true by (symmetry; apply Nat.leb_le; lia).
    cbn [asserting]. rewrite aset_ok by lia. cbn [obind].
    assert (L : forall ts B F, (forall t, In t ts -> In (term_key t) (reg_keys regs) /\ sym_in es (fst x) (eqn s (term_key t))) ->
      brep K 0 rows es B F -> bm_compressed B = true ->
      exists B', ofold (fun B t => j <- kd_eq s (term_key t) ;; b_addValue B (fst x) j (snd t)) ts B = Ok B' /\
        bm_compressed B' = true /\
        brep K 0 rows es B' (fun a b => F a b + sumof (fun t => if same_pair (fst x) (eqn s (term_key t)) a b then snd t else 0) ts)).
    { induction ts as [|t ts IH]; intros B F H HB HC.
      - exists B. split; [reflexivity|]. split; auto. eapply brep_ext; [exact HB|]. intros a b. rewrite sumof_nil. ring.
      - destruct (H t (or_introl eq_refl)) as [R S]. cbn [ofold].
        rewrite (kd_ok nn mesh regs fixes s nm HN) by auto. cbn [obind].
        destruct (add_ok 0 B F _ _ (snd t) HB HC S) as (B1 & E1 & C1 & HB1). rewrite E1. cbn [obind].
        destruct (IH B1 _ (fun t' Ht' => H t' (or_intror Ht')) HB1 C1) as (B2 & E2 & C2 & HB2).
        exists B2. split; auto. split; auto. eapply brep_ext; [exact HB2|]. intros a b. cbn beta.
        rewrite sumof_cons. ring. }
    destruct (L (mp_terms (snd x)) (g_K g) FK Ht A3 A4) as (B' & E & C' & HB). rewrite E. cbn [obind].
    eexists; split; [reflexivity|]. split; auto.
    - cbn [g_F]. now rewrite upd_length.
    - intros a Ha. cbn [g_F]. rewrite nth_upd by lia.
      destruct (Nat.eqb_spec (fst x - 1) (a - 1)), (Nat.eqb_spec a (fst x)); try lia; auto.
  Qed.
  Lemma run_mpcs_ok l : forall g FK cm Fv, ginv g FK cm Fv -> Forall mpc_ok l ->
    exists g', ofold run_mpc l g = Ok g' /\
      ginv g' (fun a b => FK a b + sumof (mpc_part a b) l) cm
        (fun a => fold_left (fun v x => if Nat.eqb a (fst x) then mp_b (snd x) else v) l (Fv a)).
  Proof.
    induction l as [|x l IH]; intros g FK cm Fv G HF.
    - exists g. split; [reflexivity|]. eapply ginv_ext; [exact G| | |].
      + intros a b. rewrite sumof_nil. ring.
      + destruct cm as [[c m]|]; auto.
      + reflexivity.
    - inversion HF as [|? ? Hx Hl]; subst. destruct (run_mpc_ok g FK cm Fv x G Hx) as (g1 & E1 & G1).
      cbn [ofold]. rewrite E1. cbn [obind]. destruct (IH _ _ _ _ G1 Hl) as (g2 & E2 & G2).
      exists g2. split; auto. eapply ginv_ext; [exact G2| | |].
      + intros a b. cbn beta. rewrite sumof_cons. ring.
      + destruct cm as [[c m]|]; auto.
      + reflexivity.
  Qed.

  (* reading *)
  Lemma gvalue_ok k B F i j : brep K k rows es B F -> (forall a b, F a b = F b a) ->
    (1 <= i <= list_sum rows)%nat -> (1 <= j <= list_sum rows)%nat -> gvalue B i j = Ok (F i j).
  Proof.
    intros HB HF Hi Hj. unfold gvalue.
    destruct (locate_pair rows (i, j)) as (a & b & p & q & E1 & E2 & V & Hp & Hq & Hpq & Eu).
    { split; cbn [fst snd]; lia. }
    cbn [fst snd] in E1, E2. pose proof HB as (W & R & N & T & _).
    unfold b_locate. rewrite !rangeb by lia. cbn [asserting obind]. rewrite R, E1, E2. cbn [fst snd].
    rewrite (brep_value K k rows es B F a b p q HB HF V Hp Hq). f_equal.
    unfold up in Eu. cbn [fst snd] in Eu. destruct (j <? i)%nat; injection Eu as E3 E4; rewrite <- E3, <- E4; auto.
  Qed.
End Run.
