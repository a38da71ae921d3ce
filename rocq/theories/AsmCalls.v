(* The calls made by the scatter loops *)
From Coq Require Import Permutation.
From Verif Require Import Base BaseProofs SparseModel SpecSparse BlockModel DofModel SpecDof DofProofs
  AsmModel SpecAsm AsmLists.

Lemma U_NoDup n : NoDup (U n).
Proof. eapply NoDup_map_inv. rewrite comp_U. apply seq_NoDup. Qed.

Lemma up_id p q : p <= q -> up (p, q) = (p, q).
Proof. intros H. unfold up. cbn [fst snd]. destruct (Nat.ltb_spec q p); [lia|reflexivity]. Qed.
Lemma map_up_U n : map up (U n) = U n.
Proof. rewrite <- (map_id (U n)) at 2. apply map_ext_in. intros [p q] H. apply U_in in H. apply up_id. lia. Qed.

(* a last row/column added to the triangle *)
Lemma U_grow n : Permutation (U n ++ map (fun p => (p, n)) (seq 0 n) ++ [(n, n)]) (U (n + 1)).
Proof.
  replace (map (fun p => (p, n)) (seq 0 n) ++ [(n, n)]) with (map (fun p => (p, n)) (seq 0 (S n)))
    by (rewrite seq_S, map_app; reflexivity).
  apply NoDup_Permutation.
  - apply NoDup_app_intro.
    + apply U_NoDup.
    + apply FinFun.Injective_map_NoDup; [|apply seq_NoDup]. now intros x y [= ->].
    + intros [p q] H H'. apply U_in in H. apply in_map_iff in H' as (x & [= <- <-] & _). lia.
  - apply U_NoDup.
  - intros [p q]. rewrite in_app_iff, !U_in, in_map_iff. split.
    + intros [H|(x & [= <- <-] & H)]; [lia|]. apply in_seq in H. lia.
    + intros H. destruct (Nat.eq_dec q n) as [->|]; [right|left; lia]. exists p. split; auto. apply in_seq. lia.
Qed.

Definition perm_check (l1 l2 : list (nat * nat)) : bool :=
  forallb (fun x => if in_dec pos_dec x l2 then true else false) l1 && (length l1 =? length l2).
Lemma perm_check_ok l1 l2 : nodup pos_dec l1 = l1 -> NoDup l2 -> perm_check l1 l2 = true -> Permutation l1 l2.
Proof.
  intros N1 N2 H. apply andb_prop in H as [H1 H2]. apply Nat.eqb_eq in H2.
  apply NoDup_Permutation_bis; auto.
  - rewrite <- N1. apply NoDup_nodup.
  - lia.
  - intros x Hx. rewrite forallb_forall in H1. specialize (H1 x Hx). now destruct (in_dec pos_dec x l2).
Qed.
Definition plane41_local : list (nat * nat) :=
  map (loc2 2) plane41_pairs ++ map (fun x => (fst x * 2 + snd x, 8)) (loop_nodes 4 2) ++ [(8, 8)].
Lemma plane41_perm : Permutation (map up plane41_local) (U 9).
Proof. apply perm_check_ok; [vm_compute; reflexivity|apply U_NoDup|vm_compute; reflexivity]. Qed.

Section Calls.
  Variable K : Rng.
  Add Ring Kr : (rth K).
  Local Open Scope rng_scope.
  Notation call := (call K). Notation contrib := (contrib K).

  Variable s : numst.

  Definition callM (t : target) (a b : nat) (c : call) : K :=
    match c with
    | AddM t' x y v => if tgt_eqb t' t && same_pair (eqn s x) (eqn s y) a b then v else 0
    | AddF _ _ => 0
    end.
  Definition callF (a : nat) (c : call) : K :=
    match c with AddF x v => if Nat.eqb (eqn s x) a then v else 0 | _ => 0 end.
  (* both keys of a call belong to a list *)
  Definition call_in (keys : list key) (c : call) : Prop :=
    match c with AddM _ x y _ => In x keys /\ In y keys | AddF x _ => In x keys end.

  Definition mcall (tg : target) (keys : list key) (ke : nat -> nat -> K) (x : nat * nat) : call :=
    AddM tg (nth (fst x) keys dkey) (nth (snd x) keys dkey) (ke (fst x) (snd x)).
  Definition fcall (keys : list key) (fe : nat -> K) (p : nat) : call := AddF (nth p keys dkey) (fe p).

  Definition symm (n : nat) (ke : nat -> nat -> K) := forall p q, (p < n)%nat -> (q < n)%nat -> ke p q = ke q p.

  Lemma mcalls_sum tg keys ke l t a b : symm (length keys) ke ->
    Permutation (map up l) (U (length keys)) ->
    sumof (callM t a b) (map (mcall tg keys ke) l) =
    if tgt_eqb tg t then mat_part s keys ke a b - dup_part s keys ke a b else 0.
  Proof.
    intros Hs HP. rewrite sumof_map. unfold callM, mcall. destruct (tgt_eqb tg t); cbn [andb].
    - rewrite (upper_sum_perm K (fun p => eqn s (nth p keys dkey)) ke (length keys) l a b Hs HP).
      rewrite (upper_sum K (fun p => eqn s (nth p keys dkey)) ke (length keys) a b Hs). reflexivity.
    - apply sumof_zero. reflexivity.
  Qed.
  Lemma mcalls_F tg keys ke l a : sumof (callF a) (map (mcall tg keys ke) l) = 0.
  Proof. rewrite sumof_map. apply sumof_zero. reflexivity. Qed.
  Lemma fcalls_M keys fe l t a b : sumof (callM t a b) (map (fcall keys fe) l) = 0.
  Proof. rewrite sumof_map. apply sumof_zero. reflexivity. Qed.
  Lemma fcalls_sum keys fe a :
    sumof (callF a) (map (fcall keys fe) (seq 0 (length keys))) = vec_part s keys fe a.
  Proof. rewrite sumof_map. reflexivity. Qed.
  Lemma mcalls_in tg keys ke l : Permutation (map up l) (U (length keys)) ->
    Forall (call_in keys) (map (mcall tg keys ke) l).
  Proof.
    intros HP. rewrite Forall_forall. intros c Hc. apply in_map_iff in Hc as ([p q] & <- & Hx).
    assert (In (up (p, q)) (U (length keys))) as HU.
    { eapply Permutation_in; [exact HP|]. now apply in_map. }
    unfold mcall, call_in. cbn [fst snd]. unfold up in HU. cbn [fst snd] in HU.
    destruct (Nat.ltb_spec q p); apply U_in in HU; split; apply nth_In; lia.
  Qed.
  Lemma fcalls_in keys fe : Forall (call_in keys) (map (fcall keys fe) (seq 0 (length keys))).
  Proof.
    rewrite Forall_forall. intros c Hc. apply in_map_iff in Hc as (p & <- & Hp). apply in_seq in Hp.
    unfold fcall, call_in. apply nth_In. lia.
  Qed.

  (* the result of a scatter function *)
  Record scatter (keys : list key) (ke : nat -> nat -> K) (fe : nat -> K) (tg : target) (cs : list call) : Prop := {
    sc_in : Forall (call_in keys) cs;
    sc_M : forall t a b, sumof (callM t a b) cs =
             if tgt_eqb tg t then mat_part s keys ke a b - dup_part s keys ke a b else 0;
    sc_F : forall a, sumof (callF a) cs = vec_part s keys fe a }.

  Lemma vec_part_zero keys a : vec_part s keys (fun _ => 0 : K) a = 0.
  Proof. unfold vec_part. apply sumof_zero. intros p _. destruct (at_eq s keys p a); reflexivity. Qed.

  Lemma scatter_M keys ke fe tg l : symm (length keys) ke -> Permutation (map up l) (U (length keys)) ->
    (forall p, fe p = 0) -> scatter keys ke fe tg (map (mcall tg keys ke) l).
  Proof.
    intros Hs HP Hf. split.
    - now apply mcalls_in.
    - intros t a b. now apply mcalls_sum.
    - intros a. rewrite mcalls_F. symmetry. unfold vec_part. apply sumof_zero. intros p _. rewrite Hf.
      destruct (at_eq s keys p a); reflexivity.
  Qed.
  Lemma scatter_MF keys ke fe tg l : symm (length keys) ke -> Permutation (map up l) (U (length keys)) ->
    scatter keys ke fe tg (map (mcall tg keys ke) l ++ map (fcall keys fe) (seq 0 (length keys))).
  Proof.
    intros Hs HP. split.
    - apply Forall_app. split; [now apply mcalls_in|apply fcalls_in].
    - intros t a b. rewrite sumof_app, fcalls_M, mcalls_sum by auto.
      destruct (tgt_eqb tg t); ring.
    - intros a. rewrite sumof_app, mcalls_F, fcalls_sum. ring.
  Qed.

  Lemma scatter_U keys ke fe tg n : length keys = n -> symm n ke -> (forall p, fe p = 0) ->
    scatter keys ke fe tg (map (mcall tg keys ke) (U n)).
  Proof. intros <- Hs Hf. apply scatter_M; auto. now rewrite map_up_U. Qed.
  Lemma scatter_UF keys ke fe tg n : length keys = n -> symm n ke ->
    scatter keys ke fe tg (map (mcall tg keys ke) (U n) ++ map (fcall keys fe) (seq 0 n)).
  Proof. intros <- Hs. apply scatter_MF; auto. now rewrite map_up_U. Qed.

  (* -------- the loops -------- *)
  Lemma sym_calls_ok tg nodes types Ke : length Ke = tri (length nodes * length types) ->
    sym_calls tg nodes types Ke =
    Ok (map (mcall tg (node_keys nodes types)
         (fun p q => nth (sym_comp (length nodes * length types) p q) Ke 0)) (U (length nodes * length types))).
  Proof.
    intros HL. unfold sym_calls. rewrite HL, Nat.eqb_refl. cbn [asserting].
    set (n := (length nodes * length types)%nat). set (dim := length types).
    rewrite (omap_map _ (fun x => mcall tg (node_keys nodes types) (fun _ _ => nth (fst x) Ke 0) (loc2 dim (snd x)))).
    - f_equal. unfold numbered_list.
      rewrite <- (map_map (fun x => (fst x, loc2 dim (snd x)))
        (fun x => mcall tg (node_keys nodes types) (fun _ _ => nth (fst x) Ke 0) (snd x))).
      rewrite <- combine_map_r. unfold dim. rewrite loop_pairs_U. fold dim n.
      replace (length (loop_pairs (length nodes) dim)) with (tri n)
        by (rewrite <- (map_length (loc2 dim)), loop_pairs_U; symmetry; apply U_length).
      rewrite <- comp_U, combine_map_same, map_map. apply map_ext. intros [p q]. reflexivity.
    - intros [k x] Hx. apply in_combine_l in Hx as Hk. apply in_combine_r in Hx. apply in_seq in Hk.
      apply loop_pairs_in in Hx as (H1 & H2 & H3 & H4). cbn [fst snd].
      rewrite !(nkey_ok _ _ _ dkey) by auto. cbn [obind].
      rewrite (aget_nth _ _ 0). { reflexivity. }
      rewrite HL. fold n. replace (tri n) with (length (loop_pairs (length nodes) dim)).
      { cbn [fst]. destruct Hk as [_ Hk]. exact Hk. }
      rewrite <- (map_length (loc2 dim)). unfold dim. rewrite loop_pairs_U. apply U_length.
  Qed.

  Lemma loop_nodes_in nn dim x : In x (loop_nodes nn dim) -> (fst x < nn /\ snd x < dim)%nat.
  Proof. destruct x as [i d]. unfold loop_nodes. rewrite in_prod_iff, !in_seq. cbn [fst snd]. lia. Qed.

  (* a loop over (i, di) with a running pointer *)
  Lemma node_loop {C} (f : nat * (nat * nat) -> outcome C) (g : nat -> C) nn dim :
    (forall i di, (i < nn)%nat -> (di < dim)%nat -> f ((i * dim + di)%nat, (i, di)) = Ok (g (i * dim + di)%nat)) ->
    omap f (numbered_list (loop_nodes nn dim)) = Ok (map g (seq 0 (nn * dim))).
  Proof.
    intros H. rewrite <- loop_nodes_seq, map_map.
    assert (E : numbered_list (loop_nodes nn dim) =
      map (fun x => ((fst x * dim + snd x)%nat, x)) (loop_nodes nn dim)).
    { unfold numbered_list. rewrite <- (combine_map_same (fun x => (fst x * dim + snd x)%nat)).
      rewrite loop_nodes_seq. f_equal. f_equal.
      rewrite <- (map_length (fun x => (fst x * dim + snd x)%nat)), loop_nodes_seq, seq_length. reflexivity. }
    rewrite E. rewrite (omap_map f (fun x => g (fst x))).
    - rewrite map_map. reflexivity.
    - intros x Hx. apply in_map_iff in Hx as ([i di] & <- & Hx). apply loop_nodes_in in Hx as [H1 H2].
      cbn [fst snd] in *. now apply H.
  Qed.
  Lemma node_loop' {C} (f : nat * nat -> outcome C) (g : nat -> C) nn dim :
    (forall i di, (i < nn)%nat -> (di < dim)%nat -> f (i, di) = Ok (g (i * dim + di)%nat)) ->
    omap f (loop_nodes nn dim) = Ok (map g (seq 0 (nn * dim))).
  Proof.
    intros H. rewrite <- loop_nodes_seq, map_map. apply omap_map.
    intros [i di] Hx. apply loop_nodes_in in Hx as [H1 H2]. cbn [fst snd] in *. now apply H.
  Qed.

  Lemma vec_calls_ok nodes types Fe : length Fe = (length nodes * length types)%nat ->
    vec_calls nodes types Fe =
    Ok (map (fcall (node_keys nodes types) (fun p => nth p Fe 0)) (seq 0 (length nodes * length types))).
  Proof.
    intros HL. unfold vec_calls. apply node_loop. intros i di Hi Hd. cbn [fst snd].
    rewrite (nkey_ok _ _ _ dkey) by auto. cbn [obind fst snd]. rewrite (aget_nth _ _ 0). { reflexivity. }
    rewrite HL. nia.
  Qed.

  Lemma aget2_ok (M : list (list K)) n m i j : length M = n -> Forall (fun r => length r = m) M ->
    (i < n)%nat -> (j < m)%nat -> aget2 M i j = Ok (nth j (nth i M []) 0).
  Proof.
    intros HL HF Hi Hj. unfold aget2. rewrite (aget_nth _ _ []) by lia. cbn [obind].
    rewrite (aget_nth _ _ 0). { reflexivity. }
    rewrite Forall_forall in HF. rewrite HF by (apply nth_In; lia). auto.
  Qed.

  Lemma map_mcall_ext tg keys keys' ke ke' l :
    (forall p q, In (p, q) l -> nth p keys dkey = nth p keys' dkey /\ nth q keys dkey = nth q keys' dkey /\
       ke p q = ke' p q) ->
    map (mcall tg keys ke) l = map (mcall tg keys' ke') l.
  Proof. intros H. apply map_ext_in. intros [p q] Hx. destruct (H p q Hx) as (E1 & E2 & E3).
    unfold mcall. cbn [fst snd]. now rewrite E1, E2, E3. Qed.

  (* where the storage puts a contribution *)
  Definition real_target (c : contrib) : target := match c with CC _ _ | CM _ _ => TC | _ => TK end.

  Lemma sym_mat_symm n (Ke : list K) m : symm m (fun p q => nth (sym_comp n p q) Ke 0).
  Proof. intros p q _ _. now rewrite comp_sym. Qed.

  Lemma contrib_ok en nodes c : good_sizes nodes c ->
    exists cs, contrib_calls en nodes c = Ok cs /\
      scatter (ckeys en nodes c) (cmat (cdim nodes c) c) (cvec (cdim nodes c) c) (real_target c) cs.
  Proof.
    destruct c as [types Ke|types Ke Fe|types Ke|types Ke|types Ke|Kuu Kup Kpp Fu Fp|Ke Qe];
      unfold good_sizes, cdim; cbn [ctypes contrib_calls ckeys real_target].
    - intros HL. rewrite sym_calls_ok by auto. eexists; split; [reflexivity|].
      apply scatter_U; auto; [apply node_keys_length|apply sym_mat_symm].
    - intros [HL HF]. rewrite sym_calls_ok by auto. cbn [obind]. rewrite vec_calls_ok by auto. cbn [obind].
      eexists; split; [reflexivity|]. 
      apply scatter_UF; [apply node_keys_length|apply sym_mat_symm].
    - intros [HL HF]. unfold eigen_calls. rewrite HL, Nat.eqb_refl. cbn [asserting].
      rewrite (omap_map _ (fun x => mcall TK (node_keys nodes types)
        (fun p q => nth (Nat.max p q) (nth (Nat.min p q) Ke []) 0) (loc2 (length types) x))).
      + eexists; split; [reflexivity|]. rewrite <- map_map, loop_pairs_U.
        apply scatter_U; auto; [apply node_keys_length|].
        intros p q _ _. cbn [cmat]. now rewrite Nat.max_comm, Nat.min_comm.
      + intros x Hx. apply loop_pairs_in in Hx as (H1 & H2 & H3 & H4).
        rewrite !(nkey_ok _ _ _ dkey) by auto. cbn [obind].
        rewrite (aget2_ok Ke (length nodes * length types) (length nodes * length types)); auto.
        * nia.
        * nia.
    - intros HL. rewrite sym_calls_ok by auto. eexists; split; [reflexivity|].
      apply scatter_U; auto; [apply node_keys_length|apply sym_mat_symm].
    - intros HL. rewrite sym_calls_ok by auto. eexists; split; [reflexivity|].
      apply scatter_U; auto; [apply node_keys_length|apply sym_mat_symm].
    - cbn [length]. intros (HL & HU & HF). unfold mixed_calls. rewrite sym_calls_ok by auto. cbn [obind].
      set (N := (length nodes * 3)%nat) in *.
      set (keys := node_keys nodes [UX; UY; UZ] ++ [(KEl, en, HYDRO_PRESSURE)]).
      set (ke := cmat N (CMixed Kuu Kup Kpp Fu Fp)).
      assert (LN : length (node_keys nodes [UX; UY; UZ]) = N) by apply node_keys_length.
      assert (LK : length keys = (N + 1)%nat) by (unfold keys; rewrite app_length, LN; reflexivity).
      assert (NK : forall p, (p < N)%nat -> nth p keys dkey = nth p (node_keys nodes [UX; UY; UZ]) dkey).
      { intros p Hp. unfold keys. apply app_nth1. lia. }
      assert (NP : nth N keys dkey = pkey en).
      { unfold keys. rewrite app_nth2 by lia. rewrite LN, Nat.sub_diag. reflexivity. }
      rewrite (node_loop _ (fun p => mcall TK keys ke (p, N))).
      + cbn [obind length]. rewrite vec_calls_ok by auto. cbn [obind].
        eexists; split; [reflexivity|].
        change (length solid81_types) with 3%nat. change solid81_types with [UX; UY; UZ]. fold N.
        rewrite (map_mcall_ext TK (node_keys nodes [UX; UY; UZ]) keys _ ke).
        2:{ intros p q Hx. apply U_in in Hx. rewrite !NK by lia. repeat split. unfold ke. cbn [cmat].
            destruct (Nat.ltb_spec p N); [|lia]. destruct (Nat.ltb_spec q N); [|lia]. reflexivity. }
        replace (AddM TK (pkey en) (pkey en) Kpp) with (mcall TK keys ke (N, N)).
        2:{ unfold mcall. cbn [fst snd]. rewrite NP. f_equal. unfold ke. cbn [cmat].
            destruct (Nat.ltb_spec N N); [lia|]. reflexivity. }
        rewrite <- (map_map (fun p => (p, N)) (mcall TK keys ke)).
        replace (map (fcall (node_keys nodes [UX; UY; UZ]) (fun p => nth p Fu 0)) (seq 0 N) ++ [AddF (pkey en) Fp])
          with (map (fcall keys (cvec N (CMixed Kuu Kup Kpp Fu Fp))) (seq 0 (length keys))).
        2:{ rewrite LK, seq_app, map_app. f_equal.
            - apply map_ext_in. intros p Hp. apply in_seq in Hp. unfold fcall. rewrite NK by lia. f_equal.
              cbn [cvec]. destruct (Nat.ltb_spec p N); [reflexivity|lia].
            - cbn [seq map Nat.add]. unfold fcall. rewrite NP. do 2 f_equal. cbn [cvec].
              destruct (Nat.ltb_spec N N); [lia|reflexivity]. }
        assert (EE : forall (A B C D : list call), A ++ B ++ C ++ D = (A ++ B ++ C) ++ D)
          by (intros; now rewrite <- !app_assoc).
        rewrite EE. change [mcall TK keys ke (N, N)] with (map (mcall TK keys ke) [(N, N)]).
        rewrite <- !map_app. apply scatter_MF.
        * rewrite LK. intros p q Hp Hq. unfold ke. cbn [cmat].
          destruct (Nat.ltb_spec p N), (Nat.ltb_spec q N); auto. now rewrite comp_sym.
        * rewrite LK. rewrite !map_app, map_up_U. cbn [map].
          rewrite (map_ext_in up (fun x => x) (map (fun p => (p, N)) (seq 0 N))).
          -- rewrite map_id, up_id by lia. apply U_grow.
          -- intros x Hx. apply in_map_iff in Hx as (p & <- & Hp). apply in_seq in Hp. apply up_id. lia.
      + intros i di Hi Hd. cbn [fst snd].
        rewrite (nkey_ok _ _ _ dkey) by auto. cbn [obind fst snd]. change (length solid81_types) with 3%nat.
        assert ((i * 3 + di < N)%nat) by (unfold N; nia).
        rewrite (aget_nth _ _ 0) by lia. cbn [obind]. unfold mcall. cbn [fst snd]. rewrite NP, NK by auto.
        do 2 f_equal. unfold ke. cbn [cmat]. destruct (Nat.ltb_spec (i * 3 + di) N); [|lia].
        destruct (Nat.ltb_spec N N); [lia|reflexivity].
    - cbn [length]. intros (HN & HL & HR & HQ & HS). unfold plane41_calls. rewrite HN, HQ. cbn [Nat.eqb asserting].
      set (keys := node_keys nodes [UX; UY] ++ [(KEl, en, HYDRO_PRESSURE)]).
      set (ke := cmat (4 * 2) (CPlane41 Ke Qe)).
      assert (LN : length (node_keys nodes [UX; UY]) = 8%nat) by (rewrite node_keys_length, HN; reflexivity).
      assert (LK : length keys = 9%nat) by (unfold keys; rewrite app_length, LN; reflexivity).
      assert (NK : forall p, (p < 8)%nat -> nth p keys dkey = nth p (node_keys nodes [UX; UY]) dkey).
      { intros p Hp. unfold keys. apply app_nth1. lia. }
      assert (NP : nth 8 keys dkey = pkey en).
      { unfold keys. rewrite app_nth2 by lia. rewrite LN, Nat.sub_diag. reflexivity. }
      rewrite (omap_map _ (fun x => mcall TK keys ke (loc2 2 x))).
      2:{ intros x Hx.
          assert ((fst (fst x) < 4 /\ snd (fst x) < 2 /\ fst (snd x) < 4 /\ snd (snd x) < 2)%nat) as (H1 & H2 & H3 & H4).
          { assert (HB : forallb (fun x => (fst (fst x) <? 4)%nat && ((snd (fst x) <? 2)%nat &&
              ((fst (snd x) <? 4)%nat && (snd (snd x) <? 2)%nat))) plane41_pairs = true) by (vm_compute; reflexivity).
            rewrite forallb_forall in HB. specialize (HB x Hx). rewrite !andb_true_iff, !Nat.ltb_lt in HB. tauto. }
          rewrite !(nkey_ok _ _ _ dkey) by (rewrite ?HN; auto). cbn [obind].
          change (length plane41_types) with 2%nat. change plane41_types with [UX; UY].
          rewrite (aget2_ok Ke 9 9) by (auto; lia). cbn [obind]. unfold mcall, loc2. cbn [fst snd].
          rewrite !NK by lia. reflexivity. }
      cbn [obind]. rewrite (node_loop' _ (fun p => mcall TK keys ke (p, 8%nat)) 4 2).
      2:{ intros i di Hi Hd. rewrite (nkey_ok _ _ _ dkey) by (rewrite ?HN; auto). cbn [obind fst snd].
          change (length plane41_types) with 2%nat. change plane41_types with [UX; UY].
          rewrite (aget2_ok Ke 9 9) by (auto; lia). cbn [obind]. unfold mcall. cbn [fst snd].
          rewrite NP, NK by lia. reflexivity. }
      cbn [obind]. rewrite (aget2_ok Ke 9 9) by (auto; lia). cbn [obind].
      rewrite (node_loop' _ (fcall keys (cvec (4 * 2) (CPlane41 Ke Qe))) 4 2).
      2:{ intros i di Hi Hd. rewrite (nkey_ok _ _ _ dkey) by (rewrite ?HN; auto). cbn [obind fst snd].
          change (length plane41_types) with 2%nat. change plane41_types with [UX; UY].
          rewrite (aget_nth _ _ 0) by lia. cbn [obind]. unfold fcall. rewrite NK by lia. reflexivity. }
      cbn [obind]. rewrite (aget_nth _ _ 0) by lia. cbn [obind].
      eexists; split; [reflexivity|].
      replace (AddM TK (pkey en) (pkey en) (nth 8 (nth 8 Ke []) 0)) with (mcall TK keys ke (8%nat, 8%nat))
        by (unfold mcall; cbn [fst snd]; now rewrite NP).
      replace (AddF (pkey en) (nth 8 Qe 0)) with (fcall keys (cvec (4 * 2) (CPlane41 Ke Qe)) 8)
        by (unfold fcall; now rewrite NP).
      assert (EE : forall (A B C D E : list call), A ++ B ++ C ++ D ++ E = (A ++ B ++ C) ++ (D ++ E))
        by (intros; now rewrite <- !app_assoc).
      rewrite EE. rewrite <- (map_map (loc2 2) (mcall TK keys ke)).
      rewrite <- (map_map (fun p => (p, 8%nat)) (mcall TK keys ke)).
      change [mcall TK keys ke (8%nat, 8%nat)] with (map (mcall TK keys ke) [(8%nat, 8%nat)]).
      change [fcall keys (cvec (4 * 2) (CPlane41 Ke Qe)) 8] with (map (fcall keys (cvec (4 * 2) (CPlane41 Ke Qe))) [8%nat]).
      rewrite <- !map_app. replace (seq 0 (4 * 2) ++ [8%nat]) with (seq 0 (length keys)) by (rewrite LK; reflexivity).
      apply scatter_MF.
      + rewrite LK. intros p q Hp Hq. unfold ke. cbn [cmat]. auto.
      + rewrite LK. replace (map (fun p => (p, 8%nat)) (seq 0 (4 * 2)))
          with (map (fun x => ((fst x * 2 + snd x)%nat, 8%nat)) (loop_nodes 4 2)) by reflexivity.
        exact plane41_perm.
  Qed.
End Calls.
