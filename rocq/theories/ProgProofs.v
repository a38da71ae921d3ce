(* Proofs about the program: the command line *)
From Coq Require Import String Ascii Permutation.
From Verif Require Import Base ReaderModel SpecReader ReaderProofs ReaderNum ReaderMesh DofModel ReactModel ProgModel SpecProg.
Local Open Scope list_scope.
Local Open Scope nat_scope.

Lemma ends_iff a : ends_values a = true <-> option_name a.
Proof.
  unfold ends_values, option_name. destruct a as [|c t].
  - split; [discriminate|intros (t & E & _); discriminate].
  - rewrite andb_true_iff, negb_true_iff, Nat.eqb_eq. split.
    + intros [E F]. exists t. split.
      * f_equal. rewrite <- (ascii_nat_embedding c). unfold code in E. rewrite E. reflexivity.
      * destruct t as [|d u]; [exact I|]. cbn [starts_digit] in F. unfold is_digit, code in F. intros G.
        apply andb_false_iff in F. destruct F as [F|F]; apply Nat.leb_gt in F; lia.
    + intros (u & E & F). injection E as -> ->. split; [reflexivity|].
      destruct u as [|d u]; [reflexivity|]. cbn [starts_digit]. unfold is_digit, code.
      destruct (48 <=? nat_of_ascii d) eqn:A; [|reflexivity]. destruct (nat_of_ascii d <=? 57) eqn:B; [|reflexivity].
      apply Nat.leb_le in A, B. exfalso. apply F. lia.
Qed.
Lemma ends_not a : ~ option_name a -> ends_values a = false.
Proof. intros H. destruct (ends_values a) eqn:E; [|reflexivity]. exfalso. apply H, ends_iff, E. Qed.

Lemma find_skip vs t name : option_name name -> Forall (fun v => ~ option_name v) vs -> find_arg (vs ++ t) name = find_arg t name.
Proof.
  intros N. induction 1 as [|v vs H _ IH]; [reflexivity|]. cbn [app find_arg].
  destruct (str_eqb v name) eqn:E; [|exact IH]. apply str_eqb_eq in E. subst. contradiction.
Qed.
Lemma take_skip vs t : Forall (fun v => ~ option_name v) vs -> take_values (vs ++ t) = vs ++ take_values t.
Proof. induction 1 as [|v vs H _ IH]; [reflexivity|]. cbn [app take_values]. rewrite (ends_not v H), IH. reflexivity. Qed.
Lemma flat_cons g gs : flat (g :: gs) = fst g :: snd g ++ flat gs. Proof. reflexivity. Qed.
Lemma separate_tail g gs : separate (g :: gs) -> separate gs.
Proof. intros [A B]. split; [inversion A; assumption|]. intros x H. apply B. right. exact H. Qed.
Lemma take_flat gs : separate gs -> take_values (flat gs) = [].
Proof.
  destruct gs as [|g gs]; [reflexivity|]. intros [_ H]. rewrite flat_cons. cbn [take_values].
  destruct (H g (or_introl eq_refl)) as [O _]. apply ends_iff in O. rewrite O. reflexivity.
Qed.
Lemma find_absent gs name : separate gs -> option_name name -> ~ In name (map fst gs) -> find_arg (flat gs) name = None.
Proof.
  intros S N. induction gs as [|g gs IH]; [reflexivity|]. intros H. rewrite flat_cons. cbn [find_arg].
  destruct (str_eqb (fst g) name) eqn:E; [apply str_eqb_eq in E; exfalso; apply H; left; exact E|].
  rewrite find_skip; [|exact N|apply S; left; reflexivity]. apply IH; [eapply separate_tail; eauto|].
  intros I. apply H. right. exact I.
Qed.
Lemma find_present gs name vs : separate gs -> option_name name -> In (name, vs) gs ->
  exists gs', separate gs' /\ find_arg (flat gs) name = Some (vs ++ flat gs').
Proof.
  intros S N. induction gs as [|g gs IH]; [intros []|]. intros H. rewrite flat_cons. cbn [find_arg].
  destruct (str_eqb (fst g) name) eqn:E.
  - apply str_eqb_eq in E. exists gs. split; [eapply separate_tail; eauto|].
    destruct H as [->|H]; [reflexivity|].
    exfalso. destruct S as [S _]. cbn [map] in S. inversion S as [|? ? X _]; subst. apply X.
    apply (in_map fst) in H. exact H.
  - destruct H as [->|H]; [cbn [fst] in E; rewrite str_eqb_refl in E; discriminate|].
    rewrite find_skip; [|exact N|apply S; left; reflexivity]. apply IH; [eapply separate_tail; eauto|exact H].
Qed.

Lemma many_ok gs name o : separate gs -> option_name name -> found gs name o ->
  getCmdManyOptions (flat gs) name = match o with Some vs => vs | None => [] end.
Proof.
  intros S N F. unfold getCmdManyOptions. destruct o as [vs|].
  - destruct (find_present gs name vs S N F) as (g' & S' & E). rewrite E, take_skip, take_flat, app_nil_r; [reflexivity|exact S'|].
    destruct S as [_ S]. apply (S (name, vs)). exact F.
  - rewrite (find_absent gs name S N F). reflexivity.
Qed.
Lemma exists_ok gs name o : separate gs -> option_name name -> found gs name o ->
  cmdOptionExists (flat gs) name = match o with Some _ => true | None => false end.
Proof.
  intros S N F. unfold cmdOptionExists. destruct o as [vs|].
  - destruct (find_present gs name vs S N F) as (g' & S' & E). rewrite E. reflexivity.
  - rewrite (find_absent gs name S N F). reflexivity.
Qed.
Lemma one_ok gs name o : separate gs -> option_name name -> found gs name o -> o <> Some [] ->
  getCmdOption (flat gs) name = match o with Some (v :: _) => Some v | _ => None end.
Proof.
  intros S N F H. unfold getCmdOption. destruct o as [vs|].
  - destruct (find_present gs name vs S N F) as (g' & S' & E). rewrite E. destruct vs as [|v vs]; [congruence|reflexivity].
  - rewrite (find_absent gs name S N F). reflexivity.
Qed.

Lemma found_perm gs gs' name o : Permutation gs gs' -> found gs name o -> found gs' name o.
Proof.
  intros P. destruct o; cbn [found]; [apply Permutation_in; exact P|].
  intros H I. apply H. eapply Permutation_in; [|exact I]. apply Permutation_sym, Permutation_map, P.
Qed.
Lemma separate_perm gs gs' : Permutation gs gs' -> separate gs -> separate gs'.
Proof.
  intros P [A B]. split; [eapply Permutation_NoDup; [apply Permutation_map; exact P|exact A]|].
  intros g H. apply B. eapply Permutation_in; [apply Permutation_sym; exact P|exact H].
Qed.
Lemma keep_in l n vs : In (n, vs) (keep l) <-> In (n, Some vs) l.
Proof.
  unfold keep. rewrite in_flat_map. split.
  - intros ((m & o) & H & K). cbn [fst snd] in K. destruct o as [ws|]; [|destruct K]. destruct K as [K|[]]. injection K as -> ->. exact H.
  - intros H. exists (n, Some vs). split; [exact H|]. left. reflexivity.
Qed.
Lemma keep_names l n : In n (map fst (keep l)) -> exists vs, In (n, Some vs) l.
Proof. rewrite in_map_iff. intros ((m & vs) & E & H). cbn in E. subst. exists vs. apply keep_in, H. Qed.
Lemma keep_nodup l : NoDup (map fst l) -> NoDup (map fst (keep l)).
Proof.
  induction l as [|[n o] l IH]; [intros; constructor|]. cbn [map fst]. inversion 1 as [|? ? A B]; subst.
  change (keep ((n, o) :: l)) with (match o with Some vs => [(n, vs)] | None => [] end ++ keep l).
  destruct o as [vs|]; [|exact (IH B)]. cbn [app map fst]. constructor; [|exact (IH B)].
  intros I. apply A. destruct (keep_names _ _ I) as (ws & J). apply (in_map fst) in J. exact J.
Qed.
Lemma keep_found l n o : NoDup (map fst l) -> In (n, o) l -> found (keep l) n o.
Proof.
  intros N H. destruct o as [vs|]; cbn [found]; [apply keep_in, H|].
  intros I. destruct (keep_names _ _ I) as (vs & J).
  assert (forall a b, In (n, a) l -> In (n, b) l -> a = b) as U; [|specialize (U _ _ H J); discriminate].
  clear - N. induction l as [|[m c] l IH]; intros a b; [intros []|]. cbn [map fst] in N. inversion N as [|? ? X Y]; subst.
  intros [A|A] [B|B].
  - congruence.
  - injection A as -> ->. exfalso. apply X. apply (in_map fst) in B. exact B.
  - injection B as -> ->. exfalso. apply X. apply (in_map fst) in A. exact A.
  - apply (IH Y); assumption.
Qed.

Lemma opt_dash x : match x with c :: _ => is_digit c = false | [] => True end -> option_name ("-"%char :: x).
Proof.
  intros H. apply ends_iff. cbn [ends_values]. change (code "-"%char =? 45) with true. cbn [andb]. destruct x as [|c x]; [reflexivity|].
  cbn [starts_digit]. rewrite H. reflexivity.
Qed.
Lemma table_names s : NoDup (map fst (table s)) /\ Forall option_name (map fst (table s)).
Proof.
  split.
  - cbn [table map fst]. repeat constructor; cbn [In]; intuition discriminate.
  - cbn [table map fst]. repeat (constructor; [apply ends_iff; reflexivity|]). constructor.
Qed.
Lemma show_value z : (0 <= z < 2147483648)%Z -> ~ option_name (show z).
Proof.
  intros H O. apply ends_iff in O. destruct (show_cases z) as [[A _]|[_ E]]; [unfold int_ok; lia|lia|].
  destruct (dec_nonempty 10 z ltac:(lia) ltac:(lia)) as (c & t & E2 & Dg). rewrite E, E2 in O. cbn [ends_values] in O.
  destruct (digit_notspace c Dg) as (_ & S2 & _). rewrite S2 in O. discriminate.
Qed.
Lemma dof_value d : ~ option_name (dof_name d).
Proof. intros O. apply ends_iff in O. do 8 (destruct d as [|d]; [vm_compute in O; discriminate|]). vm_compute in O. destruct d; discriminate. Qed.
Lemma elem_value d : ~ option_name (elem_name d).
Proof. intros O. apply ends_iff in O. do 10 (destruct d as [|d]; [vm_compute in O; discriminate|]). vm_compute in O. destruct d; discriminate. Qed.
Lemma dof_names_value ds : Forall (fun v => ~ option_name v) (map dof_name ds).
Proof. apply Forall_forall. intros x H. apply in_map_iff in H. destruct H as (d & <- & _). apply dof_value. Qed.
Lemma dof_names_ok ds : Forall (fun d => d < 8) ds -> map label2dofType (map dof_name ds) = ds.
Proof.
  induction 1 as [|d ds H _ IH]; [reflexivity|]. cbn [map]. rewrite IH. f_equal.
  do 8 (destruct d as [|d]; [reflexivity|]). lia.
Qed.
Lemma elem_name_ok e : e < 10 -> elName2elType (elem_name e) = e.
Proof. intros H. do 10 (destruct e as [|e]; [reflexivity|]). lia. Qed.

Lemma table_separate s : settings_ok s -> separate (keep (table s)).
Proof.
  intros (I & L & E & M & C & _ & R & T & Re & Rb). split; [apply keep_nodup, table_names|].
  intros [n vs] H. cbn [fst snd]. apply keep_in in H. split.
  - destruct (table_names s) as [_ F]. rewrite Forall_forall in F. apply F. apply (in_map fst) in H. exact H.
  - cbn [table In] in H.
    destruct H as [H|[H|[H|[H|[H|[H|[H|[H|[H|[]]]]]]]]]]; injection H as _ H.
    + destruct (s_iter s) as [z|]; [|discriminate]. cbn in H, I. injection H as <-. constructor; [apply show_value; lia|constructor].
    + destruct (s_steps s) as [z|]; [|discriminate]. cbn in H, L. injection H as <-. constructor; [apply show_value; lia|constructor].
    + destruct (s_elem s) as [z|]; [|discriminate]. cbn in H. injection H as <-. constructor; [apply elem_value|constructor].
    + destruct (s_novtk s); [|discriminate]. injection H as <-. constructor.
    + subst vs. constructor; assumption.
    + destruct (s_ref s) as [z|]; [|discriminate]. cbn in H, R. injection H as <-. constructor; [exact R|constructor].
    + destruct (s_thr s) as [z|]; [|discriminate]. cbn in H, T. injection H as <-. constructor; [exact T|constructor].
    + destruct (s_react s) as [z|]; [|discriminate]. cbn in H, Re. injection H as <-. constructor; [apply Re|apply dof_names_value].
    + destruct (s_rigid s) as [z|]; [|discriminate]. cbn in H, Rb. injection H as <-. destruct Rb as (A & B & _).
      constructor; [apply show_value; lia|]. constructor; [exact B|apply dof_names_value].
Qed.

Lemma atoi_show z : (0 <= z < 2147483648)%Z -> atoi (show z) = Ok z.
Proof. intros H. unfold atoi. rewrite stoi_show; [reflexivity|unfold int_ok; lia]. Qed.
Lemma wrap16_id z : (0 <= z < 65536)%Z -> wrap16 z = z. Proof. intros H. apply Z.mod_small. exact H. Qed.
Lemma opt_num_ok gs n o d : separate gs -> option_name n -> found gs n (option_map (fun z => [show z]) o) ->
  all_opt (fun z => (0 <= z < 65536)%Z) o -> opt_num (flat gs) n d = Ok (default d o).
Proof.
  intros S N F A. unfold opt_num. rewrite (one_ok gs n _ S N F) by (destruct o; discriminate).
  destruct o as [z|]; cbn [option_map default]; [|reflexivity]. cbn in A. rewrite atoi_show by lia. cbn [obind].
  rewrite wrap16_id by assumption. reflexivity.
Qed.

Section P.
  Variable D : Dbl.
  Theorem parse_ok gs model s : settings_ok s -> Permutation (keep (table s)) gs ->
    parse_args D (model :: flat gs) = go (options_of D model s).
  Proof.
    intros OK P. pose proof (table_separate s OK) as S0. pose proof (separate_perm _ _ P S0) as S.
    destruct (table_names s) as [ND ON].
    assert (F : forall n o, In (n, o) (table s) -> found gs n o) by (intros n o H; eapply found_perm; [exact P|]; apply keep_found; assumption).
    assert (O : forall n o, In (n, o) (table s) -> option_name n) by (intros n o H; rewrite Forall_forall in ON; apply ON; apply (in_map fst) in H; exact H).
    destruct OK as (I & L & E & M & C & CN & R & T & Re & Rb).
    unfold parse_args. cbv zeta.
    assert (H1 : In (s_ "-iterations", option_map (fun n => [show n]) (s_iter s)) (table s)) by (cbn [table In]; tauto).
    rewrite (opt_num_ok gs _ _ _ S (O _ _ H1) (F _ _ H1) I). cbn [lift obind pbind go].
    assert (H2 : In (s_ "-loadsteps", option_map (fun n => [show n]) (s_steps s)) (table s)) by (cbn [table In]; tauto).
    rewrite (opt_num_ok gs _ _ _ S (O _ _ H2) (F _ _ H2) L). cbn [lift obind pbind go].
    assert (H3 : In (s_ "-material", Some (s_mat s :: s_consts s)) (table s)) by (cbn [table In]; tauto).
    unfold opt_material. rewrite (many_ok gs _ _ S (O _ _ H3) (F _ _ H3)). cbn iota.
    destruct (Z.ltb_spec 65535 (Z.of_nat (length (s_mat s :: s_consts s)))) as [X|_]; [cbn [length] in X; lia|].
    cbn [lift obind pbind go fst snd].
    assert (H4 : In (s_ "-rigidbody", option_map (fun r => show (fst (fst r)) :: snd (fst r) :: map dof_name (snd r)) (s_rigid s)) (table s)) by (cbn [table In]; tauto).
    unfold opt_rigid. rewrite (many_ok gs _ _ S (O _ _ H4) (F _ _ H4)).
    assert (H5 : In (s_ "-novtk", if s_novtk s then Some [] else None) (table s)) by (cbn [table In]; tauto).
    rewrite (exists_ok gs _ _ S (O _ _ H5) (F _ _ H5)).
    assert (H6 : In (s_ "-element", option_map (fun e => [elem_name e]) (s_elem s)) (table s)) by (cbn [table In]; tauto).
    rewrite (one_ok gs _ _ S (O _ _ H6) (F _ _ H6)) by (destruct (s_elem s); discriminate).
    assert (H7 : In (s_ "-refcurve", option_map (fun f => [f]) (s_ref s)) (table s)) by (cbn [table In]; tauto).
    rewrite (one_ok gs _ _ S (O _ _ H7) (F _ _ H7)) by (destruct (s_ref s); discriminate).
    assert (H8 : In (s_ "-threshold", option_map (fun f => [f]) (s_thr s)) (table s)) by (cbn [table In]; tauto).
    rewrite (one_ok gs _ _ S (O _ _ H8) (F _ _ H8)) by (destruct (s_thr s); discriminate).
    assert (H9 : In (s_ "-reaction", option_map (fun r => fst r :: map dof_name (snd r)) (s_react s)) (table s)) by (cbn [table In]; tauto).
    unfold opt_reaction. rewrite (many_ok gs _ _ S (O _ _ H9) (F _ _ H9)).
    rewrite (one_ok gs _ _ S (O _ _ H9) (F _ _ H9)) by (destruct (s_react s); discriminate).
    unfold options_of.
    replace (negb (match (if s_novtk s then Some [] else None) with Some _ => true | None => false end)) with (negb (s_novtk s)) by (destruct (s_novtk s); reflexivity).
    replace (match match option_map (fun e : nat => [elem_name e]) (s_elem s) with Some (v :: _) => Some v | _ => None end with Some v => elName2elType v | None => 2 end)
      with (default 2 (s_elem s)) by (destruct (s_elem s) as [e|]; cbn in *; [symmetry; apply elem_name_ok; exact E|reflexivity]).
    replace (match match option_map (fun f : str => [f]) (s_ref s) with Some (v :: _) => Some v | _ => None end with Some v => v | None => [] end)
      with (default [] (s_ref s)) by (destruct (s_ref s); reflexivity).
    replace (match match option_map (fun f : str => [f]) (s_thr s) with Some (v :: _) => Some v | _ => None end with Some v => datof v | None => @r0 D end)
      with (default (@r0 D) (option_map datof (s_thr s))) by (destruct (s_thr s); reflexivity).
    assert (RE : forall k : str * list nat -> run (options D),
      k (match match option_map (fun r => fst r :: map dof_name (snd r)) (s_react s) with Some vs => vs | None => [] end with
         | [] => (match match option_map (fun r => fst r :: map dof_name (snd r)) (s_react s) with Some (v :: _) => Some v | _ => None end with Some v => v | None => [] end, [])
         | c :: ds => (c, map label2dofType ds) end)
      = k (default [] (option_map fst (s_react s)), default [] (option_map snd (s_react s)))).
    { intros k. destruct (s_react s) as [[c ds]|]; cbn in *; [|reflexivity]. rewrite dof_names_ok by apply Re. reflexivity. }
    destruct (s_rigid s) as [[[z c] ds]|]; cbn [option_map default fst snd].
    - cbn in Rb. destruct Rb as (A & B & Dd). rewrite atoi_show by exact A. cbn [lift obind pbind go].
      rewrite dof_names_ok by exact Dd.
      replace (wrap32 z) with z by (symmetry; apply Z.mod_small; lia).
      destruct ds as [|d ds]; cbn [map]; rewrite (RE (fun re => go (mkOpt D _ _ _ _ _ _ _ _ _ (fst re) (snd re) _ _ _))); reflexivity.
    - cbn [pbind go obind fst snd]. rewrite (RE (fun re => go (mkOpt D _ _ _ _ _ _ _ _ _ (fst re) (snd re) _ _ _))). reflexivity.
  Qed.
End P.
