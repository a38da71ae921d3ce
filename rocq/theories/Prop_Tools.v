(* Small tools and material constants: C134-C139 *)
From Coq Require Import Ascii String Reals.
From Verif Require Import Base ReaderModel HyperModel ProgModel ToolsModel SpecTools ToolsProofs ToolsMore.
From Verif Require AsmModel HeatModel VtkModel.
Local Open Scope nat_scope.

(* ---------------- C134 ---------------- *)
Theorem C134_power : forall d p, (-2147483648 <= d ^ Z.of_nat p <= 2147483647)%Z -> npow d p = Ok (d ^ Z.of_nat p)%Z.
Proof. intros d p H. apply npow_exact. apply i32_iff. exact H. Qed.
Print Assumptions C134_power.
Theorem C134_overflow : forall d p, ~ (-2147483648 <= d ^ Z.of_nat p <= 2147483647)%Z -> npow d p = UB.
Proof.
  intros d p H. apply npow_over. destruct (int32_ok (d ^ Z.of_nat p)) eqn:E; [|reflexivity].
  apply i32_iff in E. contradiction.
Qed.
Print Assumptions C134_overflow.
(* the sign of a cofactor, Mat.h:287, for any exponent *)
Theorem C134_sign : forall p, npow (-1) p = Ok (if Nat.even p then 1 else -1)%Z.
Proof. exact npow_sign. Qed.
Print Assumptions C134_sign.
Example C134_example : npow (-2) 31 = Ok (-2147483648)%Z /\ npow 2 31 = UB /\ npow 0 0 = Ok 1%Z /\ npow (-3) 3 = Ok (-27)%Z.
Proof. repeat split; vm_compute; reflexivity. Qed.

(* ---------------- C135 ---------------- *)
Theorem C135_inside : forall fuel a w b, edges w -> (N.of_nat a + len w + N.of_nat b <= 65536)%N -> a + b < fuel ->
  del_spaces fuel (blanks a ++ w ++ blanks b) = Ok w.
Proof. exact del_trim. Qed.
Print Assumptions C135_inside.
(* every text is empty, blank or has an inside *)
Theorem C135_texts : forall l,
  l = [] \/ (exists n, 1 <= n /\ l = blanks n) \/ exists a w b, l = blanks a ++ w ++ blanks b /\ edges w.
Proof. exact text_cases. Qed.
Print Assumptions C135_texts.
Theorem C135_again : forall fuel l l', (len l < 65536)%N -> length l < fuel -> del_spaces fuel l = Ok l' -> length l' < fuel ->
  (len l' < 65536)%N -> del_spaces fuel l' = Ok l'.
Proof.
  intros fuel l l' H1 H2 H3 H4 H5. rewrite del_tidy in H3 by assumption. injection H3 as <-.
  rewrite del_tidy by assumption. rewrite tidy_idem. reflexivity.
Qed.
Print Assumptions C135_again.
(* a text of blanks only is not emptied *)
Theorem C135_blank_refuted : forall fuel n, 1 <= n -> (N.of_nat n < 65536)%N -> n < fuel -> del_spaces fuel (blanks n) = Ok (blanks 1).
Proof. exact del_blank. Qed.
Print Assumptions C135_blank_refuted.
(* 65536 blanks in front: the call never ends *)
Theorem C135_endless_refuted : forall fuel n l, (65536 <= N.of_nat n)%N -> del_spaces fuel (blanks n ++ l) = Loop.
Proof. exact del_loop. Qed.
Print Assumptions C135_endless_refuted.
(* a longer text loses characters that are not blanks *)
Theorem C135_tail_refuted : forall fuel w k, Forall (fun c => c <> SP) w -> (len w = 65536 + N.of_nat k)%N -> 1 <= k -> (N.of_nat k < 65536)%N -> 1 <= fuel ->
  del_spaces fuel w = Ok (firstn k w).
Proof.
  intros fuel w k Hw Hl H1 H2 Hf. rewrite del_cut; [|exact Hw|intros ->; change (len []) with 0%N in Hl; lia|exact Hf].
  f_equal. f_equal. rewrite Hl. replace (65536 + N.of_nat k - 1)%N with (N.of_nat k - 1 + 1 * U16)%N by (unfold U16; lia).
  rewrite N.mod_add by discriminate. rewrite N.mod_small by (unfold U16; lia). lia.
Qed.
Print Assumptions C135_tail_refuted.
Example C135_example : del_spaces 20 (s_ "  two words ") = Ok (s_ "two words") /\ edges (s_ "two words") /\ del_spaces 20 (s_ "   ") = Ok (s_ " ").
Proof.
  split; [vm_compute; reflexivity|]. split; [|vm_compute; reflexivity].
  exists "t"%char, (s_ "wo words"). repeat split; vm_compute; discriminate.
Qed.

(* ---------------- C136 ---------------- *)
Theorem C136_tokens : forall fuel w l c, command w l -> comment c -> Forall (shorter 32768) (words w l) -> length (spell w l) < fuel ->
  read_tokens fuel (spell w l ++ c) = Ok (tokens w l).
Proof. exact tokens_read. Qed.
Print Assumptions C136_tokens.
Theorem C136_inputs : forall input, exists w l c, command w l /\ comment c /\ input = spell w l ++ c.
Proof. exact spelled. Qed.
Print Assumptions C136_inputs.
(* longer words stop the program or are silently shortened *)
Theorem C136_long_refuted : forall fuel w l c, command w l -> comment c -> (32768 <= len w < 65536)%N ->
  read_tokens fuel (spell w l ++ c) = Fatal.
Proof. exact token_long. Qed.
Print Assumptions C136_long_refuted.
Theorem C136_cut_refuted : forall fuel w k c, plain w -> comment c -> (len w = 65536 + N.of_nat k)%N -> (N.of_nat k < 32768)%N -> k < fuel ->
  read_tokens fuel (w ++ c) = Ok [tidy (firstn k w)].
Proof. exact token_short. Qed.
Print Assumptions C136_cut_refuted.
Example C136_example :
  read_tokens 50 (s_ "set ( a , 2 ) ! (note)") = Ok (map s_ ["set"; "("; "a"; ","; "2"; ")"; " "]%string) /\
  command (s_ "set ") [("("%char, s_ " a "); (","%char, s_ " 2 "); (")"%char, s_ " ")] /\
  tokens (s_ "set ") [("("%char, s_ " a "); (","%char, s_ " 2 "); (")"%char, s_ " ")] = map s_ ["set"; "("; "a"; ","; "2"; ")"; " "]%string /\
  read_tokens 50 (s_ "") = Ok [[]] /\ read_tokens 50 (s_ ",") = Ok [[]; s_ ","; []].
Proof.
  split; [vm_compute; reflexivity|]. split; [|repeat split; vm_compute; reflexivity].
  split; repeat (constructor; [cbn; try reflexivity; repeat (constructor; [split; [reflexivity|discriminate]|]); try constructor|]); constructor.
Qed.

(* ---------------- C137 ---------------- *)
Theorem C137_constants : forall name names l, Forall (fun kv => known names (fst kv)) l ->
  exists m, set_all (register_mat_const name names) l = Ok m /\
    (forall k i v, means names k i -> last_value names l i v -> get_Ci m k = Ok v) /\
    (forall k i, means names k i -> never names l i -> get_Ci m k = UB) /\
    (forall k, ~ known names k -> get_Ci m k = UB).
Proof. exact constants. Qed.
Print Assumptions C137_constants.
Theorem C137_unknown : forall name names l, ~ Forall (fun kv => known names (fst kv)) l ->
  set_all (register_mat_const name names) l = UB.
Proof. exact constants_unknown. Qed.
Print Assumptions C137_unknown.
Theorem C137_name_or_number : forall names i x, NoDup names -> nth_error names i = Some x ->
  forall j, means names (By_name x) j <-> means names (By_number i) j.
Proof. exact same_constant. Qed.
Print Assumptions C137_name_or_number.
Theorem C137_same_names : forall names i j x, nth_error names i = Some x -> nth_error names j = Some x -> i < j ->
  forall y, ~ means names (By_name y) j.
Proof. exact hidden_constant. Qed.
Print Assumptions C137_same_names.
Theorem C137_text : forall m, (forall i, i < getNumC m -> exists v, read_MC m i = Ok v) ->
  exists l, mat_toString m = Ok (mo_name m, l) /\ map fst l = mo_names m /\
            forall i y, nth_error l i = Some y -> read_MC m i = Ok (snd y).
Proof. exact shown. Qed.
Print Assumptions C137_text.
Example C137_example : exists m, set_all Mat_Comp_Biderman [(By_name (s_ "K"), 1%R); (By_number 0, 2%R); (By_name (s_ "K"), 3%R)] = Ok m /\
  get_Ci m (By_number 4) = Ok 3%R /\ get_Ci m (By_name (s_ "C10")) = Ok 2%R /\ get_Ci m (By_name (s_ "C20")) = UB /\
  set_Ci m (By_name (s_ "k")) 1%R = UB /\ set_Ci m (By_number 5) 1%R = UB.
Proof. eexists. split; [reflexivity|]. repeat split; reflexivity. Qed.

(* ---------------- C138 ---------------- *)
Theorem C138_neo_hookean : forall l m G K, made (s_ "Neo-Hookean") l m -> const m "G" G -> const m "K" K -> follows m (neo_hookean G K).
Proof. exact law_neo. Qed.
Print Assumptions C138_neo_hookean.
Theorem C138_biderman : forall l m a b c d K, made (s_ "Biderman") l m ->
  const m "C10" a -> const m "C20" b -> const m "C30" c -> const m "C01" d -> const m "K" K -> follows m (biderman a b c d K).
Proof. exact law_biderman. Qed.
Print Assumptions C138_biderman.
Theorem C138_mooney_rivlin : forall l m a d K, made (s_ "Mooney-Rivlin") l m ->
  const m "C10" a -> const m "C01" d -> const m "K" K -> follows m (mooney_rivlin a d K).
Proof. exact law_mooney. Qed.
Print Assumptions C138_mooney_rivlin.
(* the order of the constants on the command line *)
Theorem C138_command_line :
  (forall G K, exists m, made (s_ "Neo-Hookean") (in_order [G; K]) m /\ const m "G" G /\ const m "K" K) /\
  (forall a b c d K, exists m, made (s_ "Biderman") (in_order [a; b; c; d; K]) m /\
     const m "C10" a /\ const m "C20" b /\ const m "C30" c /\ const m "C01" d /\ const m "K" K) /\
  (forall a d K, exists m, made (s_ "Mooney-Rivlin") (in_order [a; d; K]) m /\ const m "C10" a /\ const m "C01" d /\ const m "K" K).
Proof. split; [exact order_neo|]. split; [exact order_biderman|exact order_mooney]. Qed.
Print Assumptions C138_command_line.
Theorem C138_unset : forall x l m I1 I2 I3, made x l m -> ~ (exists v, read_MC m 0 = Ok v) ->
  mat_first m I1 I2 I3 = UB /\ mat_second m I1 I2 I3 = UB /\ mat_W m I1 I2 I3 = UB.
Proof. exact unset_law. Qed.
Print Assumptions C138_unset.
Theorem C138_factory : forall x, option_map mo_code (new_material x) = createMaterial x /\
  forall m, new_material x = Some m -> getNumC m = mat_numC (mo_code m) /\ NoDup (mo_names m) /\ mo_MC m = repeat None (getNumC m).
Proof. intros x. split; [apply factory_code|apply factory_count]. Qed.
Print Assumptions C138_factory.
Example C138_example : exists m, made (s_ "Mooney-Rivlin") [(By_name (s_ "K"), 3%R); (By_name (s_ "C01"), 2%R); (By_name (s_ "C10"), 1%R)] m /\
  mat_first m 4 4 1 = Ok [1; 2]%R /\ mat_getK m = Ok 3%R.
Proof. eexists. split; [eexists; split; reflexivity|]. split; reflexivity. Qed.

(* ---------------- C139 ---------------- *)
(* the name a material reports is the one it was created by, except for Mooney-Rivlin *)
Theorem C139_name_partial : forall x m, new_material x = Some m -> x <> s_ "Mooney-Rivlin" -> mo_name m = x.
Proof.
  intros x m H N. unfold new_material, matName2matId in H.
  destruct (ReaderModel.index_of x (firstn matLAST matModelLabels) 0) eqn:E; [|discriminate H].
  apply index_first in E. destruct E as (_ & E & _). rewrite Nat.sub_0_r in E.
  destruct n as [|[|[|[|n]]]]; try discriminate H; cbn in E; injection E as <-.
  - injection H as <-. reflexivity.
  - injection H as <-. reflexivity.
  - contradiction N. reflexivity.
Qed.
Print Assumptions C139_name_partial.
Theorem C139_name_refuted : exists m, new_material (s_ "Mooney-Rivlin") = Some m /\ mo_name m = s_ "Money-Rivlin" /\ new_material (mo_name m) = None.
Proof. eexists. split; [reflexivity|]. split; reflexivity. Qed.
Print Assumptions C139_name_refuted.
Example C139_example : exists m, new_material (s_ "Biderman") = Some m /\ mo_name m = s_ "Biderman".
Proof. eexists. split; reflexivity. Qed.

(* ---------------- C50: the numbers of degrees of freedom used by the elements are those of the labels ---------------- *)
Theorem C50_dof_symbols :
  label2dofType (s_ "UX") = AsmModel.UX /\ label2dofType (s_ "UY") = AsmModel.UY /\ label2dofType (s_ "UZ") = AsmModel.UZ /\
  label2dofType (s_ "HYDRO_PRESSURE") = AsmModel.HYDRO_PRESSURE /\ label2dofType (s_ "TEMP") = HeatModel.TEMP /\
  map list_ascii_of_string VtkModel.dof_labels = dofLabels.
Proof. repeat split; reflexivity. Qed.
Print Assumptions C50_dof_symbols.
