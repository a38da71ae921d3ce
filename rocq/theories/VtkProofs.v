(* Proofs about the VTK writer: the reader gets back what was written. *)
From Coq Require Import String NArith.
From Verif Require Import Base BaseProofs SparseModel SparseProofs DofModel SpecDof DofProofs NumberingProofs AsmModel SpecAsm SolveModel SpecSolve ReactModel SpecReact ReactProofs VtkModel SpecVtk.
Local Open Scope nat_scope.
Local Open Scope list_scope.

Ltac rds := repeat progress (cbn [opt_bind ocheck rd_word rd_any rd_int app map header]; rewrite ?String.eqb_refl, ?N.eqb_refl, ?Nat2N.id).

(* ---- the reader on encoded data ---- *)
Section Read.
  Variable K : Num.
  Notation toks := (list (vtok K)).
  Lemma rd_many_ok {A B} (f : toks -> option (A * toks)) (enc : B -> toks) (g : B -> A) l :
    (forall b rest, In b l -> f (enc b ++ rest) = Some (g b, rest)) ->
    forall rest, rd_many K f (List.length l) (flat_map enc l ++ rest) = Some (map g l, rest).
  Proof.
    induction l as [|b l IH]; intros H rest; cbn [List.length rd_many flat_map map]; [reflexivity|].
    rewrite <- app_assoc, H by now left. cbn [opt_bind]. rewrite IH; [reflexivity|]. intros c r Hc. apply H. now right.
  Qed.
  Definition enc3 (v : v3 K) : toks := match v with (a, b, c) => [X K a; X K b; X K c] end.
  Lemma rd_v3_ok v rest : rd_v3 K (enc3 v ++ rest) = Some (v, rest).
  Proof. destruct v as [[a b] c]. reflexivity. Qed.
  Definition enc_cell (l : list N) : toks := I K (N.of_nat (List.length l)) :: map (I K) l.
  Lemma ints_ok l rest : rd_many K (rd_int K) (List.length l) (map (I K) l ++ rest) = Some (l, rest).
  Proof.
    rewrite <- (map_id l) at 3. replace (map (I K) l) with (flat_map (fun n => [I K n]) l).
    2:{ induction l as [|a l IH]; cbn; [reflexivity|now rewrite IH]. }
    apply (rd_many_ok (rd_int K) (fun n => [I K n]) (fun n => n)). reflexivity.
  Qed.
  Lemma nums_ok l rest : rd_many K (rd_num K) (List.length l) (map (X K) l ++ rest) = Some (l, rest).
  Proof.
    rewrite <- (map_id l) at 3. replace (map (X K) l) with (flat_map (fun n => [X K n]) l).
    2:{ induction l as [|a l IH]; cbn; [reflexivity|now rewrite IH]. }
    apply (rd_many_ok (rd_num K) (fun n => [X K n]) (fun n => n)). reflexivity.
  Qed.
  Lemma rd_cell_ok l rest : rd_cell K (enc_cell l ++ rest) = Some (l, rest).
  Proof. unfold rd_cell, enc_cell. cbn [app rd_int opt_bind]. rewrite Nat2N.id. apply ints_ok. Qed.

  Definition enc_arr (a : arr K) : toks :=
    match a with
    | Scal _ n d => [W K "SCALARS"; W K n; W K "float"; I K 1; W K "LOOKUP_TABLE"; W K "default"] ++ map (X K) d
    | Vecs _ n d => [W K "VECTORS"; W K n; W K "float"] ++ flat_map enc3 d
    end.
  Definition arr_len (a : arr K) : nat := match a with Scal _ _ d => List.length d | Vecs _ _ d => List.length d end.
  Definition no_array (t : toks) : Prop :=
    match t with W _ w :: _ => (w =? "SCALARS")%string = false /\ (w =? "VECTORS")%string = false | _ => True end.
  Lemma rd_arrays_ok n l : Forall (fun a => arr_len a = n) l -> forall fuel rest, List.length l <= fuel -> no_array rest ->
    rd_arrays K fuel n (flat_map enc_arr l ++ rest) = Some (l, rest).
  Proof.
    induction 1 as [|a l H HF IH]; intros fuel rest F NR.
    - destruct fuel; cbn [rd_arrays flat_map app]; [reflexivity|]. destruct rest as [|[w|?|?] rest]; try reflexivity.
      destruct NR as [-> ->]. reflexivity.
    - destruct fuel as [|fuel]; [cbn in F; lia|]. cbn [List.length] in F. cbn [flat_map]. rewrite <- app_assoc.
      destruct a as [nm d|nm d]; cbn [arr_len] in H; subst n; cbn [enc_arr app rd_arrays].
      + change ("SCALARS" =? "SCALARS")%string with true. cbv iota.
        rds.
        rewrite nums_ok. cbn [opt_bind]. rewrite IH by (auto; lia). reflexivity.
      + change ("VECTORS" =? "SCALARS")%string with false. change ("VECTORS" =? "VECTORS")%string with true. cbv iota.
        rds.
        rewrite (rd_many_ok (rd_v3 K) enc3 (fun v => v)) by (intros; apply rd_v3_ok). cbn [opt_bind]. rewrite map_id, IH by (auto; lia). reflexivity.
  Qed.
  Lemma arrays_fuel l : List.length l <= List.length (flat_map enc_arr l).
  Proof. induction l as [|a l IH]; cbn [flat_map List.length]; [lia|]. rewrite app_length. destruct a; cbn; lia. Qed.
  Lemma rd_section_ok w n l rest : Forall (fun a => arr_len a = n) l -> no_array rest ->
    rd_section K w n (W K w :: I K (N.of_nat n) :: flat_map enc_arr l ++ rest) = Some (l, rest).
  Proof.
    intros F NR. unfold rd_section. rewrite String.eqb_refl. cbn [rd_int opt_bind]. rewrite N.eqb_refl. cbn [ocheck].
    apply rd_arrays_ok; auto. rewrite app_length. pose proof (arrays_fuel l). lia.
  Qed.

  (* the whole file; with_cd: the section CELL_DATA is written *)
  Definition enc_file (f : vfile K) (size : N) (with_cd : bool) : toks :=
    header K ++ [W K "POINTS"; I K (N.of_nat (List.length (f_points K f))); W K "float"] ++ flat_map enc3 (f_points K f) ++
    [W K "CELLS"; I K (N.of_nat (List.length (f_cells K f))); I K size] ++ flat_map enc_cell (f_cells K f) ++
    [W K "CELL_TYPES"; I K (N.of_nat (List.length (f_cells K f)))] ++ map (I K) (f_types K f) ++
    [W K "POINT_DATA"; I K (N.of_nat (List.length (f_points K f)))] ++ flat_map enc_arr (f_pdata K f) ++
    (if with_cd then [W K "CELL_DATA"; I K (N.of_nat (List.length (f_cells K f)))] ++ flat_map enc_arr (f_cdata K f) else []).
  Definition sound (f : vfile K) : Prop :=
    List.length (f_types K f) = List.length (f_cells K f) /\
    Forall (Forall (fun i => (i < N.of_nat (List.length (f_points K f)))%N)) (f_cells K f) /\
    Forall (fun ct => type_fits (snd ct) (List.length (fst ct)) = true) (combine (f_cells K f) (f_types K f)) /\
    Forall (fun a => arr_len a = List.length (f_points K f)) (f_pdata K f) /\
    Forall (fun a => arr_len a = List.length (f_cells K f)) (f_cdata K f).
  Theorem read_ok f b : sound f -> (b = false -> f_cdata K f = []) -> read_vtk K (enc_file f (cells_size (f_cells K f)) b) = Some f.
  Proof.
    intros (S1 & S2 & S3 & S4 & S5) B. destruct f as [ps cs ts pd cd]. cbn [f_points f_cells f_types f_pdata f_cdata] in *.
    unfold enc_file, read_vtk. cbn [f_points f_cells f_types f_pdata f_cdata].
    rds. rewrite (rd_many_ok (rd_v3 K) enc3 (fun v => v)) by (intros; apply rd_v3_ok). rds.
    rewrite (rd_many_ok (rd_cell K) enc_cell (fun v => v)) by (intros; apply rd_cell_ok). rds.
    rewrite <- S1, ints_ok. cbn [opt_bind]. rewrite !map_id, N.eqb_refl. cbn [ocheck].
    replace (forallb _ cs) with true.
    2:{ symmetry. apply forallb_forall. intros c Hc. apply forallb_forall. intros i Hi. apply N.ltb_lt.
        rewrite Forall_forall in S2. specialize (S2 c Hc). rewrite Forall_forall in S2. auto. }
    cbn [ocheck]. replace (forallb _ (combine cs ts)) with true.
    2:{ symmetry. apply forallb_forall. rewrite Forall_forall in S3. auto. }
    cbn [ocheck]. destruct b.
    - rewrite (rd_section_ok "POINT_DATA" (List.length ps) pd); [|auto|now cbn]. cbn [opt_bind app].
      rewrite S1, <- (app_nil_r (flat_map enc_arr cd)), (rd_section_ok "CELL_DATA" (List.length cs) cd); [|auto|exact Logic.I]. reflexivity.
    - rewrite (rd_section_ok "POINT_DATA" (List.length ps) pd); [|auto|exact Logic.I]. cbn [opt_bind rd_section]. now rewrite (B eq_refl).
  Qed.
  (* too few cell types: the word after them is no number *)
  Lemma rd_short {A} (f : toks -> option (A * toks)) l n rest w : List.length l < n -> rd_many K (rd_int K) n (map (I K) l ++ W K w :: rest) = None.
  Proof.
    revert l. induction n as [|n IH]; intros l H; [lia|]. destruct l as [|a l]; cbn [map app rd_many rd_int opt_bind]; [reflexivity|].
    cbn in H. rewrite IH by lia. reflexivity.
  Qed.
  Theorem read_short f b z : List.length (f_types K f) < List.length (f_cells K f) -> read_vtk K (enc_file f z b) = None.
  Proof.
    intros S1. destruct f as [ps cs ts pd cd]. cbn [f_points f_cells f_types f_pdata f_cdata] in *.
    unfold enc_file, read_vtk. cbn [f_points f_cells f_types f_pdata f_cdata].
    rds. rewrite (rd_many_ok (rd_v3 K) enc3 (fun v => v)) by (intros; apply rd_v3_ok). rds.
    rewrite (rd_many_ok (rd_cell K) enc_cell (fun v => v)) by (intros; apply rd_cell_ok). rds.
    rewrite (rd_short (rd_int K)) by lia. reflexivity.
  Qed.
End Read.
