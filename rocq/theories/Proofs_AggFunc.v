(** The text of a whole group_by or aggregate function is read as the program of
    Spec_AggProgram.v. *)
From Coq Require Import String Ascii List NArith ZArith Bool Arith Lia.
From Verif Require Import Model_PyVal Model_Reducers Model_Aggregate Model_Code Model_AggText Model_AggSource
  Spec_AggText Spec_Syntax Spec_Stmt Spec_FuncText Spec_AggProgram Proofs_AggExpr Proofs_AggRead Proofs_AggBlocks.
From Verif Require Spec_Source Proofs_SourceText.
Import ListNotations.
Notation flat := Proofs_SourceText.flat.
Notation flat_app := Proofs_SourceText.flat_app.
Notation reads_flat := Proofs_SourceText.reads_flat.
Notation ident_flat := Proofs_SourceText.ident_flat.

(** *** no line breaks *)
Lemma blank_flat l : blank l = true -> flat l = true.
Proof.
  unfold blank, flat. intros H. rewrite forallb_forall in *. intros c I. specialize (H c I). apply N.eqb_eq in H as <-. reflexivity.
Qed.
Lemma indented_flat k l t : indented k l t -> flat t = true -> flat l = true.
Proof.
  intros [-> _] F. rewrite flat_app, F, andb_true_r. unfold flat. rewrite forallb_forall. intros c I.
  apply repeat_spec in I as ->. reflexivity.
Qed.
Lemma simple_flat t s : simple_line t s -> flat t = true.
Proof.
  intros H. destruct H as [| |ts tas e a F G N R|t ta e a R G R'|t ta e a R G R'|e a R]; rewrite ?flat_app;
    try reflexivity.
  - rewrite (reads_flat _ _ R), andb_true_r. clear -F. induction F as [|t ta ts tas R F IH]; [reflexivity|].
    cbn [targets_text flat_map]. fold (targets_text ts). rewrite !flat_app, (reads_flat _ _ R), IH. reflexivity.
  - now rewrite (reads_flat _ _ R), (reads_flat _ _ R').
  - now rewrite (reads_flat _ _ R), (reads_flat _ _ R').
  - now apply reads_flat with a.
Qed.
Lemma cons_flat a l : flat a = true -> forallb flat l = true -> forallb flat (a :: l) = true.
Proof. intros H1 H2. cbn [forallb]. now rewrite H1, H2. Qed.
Lemma app_flat a l : forallb flat a = true -> forallb flat l = true -> forallb flat (a ++ l) = true.
Proof. intros H1 H2. now rewrite forallb_app, H1, H2. Qed.
Scheme lines_ind2 := Induction for lines_of Sort Prop with branches_ind2 := Induction for branches_of Sort Prop.
Lemma lines_flat k ls b : lines_of k ls b -> forallb flat ls = true.
Proof.
  intros H. induction H using lines_ind2 with (P0 := fun k ls br other _ => forallb flat ls = true).
  - reflexivity.
  - apply cons_flat; [now apply blank_flat|assumption].
  - apply cons_flat; [eapply indented_flat; [eassumption|eapply simple_flat; eassumption]|assumption].
  - apply cons_flat; [|now repeat apply app_flat].
    eapply indented_flat; [eassumption|]. now rewrite !flat_app, (reads_flat _ _ r).
  - reflexivity.
  - apply cons_flat; [|now repeat apply app_flat].
    eapply indented_flat; [eassumption|]. now rewrite !flat_app, (reads_flat _ _ r).
  - apply cons_flat; [|assumption]. eapply indented_flat; [eassumption|reflexivity].
Qed.
Lemma joined_flat s l : flat s = true -> Forall (fun x => ident x = true) l -> flat (intersperse s l) = true.
Proof.
  intros S F. destruct F as [|x l I F]; [reflexivity|]. rewrite Proofs_Tree.intersperse_cons, flat_app, (ident_flat x I). cbn [andb].
  induction F as [|y l J F IH]; [reflexivity|]. cbn [flat_map]. now rewrite !flat_app, S, (ident_flat y J), IH.
Qed.
Lemma body_flat ls b : fbody ls b -> forallb flat ls = true.
Proof.
  induction 1.
  - reflexivity.
  - apply cons_flat; [now apply blank_flat|assumption].
  - apply cons_flat; [|assumption]. eapply indented_flat; [eassumption|]. rewrite flat_app, joined_flat; auto.
  - apply cons_flat; [|assumption]. eapply indented_flat; [eassumption|eapply simple_flat; eassumption].
  - apply cons_flat; [|apply app_flat; [eapply lines_flat; eassumption|assumption]]. eapply indented_flat; [eassumption|].
    rewrite !flat_app, (ident_flat x), (reads_flat _ _ H1); auto.
  - apply cons_flat; [|assumption]. eapply indented_flat; [eassumption|].
    rewrite !flat_app, (ident_flat x), (reads_flat _ _ H1), (ident_flat k), (ident_flat v), (reads_flat _ _ H4); auto.
  - apply cons_flat; [|assumption]. eapply indented_flat; [eassumption|]. now rewrite flat_app, (reads_flat _ _ H0).
Qed.
Lemma lines_all a ls : forallb flat (a :: ls) = true -> lines (intersperse nl (a :: ls)) = a :: ls.
Proof.
  revert a; induction ls as [|b ls IH]; intros a F; cbn [forallb] in F; apply andb_true_iff in F as [F1 F2].
  - now apply Proofs_SourceText.lines_last.
  - change (intersperse nl (a :: b :: ls)) with (a ++ nl ++ intersperse nl (b :: ls)).
    change nl with Model_Source.nl at 1. rewrite Proofs_SourceText.lines_line by exact F1. f_equal. apply IH. exact F2.
Qed.
Lemma defines_text f params rest body : ident f = true -> Forall (fun x => ident x = true) params -> NoDup params ->
  fbody rest body -> body <> [] ->
  defines (intersperse nl ([] :: (T "def " ++ f ++ T "(" ++ intersperse (T ", ") params ++ T "):") :: rest)) f params body.
Proof.
  intros If Ip Nd B N. exists [[]], rest. rewrite lines_all.
  - repeat split; auto.
  - apply cons_flat; [reflexivity|]. apply cons_flat; [|now apply body_flat with body].
    rewrite !flat_app, (ident_flat f If), joined_flat; auto.
Qed.

(** *** the lines of the templates *)
Lemma line1 t : hd_ok t -> indented 1 (T "    " ++ t) t.
Proof. intros H. split; [reflexivity|exact H]. Qed.
Lemma line2 t : hd_ok t -> indented 2 (T "        " ++ t) t.
Proof. intros H. split; [reflexivity|exact H]. Qed.
Lemma name_reads x : ident x = true -> reads x (AName x).
Proof. intros I. apply (code_reads true). now apply ident_code. Qed.
Lemma set_line x e a ls b : ident x = true -> reads e a -> fbody ls b ->
  fbody ((T "    " ++ x ++ T " = " ++ e) :: ls) (FSimple (SAssign [AName x] a) :: b).
Proof.
  intros I R B. eapply f_simple; [apply line1|apply assign_line; [now apply name_reads|exact Logic.I|exact R]|exact B].
  apply (Proofs_SourceText.ident_head x _ I).
Qed.
(** [sorting]: the code of result_.sort(...), empty when there is none *)
Definition sort_ok (t : text) (a : option ast) : Prop :=
  match a with None => t = [] | Some a => reads t a /\ hd_ok t end.
Lemma end_reads sorting sa : sort_ok sorting sa -> fbody [T "    " ++ sorting; T "    return result_"; []] (end_of sa).
Proof.
  intros H. assert (R : fbody [T "    return result_"; []] [FReturn (name "result_")]).
  { change (T "    return result_") with (T "    " ++ T "return result_"). eapply f_return with (e := T "result_");
      [apply line1; cbn; discriminate|now apply name_reads|]. apply f_blank; [reflexivity|apply f_end]. }
  unfold end_of. destruct sa as [a|]; cbn [app].
  - destruct H as [H1 H2]. eapply f_simple; [now apply line1|now apply l_expr|exact R].
  - cbn [sort_ok] in H. subst. apply f_blank; [reflexivity|exact R].
Qed.
Lemma start_reads n ls b : ident n = true -> fbody ls b ->
  fbody (T "    global add_label_, get_by_label_" :: (T "    _none = " ++ n) :: ls) (start_of n ++ b).
Proof.
  intros I B. cbn [start_of app]. eapply f_global with (xs := [T "add_label_"; T "get_by_label_"]).
  - exact (line1 (T "global add_label_, get_by_label_") ltac:(cbn; discriminate)).
  - repeat constructor.
  - discriminate.
  - apply (set_line (T "_none")); [reflexivity|now apply name_reads|exact B].
Qed.
Record frame_ok (f : frame) (sorting : option ast) : Prop := {
  fo_name : ident (a_name f) = true;
  fo_params : Forall (fun x => ident x = true) (a_params f);
  fo_distinct : NoDup (T "data_" :: a_params f);
  fo_none : ident (a_none f) = true;
  fo_sorting : sort_ok (a_sorting f) sorting }.
Lemma opening_def f rest : opening f ++ rest =
  [] :: (T "def " ++ a_name f ++ T "(" ++ intersperse (T ", ") (T "data_" :: a_params f) ++ T "):") ::
  T "    global add_label_, get_by_label_" :: (T "    _none = " ++ a_none f) :: rest.
Proof.
  unfold opening. cbn [app]. do 2 f_equal. unfold args_def. destruct (a_params f) as [|p ps]; [reflexivity|].
  change (intersperse (T ", ") (T "data_" :: p :: ps)) with (T "data_" ++ T ", " ++ intersperse (T ", ") (p :: ps)).
  rewrite <- !app_assoc. reflexivity.
Qed.

(** the code of the group *)
Definition keys_tree (l : list ast) : ast := match l with [a] => a | _ => ATuple l end.
Lemma signature_code keys la : keys <> [] -> Forall2 (code false) keys la -> code false (signature_text keys) (keys_tree la).
Proof.
  intros N F. destruct F as [|k a keys la H F]; [contradiction|]. destruct F as [|k2 a2 keys la H2 F]; [exact H|].
  cbn [signature_text keys_tree]. apply code_weaken. apply tuple_code; [eauto|]. constructor; [eauto|]. now apply extras_any.
Qed.
Lemma sig_code : code true (T "signature_to_agg_data_") (name "signature_to_agg_data_"). Proof. now apply ident_code. Qed.

Lemma group_reads f cls keys bs la body elt sorting :
  frame_ok f sorting -> ident cls = true -> keys <> [] -> Forall2 (code false) keys la -> reads (a_result f) elt ->
  lines_of 2 (blocks_code bs) body ->
  defines (group_text f cls keys bs) (a_name f) (T "data_" :: a_params f) (group_program (a_none f) cls (keys_tree la) body elt sorting).
Proof.
  intros F Ic N K R B. unfold group_text. rewrite opening_def. apply defines_text; try apply F.
  - constructor; [reflexivity|apply F].
  - unfold group_program. apply start_reads; [apply F|]. cbn [app].
    apply (set_line (T "signature_to_agg_data_")); [reflexivity| |].
    { apply (code_reads true). apply (call_code (T "defaultdict") [cls] [AName cls]); [reflexivity|].
      repeat constructor. exists true. now apply ident_code. }
    rewrite app_comm_cons. eapply f_for with (x := T "row_") (e := T "data_").
    + exact (line1 (T "for row_ in data_:") ltac:(cbn; discriminate)).
    + reflexivity.
    + now apply name_reads.
    + eapply k_simple; [apply line2|apply (assign_line (T "agg_data_"))|exact B].
      * cbn. discriminate.
      * now apply name_reads.
      * exact I.
      * apply (code_reads true). exact (sub_code (T "signature_to_agg_data_") _ false (signature_text keys) _ sig_code (signature_code keys la N K)).
    + discriminate.
    + unfold closing. apply f_blank; [reflexivity|]. unfold group_result.
      eapply f_collect with (x := T "result_") (e := a_result f) (k := T "signature_") (v := T "agg_data_") (i := T "signature_to_agg_data_.items()").
      * exact (line1 (T "result_ = [" ++ a_result f ++ T " for signature_, agg_data_ in signature_to_agg_data_.items()]") ltac:(cbn; discriminate)).
      * reflexivity.
      * exact R.
      * reflexivity.
      * reflexivity.
      * apply (code_reads true). exact (call0_attr_code (T "signature_to_agg_data_") (T "items") eq_refl eq_refl).
      * exact I.
      * apply end_reads. apply F.
  - discriminate.
Qed.

Lemma init_vars_text n : n <> 0 -> init_vars n = targets_text (map (agg_var true) (seq 0 n)) ++ T "_none".
Proof.
  intros N. unfold init_vars. destruct n as [|n]; [contradiction|]. cbn [seq map]. generalize (map (agg_var true) (seq 1 n)). intros l.
  generalize (agg_var true 0). induction l as [|b l IH]; intros a.
  - cbn [intersperse targets_text flat_map]. rewrite app_nil_r, <- app_assoc. reflexivity.
  - change (intersperse (T " = ") (a :: b :: l)) with (a ++ T " = " ++ intersperse (T " = ") (b :: l)).
    cbn [targets_text flat_map] in *. rewrite <- !app_assoc. f_equal. f_equal. rewrite IH, <- !app_assoc. reflexivity.
Qed.
Lemma aggregate_reads f n expected bs body later elt sorting :
  frame_ok f sorting -> n <> 0 -> reads (a_result f) elt ->
  lines_of 2 (blocks_code bs) body -> lines_of 2 (blocks_no_init_code bs) later -> body <> [] -> later <> [] ->
  defines (aggregate_text f n expected bs) (a_name f) (T "data_" :: a_params f) (aggregate_program (a_none f) n expected body later elt sorting).
Proof.
  intros F N R B L NB NL. unfold aggregate_text. rewrite opening_def. apply defines_text; try apply F.
  - constructor; [reflexivity|apply F].
  - unfold aggregate_program. apply start_reads; [apply F|]. cbn [app].
    eapply f_simple; [apply line1| |].
    { unfold init_vars. destruct n; [contradiction|]. cbn [seq map]. rewrite Proofs_Tree.intersperse_cons, <- app_assoc. cbn. discriminate. }
    { rewrite init_vars_text by exact N. apply l_assign.
      - generalize (seq 0 n). induction l; cbn [map]; constructor; [apply (code_reads true), slot_code|assumption].
      - apply Forall_forall. intros a Ia. apply in_map_iff in Ia as (i & <- & _). exact I.
      - destruct n; [contradiction|discriminate].
      - now apply name_reads. }
    apply (set_line (T "expected_checksum_")); [reflexivity|apply (code_reads false), ndec_code|].
    apply (set_line (T "checksum_") (T "0")); [reflexivity|apply (code_reads false), zero_code|].
    apply (set_line (T "it_") (T "iter(data_)")); [reflexivity| |].
    { apply (code_reads true). apply (call_code (T "iter") [T "data_"] [name "data_"]); [reflexivity|].
      repeat constructor. exists true. now apply ident_code. }
    eapply f_for with (x := T "row_") (e := T "it_").
    + exact (line1 (T "for row_ in it_:") ltac:(cbn; discriminate)).
    + reflexivity.
    + now apply name_reads.
    + exact B.
    + exact NB.
    + apply f_blank; [reflexivity|]. eapply f_for with (x := T "row_") (e := T "it_").
      * exact (line1 (T "for row_ in it_:") ltac:(cbn; discriminate)).
      * reflexivity.
      * now apply name_reads.
      * exact L.
      * exact NL.
      * unfold closing. apply f_blank; [reflexivity|]. apply (set_line (T "result_")); [reflexivity|exact R|].
        apply end_reads. apply F.
  - discriminate.
Qed.
