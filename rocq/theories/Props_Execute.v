(** C64: what a compiled converter may be called with; execute. *)
From Coq Require Import String List ZArith NArith Bool Arith.
From Verif Require Import Model_Heap Model_Args Model_PyVal Model_Code Model_Eval Model_Converter Model_Python Model_Method Spec_Frag
  Spec_Eval Spec_Converter Spec_Args Spec_Demo Proofs_Args Proofs_Code Proofs_Converter Props_Converter Props_Args Props_Method
  Model_Execute Spec_Execute.
Import ListNotations.
Open Scope list_scope.

Lemma mem_in x l : mem x l = true <-> In x l.
Proof.
  unfold mem. rewrite existsb_exists. split.
  - intros (y & Hy & E). unfold teqb in E. destruct (text_eq_dec x y); congruence.
  - intros H. exists x. split; [exact H|]. unfold teqb. destruct (text_eq_dec x x); congruence.
Qed.
Lemma mem_false x l : mem x l = false <-> ~ In x l.
Proof. rewrite <- mem_in. destruct (mem x l); split; congruence. Qed.

(** A call binds the parameters exactly when it passes all of them and nothing else. *)
Lemma bound {V} names (args : list V) kw : NoDup (map fst kw) -> ~ In (T "data_") names ->
  match bind_args [T "data_"] names args kw with
  | Some E => exists d, passes (fun x => In x names) args kw d /\ forall y, lookup E y = lookup ((T "data_", d) :: kw) y
  | None => forall d, ~ passes (fun x => In x names) args kw d
  end.
Proof.
  intros ND Nd. unfold bind_args. destruct args as [|d [|e args]].
  - cbn [length Nat.ltb Nat.leb skipn firstn app].
    destruct (forallb (fun k => mem (fst k) (T "data_" :: names)) kw) eqn:F1; cbn [negb].
    + destruct (forallb (fun p => mem p (map fst kw)) (T "data_" :: names)) eqn:F2; cbn [negb].
      * rewrite forallb_forall in F1, F2.
        assert (D : In (T "data_") (map fst kw)) by (apply mem_in, F2; now left).
        apply in_map_iff in D as ([n d] & En & D). cbn in En. subst n. exists d. split.
        -- apply By_name; auto. intros x. split.
           ++ intros H. apply in_map_iff in H as (k & <- & H). apply F1, mem_in in H. destruct H; auto.
           ++ intros [->|H]; apply mem_in, F2; [now left|now right].
        -- intros y. cbn [combine app lookup]. destruct (text_eq_dec y (T "data_")) as [->|]; [|reflexivity].
           clear F1 F2. induction kw as [|[n u] kw IH]; [destruct D|]. cbn [lookup]. cbn [map fst] in ND. inversion ND; subst.
           destruct (text_eq_dec (T "data_") n) as [<-|Nn].
           ++ destruct D as [D|D]; [injection D as ->; reflexivity|]. exfalso. apply H1. apply in_map_iff. now exists (T "data_", d).
           ++ apply IH; auto. destruct D as [D|D]; [exfalso; apply Nn; symmetry; exact (f_equal fst D)|exact D].
      * intros d P. inversion P as [|? ? D H]; subst.
        assert (F : forallb (fun p => mem p (map fst kw)) (T "data_" :: names) = true); [|congruence].
        apply forallb_forall. intros x Hx. apply mem_in, H. destruct Hx; auto.
    + intros d P. inversion P as [|? ? D H]; subst.
      assert (F : forallb (fun k => mem (fst k) (T "data_" :: names)) kw = true); [|congruence].
      apply forallb_forall. intros k Hk. apply mem_in. destruct (proj1 (H (fst k)) (in_map fst _ _ Hk)); [left; auto|right; auto].
  - cbn [length Nat.ltb Nat.leb skipn firstn app].
    destruct (forallb (fun k => mem (fst k) names) kw) eqn:F1; cbn [negb].
    + destruct (forallb (fun p => mem p (T "data_" :: map fst kw)) (T "data_" :: names)) eqn:F2; cbn [negb].
      * rewrite forallb_forall in F1, F2. exists d. split; [|reflexivity].
        constructor. intros x. split.
        -- intros H. apply in_map_iff in H as (k & <- & H). now apply F1, mem_in in H.
        -- intros H. assert (Hx : In x (T "data_" :: map fst kw)) by (apply mem_in, F2; now right).
           destruct Hx as [<-|Hx]; [contradiction|exact Hx].
      * intros d' P. inversion P as [? ? H|]; subst.
        assert (F : forallb (fun p => mem p (T "data_" :: map fst kw)) (T "data_" :: names) = true); [|congruence].
        apply forallb_forall. intros x [<-|Hx]; apply mem_in; [now left|right; now apply H].
    + intros d' P. inversion P as [? ? H|]; subst.
      assert (F : forallb (fun k => mem (fst k) names) kw = true); [|congruence].
      apply forallb_forall. intros k Hk. apply mem_in, H. now apply in_map.
  - intros d' P. inversion P.
Qed.

Lemma passes_input {V} wanted args (kw : list (text * V)) d0 d :
  NoDup (map fst kw) -> passes wanted args kw d0 -> passes wanted args kw d -> d0 = d.
Proof.
  intros ND P0 Pd. inversion P0 as [? ? H1|? ? H1 H2]; subst; inversion Pd as [? ? H3|? ? H3 H4]; subst; auto.
  clear - ND H1 H3. induction kw as [|[n u] kw IH]; [destruct H1|]. cbn [map fst] in ND. inversion ND; subst.
  destruct H1 as [H1|H1], H3 as [H3'|H3']; [congruence| | |auto].
  - exfalso. inversion H1; subst. apply H2. apply in_map_iff. now exists (T "data_", d).
  - exfalso. inversion H3'; subst. apply H2. apply in_map_iff. now exists (T "data_", d0).
Qed.
Lemma args_of_used c : forall x, In x (args_of c) -> uses c x.
Proof.
  assert (L : forall l, Forall (fun c => forall x, In x (args_of c) -> uses c x) l ->
              forall x, In x (flat_map args_of l) -> exists c, In c l /\ uses c x).
  { intros l F x Hx. apply in_flat_map in Hx as (c0 & Hc & Hx). rewrite Forall_forall in F. eauto. }
  assert (O : forall o, optP (fun c => forall x, In x (args_of c) -> uses c x) o ->
              forall x, In x (match o with Some c => args_of c | None => [] end) -> exists c, o = Some c /\ uses c x).
  { intros [c0|] H x Hx; [eauto|destruct Hx]. }
  induction c using cv_ind'; intros y; cbn [args_of]; try solve [intros []].
  - intros [->|[]]. constructor.
  - intros Hy. apply L in Hy as (c & Hc & Hu); auto. eapply uses_part; [apply part_op; eauto|auto].
  - intros Hy. apply in_app_or in Hy as [Hy|Hy]; eapply uses_part; [| |apply part_attr_name|]; eauto using part_attr_object.
  - intros Hy. apply L in Hy as (c & Hc & Hu); auto. eapply uses_part; [apply part_bool; eauto|auto].
  - intros Hy. apply L in Hy as (c & Hc & Hu); auto. eapply uses_part; [apply part_eqs; eauto|auto].
  - intros Hy. apply in_app_or in Hy as [Hy|Hy]; [|apply in_app_or in Hy as [Hy|Hy]].
    + apply O in Hy as (c0 & -> & Hu); auto. eapply uses_part; [apply part_if_condition|auto].
    + apply O in Hy as (c0 & -> & Hu); auto. eapply uses_part; [apply part_if_true|auto].
    + apply O in Hy as (c0 & -> & Hu); auto. eapply uses_part; [apply part_if_false|auto].
  - intros Hy. apply in_app_or in Hy as [Hy|Hy]; [|apply in_app_or in Hy as [Hy|Hy]].
    + apply O in Hy as (c0 & -> & Hu); auto. eapply uses_part; [apply part_default_self|auto].
    + apply L in Hy as (c0 & Hc & Hu); auto. eapply uses_part; [apply part_default_index; eauto|auto].
    + eapply uses_part; [apply part_default_value|auto].
  - intros Hy. apply in_app_or in Hy as [Hy|Hy].
    + apply L in Hy as (c0 & Hc & Hu); auto. eapply uses_part; [apply part_comp_element; eauto|auto].
    + apply O in Hy as (c0 & -> & Hu); auto. eapply uses_part; [apply part_comp_condition|auto].
  - intros Hy. apply in_flat_map in Hy as ([co e] & Hl & Hy). cbn [fst snd] in Hy.
    rewrite Forall_forall in H. destruct (H _ Hl) as [Hc He]. cbn [fst snd] in *.
    apply in_app_or in Hy as [Hy|Hy].
    + apply O in Hy as (c0 & -> & Hu); auto. eapply uses_part; [eapply part_items_condition; eauto|auto].
    + eapply uses_part; [eapply part_items_element; eauto|auto].
  - intros Hy. apply in_app_or in Hy as [Hy|Hy].
    + eapply uses_part; [apply part_cached|auto].
    + apply in_flat_map in Hy as ([nl e] & Hl & Hy). rewrite Forall_forall in H.
      eapply uses_part; [eapply part_label; eauto|]. apply (H _ Hl); auto.
  - intros Hy. apply in_app_or in Hy as [Hy|Hy]; eapply uses_part; [apply part_pipe_first| |apply part_pipe_second|]; auto.
  - intros Hy. apply in_app_or in Hy as [Hy|Hy].
    + eapply uses_part; [apply part_tapped|auto].
    + apply in_flat_map in Hy as ([k l] & Hl & Hy). rewrite Forall_forall in H.
      apply L in Hy as (c0 & Hc & Hu); [|apply (H _ Hl)]. eapply uses_part; [eapply part_mutation; eauto|auto].
Qed.

Section Statements.
  Context {V W X : Type}.
  Variable pr : prims V W X.
  Variable type_error : X.
  Variables (wordch : N -> bool) (srepr : text -> text) (gname : nat -> text) (pnum : list nat -> nat)
            (pname : text -> text) (hname : list nat -> text) (tname : text -> text).
  Notation gen_converter := (gen_converter pr type_error wordch srepr gname pnum pname hname tname).
  Notation execute := (execute pr type_error wordch srepr gname pnum pname hname tname).

  Lemma parameters_used m c h i : build m c [] = Done h i -> sorts_use_no_argument c ->
    (forall y, uses c y -> y <> T "self" /\ y <> T "cls") -> forall x, In x (keyword_parameters h i) <-> uses c x.
  Proof.
    intros B S N x. unfold keyword_parameters. destruct (get_args_ok h i) as (_ & Me).
    rewrite filter_In, Me, (build_args _ _ _ _ B), negb_true_iff, orb_false_iff. split.
    - intros [H _]. now apply regs_used.
    - intros H. split; [now apply used_regs|]. destruct (N x H). unfold teqb. split; destruct text_eq_dec; congruence.
  Qed.

  (** C64.  The compiled converter of a conversion takes the input and a keyword argument for
      each input argument the conversion uses, not one more and not one less; it then
      computes the conversion on these.  Called with anything else it raises TypeError, and
      nothing has happened.  Partial: the conversions of C14; no input argument in a sort key
      (C13_sort_key_refuted), none of the names of the generated code. *)
  Theorem C64_call_partial : forall m c h i, build m c [] = Done h i -> sorts_use_no_argument c ->
    (forall y, uses c y -> free_name pname tname y) ->
    forall (args : list V) (kw : list (text * V)), NoDup (map fst kw) ->
    (py_ok pr -> names_ok wordch srepr gname pname hname tname -> forallb (frag false false false) (stages c) = true ->
     forall d, passes (uses c) args kw d -> forall s, same (gen_converter h i c args kw s) (den pr kw c d s)) /\
    ((forall d, ~ passes (uses c) args kw d) -> forall s, gen_converter h i c args kw s = (s, Exc type_error)).
  Proof.
    intros m c h i B S N args kw ND.
    assert (P : forall x, In x (keyword_parameters h i) <-> uses c x).
    { eapply parameters_used; eauto. intros y Hy. destruct (N y Hy) as (_ & _ & N1 & N2 & _). auto. }
    assert (Nd : ~ In (T "data_") (keyword_parameters h i)).
    { intros H. apply P in H. now destruct (N _ H) as (_ & Nd & _). }
    assert (Q : forall d, passes (fun x => In x (keyword_parameters h i)) args kw d <-> passes (uses c) args kw d).
    { intros d. split; intros H; inversion H as [? ? H1|? ? H1 H2]; subst; constructor; auto; intros x.
      - rewrite H1. apply P.
      - rewrite H2, P. reflexivity.
      - rewrite H1. symmetry. apply P.
      - rewrite H2, P. reflexivity. }
    pose proof (bound (keyword_parameters h i) args kw ND Nd) as Bd. unfold gen_converter.
    destruct (bind_args [T "data_"] (keyword_parameters h i) args kw) as [E|].
    - destruct Bd as (d0 & P0 & L). apply Q in P0. split.
      + intros Hp Hn Hf d Pd s.
        assert (d0 = d) as -> by exact (passes_input _ _ _ _ _ ND P0 Pd).
        rewrite (run_scope pr _ _ E ((T "data_", d) :: kw) L s).
        change (same (call_converter wordch srepr gname pnum pname hname tname pr c kw d s) (den pr kw c d s)).
        apply C14_converter_has_the_direct_reading; auto.
        intros y Hy. apply args_of_used in Hy. destruct (N y Hy) as (N1 & N2 & _ & _ & N3 & N4). repeat (split; [assumption|]).
        assert (K : In y (map fst kw)) by (inversion Pd as [? ? H1|? ? H1 H2]; subst; [now apply H1|apply H2; auto]).
        apply in_map_iff in K as ([n u] & En & K). cbn in En. subst n. now exists u.
      + intros H. now destruct (H d0).
    - split; [|reflexivity]. intros _ _ _ d Pd. exfalso. apply (Bd d). now apply Q.
  Qed.
  (** The parameters are those of the signature that is generated. *)
  Theorem C64_parameters : forall h i,
    signature_code wordch h i false false [] =
    Signature (T "data_" ++ match keyword_parameters h i with [] => [] | l => T ", *, " ++ joined (T ", ") l end).
  Proof.
    intros h i. unfold signature_code, get_args_def_code. cbn [andb app].
    change (filter _ (get_args h i)) with (keyword_parameters h i). destruct (keyword_parameters h i); [reflexivity|].
    now rewrite intersperse_joined.
  Qed.

  Lemma bind_first first pos names (o : V) args kw : ~ In first pos -> ~ In first names ->
    bind_args (first :: pos) names (o :: args) kw = option_map (cons (first, o)) (bind_args pos names args kw).
  Proof.
    intros N1 N2. unfold bind_args.
    change (Nat.ltb (length (first :: pos)) (length (o :: args))) with (Nat.ltb (length pos) (length args)).
    cbn [length skipn firstn app]. destruct (Nat.ltb (length pos) (length args)); [reflexivity|].
    destruct (forallb (fun k => mem (fst k) (skipn (length args) pos ++ names)) kw); cbn [negb]; [|reflexivity].
    assert (E : forallb (fun p => mem p (first :: firstn (length args) pos ++ map fst kw)) (first :: pos ++ names) =
                forallb (fun p => mem p (firstn (length args) pos ++ map fst kw)) (pos ++ names)).
    { cbn [forallb]. replace (mem first (first :: firstn (length args) pos ++ map fst kw)) with true.
      - cbn [andb]. assert (A : ~ In first (pos ++ names)) by (rewrite in_app_iff; tauto).
        induction (pos ++ names) as [|p l IH]; [reflexivity|]. cbn [forallb]. rewrite IH by (intros H; apply A; now right). f_equal.
        unfold mem. cbn [existsb]. unfold teqb at 1. destruct (text_eq_dec p first) as [->|]; [destruct A; now left|reflexivity].
      - symmetry. apply mem_in. now left. }
    rewrite E. destruct (forallb _ (pos ++ names)); reflexivity.
  Qed.
  Notation converter := (converter wordch srepr gname pnum pname hname tname).
  Lemma method_called : forall m c h i first, first = T "self" \/ first = T "cls" ->
    build m c [] = Done h i -> sorts_use_no_argument c ->
    (forall y, uses c y -> y = first \/ free_name pname tname y) ->
    (forall t, pname t <> first /\ tname t <> first) ->
    forall o (args : list V) (kw : list (text * V)), NoDup (map fst kw) ->
    let called := compiled pr type_error (converter c) first (keyword_parameters h i) (o :: args) kw in
    let others x := uses c x /\ x <> first in
    (py_ok pr -> names_ok wordch srepr gname pname hname tname -> forallb (frag false false false) (stages c) = true ->
     forall d, passes others args kw d -> forall s, same (called s) (den pr ((first, o) :: kw) c d s)) /\
    ((forall d, ~ passes others args kw d) -> forall s, called s = (s, Exc type_error)).
  Proof.
    intros m c h i first Hf B S N Hv o args kw ND called others.
    assert (Sc : first <> T "data_") by (destruct Hf; subst; discriminate).
    assert (P : forall x, In x (keyword_parameters h i) <-> others x).
    { intros x. unfold keyword_parameters, others. destruct (get_args_ok h i) as (_ & Me).
      rewrite filter_In, Me, (build_args _ _ _ _ B), negb_true_iff, orb_false_iff. unfold teqb. split.
      - intros [H [H1 H2]]. split; [now apply regs_used|]. destruct (text_eq_dec x (T "self")), (text_eq_dec x (T "cls")); try discriminate.
        destruct Hf; subst; assumption.
      - intros [H H1]. split; [now apply used_regs|]. destruct (N x H) as [->|(_ & _ & N1 & N2 & _)]; [easy|].
        split; destruct text_eq_dec; congruence. }
    assert (Nd : ~ In (T "data_") (keyword_parameters h i)).
    { intros H. apply P in H as [H _]. destruct (N _ H) as [E|(_ & Nd & _)]; [now apply Sc|now apply Nd]. }
    assert (Nf : ~ In first (keyword_parameters h i)) by (intros H; now apply P in H as [_ H]).
    assert (Q : forall d, passes (fun x => In x (keyword_parameters h i)) args kw d <-> passes others args kw d).
    { intros d. split; intros H; inversion H as [? ? H1|? ? H1 H2]; subst; constructor; auto; intros x.
      - rewrite H1. apply P.
      - rewrite H2, P. reflexivity.
      - rewrite H1. symmetry. apply P.
      - rewrite H2, P. reflexivity. }
    pose proof (bound (keyword_parameters h i) args kw ND Nd) as Bd.
    assert (C : called = match bind_args [T "data_"] (keyword_parameters h i) args kw with
                         | Some E => run pr ((first, o) :: E) (fst (converter c)) (snd (converter c))
                         | None => raise type_error end).
    { unfold called, compiled. rewrite bind_first; [|intros [H|[]]; now apply Sc|exact Nf]. now destruct bind_args. }
    rewrite C. destruct (bind_args [T "data_"] (keyword_parameters h i) args kw) as [E|].
    - destruct Bd as (d0 & P0 & L). apply Q in P0. split.
      + intros Hp Hn Hfr d Pd s.
        assert (d0 = d) as -> by exact (passes_input _ _ _ _ _ ND P0 Pd).
        rewrite (run_scope pr _ _ ((first, o) :: E) ((T "data_", d) :: (first, o) :: kw)).
        * change (same (call_converter wordch srepr gname pnum pname hname tname pr c ((first, o) :: kw) d s)
                       (den pr ((first, o) :: kw) c d s)).
          apply C14_converter_has_the_direct_reading; auto.
          intros y Hy. apply args_of_used in Hy. destruct (text_eq_dec y first) as [->|Ny].
          -- split; [destruct Hf; subst; discriminate|]. split; [exact Sc|]. split; [intros t; apply Hv|].
             split; [intros t; apply Hv|]. exists o. now left.
          -- destruct (N y Hy) as [|(N1 & N2 & _ & _ & N3 & N4)]; [contradiction|]. repeat (split; [assumption|]).
             assert (K : In y (map fst kw)) by (inversion Pd as [? ? H1|? ? H1 H2]; subst; [apply H1|apply H2; right]; split; auto).
             apply in_map_iff in K as ([n u] & En & K). cbn in En. subst n. exists u. now right.
        * intros y. cbn [lookup]. specialize (L y). cbn [lookup] in L.
          destruct (text_eq_dec y first) as [->|].
          -- destruct (text_eq_dec first (T "data_")); [contradiction|reflexivity].
          -- destruct (text_eq_dec y (T "data_")); exact L.
      + intros H. now destruct (H d0).
    - split; [|reflexivity]. intros _ _ _ d Pd. exfalso. apply (Bd d). now apply Q.
  Qed.
  (** The same for gen_converter(method=True) and (class_method=True), called on an instance
      whose truth value is true (see C43), or on the class: the conversion reads the
      instance, or the class, as input_arg("self") or input_arg("cls"). *)
  Theorem C64_method_partial : forall m c h i first, first = T "self" \/ first = T "cls" ->
    build m c [] = Done h i -> sorts_use_no_argument c ->
    (forall y, uses c y -> y = first \/ free_name pname tname y) ->
    (forall t, pname t <> first /\ tname t <> first) ->
    forall o cls (args : list V) (kw : list (text * V)), NoDup (map fst kw) ->
    let converter := compiled pr type_error (converter c) first (keyword_parameters h i) in
    let others x := uses c x /\ x <> first in
    py_ok pr ->
    (names_ok wordch srepr gname pname hname tname -> forallb (frag false false false) (stages c) = true ->
     forall d, passes others args kw d -> forall s,
       (forall w, truth pr o (fst s) = (w, Val true) ->
          same (call_on_instance pr converter o cls args kw s) (den pr ((first, o) :: kw) c d (w, snd s))) /\
       same (call_on_class pr converter cls args kw s) (den pr ((first, cls) :: kw) c d s)) /\
    ((forall d, ~ passes others args kw d) -> forall s,
       (forall w, truth pr o (fst s) = (w, Val true) ->
          call_on_instance pr converter o cls args kw s = ((w, snd s), Exc type_error)) /\
       call_on_class pr converter cls args kw s = (s, Exc type_error)).
  Proof.
    intros m c h i first Hf B S N Hv o cls args kw ND conv others Hp.
    destruct (method_called m c h i first Hf B S N Hv o args kw ND) as [A1 A2].
    destruct (method_called m c h i first Hf B S N Hv cls args kw ND) as [B1 B2].
    split.
    - intros Hn Hfr d Pd s. split.
      + intros w HT. rewrite (C43_instance_partial pr conv o cls args kw s w HT). exact (A1 Hp Hn Hfr d Pd (w, snd s)).
      + rewrite (C43_class pr Hp conv cls args kw s). exact (B1 Hp Hn Hfr d Pd s).
    - intros H s. split.
      + intros w HT. rewrite (C43_instance_partial pr conv o cls args kw s w HT). exact (A2 H (w, snd s)).
      + rewrite (C43_class pr Hp conv cls args kw s). exact (B2 H s).
  Qed.

  (** execute is the call of the converter, for conversions without an input argument "debug": *)
  Theorem C64_execute : forall h i c (args : list V) (kw : list (text * V)), ~ In (T "debug") (map fst kw) ->
    execute h i c args kw = gen_converter h i c args kw.
  Proof.
    intros h i c args kw N. unfold Model_Execute.execute. f_equal. induction kw as [|[n u] kw IH]; [reflexivity|]. cbn [filter fst map] in *.
    unfold teqb. destruct (text_eq_dec n (T "debug")) as [->|]; [destruct N; now left|]. cbn. f_equal. apply IH. intros H. apply N. now right.
  Qed.
  (** ... with one, execute raises TypeError whatever it is called with. *)
  Theorem C64_execute_debug : forall m c h i, build m c [] = Done h i -> sorts_use_no_argument c ->
    (forall y, uses c y -> free_name pname tname y) -> uses c (T "debug") ->
    forall (args : list V) (kw : list (text * V)), NoDup (map fst kw) -> forall s, execute h i c args kw s = (s, Exc type_error).
  Proof.
    intros m c h i B S N U args kw ND s. unfold Model_Execute.execute.
    assert (K : ~ In (T "debug") (map fst (filter (fun k : text * V => negb (teqb (fst k) (T "debug"))) kw))).
    { intros H. apply in_map_iff in H as (k & E & H). apply filter_In in H as [_ H]. rewrite E in H. discriminate H. }
    refine (proj2 (C64_call_partial m c h i B S N args _ _) _ s).
    - clear - ND. induction kw as [|[n u] kw IH]; [constructor|]. cbn [map fst] in ND. inversion ND; subst. cbn [filter fst].
      destruct (negb (teqb n (T "debug"))); [|now apply IH]. cbn [map fst]. constructor; [|now apply IH].
      intros H. apply H1. apply in_map_iff in H as (k & E & H). apply filter_In in H as [H _]. apply in_map_iff. now exists k.
    - intros d P. apply K. inversion P as [? ? H|? ? H1 H]; subst; apply H; auto.
  Qed.
End Statements.
Print Assumptions C64_call_partial.
Print Assumptions C64_execute.
Print Assumptions C64_execute_debug.

(** *** instances *)
(* (c.item(c.input_arg("k")) + c.input_arg("x")).gen_converter() *)
Definition two_args : cv := COp (OBin (T "+")) [citem None [CArg (T "k")]; CArg (T "x")].
Notation conv0 := (gen_converter tpy TypeError word quote gn pnum0 pn hn tn).
Notation exec0 := (execute tpy TypeError word quote gn pnum0 pn hn tn).
Lemma used_two x : uses two_args x -> x = T "k" \/ x = T "x".
Proof.
  assert (G : forall a b, within a b -> In b [two_args; citem None [CArg (T "k")]; CArg (T "k"); CArg (T "x"); CThis] ->
    In a [two_args; citem None [CArg (T "k")]; CArg (T "k"); CArg (T "x"); CThis]).
  { induction 1 as [c|a b c Hw IH Hp]; auto. intros Hc. apply IH.
    destruct Hc as [<-|[<-|[<-|[<-|[<-|[]]]]]]; inversion Hp; subst;
      repeat match goal with H : In _ _ |- _ => cbn in H; destruct H as [<-|H] | H : False |- _ => destruct H end; cbn; tauto. }
  intros U. specialize (G _ _ U (or_introl eq_refl)). cbn in G.
  destruct G as [G|[G|[G|[G|[G|[]]]]]]; try discriminate G; injection G as <-; auto.
Qed.
Lemma used_two' x : uses two_args x <-> x = T "k" \/ x = T "x".
Proof.
  split; [apply used_two|]. intros [->| ->].
  - eapply within_part; [|apply part_op; left; reflexivity]. eapply within_part; [|apply part_op; right; left; reflexivity]. constructor.
  - eapply within_part; [|apply part_op; right; left; reflexivity]. constructor.
Qed.
Example C64_instance : exists h i, build 100 two_args [] = Done h i /\ sorts_use_no_argument two_args /\
  (forall y, uses two_args y -> free_name pn tn y) /\ forallb (frag false false false) (stages two_args) = true /\
  let kw := [(T "x", VInt 2); (T "k", VStr "a")] in
  let d := VDict [(VStr "a", VInt 40)] in
  NoDup (map fst kw) /\ passes (uses two_args) [d] kw d /\ passes (uses two_args) [] ((T "data_", d) :: kw) d /\
  snd (conv0 h i two_args [d] kw ([], nolab)) = Val (VInt 42) /\
  snd (conv0 h i two_args [] ((T "data_", d) :: kw) ([], nolab)) = Val (VInt 42) /\
  snd (exec0 h i two_args [d] kw ([], nolab)) = Val (VInt 42) /\
  (forall d', ~ passes (uses two_args) [d] [(T "x", VInt 2)] d') /\
  conv0 h i two_args [d] [(T "x", VInt 2)] ([], nolab) = (([], nolab), Exc TypeError).
Proof.
  eexists _, _. split; [reflexivity|]. split.
  { intros o src kr k x Hw Hs _. exfalso.
    assert (G : forall a b, within a b -> In b [two_args; citem None [CArg (T "k")]; CArg (T "k"); CArg (T "x"); CThis] ->
      In a [two_args; citem None [CArg (T "k")]; CArg (T "k"); CArg (T "x"); CThis]).
    { induction 1 as [c|a b c Hw' IH Hp]; auto. intros Hc. apply IH.
      destruct Hc as [<-|[<-|[<-|[<-|[<-|[]]]]]]; inversion Hp; subst;
        repeat match goal with H : In _ _ |- _ => cbn in H; destruct H as [<-|H] | H : False |- _ => destruct H end; cbn; tauto. }
    specialize (G _ _ Hw (or_introl eq_refl)). cbn in G.
    destruct G as [G|[G|[G|[G|[G|[]]]]]]; try discriminate G; injection G as <- _; destruct Hs. }
  split.
  { intros y Hy. apply used_two in Hy. destruct Hy as [->| ->]; repeat split; try discriminate; intros t; discriminate. }
  split; [vm_compute; reflexivity|]. cbv zeta. split.
  { repeat constructor; cbn; intuition discriminate. }
  split.
  { constructor. intros x. rewrite used_two'. cbn. intuition congruence. }
  split.
  { constructor; [now left|]. intros x. rewrite used_two'. cbn [map fst In]. intuition congruence. }
  split; [vm_compute; reflexivity|]. split; [vm_compute; reflexivity|]. split; [vm_compute; reflexivity|].
  split; [|vm_compute; reflexivity].
  intros d' P. inversion P as [? ? H|]; subst.
  assert (K : In (T "k") (map fst [(T "x", VInt 2)])) by (apply H, used_two'; auto).
  destruct K as [K|[]]. discriminate K.
Qed.
(** c.input_arg("debug").execute(1, debug=2): TypeError; the converter takes it. *)
Theorem C64_execute_debug_refuted : exists h i, build 100 (CArg (T "debug")) [] = Done h i /\
  passes (uses (CArg (T "debug"))) [VInt 1] [(T "debug", VInt 2)] (VInt 1) /\
  snd (conv0 h i (CArg (T "debug")) [VInt 1] [(T "debug", VInt 2)] ([], nolab)) = Val (VInt 2) /\
  snd (exec0 h i (CArg (T "debug")) [VInt 1] [(T "debug", VInt 2)] ([], nolab)) = Exc TypeError.
Proof.
  eexists _, _. split; [reflexivity|]. split; [|split; vm_compute; reflexivity].
  constructor. intros x. split.
  - intros [<-|[]]. constructor.
  - intros U. inversion U as [|? ? ? ? P]; subst; [now left|inversion P].
Qed.
Print Assumptions C64_execute_debug_refuted.
(** An input argument called self (or cls) is no parameter of a converter that is not a method:
    passing it is a TypeError, and without it the name is not defined. *)
Theorem C64_self_refuted : exists h i, build 100 (CArg (T "self")) [] = Done h i /\
  passes (uses (CArg (T "self"))) [VInt 1] [(T "self", VInt 2)] (VInt 1) /\
  snd (conv0 h i (CArg (T "self")) [VInt 1] [(T "self", VInt 2)] ([], nolab)) = Exc TypeError /\
  snd (conv0 h i (CArg (T "self")) [VInt 1] [] ([], nolab)) = Exc NameError.
Proof.
  eexists _, _. split; [reflexivity|]. split; [|split; vm_compute; reflexivity].
  constructor. intros x. split.
  - intros [<-|[]]. constructor.
  - intros U. inversion U as [|? ? ? ? P]; subst; [now left|inversion P].
Qed.
Print Assumptions C64_parameters.
Print Assumptions C64_self_refuted.
(** The conversion of C43_instance meets the hypotheses. *)
Example C64_method_instance : exists h i, build 100 demo43 [] = Done h i /\
  (forall t, pn t <> T "self" /\ tn t <> T "self") /\
  let conv := compiled tpy TypeError (converter word quote gn pnum0 pn hn tn demo43) (T "self") (keyword_parameters h i) in
  let d := VDict [(VStr "a", VInt 41)] in
  keyword_parameters h i = [T "x"] /\
  snd (call_on_instance tpy conv (VObj 5) (VObj 6) [] [(T "x", VInt 1); (T "data_", d)] ([], nolab)) = Val (VTuple [VObj 5; VInt 42; VInt 1]) /\
  snd (call_on_class tpy conv (VObj 6) [d] [(T "x", VInt 1)] ([], nolab)) = Val (VTuple [VObj 6; VInt 42; VInt 1]) /\
  snd (call_on_instance tpy conv (VObj 5) (VObj 6) [d] [] ([], nolab)) = Exc TypeError.
Proof. eexists _, _. split; [reflexivity|]. split; [intros t; split; discriminate|]. repeat split; vm_compute; reflexivity. Qed.
Print Assumptions C64_method_partial.
