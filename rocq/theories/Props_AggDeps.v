(** C13 for aggregations and joins, and C52: which reduces an aggregation has. *)
From Coq Require Import String List ZArith NArith Bool Arith Lia Sorting.Sorted.
From Verif Require Import Model_Code Model_Heap Spec_Heap Model_Args Spec_Args Proofs_Args
  Model_AggDeps Spec_AggDeps Proofs_AggDeps Proofs_AggClean Spec_Demo Props_Args.
Import ListNotations.

(** The parameters of a converter made of reduces, group_bys, joins and pipes:
    the input arguments used anywhere inside, each once, in alphabetical order.
    Partial: arguments in sort keys (C13_sort_key_refuted,
    C13_group_sort_key_refuted) and labels in join conditions
    (C13_condition_label_refuted) are excluded. *)
Theorem C13_aggregations_partial (wordch : N -> bool) m g h i method class_method :
  gbuild m g [] = Built h i -> gsorts_use_no_argument g -> conditions_read_no_label g ->
  exists kw,
    StronglySorted before kw /\
    (forall x, In x kw <-> guses g x /\ x <> T "self" /\ x <> T "cls") /\
    signature_code wordch h i method class_method [] =
      if method && class_method then BothMethods
      else Signature ((if method then T "self, " else []) ++ (if class_method then T "cls, " else []) ++
                      T "data_" ++ match kw with [] => [] | _ => T ", *, " ++ joined (T ", ") kw end).
Proof.
  intros B S L. destruct (gbuild_names _ _ _ _ B L) as (N & _).
  destruct (get_args_ok h i) as (So & Me).
  exists (filter (fun a => negb (teqb a (T "self") || teqb a (T "cls"))) (get_args h i)).
  split; [apply filter_sorted; auto|]. split.
  - intros x. rewrite filter_In, Me, arg_names_tnames, N, negb_true_iff, orb_false_iff.
    assert (E : forall y, teqb x y = false <-> x <> y).
    { intros y. unfold teqb. destruct (text_eq_dec x y); split; congruence. }
    rewrite !E. split.
    + intros [H1 H2]. split; [apply gregs_used; auto|auto].
    + intros [H1 H2]. split; [apply used_gregs; auto|auto].
  - unfold signature_code, get_args_def_code. destruct (method && class_method); auto.
Qed.
Print Assumptions C13_aggregations_partial.

(** The parameters of the inner function of an aggregation (after data_) and the
    arguments its call passes are the same list, get_args of the group_by object,
    so C13's list of names is also what the inner function receives. *)
Theorem C13_inner_function_partial m by_ out s h i :
  gbuild m (GGroup by_ out s) [] = Built h i ->
  gsorts_use_no_argument (GGroup by_ out s) -> conditions_read_no_label (GGroup by_ out s) ->
  exists args,
    StronglySorted before args /\ (forall x, In x args <-> guses (GGroup by_ out s) x) /\
    get_args_def_code h i false false = match args with [] => [] | _ => T ", " ++ joined (T ", ") args end.
Proof.
  intros B S L. destruct (gbuild_names _ _ _ _ B L) as (N & _).
  destruct (get_args_ok h i) as (So & Me). exists (get_args h i). split; [auto|]. split.
  - intros x. rewrite Me, arg_names_tnames, N. split; [apply gregs_used|apply used_gregs; auto].
  - unfold get_args_def_code. destruct (get_args h i); [reflexivity|]. now rewrite intersperse_joined.
Qed.
Print Assumptions C13_inner_function_partial.

(** A conversion is refused with "nested aggregation" exactly when a reduce is
    written inside a reduce, at any depth (even with an aggregate between them), or
    something with a reduce in it is piped into a reduce. *)
Theorem C52_nested_reduces_exactly m g :
  match gbuild m g [] with
  | Nested => nested_reduces g
  | Built _ _ => ~ nested_reduces g
  | Stopped => True            (* a pipe too long, C12 *)
  end.
Proof.
  assert (W0 : wf []) by (intros j o H; destruct j; discriminate).
  pose proof (gbuild_clean m g [] W0 eq_refl) as K. destruct (gbuild m g []) as [h i| |]; simpl in K; auto.
  destruct K as (_ & _ & _ & _ & _ & K). exact K.
Qed.
Print Assumptions C52_nested_reduces_exactly.
Corollary C52_nested_reduce_rejected m g h i :
  gbuild m g [] = Built h i ->
  forall id parts p id' parts',
    gwithin (GReduce id parts) g -> In p parts -> ~ inside (GReduce id' parts') p.
Proof.
  intros B id parts p id' parts' W Hp Hi. pose proof (C52_nested_reduces_exactly m g) as K. rewrite B in K.
  apply K. left. exists id, parts, p. split; [auto|]. split; [auto|]. exists id', parts'. auto.
Qed.
Print Assumptions C52_nested_reduce_rejected.

(** The reduces an aggregation computes over its rows are those written anywhere
    in its output ... *)
Theorem C52_reduces_of_output m out h o :
  gbuild m out [] = Built h o ->
  forall id, In id (agg_items h o) <-> exists parts, inside (GReduce id parts) out.
Proof.
  intros B id. assert (W0 : wf []) by (intros j x H; destruct j; discriminate).
  pose proof (gbuild_clean m out [] W0 eq_refl) as K. rewrite B in K.
  destruct K as (_ & _ & _ & (_ & N) & _). rewrite <- rregs_inside, <- N. reflexivity.
Qed.
Print Assumptions C52_reduces_of_output.
(** ... and so, as long as no other aggregation is written in it, the aggregation's
    own ones (otherwise see C52_foreign_reduce_refuted). *)
Theorem C52_reduces_of_aggregation_partial m out h o :
  gbuild m out [] = Built h o ->
  (forall by_ out' s, ~ inside (GGroup by_ out' s) out) ->
  forall id, In id (agg_items h o) <-> own_reduce id out.
Proof.
  intros B NG id. rewrite (C52_reduces_of_output _ _ _ _ B). split.
  - clear B. intros (ps & Hi). remember (GReduce id ps) as a eqn:Ea. revert NG.
    induction Hi as [g|a b g Hi IH Bl]; intros NG.
    + subst g. constructor.
    + assert (IH' : own_reduce id b).
      { apply IH; auto. intros by_ out' s Hg. apply (NG by_ out' s). eapply inside_below; eauto. }
      apply (own_below id b g IH' Bl). intros by_ out' s ->. apply (NG by_ out' s). constructor.
  - clear. induction 1 as [ps|a g _ IH Bl _].
    + exists ps. constructor.
    + destruct IH as (ps & Hi). exists ps. eapply inside_below; eauto.
Qed.
Print Assumptions C52_reduces_of_aggregation_partial.

(** *** cases *)
Definition arg (x : string) : gv := GPlain (CArg (T x)).
Definition field (x : string) : gv := GPlain (citem None [CLit (LStr (T x))]).
(* c.join(c.item("l"), c.item("r"), c.LEFT.item("x") == c.input_arg("d")).pipe(
     c.group_by(c.item("k")).aggregate({c.item("k"): c.reduce(Sum, c.item(c.input_arg("b")))
        .filter(c.input_arg("a")), "n": c.reduce(Count).pipe(c.this() + c.input_arg("b"))})) *)
Definition demo_output : gv :=
  GParts [field "k"; GReduce 1 [GPlain (citem None [CArg (T "b")]); arg "a"];
          GPipe (GReduce 2 [GPlain CThis]) (GPlain (COp (OBin (T "+")) [CThis; CArg (T "b")]))].
Definition demo_agg : gv :=
  GPipe (GJoin (field "l") (field "r") (CEqs [citem None [CLit (LStr (T "x"))]; CArg (T "d")]))
        (GGroup [field "k"] demo_output (Some [GPlain (CLit LNone)])).
Definition sig_of (r : outcome nat) : option sig_result :=
  match r with Built h i => Some (signature_code ascii_word h i false false []) | _ => None end.
Example C13_aggregations_case : sig_of (gbuild 100 demo_agg []) = Some (Signature (T "data_, *, a, b, d")).
Proof. vm_compute. reflexivity. Qed.
(** the hypotheses hold of this conversion: nothing else is written inside it *)
Ltac not_var g := tryif is_var g then fail else idtac.
Ltac parts_of_it := repeat match goal with
  | H : In _ [] |- _ => destruct H
  | H : In _ (_ :: _) |- _ => destruct H as [H|H]; [subst|]
  | H : below _ ?g |- _ => not_var g; inversion H; subst; clear H
  | H : gpart _ ?g |- _ => not_var g; inversion H; subst; clear H
  | H : part _ ?g |- _ => not_var g; inversion H; subst; clear H
  | H : gwithin _ ?g |- _ => not_var g; inversion H; subst; clear H
  | H : within _ ?g |- _ => not_var g; inversion H; subst; clear H
  end.
Example C13_aggregations_case_sorts : gsorts_use_no_argument demo_agg /\ conditions_read_no_label demo_agg.
Proof.
  unfold demo_agg, demo_output, field, arg, citem.
  generalize (T "k") (T "l") (T "r") (T "x") (T "a") (T "b") (T "d") (T "+"). intros.
  split; [split|].
  - intros c W o src kr k x Hw Hs. exfalso. parts_of_it; destruct Hs.
  - intros by_ out ks k x W Hk (c & Wc & U). unfold uses in U. parts_of_it.
  - intros l r c n W Hw. parts_of_it.
Qed.
Example C52_case :
  match gbuild 100 demo_output [] with Built h o => agg_items h o = [1; 2] | _ => False end.
Proof. vm_compute. reflexivity. Qed.
(* c.reduce(Sum, c.aggregate(c.reduce(Max, c.this()))) *)
Example C52_case_nested :
  gbuild 100 (GReduce 1 [GGroup [] (GReduce 2 [GPlain CThis]) None]) [] = Nested.
Proof. vm_compute. reflexivity. Qed.
(* c.item("a").pipe(c.reduce(Array, c.this())).pipe(c.item("b")): not nested *)
Example C52_case_built :
  match gbuild 100 (GPipe (GPipe (field "a") (GReduce 1 [GPlain CThis])) (field "b")) [] with Built _ _ => True | _ => False end.
Proof. vm_compute. exact I. Qed.
(* c.reduce(Array, c.this()).pipe(c.reduce(Sum, c.this())) *)
Example C52_case_piped : gbuild 100 (GPipe (GReduce 1 [GPlain CThis]) (GReduce 2 [GPlain CThis])) [] = Nested.
Proof. vm_compute. reflexivity. Qed.

(** [c.reduce(Array, c.this()).pipe(c.aggregate(c.reduce(Sum, c.this())))] as the
    output of an aggregation: the Sum over the elements of the array is also
    computed over the rows of the outer aggregation. *)
Theorem C52_foreign_reduce_refuted :
  exists m out h o id, gbuild m out [] = Built h o /\ In id (agg_items h o) /\ ~ own_reduce id out.
Proof.
  exists 100%Z, (GPipe (GReduce 1 [GPlain CThis]) (GGroup [] (GReduce 2 [GPlain CThis]) None)).
  destruct (gbuild 100 _ []) as [h o| |] eqn:E; try (vm_compute in E; discriminate).
  exists h, o, 2. split; [reflexivity|]. vm_compute in E. inversion E; subst h o. split.
  - vm_compute. auto.
  - intros H. inversion H as [|a g O B N]; subst. inversion B; subst.
    + inversion O as [|a' g' O' B' N']; subst. inversion B'; subst.
      match goal with X : In _ _ |- _ => destruct X as [<-|[]] end.
      inversion O' as [|a'' g'' O'' B'' N'']; subst. inversion B''.
    + inversion O as [|a' g' O' B' N']; subst. exact (N' _ _ _ eq_refl).
Qed.
Print Assumptions C52_foreign_reduce_refuted.

(** [c.group_by(c.item("k")).aggregate(c.item("k")).sort(key=c.input_arg("x"))]:
    the converter has no parameter x. *)
Theorem C13_group_sort_key_refuted :
  exists m g h i, gbuild m g [] = Built h i /\ guses g (T "x") /\
    signature_code ascii_word h i false false [] = Signature (T "data_").
Proof.
  exists 100%Z, (GGroup [field "k"] (field "k") (Some [arg "x"])).
  destruct (gbuild 100 _ []) as [h i| |] eqn:E; try (vm_compute in E; discriminate).
  exists h, i. split; [reflexivity|]. split.
  - exists (CArg (T "x")). split; [|constructor]. eapply gwithin_part; [constructor|]. apply gpart_sort. left. reflexivity.
  - vm_compute in E. inversion E; subst h i. vm_compute. reflexivity.
Qed.
Print Assumptions C13_group_sort_key_refuted.

(** A join condition that uses an input argument and reads a label of the same
    name: the label replaces the argument in the list of arguments. *)
Theorem C13_condition_label_refuted :
  exists m g h i, gbuild m g [] = Built h i /\ guses g (T "x") /\
    signature_code ascii_word h i false false [] = Signature (T "data_").
Proof.
  exists 100%Z, (GJoin (field "l") (field "r") (CEqs [CArg (T "x"); CLabel (U (T "x"))])).
  destruct (gbuild 100 _ []) as [h i| |] eqn:E; try (vm_compute in E; discriminate).
  exists h, i. split; [reflexivity|]. split.
  - exists (CEqs [CArg (T "x"); CLabel (U (T "x"))]). split.
    + eapply gwithin_part; [constructor|]. apply gpart_condition.
    + eapply within_part; [constructor|]. constructor. left. reflexivity.
  - vm_compute in E. inversion E; subst h i. vm_compute. reflexivity.
Qed.
Print Assumptions C13_condition_label_refuted.
