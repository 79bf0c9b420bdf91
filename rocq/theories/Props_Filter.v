(** C59: c.filter, on Python's built-in values with arbitrary user functions. *)
From Coq Require Import String List ZArith NArith Bool Arith.
From Verif Require Import Model_PyVal Model_Code Model_Eval Model_Converter Model_Python Model_Api Model_Filter Spec_Frag Spec_Eval
  Spec_Reducers Spec_Converter Spec_Coll Spec_Demo Proofs_Reducers Proofs_Converter Proofs_Coll Props_Coll.
Import ListNotations.
Open Scope list_scope.

(** the items of [xs] whose bit is true, in order *)
Fixpoint chosen (xs : list val) (bs : list bool) : list val :=
  match xs, bs with
  | x :: xs, b :: bs => if b then x :: chosen xs bs else chosen xs bs
  | _, _ => []
  end.
(** what the kinds of cast make of a list of items; a generator is taken here as the list
    of its items (see C24 for next() by next()) *)
Definition cast_kind (k : cast) : option ckind :=
  match k with CastList => Some KList | CastTuple => Some KTuple | CastSet => Some KSet | _ => None end.

Section Filter.
  Context {W : Type}.
  Variable call : val -> list val -> list (text * val) -> W -> W * out exc val.
  Variable getattr : val -> string -> W -> W * out exc val.
  Variables (wordch : N -> bool) (srepr : text -> text) (gname : nat -> text) (pnum : list nat -> nat)
            (pname : text -> text) (hname : list nat -> text) (tname : text -> text).
  Hypothesis Hn : names_ok wordch srepr gname pname hname tname.
  Notation pr := (python call getattr).
  Notation call_converter := (call_converter wordch srepr gname pnum pname hname tname pr).
  Notation gives := (gives call getattr).
  Notation yields := (yields call getattr).
  Notation covered := (covered pname tname).

  (** the condition is truthy exactly for the items whose bit is true *)
  Definition decides (args : list (text * val)) (cond : cv) (xs : list val) (bs : list bool) : Prop :=
    Forall2 (fun x b => exists t, gives args cond x t /\ truthy t = b) xs bs.
  (** what the filtered conversion is given: the input, or what [self] makes of it *)
  Definition input_is (args : list (text * val)) (self : option cv) (v u : val) : Prop :=
    match self with None => u = v | Some a => gives args a v u end.

  Lemma decides_yields args cond xs bs : decides args cond xs bs ->
    exists yss, Forall2 (yields args (Some cond) CThis) xs yss /\ concat yss = chosen xs bs.
  Proof.
    intros F. induction F as [|x b xs bs (t & G & <-) F (yss & H & E)]; [exists []; now split|].
    assert (P := P_cond call getattr args x cond t G). destruct (truthy t) eqn:B.
    - exists ([x] :: yss). split; [|cbn; now rewrite E]. constructor; [|exact H]. apply Yields; [exact P|]. intros s. reflexivity.
    - exists ([] :: yss). split; [|cbn; now rewrite E]. constructor; [|exact H]. apply YieldsNot. exact P.
  Qed.
  Lemma on_gives args self c v u x : input_is args self v u -> gives args c u x -> gives args (on self c) v x.
  Proof.
    destruct self as [a|]; cbn [input_is on]; [|now intros ->]. intros Ga Gc s. cbn [den]. unfold bind. rewrite (Ga s). apply Gc.
  Qed.
  Lemma comp_gives args cond k u xs bs : items_of u = Ok xs -> decides args cond xs bs ->
    fits k (chosen xs bs) -> gives args (CComp k [CThis] (Some cond)) u (holding k (chosen xs bs)).
  Proof.
    intros Hi D Hk s. destruct (decides_yields _ _ _ _ D) as (yss & F & E).
    rewrite (comp_den call getattr args k (Some cond) CThis u xs yss Hi F). rewrite E. destruct k; try destruct Hk.
    - now rewrite pushes_list.
    - now rewrite pushes_tuple.
    - rewrite pushes_set by exact Hk. now rewrite fold_vadd_nil by exact Hk.
  Qed.
  Lemma source_gives args cond u xs bs : items_of u = Ok xs -> decides args cond xs bs ->
    gives args (generator_comp CThis (Some cond)) u (VList (chosen xs bs)).
  Proof.
    intros Hi D s. destruct (decides_yields _ _ _ _ D) as (yss & F & E).
    unfold generator_comp. rewrite (comp_den call getattr args KSrc (Some cond) CThis u xs yss Hi F). rewrite E. now rewrite pushes_src.
  Qed.

  (** *** C59 *)
  (** c.filter(condition, cast=list | tuple | set), and conv.filter(condition, cast=...): the
      items (of the input, or of what conv returns) for which the condition is truthy,
      unchanged and in order, as that collection. *)
  Theorem C59_filter : forall cond k kind self c args v u xs bs,
    cast_kind k = Some kind -> api_filter cond k self = Some c -> covered args c ->
    input_is args self v u -> items_of u = Ok xs -> decides args cond xs bs -> fits kind (chosen xs bs) ->
    forall s, just (call_converter c args v s) s (holding kind (chosen xs bs)).
  Proof.
    intros cond k kind self c args v u xs bs K A C I Hi D Hf s. apply (reads call getattr wordch srepr gname pnum pname hname tname Hn); auto.
    destruct k; try discriminate K; injection K as <-; injection A as <-; eapply on_gives; eauto; now apply comp_gives.
  Qed.
  (** With another callable: what it returns for these items.  (With no cast at all the
      converter returns the generator: C24_generator_items.) *)
  Theorem C59_filter_callable : forall cond g self c args v u xs bs x,
    api_filter cond (CastCall g) self = Some c -> covered args c ->
    input_is args self v u -> items_of u = Ok xs -> decides args cond xs bs ->
    (forall w, call (VObj g) [VList (chosen xs bs)] [] w = (w, Val x)) ->
    forall s, just (call_converter c args v s) s x.
  Proof.
    intros cond g self c args v u xs bs x A C I Hi D Hc s. apply (reads call getattr wordch srepr gname pnum pname hname tname Hn); auto.
    injection A as <-. intros [w L]. assert (G := on_gives args self _ v u _ I (source_gives args cond u xs bs Hi D)).
    revert G. generalize (on self (generator_comp CThis (Some cond))). intros gc G. cbn. unfold bind, ret, prim. cbn. rewrite (G (w, L)). cbn. unfold bind, prim. cbn. now rewrite Hc.
  Qed.
  (** conv.filter(...) of a conversion that is not a comprehension filters what conv returns. *)
  Theorem C59_filter_method : forall cond k self,
    set_condition cond self = None -> (forall a c, self <> CPipe a c) ->
    method_filter cond (Some k) self = api_filter cond k (Some self).
  Proof. intros cond k self H N. unfold method_filter. destruct self; try now rewrite H. now destruct (N self1 self2). Qed.

  (** Filtering twice: the second filter replaces the first one when the first made a
      comprehension, so c.filter(a).filter(b) keeps items for which a is false. *)
  Theorem C59_second_filter_replaces : forall a b k c, cast_kind k <> None \/ k = CastNone ->
    api_filter a k None = Some c -> method_filter b None c = api_filter b k None.
  Proof. intros a b k c [K|K] H; destruct k; try contradiction; try discriminate; injection H as <-; reflexivity. Qed.
  (** ... and a second filter with a cast raises. *)
  Theorem C59_second_cast_raises : forall a b k k2 c, cast_kind k <> None \/ k = CastNone ->
    api_filter a k None = Some c -> method_filter b (Some k2) c = None.
  Proof. intros a b k k2 c [K|K] H; destruct k; try contradiction; try discriminate; injection H as <-; reflexivity. Qed.

  (** The filter of c.group_by(...).aggregate(...) and c.aggregate(...) works on what the
      aggregation returns, and gives a list unless another cast is passed. *)
  Theorem C59_filter_groups : forall cond given kind self c args v u xs bs,
    match given with None => kind = KList | Some k => cast_kind k = Some kind end ->
    group_filter cond given self = Some c -> covered args c ->
    gives args self v u -> items_of u = Ok xs -> decides args cond xs bs -> fits kind (chosen xs bs) ->
    forall s, just (call_converter c args v s) s (holding kind (chosen xs bs)).
  Proof.
    intros cond given kind self c args v u xs bs K A C G Hi D Hf.
    apply (C59_filter cond (match given with Some k => k | None => CastList end) kind (Some self) c args v u xs bs); auto.
    destruct given; [exact K|now subst].
  Qed.
  (** A second filter after it keeps the items for which both conditions are truthy only if
      the first one gave no comprehension; the default list is one, so it replaces. *)
  Theorem C59_second_group_filter : forall a b self c,
    group_filter a None self = Some c -> method_filter b None c = group_filter b None self.
  Proof. intros a b self c H. injection H as <-. reflexivity. Qed.
End Filter.

(** *** instances *)
Definition above (n : Z) : cv := COp (OBin (T ">")) [CThis; int n].
Definition below (n : Z) : cv := COp (OBin (T "<")) [CThis; int n].
Definition ints : val := VList [VInt 3; VInt (-1); VInt 7; VInt 3].
Example C59_instance :
  let c := CPipe (key "a") (CComp KTuple [CThis] (Some (above 0))) in
  api_filter (above 0) CastTuple (Some (key "a")) = Some c /\ covered pn tn [] c /\
  input_is tcall tattr [] (Some (key "a")) (VDict [(VStr "a", ints)]) ints /\
  decides tcall tattr [] (above 0) [VInt 3; VInt (-1); VInt 7; VInt 3] [true; false; true; true] /\
  chosen [VInt 3; VInt (-1); VInt 7; VInt 3] [true; false; true; true] = [VInt 3; VInt 7; VInt 3] /\
  tconv c [] (VDict [(VStr "a", ints)]) = ([], Val (VTuple [VInt 3; VInt 7; VInt 3])).
Proof.
  split; [reflexivity|]. split; [split; [intros y []|vm_compute; reflexivity]|].
  split; [intros [w L]; reflexivity|].
  split.
  { assert (G : forall x b, (forall s, den (python tcall tattr) [] (above 0) x s = (s, Val (VBool b))) ->
                exists t, gives tcall tattr [] (above 0) x t /\ truthy t = b) by (intros x b H; exists (VBool b); now split).
    repeat (apply Forall2_cons; [apply G; instance_gives|]). apply Forall2_nil. } split; [reflexivity|]. vm_compute. reflexivity.
Qed.
(** a conversion that returns the groups, filtered: a list *)
Example C59_groups_instance :
  let c := CPipe (key "a") (CComp KList [CThis] (Some (above 0))) in
  group_filter (above 0) None (key "a") = Some c /\ gives tcall tattr [] (key "a") (VDict [(VStr "a", ints)]) ints /\
  tconv c [] (VDict [(VStr "a", ints)]) = ([], Val (VList [VInt 3; VInt 7; VInt 3])).
Proof. split; [reflexivity|]. split; [intros [w L]; reflexivity|]. vm_compute. reflexivity. Qed.
(** c.filter(c.this() > 0, cast=list).filter(c.this() < 5): the -1 is back. *)
Theorem C59_filter_twice_refuted :
  exists c c2, api_filter (above 0) CastList None = Some c /\ method_filter (below 5) None c = Some c2 /\
    tconv c2 [] ints = ([], Val (VList [VInt 3; VInt (-1); VInt 3])).
Proof. eexists _, _. split; [reflexivity|]. split; [reflexivity|]. vm_compute. reflexivity. Qed.
Print Assumptions C59_filter.
Print Assumptions C59_filter_callable.
Print Assumptions C59_filter_method.
Print Assumptions C59_second_filter_replaces.
Print Assumptions C59_second_cast_raises.
Print Assumptions C59_filter_twice_refuted.
Print Assumptions C59_filter_groups.
Print Assumptions C59_second_group_filter.
