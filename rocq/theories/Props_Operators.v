(** C63: Python's operators on conversions. *)
From Coq Require Import String List ZArith NArith Bool Arith.
From Verif Require Import Model_PyVal Model_Code Model_Eval Model_Converter Model_Python Spec_Frag Spec_Eval Spec_Converter
  Spec_Demo Proofs_Converter Props_Converter Props_Coll Model_Operators Spec_Operators.
Import ListNotations.
Open Scope list_scope.

Scheme over_mut := Induction for over Sort Prop with part_mut := Induction for part Sort Prop.
Combined Scheme over_part from over_mut, part_mut.

Section Den.
  Context {V W X : Type}.
  Variable pr : prims V W X.
  Variable args : list (text * V).
  Variable v : V.
  Definition does (c : cv) (x : @M V W X V) : Prop := forall s, den pr args c v s = x s.
  Lemma bind_ext {B C} (m m' : @M V W X B) (k k' : B -> @M V W X C) s :
    (forall s, m s = m' s) -> (forall b s, k b s = k' b s) -> bind m k s = bind m' k' s.
  Proof. unfold bind. intros -> H. destruct (m' s) as [s' [b|x]]; auto. Qed.
  Lemma does_op o a b x y : does a x -> does b y ->
    does (COp o [a; b]) (bind x (fun u => bind y (fun w => prim (op pr o [u; w])))).
  Proof.
    intros A B s. cbn [den mapM]. unfold bind, ret, prim. rewrite A. destruct (x s) as [s1 [u|e]]; [|reflexivity].
    rewrite B. destruct (y s1) as [s2 [w|e]]; reflexivity.
  Qed.
  Lemma does_bool isor a b x y : does a x -> does b y ->
    does (CBool isor [a; b]) (bind x (fun u => bind (prim (truth pr u)) (fun t => if Bool.eqb t isor then ret u else y))).
  Proof.
    intros A B s. cbn [den boolM]. apply bind_ext; [exact A|]. intros u s1. apply bind_ext; [reflexivity|].
    intros t s2. destruct (Bool.eqb t isor); [reflexivity|apply B].
  Qed.
  Lemma does_eq a b x y : does a x -> does b y ->
    does (CEqs [a; b]) (bind x (fun u => bind y (fun w => prim (op pr (OBin (T "==")) [u; w])))).
  Proof.
    intros A B s. cbn [den eqsM chainM]. apply bind_ext; [exact A|]. intros u s1. apply bind_ext; [exact B|].
    intros w s2. unfold bind, ret. destruct (prim _ s2) as [s3 [r|e]]; reflexivity.
  Qed.
  Lemma does_method m a b x y : does a x -> does b y -> does (call_method m a b) (apply pr (method_sign m) x y).
  Proof.
    intros A B s.
    destruct m; cbn [call_method method_sign];
      (transitivity (bind x (fun u => bind y (fun w => prim (op pr (OBin (T "==")) [u; w]))) s);
       [apply does_eq; assumption|reflexivity]) ||
      (rewrite (does_op _ _ _ _ _ A B); reflexivity) ||
      (rewrite (does_bool _ _ _ _ _ A B); apply bind_ext; [reflexivity|]; intros u s1; cbn;
       apply bind_ext; [reflexivity|]; intros [] s2; reflexivity).
  Qed.
  Lemma does_mirror o l b y : comparisons_mirror pr -> does b y ->
    does (call_method (compare_method (mirrored o)) b (CLit l)) (apply pr (compare_sign o) (ret (litv pr l)) y).
  Proof.
    intros H B s. rewrite (does_method _ b (CLit l) y (ret (litv pr l)) B (fun s => eq_refl)).
    assert (K : forall o1 o2 (k : forall u w, op pr (OBin (T o1)) [u; litv pr l] w = op pr (OBin (T o2)) [litv pr l; u] w) s,
      bind y (fun a => bind (ret (litv pr l)) (fun b => prim (op pr (OBin (T o1)) [a; b]))) s =
      bind (ret (litv pr l)) (fun a => bind y (fun b => prim (op pr (OBin (T o2)) [a; b]))) s).
    { intros o1 o2 k s0. unfold bind, ret, prim. destruct (y s0) as [s1 [u|e]]; [|reflexivity]. now rewrite k. }
    destruct o; [apply (K "=="%string "=="%string)|apply (K "!="%string "!="%string)|apply (K "<"%string ">"%string)|
                 apply (K "<="%string ">="%string)|apply (K ">"%string "<"%string)|apply (K ">="%string "<="%string)];
      intros u w; destruct (H l u w) as (H1 & H2 & H3 & H4 & H5 & H6); assumption.
  Qed.

  Lemma built m : (m = true -> comparisons_mirror pr) ->
    (forall e, over m e -> exists c, python_value e = Made (Conversion c) /\
       forall x, computes pr args v e x -> does c x) /\
    (forall e, part m e -> exists o, python_value e = Made o /\ forall x, computes pr args v e x -> does (ensured o) x).
  Proof.
    intros H. apply (over_part m
      (fun e _ => exists c, python_value e = Made (Conversion c) /\ forall x, computes pr args v e x -> does c x)
      (fun e _ => exists o, python_value e = Made o /\ forall x, computes pr args v e x -> does (ensured o) x)).
    - intros c. exists c. split; [reflexivity|]. intros x Hx. inversion Hx; subst. intros s. reflexivity.
    - intros o a b _ (ca & Ea & Da) _ (ob & Eb & Db). eexists. cbn [python_value]. rewrite Ea. cbn [andthen]. rewrite Eb.
      split; [reflexivity|]. intros x Hx. inversion Hx; subst.
      replace (sign o) with (method_sign (binary_method o)) by now destruct o. apply does_method; auto.
    - intros o a b _ (ca & Ea & Da) _ (ob & Eb & Db). eexists. cbn [python_value]. rewrite Ea. cbn [andthen]. rewrite Eb.
      split; [reflexivity|]. intros x Hx. inversion Hx; subst.
      replace (compare_sign o) with (method_sign (compare_method o)) by now destruct o. apply does_method; auto.
    - intros o l b M _ (cb & Eb & Db). eexists. cbn [python_value andthen]. rewrite Eb.
      split; [reflexivity|]. intros x Hx. inversion Hx as [| | |? ? ? ? ? Hc Hb| | | | |]; subst. inversion Hc; subst.
      apply does_mirror; auto.
    - intros k a b _ (ca & Ea & Da) _ (ob & Eb & Db). eexists. cbn [python_value]. rewrite Ea. cbn [andthen]. rewrite Eb.
      split; [reflexivity|]. intros x Hx. inversion Hx; subst. apply does_method; auto.
    - intros a b _ (ca & Ea & Da) _ (ob & Eb & Db). eexists. cbn [python_value]. rewrite Ea. cbn [andthen]. rewrite Eb.
      split; [reflexivity|]. intros x Hx. inversion Hx; subst. exact (does_method MGetItem _ _ _ _ (Da _ ltac:(eassumption)) (Db _ ltac:(eassumption))).
    - intros a _ (ca & Ea & Da). eexists. cbn [python_value]. rewrite Ea. split; [reflexivity|].
      intros x Hx. inversion Hx; subst. intros s. cbn [den mapM]. unfold bind, ret. rewrite (Da _ ltac:(eassumption)).
      destruct (x0 s) as [s1 [u|e]]; reflexivity.
    - intros a _ (ca & Ea & Da). eexists. cbn [python_value]. rewrite Ea. split; [reflexivity|].
      intros x Hx. inversion Hx; subst. intros s. cbn [den mapM]. unfold bind, ret. rewrite (Da _ ltac:(eassumption)).
      destruct (x0 s) as [s1 [u|e]]; reflexivity.
    - intros a _ (ca & Ea & Da). eexists. cbn [python_value]. rewrite Ea. split; [reflexivity|].
      intros x Hx. inversion Hx; subst. intros s. cbn [den mapM]. unfold bind, ret. rewrite (Da _ ltac:(eassumption)).
      destruct (x0 s) as [s1 [u|e]]; reflexivity.
    - intros a _ (ca & Ea & Da). exists (Conversion ca). auto.
    - intros l. exists (Plain l). split; [reflexivity|]. intros x Hx. inversion Hx; subst. intros s. reflexivity.
  Qed.
End Den.

Section Statements.
  Context {V W X : Type}.
  Variable pr : prims V W X.
  Variables (wordch : N -> bool) (srepr : text -> text) (gname : nat -> text) (pnum : list nat -> nat)
            (pname : text -> text) (hname : list nat -> text) (tname : text -> text).
  Notation call_converter := (call_converter wordch srepr gname pnum pname hname tname pr).

  (** C63.  An expression with a conversion on the left of every operator evaluates to a
      conversion whose compiled converter computes the expression: the operands from left
      to right, each once, with all effects and exceptions, whatever the objects do.  A
      comparison may also have a constant on its left if comparisons mirror. *)
  Theorem C63_operators_partial : forall m, (m = true -> comparisons_mirror pr) ->
    py_ok pr -> names_ok wordch srepr gname pname hname tname ->
    forall e, over m e -> exists c, python_value e = Made (Conversion c) /\
    forall args, args_ok pname tname args c -> forallb (frag false false false) (stages c) = true ->
    forall v x, computes pr args v e x -> forall s, same (call_converter c args v s) (x s).
  Proof.
    intros m H Hp Hn e O.
    assert (E : exists c, python_value e = Made (Conversion c) /\ forall args v x, computes pr args v e x -> does pr args v c x).
    { assert (D : forall args v, exists c, python_value e = Made (Conversion c) /\ forall x, computes pr args v e x -> does pr args v c x).
      { intros args v. apply (built pr args v m H); exact O. }
      destruct (python_value e) as [[c|l]| |] eqn:P.
      - exists c. split; [reflexivity|]. intros args v x. destruct (D args v) as (c' & E & Hc). injection E as <-. apply Hc.
      - exfalso. destruct (D [] (litv pr LNone)) as (c & E & _). discriminate E.
      - exfalso. destruct (D [] (litv pr LNone)) as (c & E & _). discriminate E.
      - exfalso. destruct (D [] (litv pr LNone)) as (c & E & _). discriminate E. }
    destruct E as (c & E & D). exists c. split; [exact E|]. intros args Ha Hf v x Hx s. rewrite <- (D args v x Hx s).
    eapply C14_converter_has_the_direct_reading; eauto.
  Qed.
End Statements.
Print Assumptions C63_operators_partial.

(** Python's own values: comparisons mirror. *)
Lemma C63_comparisons_mirror : forall W call getattr, comparisons_mirror (@python W call getattr).
Proof.
  intros W call getattr l b w. cbn zeta.
  assert (E : py_eq b (litv (python call getattr) l) = py_eq (litv (python call getattr) l) b).
  { destruct l as [|x|x|x], b; cbn; try reflexivity; try destruct x; try destruct b; try apply Z.eqb_sym; try apply String.eqb_sym; reflexivity. }
  repeat split; unfold python, op, py_op; cbn -[py_eq py_lt]; try reflexivity; change (match l with
    | LNone => VNone | LBool b0 => VBool b0 | LInt z => VInt z | LStr s => VStr (str_of s) end)
    with (litv (python call getattr) l); rewrite E; reflexivity.
Qed.
(** What such an expression computes is defined. *)
Lemma C63_computes : forall {V W X} (pr : prims V W X) args v m,
  (forall e, over m e -> exists x, computes pr args v e x) /\ (forall e, part m e -> exists x, computes pr args v e x).
Proof.
  intros. apply (over_part m (fun e _ => exists x, computes pr args v e x) (fun e _ => exists x, computes pr args v e x));
    intros; repeat match goal with H : exists _, _ |- _ => destruct H end; eauto; eexists; constructor; eauto; constructor.
Qed.

(** *** what does not work *)
(** A constant on the left of any other operator: TypeError (str % conversion is formatting). *)
Theorem C63_constant_on_the_left_refused : forall o l c,
  (o = Mod -> forall s, l <> LStr s) -> python_value (Bin o (Const l) (Conv c)) = TypeError.
Proof.
  intros o l c H. destruct l; try reflexivity. destruct o; try reflexivity. exfalso. exact (H eq_refl s eq_refl).
Qed.
(** Of a chained comparison only the last part is left. *)
Theorem C63_chain : forall m a o b o' c x, over m a -> part m b -> python_value c = Made x ->
  python_value (Chain a o b o' c) = python_value (Cmp o' b c).
Proof.
  intros m a o b o' c x A B Hc.
  destruct (built (@python nat (fun _ _ _ w => (w, Val VNone)) (fun _ _ w => (w, Val VNone))) [] VNone m) as [O P].
  { intros _. apply C63_comparisons_mirror. }
  destruct (O a A) as (ca & Ea & _). destruct (P b B) as (ob & Eb & _). cbn [python_value].
  rewrite Ea, Eb, Hc. reflexivity.
Qed.
(** and, or, not look at the conversion object, which is always true. *)
Theorem C63_keywords : forall m a b, over m a ->
  python_value (KwAnd a b) = python_value b /\ python_value (KwOr a b) = python_value a /\
  python_value (KwNot a) = Made (Plain (LBool false)).
Proof.
  intros m a b A.
  destruct (built (@python nat (fun _ _ _ w => (w, Val VNone)) (fun _ _ w => (w, Val VNone))) [] VNone m) as [O _].
  { intros _. apply C63_comparisons_mirror. }
  destruct (O a A) as (ca & Ea & _). cbn [python_value]. rewrite Ea. auto.
Qed.
(** a in conversion is True, conversion is constant is False. *)
Theorem C63_in_is : forall m a b l, part m a -> over m b ->
  python_value (In_ a b) = Made (Plain (LBool true)) /\ python_value (Is_ b (Const l)) = Made (Plain (LBool false)).
Proof.
  intros m a b l A B.
  destruct (built (@python nat (fun _ _ _ w => (w, Val VNone)) (fun _ _ w => (w, Val VNone))) [] VNone m) as [O P].
  { intros _. apply C63_comparisons_mirror. }
  destruct (P a A) as (oa & Ea & _). destruct (O b B) as (cb & Eb & _). cbn [python_value]. rewrite Ea. cbn [andthen].
  rewrite Eb. auto.
Qed.
Print Assumptions C63_comparisons_mirror.
Print Assumptions C63_computes.
Print Assumptions C63_constant_on_the_left_refused.
Print Assumptions C63_chain.
Print Assumptions C63_keywords.
Print Assumptions C63_in_is.

(** *** or_, and_, eq with any number of arguments *)
Section Many.
  Context {V W X : Type}.
  Variable pr : prims V W X.

  Lemma decides_boolM {B} (f : B -> @M V W X V) isor l s r : l <> [] ->
    (decides pr isor (map f l) s r <-> boolM pr f isor l s = r).
  Proof.
    intros N. revert s r. induction l as [|x l IH]; intros s r; [easy|]. destruct l as [|y l].
    - cbn [map boolM]. split; [inversion 1; reflexivity|intros <-; constructor].
    - specialize (IH ltac:(discriminate)).
      change (boolM pr f isor (x :: y :: l)) with (bind (f x) (fun v => bind (prim (truth pr v)) (fun b =>
        if Bool.eqb b isor then ret v else boolM pr f isor (y :: l)))).
      change (map f (x :: y :: l)) with (f x :: f y :: map f l). unfold bind, prim, ret. split.
      + intros H. inversion H; subst;
          repeat match goal with E : f x s = _ |- _ => rewrite E; cbn [fst snd] | E : truth _ _ _ = _ |- _ => rewrite E end;
          try reflexivity.
        * now rewrite Bool.eqb_reflx.
        * replace (Bool.eqb (negb isor) isor) with false by now destruct isor. now apply IH.
      + destruct (f x s) as [[w L] [u|e]] eqn:E; cbn [fst snd]; [|intros <-; (eapply D_raises || eapply H_raises); exact E].
        destruct (truth pr u w) as [w' [t|e]] eqn:Et; [|intros <-; eapply D_truth_raises; eauto].
        destruct (Bool.eqb t isor) eqn:Q.
        * apply Bool.eqb_prop in Q. subst t. intros <-. eapply D_stops; eauto.
        * intros R. assert (t = negb isor) as -> by (destruct t, isor; try discriminate Q; reflexivity).
          eapply D_goes_on; [exact E|exact Et|]. now apply IH.
  Qed.
  Lemma chains_chainM {B} (f : B -> @M V W X V) l : l <> [] -> forall u s r,
    chains pr u (map f l) s r <-> chainM pr f u l s = r.
  Proof.
    intros N. induction l as [|x l IH]; intros u s r; [easy|]. destruct l as [|y l].
    - cbn [map chainM]. unfold bind, prim, ret. split.
      + intros H. inversion H; subst;
          repeat match goal with E : f x s = _ |- _ => rewrite E; cbn [fst snd] | E : op _ _ _ _ = _ |- _ => rewrite E end; reflexivity.
      + destruct (f x s) as [[w L] [b|e]] eqn:E; cbn [fst snd]; [|intros <-; (eapply D_raises || eapply H_raises); exact E].
        destruct (op pr (OBin (T "==")) [u; b] w) as [w' [t|e]] eqn:Et; intros <-; [eapply H_last|eapply H_compare_raises]; eauto.
    - specialize (IH ltac:(discriminate)).
      change (chainM pr f u (x :: y :: l)) with (bind (f x) (fun w => bind (prim (op pr (OBin (T "==")) [u; w])) (fun c =>
        bind (prim (truth pr c)) (fun b => if b then chainM pr f w (y :: l) else ret c)))).
      change (map f (x :: y :: l)) with (f x :: f y :: map f l). unfold bind, prim, ret. split.
      + intros H. inversion H; subst;
          repeat match goal with E : f x s = _ |- _ => rewrite E; cbn [fst snd] | E : op _ _ _ _ = _ |- _ => rewrite E; cbn [fst snd]
                            | E : truth _ _ _ = _ |- _ => rewrite E end; try reflexivity. now apply IH.
      + destruct (f x s) as [[w L] [b|e]] eqn:E; cbn [fst snd]; [|intros <-; (eapply D_raises || eapply H_raises); exact E].
        destruct (op pr (OBin (T "==")) [u; b] w) as [w' [t|e]] eqn:Et; cbn [fst snd]; [|intros <-; eapply H_compare_raises; eauto].
        destruct (truth pr t w') as [w2 [[]|e]] eqn:E2; intros R.
        * eapply H_equals; eauto. now apply IH.
        * subst r. eapply H_differs; eauto.
        * subst r. eapply H_truth_raises; eauto.
  Qed.
  Lemma map_values args v c bs : map (value_of pr args v) (Conversion c :: bs) = map (fun d => den pr args d v) (c :: map ensured bs).
  Proof. cbn [map value_of]. f_equal. induction bs as [|[d|l] bs IH]; cbn; [reflexivity|f_equal; exact IH..]. Qed.
  Lemma evaluates_den m c bs args v s r : bs <> [] ->
    (evaluates pr m (map (value_of pr args v) (Conversion c :: bs)) s r <->
     exists d, call_many m c bs = Made (Conversion d) /\ den pr args d v s = r).
  Proof.
    intros N. rewrite map_values. destruct bs as [|b bs]; [easy|]. cbn [call_many].
    assert (K : forall l : list cv, l = c :: map ensured (b :: bs) -> l <> []) by (intros l ->; discriminate).
    destruct m; (split; [intros H; eexists; split; [reflexivity|]|intros (d & E & H); injection E as <-]).
    - inversion H; subst. cbn [den]. now apply decides_boolM.
    - constructor. apply decides_boolM; [discriminate|exact H].
    - inversion H; subst. cbn [den]. now apply decides_boolM.
    - constructor. apply decides_boolM; [discriminate|exact H].
    - cbn [den eqsM]. cbn [map] in H. unfold bind. inversion H as [| |? ? ? ? ? E|? ? ? ? ? ? E Hc]; subst; rewrite E; [reflexivity|].
      apply (chains_chainM (fun d => den pr args d v) (ensured b :: map ensured bs)); [discriminate|exact Hc].
    - cbn [den eqsM] in H. unfold bind in H. cbn [map]. destruct (den pr args c v s) as [s1 [u|e]] eqn:E.
      + eapply E_eq; [exact E|]. apply (chains_chainM (fun d => den pr args d v) (ensured b :: map ensured bs)); [discriminate|exact H].
      + subst r. now apply E_eq_raises.
  Qed.

  Variables (wordch : N -> bool) (srepr : text -> text) (gname : nat -> text) (pnum : list nat -> nat)
            (pname : text -> text) (hname : list nat -> text) (tname : text -> text).
  Notation call_converter := (call_converter wordch srepr gname pnum pname hname tname pr).
  (** a.or_(b, ...), a.and_(b, ...), a.eq(b, ...) need an argument.  The compiled converter of the
      conversion they return evaluates a or b or ..., a and b and ..., a == b == ...: operands
      from left to right, each once and none after the result is known, with all effects and
      exceptions. *)
  Theorem C63_many : forall m a, call_many m a [] = TypeError /\
    (py_ok pr -> names_ok wordch srepr gname pname hname tname ->
     forall bs, bs <> [] -> exists c, call_many m a bs = Made (Conversion c) /\
       forall args, args_ok pname tname args c -> forallb (frag false false false) (stages c) = true ->
       forall v s, exists r, evaluates pr m (map (value_of pr args v) (Conversion a :: bs)) s r /\
         same (call_converter c args v s) r).
  Proof.
    intros m a. split; [reflexivity|]. intros Hp Hn bs N.
    assert (E : exists c, call_many m a bs = Made (Conversion c)) by (destruct bs; [easy|eexists; reflexivity]).
    destruct E as (c & E). exists c. split; [exact E|]. intros args Ha Hf v s. exists (den pr args c v s). split.
    - apply evaluates_den; eauto.
    - eapply C14_converter_has_the_direct_reading; eauto.
  Qed.
  (** The result is determined. *)
  Theorem C63_many_determined : forall m a bs args v s r r', bs <> [] ->
    evaluates pr m (map (value_of pr args v) (Conversion a :: bs)) s r ->
    evaluates pr m (map (value_of pr args v) (Conversion a :: bs)) s r' -> r = r'.
  Proof.
    intros m a bs args v s r r' N H H'. apply evaluates_den in H; auto. apply evaluates_den in H'; auto.
    destruct H as (d & E & <-), H' as (d' & E' & <-). congruence.
  Qed.
End Many.
Print Assumptions C63_many.
Print Assumptions C63_many_determined.

(** *** instances *)
(* (c.item("a") + 1 > c.this()["b"]) & ~(3 < -c.item("a")) *)
Definition sample : expr :=
  Bin BitAnd (Cmp Gt_ (Bin Add (Conv (citem None [CLit (LStr (T "a"))])) (Const (LInt 1))) (Index (Conv CThis) (Const (LStr (T "b")))))
             (Invert (Cmp Lt_ (Const (LInt 3)) (Negate (Conv (citem None [CLit (LStr (T "a"))]))))).
Example C63_instance :
  over true sample /\ exists c x, python_value sample = Made (Conversion c) /\
    covered pn tn [] c /\ forallb (frag false false false) (stages c) = true /\
    let d := VDict [(VStr "a", VInt 5); (VStr "b", VInt 4)] in
    computes (python tcall tattr) [] d sample x /\
    tconv c [] d = ([], Val (VBool true)) /\ snd (x ([], fun _ => None)) = Val (VBool true).
Proof.
  split.
  { unfold sample. apply O_bin.
    - apply O_cmp; [apply O_bin; [apply O_conv|apply P_const]|apply P_over, O_index; [apply O_conv|apply P_const]].
    - apply P_over, O_invert, O_cmp_const; [reflexivity|]. apply O_negate, O_conv. }
  do 2 eexists. split; [reflexivity|].
  split; [split; [intros y []|vm_compute; reflexivity]|]. split; [vm_compute; reflexivity|]. split; [repeat econstructor|].
  split; vm_compute; reflexivity.
Qed.
(** 0 < c.this() < 10 accepts -5. *)
Theorem C63_chain_refuted : exists c,
  python_value (Chain (Const (LInt 0)) Lt_ (Conv CThis) Lt_ (Const (LInt 10))) = Made (Conversion c) /\
  tconv c [] (VInt (-5)) = ([], Val (VBool true)).
Proof. eexists. split; [reflexivity|]. vm_compute. reflexivity. Qed.
Print Assumptions C63_chain_refuted.
(** c.item("a").eq(3, c.item("b"), c.item("missing")) with a = 3, b = 4: false, and the missing
    key is not looked up; c.item("a").or_(...), c.item("z").or_(0, "") *)
Example C63_many_instance :
  let d := VDict [(VStr "a", VInt 3); (VStr "b", VInt 4); (VStr "z", VInt 0)] in
  let k x := citem None [CLit (LStr (T x))] in
  let runs m a bs r := exists c, call_many m a bs = Made (Conversion c) /\ covered pn tn [] c /\
    forallb (frag false false false) (stages c) = true /\ tconv c [] d = ([], Val r) /\
    evaluates (python tcall tattr) m (map (value_of (python tcall tattr) [] d) (Conversion a :: bs)) ([], fun _ => None)
              (([], fun _ => None), Val r) in
  runs EqMany (k "a"%string) [Plain (LInt 3); Conversion (k "b"%string); Conversion (k "missing"%string)] (VBool false) /\
  runs OrMany (k "a"%string) [Conversion (k "missing"%string); Plain LNone] (VInt 3) /\
  runs OrMany (k "z"%string) [Plain (LInt 0); Plain (LStr [])] (VStr "") /\
  runs AndMany (k "a"%string) [Conversion (k "b"%string); Conversion (k "z"%string); Conversion (k "missing"%string)] (VInt 0).
Proof.
  intros d k runs.
  assert (G : forall m a bs r c, bs <> [] -> call_many m a bs = Made (Conversion c) -> covered pn tn [] c ->
    forallb (frag false false false) (stages c) = true -> tconv c [] d = ([], Val r) ->
    den (python tcall tattr) [] c d ([], fun _ => None) = (([], fun _ => None), Val r) -> runs m a bs r).
  { intros m a bs r c N E C F Tc D. exists c. repeat (split; [assumption|]). apply evaluates_den; eauto. }
  repeat apply conj; (eapply G; [discriminate|reflexivity|split; [intros y []|vm_compute; reflexivity]|vm_compute; reflexivity..]).
Qed.
