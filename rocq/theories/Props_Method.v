(** C43 (converters as methods) and C44 (arguments of calls). *)
From Coq Require Import String List ZArith NArith Bool Arith Lia Permutation.
From Verif Require Import Model_PyVal Model_Code Model_Eval Model_Python Model_Converter Model_Method
  Spec_Frag Spec_Eval Spec_Converter Spec_Demo Spec_Syntax Proofs_Den Proofs_Eval Proofs_Code Proofs_Scope Proofs_Converter Props_Converter
  Props_Syntax.
Import ListNotations.

(** *** C43 *)
Section Methods.
  Context {V W X : Type}.
  Variable pr : prims V W X.

  (** [o.conv( *args, **kw)]: an instance whose truth test is true is the first
      argument, for any callable.  Partial: a falsy instance is not
      (C43_falsy_instance_refuted), and an instance whose truth test raises cannot
      be used at all (C43_untestable_instance_refuted). *)
  Theorem C43_instance_partial : forall (converter : @callable V W X) o cls args kw s w,
    truth pr o (fst s) = (w, Val true) ->
    call_on_instance pr converter o cls args kw s = converter (o :: args) kw (w, snd s).
  Proof.
    intros converter o cls args kw s w H. unfold call_on_instance, get, method_call, bind, prim. rewrite H. reflexivity.
  Qed.
  (** [C.conv( *args, **kw)]: the class is the first argument, always. *)
  Theorem C43_class : py_ok pr -> forall (converter : @callable V W X) cls args kw s,
    call_on_class pr converter cls args kw s = converter (cls :: args) kw s.
  Proof.
    intros [N _] converter cls args kw [w L]. unfold call_on_class, get, method_call, bind, prim. cbn [fst snd].
    rewrite N. reflexivity.
  Qed.

  (** The compiled method of c.gen_converter(method=True): the conversion reads
      the instance as input_arg("self").  [kw]: the other input arguments,
      [kwonly]: the parameters for them. *)
  Lemma run_scope ls last : forall (E E' : @env V), (forall y, lookup E y = lookup E' y) ->
    meq (run pr E ls last) (run pr E' ls last).
  Proof.
    induction ls as [|[x e] ls IH]; intros E E' H.
    - cbn [run]. apply eval_scope. intros y _. apply H.
    - cbn [run]. apply bind_meq; [apply eval_scope; intros y _; apply H|]. intros v. apply IH.
      intros y. cbn [lookup]. destruct (text_eq_dec y x); auto.
  Qed.
  Variable wordch : N -> bool.
  Variable srepr : text -> text.
  Variable gname : nat -> text.
  Variable pnum : list nat -> nat.
  Variable pname : text -> text.
  Variable hname : list nat -> text.
  Variable tname : text -> text.
  Variable type_error : X.
  Notation converter := (converter wordch srepr gname pnum pname hname tname).
  Theorem C43_method_reads_the_instance_partial :
    py_ok pr -> names_ok wordch srepr gname pname hname tname ->
    forall c o cls d kw kwonly s w first, first = T "self" \/ first = T "cls" ->
    NoDup (map fst kw) -> Permutation kwonly (map fst kw) -> ~ In first (map fst kw) -> ~ In (T "data_") (map fst kw) ->
    truth pr o (fst s) = (w, Val true) ->
    args_ok pname tname ((first, o) :: kw) c -> forallb (frag false false false) (stages c) = true ->
    same (call_on_instance pr (compiled pr type_error (converter c) first kwonly) o cls [d] kw s)
         (den pr ((first, o) :: kw) c d (w, snd s)).
  Proof.
    intros Hp Hn c o cls d kw kwonly s w first Hf ND PM N1 N2 HT Ha Hs.
    rewrite (C43_instance_partial _ o cls [d] kw s w HT). unfold compiled.
    assert (ME : forall x l, mem x l = true <-> In x l).
    { intros x l. unfold mem. rewrite existsb_exists. split.
      - intros (y & Hy & E). unfold teqb in E. destruct (text_eq_dec x y); congruence.
      - intros H. exists x. split; [exact H|]. unfold teqb. destruct (text_eq_dec x x); congruence. }
    assert (B : bind_args [first; T "data_"] kwonly [o; d] kw = Some ((first, o) :: (T "data_", d) :: kw)).
    { unfold bind_args. cbn [length Nat.ltb Nat.leb skipn firstn app].
      replace (forallb (fun k => mem (fst k) kwonly) kw) with true.
      - cbn [negb]. replace (forallb (fun p => mem p (first :: T "data_" :: map fst kw)) (first :: T "data_" :: kwonly)) with true.
        + reflexivity.
        + symmetry. apply forallb_forall. intros x Hx. apply ME. destruct Hx as [|[|Hx]]; [now left|right; now left|]. right. right. eapply Permutation_in; eauto.
      - symmetry. apply forallb_forall. intros [k u] Hk. apply ME. eapply Permutation_in; [symmetry; exact PM|]. apply in_map_iff. now exists (k, u). }
    rewrite B.
    pose proof (C14_converter_has_the_direct_reading pr wordch srepr gname pnum pname hname tname Hp Hn c _ Ha Hs d (w, snd s)) as C.
    unfold call_converter in C.
    rewrite (run_scope (fst (converter c)) (snd (converter c)) ((first, o) :: (T "data_", d) :: kw)
               ((T "data_", d) :: (first, o) :: kw)); [exact C|].
    intros y. cbn [lookup]. destruct (text_eq_dec y first) as [->|]; [|reflexivity].
    destruct (text_eq_dec first (T "data_")) as [E|]; [|reflexivity].
    exfalso. destruct Hf; subst; discriminate.
  Qed.
End Methods.

(** An instance with a false truth value, such as an empty container: the method
    gets the class. *)
Theorem C43_falsy_instance_refuted : exists (o cls : val) (converter : @callable val (list (nat * list val)) exc),
  o <> cls /\
  forall s, snd (call_on_instance tpy converter o cls [] [] s) = Val (VTuple [cls]) /\
            snd (converter [o] [] s) = Val (VTuple [o]).
Proof.
  exists (VList []), (VObj 9), (fun args _ => ret (VTuple args)). split; [discriminate|]. intros [w L]. split; reflexivity.
Qed.
(** An instance whose truth test raises (a numpy array): the method is not called. *)
Theorem C43_untestable_instance_refuted : forall V W X (pr : prims V W X) (converter : @callable V W X) o cls args kw s w x,
  truth pr o (fst s) = (w, Exc x) ->
  call_on_instance pr converter o cls args kw s = ((w, snd s), Exc x).
Proof.
  intros V W X pr converter o cls args kw s w x H. unfold call_on_instance, get, bind, prim. rewrite H. reflexivity.
Qed.

(** self.f0(data["a"]) with an input argument: the hypotheses hold. *)
Definition demo43 : cv := COp OTuple [CArg (T "self"); fcall 0 [key "a"]; CArg (T "x")].
Example C43_instance :
  truth tpy (VObj 5) [] = ([], Val true) /\
  args_ok pn tn [(T "self", VObj 5); (T "x", VInt 1)] demo43 /\
  forallb (frag false false false) (stages demo43) = true /\
  snd (call_on_instance tpy (compiled tpy TypeError (converter word quote gn pnum0 pn hn tn demo43) (T "self") [T "x"])
         (VObj 5) (VObj 6) [VDict [(VStr "a", VInt 41)]] [(T "x", VInt 1)] ([], nolab)) =
    Val (VTuple [VObj 5; VInt 42; VInt 1]).
Proof.
  split; [reflexivity|]. split; [|split; vm_compute; reflexivity].
  intros y Hy. cbn in Hy. destruct Hy as [<-|[<-|[]]].
  - split; [discriminate|]. split; [discriminate|]. split; [intros t; discriminate|]. split; [intros t; discriminate|].
    exists (VObj 5). now left.
  - split; [discriminate|]. split; [discriminate|]. split; [intros t; discriminate|]. split; [intros t; discriminate|].
    exists (VInt 1). right. now left.
Qed.

(** *** C44 *)
(** Names Python or the library takes for itself. *)
Definition reserved (names : list string) (kw : list (text * cv)) : bool :=
  existsb (fun k => existsb (fun n => teqb (fst k) (T n)) names) kw.

Section Calls.
  Variable wordch : N -> bool.
  Variable srepr : text -> text.
  Variable gname : nat -> text.
  Variable pnum : list nat -> nat.
  Variable pname : text -> text.
  Variable hname : list nat -> text.
  Variable tname : text -> text.
  Context {V W X : Type}.
  Variable pr : prims V W X.
  Notation call_converter := (call_converter wordch srepr gname pnum pname hname tname pr).

  (** f( *vs, **kvs), as Python performs it *)
  Definition invoke (f : V) (vs : list V) (kvs : list (text * V)) : @M V W X V :=
    prim (op pr (OCall (length vs) (map fst kvs)) (f :: vs ++ map snd kvs)).
  (** The positional arguments, then the keyword arguments are evaluated, in the
      order given, then [f] is called with exactly these. *)
  Definition passes (E : list (text * V)) (f : cv) (args : list cv) (kw : list (text * cv)) (v : V) : @M V W X V :=
    bind (den pr E f v) (fun vf =>
    bind (mapM (fun c => den pr E c v) args) (fun vs =>
    bind (mapM (fun c => den pr E c v) (map snd kw)) (fun ks =>
    invoke vf vs (combine (map fst kw) ks)))).

  Lemma has_reserved n names kw : In n names -> reserved names kw = false -> has n kw = false.
  Proof.
    intros I R. unfold has. unfold reserved in R. apply not_true_iff_false. intros H. apply existsb_exists in H as (k & K & E).
    apply not_true_iff_false in R. apply R. apply existsb_exists. exists k. split; [exact K|]. apply existsb_exists. now exists n.
  Qed.
  Lemma drop_reserved n names kw : In n names -> reserved names kw = false -> drop n kw = kw.
  Proof.
    intros I R. apply (has_reserved n names kw I) in R. unfold has in R. unfold drop. revert R.
    induction kw as [|k kw IH]; [reflexivity|]. cbn [existsb filter]. intros H. apply orb_false_iff in H as [H1 H2].
    rewrite H1. cbn [negb]. now rewrite IH.
  Qed.
  Lemma value_reserved n names kw : In n names -> reserved names kw = false -> value n kw = None.
  Proof.
    intros I R. apply (has_reserved n names kw I) in R. unfold has in R. unfold value. revert R.
    induction kw as [|k kw IH]; [reflexivity|]. cbn [existsb find]. intros H. apply orb_false_iff in H as [H1 H2].
    rewrite H1. now apply IH.
  Qed.
  Lemma call_init_plain names self args kw :
    In "debug"%string names -> In "_predefined_input"%string names -> reserved names kw = false ->
    call_init self args kw = ccall self args kw.
  Proof.
    intros D P R. unfold call_init.
    rewrite (drop_reserved "debug"%string names), (drop_reserved "_predefined_input"%string names), (value_reserved "_predefined_input"%string names); auto.
  Qed.
  Lemma mapM_len {B} (f : B -> @M V W X V) l : forall s s' vs, mapM f l s = (s', Val vs) -> length vs = length l.
  Proof.
    induction l as [|b l IH]; intros s s' vs; cbn [mapM].
    - unfold ret. intros H. injection H as _ <-. reflexivity.
    - unfold bind at 1. destruct (f b s) as [s1 [v|x]]; [|discriminate]. unfold bind.
      destruct (mapM f l s1) as [s2 [us|x]] eqn:E; [|discriminate]. unfold ret. intros H. injection H as _ <-.
      cbn [length]. f_equal. eapply IH; eauto.
  Qed.
  Lemma combine_fst {A B} (l : list A) (r : list B) : length r = length l -> map fst (combine l r) = l.
  Proof.
    revert r; induction l as [|a l IH]; intros [|b r] E; try discriminate E; [reflexivity|].
    cbn [combine map fst]. now rewrite IH by (now injection E).
  Qed.
  Lemma combine_snd {A B} (l : list A) (r : list B) : length r = length l -> map snd (combine l r) = r.
  Proof.
    revert r; induction l as [|a l IH]; intros [|b r] E; try discriminate E; [reflexivity|].
    cbn [combine map snd]. now rewrite IH by (now injection E).
  Qed.
  Lemma mapM_app {B} (f : B -> @M V W X V) l r : meq (mapM f (l ++ r))
    (bind (mapM f l) (fun vs => bind (mapM f r) (fun us => ret (vs ++ us)))).
  Proof.
    induction l as [|b l IH]; intros s.
    - cbn [app mapM]. unfold bind, ret. destruct (mapM f r s) as [s1 [us|x]]; reflexivity.
    - cbn [app mapM]. unfold bind at 1 3 4. destruct (f b s) as [s1 [v|x]]; [|reflexivity].
      unfold bind at 1. rewrite (IH s1). unfold bind. destruct (mapM f l s1) as [s2 [vs|x]]; [|reflexivity].
      unfold ret. destruct (mapM f r s2) as [s3 [us|x]]; reflexivity.
  Qed.
  Lemma den_call E f args kw v : meq (den pr E (ccall (Some f) args kw) v) (passes E f args kw v).
  Proof.
    intros s. cbn [den ccall]. unfold passes, invoke. cbn [mapM]. unfold bind at 1 2. unfold bind at 2.
    destruct (den pr E f v s) as [s1 [vf|x]]; [|reflexivity].
    unfold bind at 1. rewrite (mapM_app _ args (map snd kw) s1).
    unfold bind. destruct (mapM (fun c => den pr E c v) args s1) as [s2 [vs|x]] eqn:E2; [|reflexivity].
    destruct (mapM (fun c => den pr E c v) (map snd kw) s2) as [s3 [ks|x]] eqn:E3; [|reflexivity].
    cbn [ret]. unfold ret. apply mapM_len in E2. apply mapM_len in E3. rewrite map_length in E3.
    rewrite combine_fst, combine_snd by (rewrite map_length; exact E3). rewrite E2. reflexivity.
  Qed.

  (** conversion.call( *args, **kw) for keyword arguments with other names than
      these four.  Partial: with "debug" or "_predefined_input" the argument is
      lost (C44_debug_refuted), with "self" the call cannot be written. *)
  Theorem C44_call_partial :
    py_ok pr -> names_ok wordch srepr gname pname hname tname ->
    forall f args kw, reserved ["self"; "_predefined_self"; "debug"; "_predefined_input"]%string kw = false ->
    exists c, api_call (Some f) args kw = Built c /\
    forall E, args_ok pname tname E c -> forallb (frag false false false) (stages c) = true ->
    forall v s, same (call_converter c E v s) (passes E f args kw v s).
  Proof.
    intros Hp Hn f args kw R. exists (ccall (Some f) args kw). split.
    - unfold api_call. replace (has "self" kw) with false by (symmetry; eapply has_reserved; [|exact R]; cbn; tauto).
      replace (has "_predefined_self" kw) with false by (symmetry; eapply has_reserved; [|exact R]; cbn; tauto). cbn [orb].
      f_equal. eapply call_init_plain; [| |exact R]; cbn; tauto.
    - intros E Ha Hf v s.
      pose proof (C14_converter_has_the_direct_reading pr wordch srepr gname pnum pname hname tname Hp Hn _ E Ha Hf v s) as C.
      rewrite (den_call E f args kw v s) in C. exact C.
  Qed.
  Theorem C44_call_func_partial :
    py_ok pr -> names_ok wordch srepr gname pname hname tname ->
    forall f args kw, reserved ["self"; "_predefined_self"; "debug"; "_predefined_input"; "func"]%string kw = false ->
    exists c, api_call_func f args kw = Built c /\
    forall E, args_ok pname tname E c -> forallb (frag false false false) (stages c) = true ->
    forall v s, same (call_converter c E v s)
      (bind (mapM (fun c => den pr E c v) args) (fun vs =>
       bind (mapM (fun c => den pr E c v) (map snd kw)) (fun ks =>
       invoke (globv pr f) vs (combine (map fst kw) ks))) s).
  Proof.
    intros Hp Hn f args kw R.
    assert (R' : reserved ["self"; "_predefined_self"; "debug"; "_predefined_input"]%string kw = false).
    { apply not_true_iff_false. intros H. apply not_true_iff_false in R. apply R. unfold reserved in *.
      apply existsb_exists in H as (k & K & E). apply existsb_exists. exists k. split; [exact K|].
      apply existsb_exists in E as (n & N & E). apply existsb_exists. exists n. split; [cbn in *; tauto|exact E]. }
    destruct (C44_call_partial Hp Hn (CGlob f) args kw R') as (c & B & C). exists c. split; [|exact C].
    unfold api_call_func. replace (has "func" kw) with false by (symmetry; eapply has_reserved; [|exact R]; cbn; tauto). exact B.
  Qed.
  (** conversion.call_method(name, ...): the attribute is looked up first. *)
  Theorem C44_call_method_partial :
    py_ok pr -> names_ok wordch srepr gname pname hname tname ->
    forall self n args kw, reserved ["self"; "_predefined_self"; "debug"; "_predefined_input"; "method_name"]%string kw = false ->
    exists c, api_call_method self n args kw = Built c /\
    forall E, args_ok pname tname E c -> forallb (frag false false false) (stages c) = true ->
    forall v s, same (call_converter c E v s)
      (bind (match self with Some o => den pr E o v | None => ret v end) (fun o =>
       bind (prim (op pr OGetattr [o; litv pr (LStr n)])) (fun f =>
       bind (mapM (fun c => den pr E c v) args) (fun vs =>
       bind (mapM (fun c => den pr E c v) (map snd kw)) (fun ks =>
       invoke f vs (combine (map fst kw) ks))))) s).
  Proof.
    intros Hp Hn self n args kw R.
    assert (R' : reserved ["self"; "_predefined_self"; "debug"; "_predefined_input"]%string kw = false).
    { apply not_true_iff_false. intros H. apply not_true_iff_false in R. apply R. unfold reserved in *.
      apply existsb_exists in H as (k & K & E). apply existsb_exists. exists k. split; [exact K|].
      apply existsb_exists in E as (m & N & E). apply existsb_exists. exists m. split; [cbn in *; tauto|exact E]. }
    destruct (C44_call_partial Hp Hn (cattr self [CLit (LStr n)]) args kw R') as (c & B & C). exists c. split.
    - unfold api_call_method. replace (has "self" kw) with false by (symmetry; eapply has_reserved; [|exact R]; cbn; tauto).
      replace (has "method_name" kw) with false by (symmetry; eapply has_reserved; [|exact R]; cbn; tauto). exact B.
    - intros E Ha Hf v s. specialize (C E Ha Hf v s). revert C. unfold passes.
      generalize (call_converter c E v s). intros r.
      match goal with |- same _ (?m s) -> same _ (?m' s) => assert (EQ : m s = m' s); [|rewrite EQ; auto] end.
      unfold cattr. cbn [fold_left den]. clear. destruct self as [o|]; cbn [den].
      + unfold bind. destruct (den pr E o v s) as [s1 [vo|x]]; reflexivity.
      + unfold bind, ret. reflexivity.
  Qed.
  (** conversion.as_type(f) is f(conversion), f first. *)
  Theorem C44_as_type :
    py_ok pr -> names_ok wordch srepr gname pname hname tname ->
    forall self f, exists c, api_as_type self f = Built c /\
    forall E, args_ok pname tname E c -> forallb (frag false false false) (stages c) = true ->
    forall v s, same (call_converter c E v s)
      (bind (den pr E f v) (fun vf => bind (den pr E self v) (fun x => prim (op pr (OCall 1 []) [vf; x]))) s).
  Proof.
    intros Hp Hn self f. destruct (C44_call_partial Hp Hn f [self] [] eq_refl) as (c & B & C). exists c. split; [exact B|].
    intros E Ha Hf v s. specialize (C E Ha Hf v s). revert C. generalize (call_converter c E v s). intros r.
    match goal with |- same _ (?m s) -> same _ (?m' s) => assert (EQ : m s = m' s); [|rewrite EQ; auto] end.
    unfold passes, invoke. cbn [mapM map]. unfold bind, ret. destruct (den pr E f v s) as [s1 [vf|x]]; [|reflexivity].
    destruct (den pr E self v s1) as [s2 [u|x]]; reflexivity.
  Qed.
End Calls.

(** Calls recorded with their keyword arguments. *)
Definition log : Type := list (val * list val * list (text * val)).
Definition lcall (f : val) (a : list val) (kw : list (text * val)) (w : log) : log * out exc val :=
  (w ++ [(f, a, kw)], Val VNone).
Definition lattr (v : val) (s : string) (w : log) : log * out exc val := (w, Val (VTuple [v; VStr s])).
Definition lpy := python lcall lattr.
Definition lcalls (c : cv) (v : val) : log :=
  fst (fst (call_converter word quote gn pnum0 pn hn tn lpy c [] v ([], nolab))).

(** c.call_func(f, c.item("a"), 2, key=c.this()) *)
Example C44_instance :
  let args := [key "a"; int 2] in
  let kw := [(T "key", CThis); (T "n", int 3)] in
  reserved ["self"; "_predefined_self"; "debug"; "_predefined_input"; "func"]%string kw = false /\
  exists c, api_call_func 4 args kw = Built c /\ forallb (frag false false false) (stages c) = true /\ args_of c = [] /\
  lcalls c (VDict [(VStr "a", VInt 1)]) =
    [(VObj 4, [VInt 1; VInt 2], [(T "key", VDict [(VStr "a", VInt 1)]); (T "n", VInt 3)])].
Proof. split; [reflexivity|]. eexists. split; [reflexivity|]. vm_compute. auto. Qed.
Example C44_method_instance :
  exists c, api_call_method (Some (key "o")) (T "go") [int 1] [(T "k", int 2)] = Built c /\
  forallb (frag false false false) (stages c) = true /\ args_of c = [] /\
  lcalls c (VDict [(VStr "o", VInt 7)]) = [(VTuple [VInt 7; VStr "go"], [VInt 1], [(T "k", VInt 2)])].
Proof. eexists. split; [reflexivity|]. vm_compute. auto. Qed.

Example C44_as_type_instance :
  exists c, api_as_type (key "o") (CGlob 4) = Built c /\
  forallb (frag false false false) (stages c) = true /\ args_of c = [] /\
  lcalls c (VDict [(VStr "o", VInt 7)]) = [(VObj 4, [VInt 7], [])].
Proof. eexists. split; [reflexivity|]. vm_compute. auto. Qed.

(** c.call_func(f, 1, debug=2) calls f(1). *)
Theorem C44_debug_refuted : exists c, api_call_func 4 [int 1] [(T "debug", int 2)] = Built c /\
  forall v, lcalls c v = [(VObj 4, [VInt 1], [])].
Proof. eexists. split; [reflexivity|]. intros v. reflexivity. Qed.
(** c.call_func(f, c.this(), _predefined_input=5) calls f(5), whatever the input. *)
Theorem C44_predefined_input_refuted : exists c, api_call_func 4 [CThis] [(T "_predefined_input", int 5)] = Built c /\
  forall v, lcalls c v = [(VObj 4, [VInt 5], [])].
Proof. eexists. split; [reflexivity|]. intros v. reflexivity. Qed.
(** A function with a parameter called func or self cannot be given it by keyword. *)
Theorem C44_func_refuted : forall f args x,
  api_call_func f args [(T "func", x)] = MultipleValues /\ api_call_func f args [(T "self", x)] = MultipleValues.
Proof. intros. split; reflexivity. Qed.
(** ... nor can a method with a parameter called method_name or self. *)
Theorem C44_method_name_refuted : forall self n args x,
  api_call_method self n args [(T "method_name", x)] = MultipleValues /\
  api_call_method self n args [(T "self", x)] = MultipleValues.
Proof. intros. split; reflexivity. Qed.
(** Keyword arguments whose names are not identifiers (f( **{"a b": 1}) is legal)
    give code that is not an expression. *)
Theorem C44_keyword_name_refuted : exists c, api_call_func 4 [] [(T "a b", int 1)] = Built c /\
  unreadable (print quote gn pnum0 (snd (converter word quote gn pnum0 pn hn tn c))).
Proof.
  eexists. split; [reflexivity|]. intros a (ts & n & E & P). vm_compute in E. injection E as <-. revert P.
  do 45 (destruct n as [|n]; [vm_compute; discriminate|]). vm_compute. discriminate.
Qed.

Print Assumptions C43_instance_partial.
Print Assumptions C43_class.
Print Assumptions C43_method_reads_the_instance_partial.
Print Assumptions C43_falsy_instance_refuted.
Print Assumptions C43_untestable_instance_refuted.
Print Assumptions C44_call_partial.
Print Assumptions C44_call_func_partial.
Print Assumptions C44_call_method_partial.
Print Assumptions C44_as_type.
Print Assumptions C44_debug_refuted.
Print Assumptions C44_predefined_input_refuted.
Print Assumptions C44_func_refuted.
Print Assumptions C44_method_name_refuted.
Print Assumptions C44_keyword_name_refuted.
