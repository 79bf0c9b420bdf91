(** C13: the signature of the compiled converter lists the input arguments used. *)
From Coq Require Import String List ZArith NArith Bool Arith Lia Sorting.Sorted.
From Verif Require Import Model_Code Model_Heap Spec_Heap Proofs_Heap Model_Args Spec_Args Proofs_Args Spec_Demo.
Import ListNotations.

(** Without an explicit signature.  [kw] is determined by the two statements
    about it: sorted without repetition, and exactly the arguments used.
    Partial: input arguments used in the key or reverse of a sort are not
    covered; C13_sort_key_refuted shows that the claim is false for them. *)
Theorem C13_signature_partial (wordch : N -> bool) m c h i method class_method :
  build m c [] = Done h i -> sorts_use_no_argument c ->
  exists kw,
    StronglySorted before kw /\
    (forall x, In x kw <-> uses c x /\ x <> T "self" /\ x <> T "cls") /\
    signature_code wordch h i method class_method [] =
      if method && class_method then BothMethods
      else Signature ((if method then T "self, " else []) ++ (if class_method then T "cls, " else []) ++
                      T "data_" ++ match kw with [] => [] | _ => T ", *, " ++ joined (T ", ") kw end).
Proof.
  intros B S.
  pose proof (build_args _ _ _ _ B) as N.
  destruct (get_args_ok h i) as (So & Me).
  exists (filter (fun a => negb (teqb a (T "self") || teqb a (T "cls"))) (get_args h i)).
  split; [apply filter_sorted; auto|]. split.
  - intros x. rewrite filter_In, Me, N, negb_true_iff, orb_false_iff.
    assert (E : forall y, teqb x y = false <-> x <> y).
    { intros y. unfold teqb. destruct (text_eq_dec x y); split; congruence. }
    rewrite !E. split.
    + intros [H1 H2]. split; [apply regs_used; auto|auto].
    + intros [H1 H2]. split; [apply used_regs; auto|auto].
  - unfold signature_code, get_args_def_code. destruct (method && class_method); auto.
Qed.
Print Assumptions C13_signature_partial.

(** With an explicit signature [s]: generation fails exactly when a used argument
    is not one of the words of [s].  The names of the arguments must be made of
    word characters, as nearly all Python identifiers are.
    Partial: as above, and a word of the signature need not be a parameter
    (C13_default_value_refuted). *)
Theorem C13_explicit_signature_partial (wordch : N -> bool) m c h i method class_method (s : text) :
  wordch 44%N = false -> wordch 32%N = false ->
  build m c [] = Done h i -> sorts_use_no_argument c -> s <> [] ->
  (forall x, uses c x -> x <> [] /\ forallb wordch x = true) ->
  let r := signature_code wordch h i method class_method s in
  (r = BadSignature \/ r = Signature s) /\
  (r = BadSignature <-> exists x, uses c x /\ ~ has_word wordch s x).
Proof.
  intros C Sp B S Hs P r.
  pose proof (build_args _ _ _ _ B) as N.
  destruct (get_args_ok h i) as (So & Me).
  assert (Fp : Forall (plain wordch) (get_args h i)).
  { apply Forall_forall. intros x Hx. apply Me, N in Hx. apply P. apply regs_used; auto. }
  assert (E : findall_words wordch (get_args_def_code h i false false) = get_args h i).
  { etransitivity; [|exact (words_def wordch C Sp (get_args h i) Fp)]. f_equal. }
  unfold r, signature_code. destruct s as [|ch s]; [easy|]. rewrite E.
  set (sw := findall_words wordch (ch :: s)).
  assert (X : forall a, existsb (teqb a) sw = true <-> has_word wordch (ch :: s) a).
  { intros a. rewrite existsb_exists, <- findall_spec. split.
    - intros (y & Hy & Ey). apply teqb_eq in Ey. subst. auto.
    - intros H. exists a. split; [auto|apply teqb_eq; auto]. }
  destruct (forallb (fun a => existsb (teqb a) sw) (get_args h i)) eqn:F.
  - split; [auto|]. split; [discriminate|]. intros (x & U & H). exfalso. apply H.
    rewrite forallb_forall in F. apply X, F. apply Me, N, used_regs; auto.
  - split; [auto|]. split; [|auto]. intros _.
    assert (exists a, In a (get_args h i) /\ existsb (teqb a) sw = false) as (a & Ha & Ea).
    { clear -F. induction (get_args h i) as [|a l IH]; simpl in F; [discriminate|].
      destruct (existsb (teqb a) sw) eqn:Ea; [|exists a; split; [left; auto|auto]].
      destruct (IH F) as (b & Hb & Eb). exists b. split; [right; auto|auto]. }
    exists a. split; [apply regs_used, N, Me; auto|]. rewrite <- X. congruence.
Qed.
Print Assumptions C13_explicit_signature_partial.

(** No piping loses a dependency: in any heap of conversion objects, what
    [self.pipe(next, label_input, label_output)] depends on is what its operands
    and the conversions of the labels depend on. *)
Definition no_dangling (h : oheap) : Prop :=
  forall j o, nth_error h j = Some o -> forall d, In d (deps o) -> (d < length h)%nat.
(** the object at [i] depends on input argument [x] *)
Definition depends_on_arg (h : oheap) (i : nat) (x : text) : Prop :=
  exists o, nth_error h i = Some o /\
  exists d o', In d (deps o ++ [i]) /\ nth_error h d = Some o' /\ payload o' = NArg x.
Lemma depends_arg_names h i x : depends_on_arg h i x <-> In x (arg_names h i).
Proof.
  unfold depends_on_arg, arg_names, get_dependencies. destruct (nth_error h i) as [o|] eqn:E.
  - rewrite in_flat_map. split.
    + intros (o0 & E0 & d & o' & Hd & Eo & Po). assert (o0 = o) by congruence. subst o0.
      exists d. split; auto. rewrite Eo, Po. left. auto.
    + intros (d & Hd & Hx). exists o. split; auto. destruct (nth_error h d) as [o'|] eqn:Ed; [|destruct Hx].
      exists d, o'. split; auto. split; auto. destruct (payload o'); try destruct Hx as [->|[]]; try destruct Hx; auto.
  - simpl. split; [intros (o & ? & _); discriminate|intros []].
Qed.
Theorem C13_pipe_keeps_arguments caching m (h h' : oheap) self next label_input label_output r :
  (forall i l x, caching i l <> NArg x) ->
  no_dangling h -> (next < length h)%nat ->
  pipe lname caching m h self next label_input label_output = Done h' r ->
  let labels := match label_input with Some l => l | None => [] end ++
                match label_output with Some l => l | None => [] end in
  (forall l, In l labels -> (snd l < length h)%nat) ->
  no_dangling h' /\
  forall x, depends_on_arg h' r x <->
    depends_on_arg h self x \/ depends_on_arg h next x \/
    exists l, In l labels /\ depends_on_arg h (snd l) x.
Proof.
  intros C W L E labels V.
  assert (C' : forall i l, own (caching i l) = []).
  { intros j l. specialize (C j l). destruct (caching j l); auto. destruct (C x); auto. }
  assert (Vi : Forall (fun l => (snd l < length h)%nat) (olabels label_input)).
  { apply Forall_forall. intros l Hl. apply V. apply in_or_app. left. exact Hl. }
  assert (Vo : Forall (fun l => (snd l < length h)%nat) (olabels label_output)).
  { apply Forall_forall. intros l Hl. apply V. apply in_or_app. right. exact Hl. }
  destruct (pipe_args text own caching C' m h h' self next label_input label_output r W L E Vi Vo) as (W' & N).
  split; [exact W'|]. intros x. rewrite !depends_arg_names, !arg_names_names, N.
  split; intros [H|[H|(l & Hl & Hx)]]; auto; right; right; exists l; (split; [exact Hl|]);
    [rewrite depends_arg_names, arg_names_names|rewrite <- arg_names_names, <- depends_arg_names]; auto.
Qed.
Print Assumptions C13_pipe_keeps_arguments.

(** Generating the code of a sorted comprehension: from then on it depends on what it
    depended on before, on its key and on reverse. *)
Lemma payload_kept (h : oheap) i f d o' : (forall o, payload (f o) = payload o) ->
  nth_error (update h i f) d = Some o' -> exists o, nth_error h d = Some o /\ payload o' = payload o.
Proof.
  intros F E. destruct (Nat.eq_dec i d) as [->|N].
  - destruct (nth_error h d) as [o|] eqn:Ed.
    + rewrite (nth_update_eq h d f o Ed) in E. injection E as <-. eauto.
    + apply nth_error_None in Ed. assert (L : nth_error (update h d f) d = None) by (apply nth_error_None; rewrite length_update; exact Ed).
      congruence.
  - rewrite nth_update_ne in E by auto. eauto.
Qed.
Lemma payload_there (h : oheap) i f d o : (forall o, payload (f o) = payload o) ->
  nth_error h d = Some o -> exists o', nth_error (update h i f) d = Some o' /\ payload o' = payload o.
Proof.
  intros F E. destruct (Nat.eq_dec i d) as [->|N].
  - exists (f o). split; [now apply nth_update_eq|auto].
  - exists o. rewrite nth_update_ne by auto. auto.
Qed.
Lemma registering (h : oheap) i j x : (i < length h)%nat -> j <> i ->
  (depends_on_arg (depends_on h i j) i x <-> depends_on_arg h i x \/ depends_on_arg h j x) /\
  (forall k, k <> i -> depends_on_arg (depends_on h i j) k x <-> depends_on_arg h k x) /\
  length (depends_on h i j) = length h.
Proof.
  intros L N. destruct (nth_error h i) as [o|] eqn:Ei; [|apply nth_error_None in Ei; lia].
  unfold depends_on. set (f := add_deps _). assert (F : forall o, payload (f o) = payload o) by reflexivity.
  split; [|split; [|apply length_update]].
  - unfold depends_on_arg. rewrite (nth_update_eq h i f o Ei). split.
    + intros (o1 & [= <-] & d & o' & Hd & Eo & P). destruct (payload_kept h i f d o' F Eo) as (o2 & E2 & P2).
      apply in_app_or in Hd. destruct Hd as [Hd|Hd].
      * cbn [f add_deps deps] in Hd. apply in_app_or in Hd. destruct Hd as [Hd|Hd].
        -- left. exists o. split; [exact Ei|]. exists d, o2. split; [apply in_or_app; auto|]. split; [exact E2|congruence].
        -- right. unfold get_dependencies in Hd. destruct (nth_error h j) as [oj|]; [|destruct Hd].
           exists oj. split; [reflexivity|]. exists d, o2. split; [exact Hd|]. split; [exact E2|congruence].
      * left. exists o. split; [exact Ei|]. exists d, o2. split; [apply in_or_app; auto|]. split; [exact E2|congruence].
    + intros [(o1 & E1 & d & o' & Hd & Eo & P)|(o1 & E1 & d & o' & Hd & Eo & P)];
        destruct (payload_there h i f d o' F Eo) as (o2 & E2 & P2); exists (f o); (split; [reflexivity|]); exists d, o2;
        (split; [|split; [exact E2|congruence]]).
      * assert (o1 = o) by congruence. subst o1. apply in_app_or in Hd. apply in_or_app. destruct Hd as [Hd|Hd]; [left|right; exact Hd].
        cbn [f add_deps deps]. apply in_or_app. auto.
      * apply in_or_app. left. cbn [f add_deps deps]. apply in_or_app. right. unfold get_dependencies. rewrite E1. exact Hd.
  - intros k Nk. unfold depends_on_arg. rewrite nth_update_ne by auto. split.
    + intros (o1 & E1 & d & o' & Hd & Eo & P). destruct (payload_kept h i f d o' F Eo) as (o2 & E2 & P2).
      exists o1. split; [exact E1|]. exists d, o2. split; [exact Hd|]. split; [exact E2|congruence].
    + intros (o1 & E1 & d & o' & Hd & Eo & P). destruct (payload_there h i f d o' F Eo) as (o2 & E2 & P2).
      exists o1. split; [exact E1|]. exists d, o2. split; [exact Hd|]. split; [exact E2|congruence].
Qed.
Theorem C13_sorted_after_generation : forall (h : oheap) i key reverse x,
  (i < length h)%nat -> key <> i -> reverse <> i ->
  depends_on_arg (gen_sort h i key reverse) i x <->
    depends_on_arg h i x \/ depends_on_arg h key x \/ depends_on_arg h reverse x.
Proof.
  intros h i key reverse x L K R. unfold gen_sort, ensure. cbn [fold_left].
  destruct (registering h i key x L K) as (A & B & E). rewrite <- E in L.
  destruct (registering (depends_on h i key) i reverse x L R) as (A' & _ & _). rewrite A', A, (B reverse R). tauto.
Qed.
Print Assumptions C13_sorted_after_generation.

(** *** cases *)
(* c.item(c.input_arg("b")).pipe(c.list_comp(c.this() + c.input_arg("a"))
     .filter(c.input_arg("b"))).tap(...) and the like *)
Definition k_arg := CArg (T "k").
Definition demo_conv : cv :=
  CPipe (citem None [CArg (T "b")])
        (CComp KList [COp (OBin (T "+")) [CThis; CArg (T "a")]]
               (Some (CIf false (Some (CArg (T "b"))) None (Some (CLabel (U (T "z"))))))).
Definition ascii_word (c : N) : bool :=
  (N.leb 48 c && N.leb c 57) || (N.leb 65 c && N.leb c 90) || (N.leb 97 c && N.leb c 122) || N.eqb c 95.
Definition text_of (r : res node nat) (method class_method : bool) (s : string) : option sig_result :=
  match r with Done h i => Some (signature_code ascii_word h i method class_method (T s)) | _ => None end.
Example C13_case : text_of (build 100 demo_conv []) true false "" =
  Some (Signature (T "self, data_, *, a, b")).
Proof. vm_compute. reflexivity. Qed.
Example C13_case_bad : text_of (build 100 demo_conv []) false false "data_, a, bb" = Some BadSignature.
Proof. vm_compute. reflexivity. Qed.
Example C13_case_good : text_of (build 100 demo_conv []) false false "b, data_, **a" =
  Some (Signature (T "b, data_, **a")).
Proof. vm_compute. reflexivity. Qed.
Example C13_case_sorts : sorts_use_no_argument demo_conv.
Proof.
  assert (G : forall c d, within c d -> In d [demo_conv] ->
     match c with COp o _ => ~ is_sort o | _ => True end).
  { assert (G2 : forall c d, within c d ->
       (match d with
        | CPipe _ _ => d = demo_conv | CComp _ _ _ => d = CComp KList [COp (OBin (T "+")) [CThis; CArg (T "a")]]
               (Some (CIf false (Some (CArg (T "b"))) None (Some (CLabel (U (T "z"))))))
        | CIf _ _ _ _ => d = CIf false (Some (CArg (T "b"))) None (Some (CLabel (U (T "z"))))
        | COp o l => d = COp (OBin (T "+")) [CThis; CArg (T "a")] \/ d = COp OItem [CThis; CArg (T "b")]
        | CThis => True | CArg _ => True | CLabel _ => True
        | _ => False end) -> match c with COp o _ => ~ is_sort o | _ => True end).
    { induction 1 as [c|c d e Hw IH Hp]; intros H.
      - destruct c; auto. destruct H as [H|H]; inversion H; subst; simpl; auto.
      - apply IH. destruct e; try (destruct H; fail); try solve [inversion Hp].
        + destruct H as [H|H]; inversion H; subst; inversion Hp; subst;
            match goal with HI : In _ _ |- _ => destruct HI as [<-|[<-|[]]]; exact I end.
        + inversion H; subst. inversion Hp; subst; exact I.
        + inversion H; subst. inversion Hp; subst.
          * match goal with HI : In _ _ |- _ => destruct HI as [<-|[]] end. left. reflexivity.
          * reflexivity.
        + inversion H; subst. inversion Hp; subst; [right|]; reflexivity. }
    intros c d Hw [<-|[]]. apply (G2 c demo_conv Hw). reflexivity. }
  intros o s kr k x Hw Hs. exfalso. exact (G _ _ Hw (or_introl eq_refl) Hs).
Qed.

(** The claim is false for an argument used as the key of a sort,
    [c.list_comp(c.this()).sort(key=c.input_arg("k"))]: the key is registered only
    while the code is generated.  The converter has no parameter [k] (although
    its code reads it), and compiling the same conversion a second time yields
    another signature. *)
Definition sorted_by_k : cv := COp OSortedList [CComp KList [CThis] None; k_arg; CLit (LBool false)].
Theorem C13_sort_key_refuted :
  exists m c h i key reverse, build m c [] = Done h i /\ uses c (T "k") /\
    (exists o, nth_error h key = Some o /\ payload o = NArg (T "k")) /\
    signature_code ascii_word h i false false [] = Signature (T "data_") /\
    signature_code ascii_word (gen_sort h i key reverse) i false false [] = Signature (T "data_, *, k").
Proof.
  destruct (build 100 sorted_by_k []) as [h i| |] eqn:E; try (vm_compute in E; discriminate).
  exists 100%Z, sorted_by_k, h, i, 2, 3. split; [exact E|]. vm_compute in E. inversion E; subst h i.
  split.
  { eapply within_part; [constructor|]. constructor. right. left. reflexivity. }
  split; [eexists; split; [reflexivity|reflexivity]|]. split; vm_compute; reflexivity.
Qed.

(** An explicit signature is accepted when the name of a used argument occurs in
    it in another role: in "data_, x=k" the argument [k] is not a parameter. *)
Theorem C13_default_value_refuted :
  exists m c h i, build m c [] = Done h i /\ uses c (T "k") /\
    signature_code ascii_word h i false false (T "data_, x=k") = Signature (T "data_, x=k").
Proof.
  destruct (build 100 k_arg []) as [h i| |] eqn:E; try (vm_compute in E; discriminate).
  exists 100%Z, k_arg, h, i. split; [exact E|]. vm_compute in E. inversion E; subst h i.
  split; [constructor|]. vm_compute. reflexivity.
Qed.

(** An argument named like the data parameter yields a function with two
    parameters of the same name, which Python does not compile. *)
Theorem C13_data_name_refuted :
  exists m c h i, build m c [] = Done h i /\ uses c (T "data_") /\
    signature_code ascii_word h i false false [] = Signature (T "data_, *, data_").
Proof.
  destruct (build 100 (CArg (T "data_")) []) as [h i| |] eqn:E; try (vm_compute in E; discriminate).
  exists 100%Z, (CArg (T "data_")), h, i. split; [exact E|]. vm_compute in E. inversion E; subst h i.
  split; [constructor|]. vm_compute. reflexivity.
Qed.
Print Assumptions C13_sort_key_refuted.
Print Assumptions C13_default_value_refuted.
Print Assumptions C13_data_name_refuted.

(** C13_pipe_keeps_arguments is about real heaps: piping with labels. *)
Example C13_pipe_case :
  exists h' r, pipe lname (fun _ _ => NOther) 10
     [mkObj None [] (NArg (T "a")); mkObj None [] (NArg (T "b")); mkObj None [] (NArg (T "c"))]
     0 1 (Some [(U (T "l"), 2)]) None = Done h' r /\
     get_args h' r = [T "a"; T "b"; T "c"].
Proof. eexists _, _. split; [vm_compute; reflexivity|vm_compute; reflexivity]. Qed.
