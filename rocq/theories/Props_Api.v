(** C17 (default lookups), C18 (if_), C19 (labels). *)
From Coq Require Import String List ZArith NArith Bool Arith.
From Verif Require Import Model_PyVal Model_Code Model_Eval Model_Converter Model_Python Model_Api Spec_Frag Spec_Eval
  Spec_Converter Spec_Api Spec_Demo Proofs_Code Proofs_Eval Proofs_Den Proofs_Frame Proofs_Converter Proofs_Api.
Import ListNotations.
Open Scope list_scope.

Section Statements.
  Context {V W X : Type}.
  Variable pr : prims V W X.
  Variables (wordch : N -> bool) (srepr : text -> text) (gname : nat -> text) (pnum : list nat -> nat)
            (pname : text -> text) (hname : list nat -> text) (tname : text -> text).
  Hypothesis Hpy : py_ok pr.
  Hypothesis Hn : names_ok wordch srepr gname pname hname tname.
  Notation call_converter := (call_converter wordch srepr gname pnum pname hname tname pr).
  Notation alone := (alone wordch srepr gname pnum pname hname pr).
  Notation alone_in_turn := (alone_in_turn wordch srepr gname pnum pname hname tname pr).
  Notation den := (den pr).

  (** C17.  c.item(k1, ..., kn, default=d) (c.attr(...) likewise): [d] is
      evaluated, then the lookup c.item(k1, ..., kn) itself; its value is the result,
      or [d] if it fails with a caught exception; any other exception goes on.
      Missing: indexes that use input arguments (see the refutation). *)
  Theorem C17_lookup_or_default_partial : forall attr idx d args,
    args_ok pname tname args (CDefault attr None idx d) ->
    frag false false false (CDefault attr None idx d) = true ->
    forall v s,
      same (call_converter (CDefault attr None idx d) args v s)
           (bind (den args d v) (fun vd =>
              or_else pr (den args (if attr then cattr None idx else citem None idx) v) vd) s).
  Proof.
    intros attr idx d args Ha Hf v s.
    assert (H := converter_reads pr Hpy false ltac:(discriminate) wordch srepr gname pnum pname hname tname Hn
                   args (CDefault attr None idx d) v Ha).
    cbn [stages forallb] in H. rewrite Hf in H. specialize (H eq_refl s).
    match goal with |- same _ ?m => assert (E : den args (CDefault attr None idx d) v s = m) end; [|now rewrite <- E].
    change (den args (CDefault attr None idx d) v s) with
      (bind (den args d v) (fun vd => or_default pr
         (lookupsM pr (fun c => den args c v) (if attr then OGetattr else OItem) idx v) vd) s).
    apply bind_meq; [apply meq_refl|]. intros vd t.
    assert (E : meq (den args (if attr then cattr None idx else citem None idx) v)
                    (lookupsM pr (fun c => den args c v) (if attr then OGetattr else OItem) idx v)).
    { destruct attr; [eapply meq_trans; [apply den_cattr|]|eapply meq_trans; [apply den_citem|]];
        cbn [Spec_Eval.den]; apply bind_ret_l. }
    unfold or_default, or_else. rewrite (E t). now destruct (lookupsM _ _ _ _ _ t) as [s' [u|x]].
  Qed.

  (** The same for x.item(..., default=d): the value looked up in is that of [x],
      an exception of [x] or of [d] is not caught. *)
  Theorem C17_lookup_in_or_default_partial : forall attr x idx d args,
    args_ok pname tname args (CDefault attr (Some x) idx d) ->
    frag false false false (CDefault attr (Some x) idx d) = true ->
    forall v s,
      same (call_converter (CDefault attr (Some x) idx d) args v s)
           (bind (den args x v) (fun u => bind (den args d v) (fun vd =>
              or_else pr (lookupsM pr (fun c => den args c v) (if attr then OGetattr else OItem) idx u) vd)) s).
  Proof.
    intros attr x idx d args Ha Hf v s.
    assert (H := converter_reads pr Hpy false ltac:(discriminate) wordch srepr gname pnum pname hname tname Hn
                   args (CDefault attr (Some x) idx d) v Ha).
    cbn [stages forallb] in H. rewrite Hf in H. specialize (H eq_refl s).
    match goal with |- same _ ?m => assert (E : den args (CDefault attr (Some x) idx d) v s = m) end; [|now rewrite <- E].
    cbn [Spec_Eval.den]. apply bind_meq; [apply meq_refl|]. intros u. apply bind_meq; [apply meq_refl|]. intros vd t.
    unfold or_default, or_else. now destruct (lookupsM _ _ _ _ _ t) as [s' [w|y]].
  Qed.

  (** C18.  x.pipe(c.if_(cond, t, f)), for conversions of any kind: the code of
      [x] runs once; its value [u] is bound to a variable; the code of [cond] runs
      on [u], its truth is tested, and only the code of the selected branch runs, on
      the same [u].  A missing cond/t/f stands for the value itself. *)
  Theorem C18_if_runs_its_input_once : forall x nc cond t f args,
    args_ok pname tname args (cpipe x (CIf nc cond t f)) ->
    let n := length (stages x) in
    let y := Nat.iter n tname (T "data_") in
    forall v s, call_converter (cpipe x (CIf nc cond t f)) args v s =
      bind (alone_in_turn args 0 (T "data_") (stages x) v) (fun u =>
      bind (match cond with None => ret u | Some c => alone args [0; n] y c u end) (fun b =>
      bind (prim (truth pr b)) (fun b =>
      if b then match t with None => ret u | Some c => alone args [1; n] y c u end
      else match f with None => ret u | Some c => alone args [2; n] y c u end))) s.
  Proof.
    intros x nc cond t f args Ha n y v s.
    rewrite (converter_alone pr wordch srepr gname pnum pname hname tname args _ v Ha s).
    rewrite stages_cpipe. rewrite (alone_app pr wordch srepr gname pnum pname hname tname args _ _ _ _ _ s).
    apply bind_meq; [apply meq_refl|]. intros u. cbn [stages Spec_Converter.alone_in_turn].
    eapply meq_trans; [apply (bind_ret_r (X := X))|]. apply alone_if.
    assert (Hd : forallb wordch (T "data_") = true).
    { apply forallb_forall. intros z Hz.
      assert (HD : forallb (fun z => N.ltb z 128 && (ascii_alpha z || (N.leb 48 z && N.leb z 57) || N.eqb z 95)) (T "data_") = true) by reflexivity.
      rewrite forallb_forall in HD. specialize (HD z Hz). apply andb_true_iff in HD. destruct HD as [Z1 Z2].
      apply N.ltb_lt in Z1. now rewrite (nk_word _ _ _ _ _ _ Hn). }
    subst y. clear -Hn Hd. induction (length (stages x)) as [|m IH]; [exact Hd|].
    cbn. apply (nk_t _ _ _ _ _ _ Hn).
  Qed.

  (** ... hence, for conversions in the fragment of C14: [x], then [cond] on its
      value, then the selected branch on that value. *)
  Theorem C18_if_reads : forall x nc cond t f args,
    args_ok pname tname args (cpipe x (CIf nc (Some cond) (Some t) (Some f))) ->
    forallb (frag false false false) (stages x) = true ->
    frag false true false cond = true -> frag false true false t = true -> frag false true false f = true ->
    forall v s,
      same (call_converter (cpipe x (CIf nc (Some cond) (Some t) (Some f))) args v s)
           (bind (den args x v) (fun u => bind (den args cond u) (fun b => bind (prim (truth pr b)) (fun b =>
              if b then den args t u else den args f u))) s).
  Proof.
    intros x nc cond t f args Ha Hx Hc Ht Hff v s.
    assert (E := den_cpipe pr args x (CIf nc (Some cond) (Some t) (Some f)) v s).
    cbn [Spec_Eval.den] in E. rewrite <- E. clear E.
    apply (converter_reads pr Hpy false ltac:(discriminate) wordch srepr gname pnum pname hname tname Hn); auto.
    rewrite stages_cpipe, forallb_app, Hx. cbn [stages forallb frag optb andb orb negb]. now rewrite Hc, Ht, Hff.
  Qed.

  (** C19.  a.pipe(b, label_input=li, label_output=lo): [a] is evaluated once,
      the labels of [li] are stored in the order given (each conversion applied to
      that value), [b] gets the value unchanged, then the labels of [lo] are stored
      and the value of [b] is the result. *)
  Theorem C19_labels_store_the_values : forall k k' a b li lo c args,
    api_pipe k k' a b li lo = Some c -> labels_ok li -> labels_ok lo ->
    userly a -> userly b -> (forall n d, In (n, d) li -> userly d) -> (forall n d, In (n, d) lo -> userly d) ->
    args_ok pname tname args c -> forallb (frag false false false) (stages c) = true ->
    forall v s, same_user (call_converter c args v s) (labelled_pipe pr args a b li lo v s).
  Proof.
    intros k k' a b li lo c args Hc Hli Hlo Ha Hb Hui Huo Hargs Hf v s.
    destruct (converter_reads pr Hpy false ltac:(discriminate) wordch srepr gname pnum pname hname tname Hn
                   args c v Hargs Hf s) as (H1 & H2 & H3).
    destruct (api_pipe_reads pr args k k' a b li lo c v Hc Hli Hlo Ha Hb Hui Huo s s) as (A1 & A2 & A3); [split; auto|].
    split; [congruence|]. split; [congruence|]. intros r Hr t. rewrite H3 by reflexivity.
    rewrite H2 in Hr. destruct (A3 r Hr) as [_ A4]. apply A4. intros [k0 E]. discriminate.
  Qed.

  (** a.pipe(f, *xs, **kw, label_input=li, label_output=lo) for a function f: [a] is
      evaluated once and is the first argument; the further arguments are
      evaluated on the input of [a]; the result is that of the call. *)
  Theorem C19_pipe_to_a_function : forall k k' a f xs kw li lo c args,
    api_pipe_func k k' a f xs kw li lo = Some c -> labels_ok li -> labels_ok lo ->
    userly a -> (forall d, In d xs -> userly d) -> (forall n d, In (n, d) kw -> userly d) ->
    (forall n d, In (n, d) li -> userly d) -> (forall n d, In (n, d) lo -> userly d) ->
    args_ok pname tname args c -> forallb (frag false false false) (stages c) = true ->
    forall v s, same_user (call_converter c args v s) (labelled_call pr args a f xs kw li lo v s).
  Proof.
    intros k k' a f xs kw li lo c args Hc Hli Hlo Ha Hx Hk Hui Huo Hargs Hf v s.
    destruct (converter_reads pr Hpy false ltac:(discriminate) wordch srepr gname pnum pname hname tname Hn
                   args c v Hargs Hf s) as (H1 & H2 & H3).
    destruct (api_pipe_func_reads pr args k k' a f xs kw li lo c v Hc Hli Hlo Ha Hx Hk Hui Huo s s) as (A1 & A2 & A3); [split; auto|].
    split; [congruence|]. split; [congruence|]. intros r Hr t. rewrite H3 by reflexivity.
    rewrite H2 in Hr. destruct (A3 r Hr) as [_ A4]. apply A4. intros [k0 E]. discriminate.
  Qed.

  (** a.add_label(n, b) on a conversion that has no labels of its own yet: always accepted;
      the value of [a] is stored under [n], then the result is [b] of that value, or
      without [b] the value itself. *)
  Theorem C19_add_label : forall k a n b, userly a -> match b with Some b => userly b | None => True end ->
    exists c, api_add_label k a n b = Some c /\
    forall args, args_ok pname tname args c -> forallb (frag false false false) (stages c) = true ->
    forall v s, same_user (call_converter c args v s)
      (bind (den args a v) (fun u => bind (set_label (U n) u) (fun _ =>
       match b with Some b => den args b u | None => ret u end)) s).
  Proof.
    intros k a n b Ha Hb. eexists. split; [reflexivity|]. intros args Hargs Hf v s.
    assert (L : labels_ok [(n, CThis)]).
    { split; [|split; [reflexivity|]].
      - constructor; [intros []|constructor].
      - intros m c [H|[]] m' Hm; injection H as <- <-; cbn; auto. }
    assert (L0 : labels_ok []).
    { split; [constructor|split; [reflexivity|]]. intros m c []. }
    assert (U : userly CThis) by (intros m []).
    assert (K := C19_labels_store_the_values k k a (match b with Some b => b | None => CThis end) [(n, CThis)] [] _ args eq_refl
      L L0 Ha ltac:(destruct b; assumption) ltac:(intros m d [H|[]]; injection H as <- <-; exact U) ltac:(intros m d []) Hargs Hf v s).
    revert K. match goal with |- same_user _ ?x -> same_user _ ?y => assert (E : x = y); [|now rewrite E] end.
    unfold labelled_pipe. cbn [store Spec_Eval.den]. unfold bind, ret, set_label.
    destruct (den args a v s) as [s1 [u|x]]; [|reflexivity]. cbn [fst snd].
    destruct b as [b|]; [|reflexivity]. destruct (den args b u _) as [s2 [r|x]]; reflexivity.
  Qed.

  (** A label is still there later in the call: x.add_label(t).pipe(s1)....pipe(sn)
      .pipe(c.label(t)), where no s_i sets [t] again, returns the value of [x],
      whatever its truth value. *)
  Theorem C19_label_recalled : forall x t l args,
    args_ok pname tname args (pipe_all (CCache (U t) x []) (l ++ [CLabel (U t)])) ->
    forallb (frag false false false) (stages (pipe_all (CCache (U t) x []) (l ++ [CLabel (U t)]))) = true ->
    (forall d, In d l -> ~ In (U t) (writes d)) ->
    forall v s s1 u s2 w,
      den args x v s = (s1, Val u) ->
      in_turn pr args l u (fst s1, upd (snd s1) (U t) u) = (s2, Val w) ->
      let r := call_converter (pipe_all (CCache (U t) x []) (l ++ [CLabel (U t)])) args v s in
      snd r = Val u /\ fst (fst r) = fst s2.
  Proof.
    intros x t l args Ha Hf Hw v s s1 u s2 w H1 H2 r.
    destruct (converter_reads pr Hpy false ltac:(discriminate) wordch srepr gname pnum pname hname tname Hn
                   args _ v Ha Hf s) as (A1 & A2 & _). fold r in A1, A2.
    rewrite (den_in_turn pr args _ v s) in A1, A2.
    rewrite (in_turn_pipe_all pr args _ _ v s) in A1, A2.
    cbn [in_turn Spec_Eval.den] in A1, A2. unfold bind at 1 2 in A1. unfold bind at 1 2 in A2.
    rewrite H1 in A1, A2. cbn [labelsM] in A1, A2.
    unfold bind at 1 2, set_label, ret at 1 2 in A1. unfold bind at 1 2, set_label, ret at 1 2 in A2.
    rewrite (in_turn_app pr args l [CLabel (U t)] u _) in A1, A2.
    unfold bind at 1 in A1. unfold bind at 1 in A2. rewrite H2 in A1, A2.
    assert (HL : forall l u s s2 w, (forall d, In d l -> ~ In (U t) (writes d)) ->
              in_turn pr args l u s = (s2, Val w) -> snd s2 (U t) = snd s (U t)).
    { clear. induction l as [|d l IH]; intros u s s2 w Hd H; cbn [in_turn] in H.
      - unfold ret in H. congruence.
      - unfold bind in H. assert (K := den_keeps pr args d u (U t) s (Hd d (or_introl eq_refl))).
        destruct (den args d u s) as [s' [w'|e]]; [|discriminate].
        rewrite (IH _ _ _ _ (fun e He => Hd e (or_intror He)) H). exact K. }
    assert (HU := HL _ _ _ _ _ Hw H2). cbn in HU. unfold upd in HU.
    destruct (lname_eq_dec (U t) (U t)); [|congruence].
    cbn [in_turn Spec_Eval.den] in A1, A2. unfold bind, get_label in A1, A2. rewrite HU in A1, A2. cbn in A1, A2. auto.
  Qed.
End Statements.

(** C17 *)
Example C17_instance :
  let c := CDefault false None [str "a"; int 1] (CArg (T "d")) in
  let run v := tconv c [(T "d", VStr "none")] v in
  frag false false false c = true /\
  run (VDict [(VStr "a", VList [VInt 1; VInt 2])]) = ([], Val (VInt 2)) /\
  run (VDict [(VStr "a", VList [VInt 1])]) = ([], Val (VStr "none")) /\     (* IndexError *)
  run (VDict [(VStr "a", VNone)]) = ([], Val (VStr "none")) /\              (* TypeError *)
  run (VDict []) = ([], Val (VStr "none")).                                 (* KeyError *)
Proof. vm_compute. auto 10. Qed.
(** c.item(c.input_arg("k"), default=0): the lookup alone gives 5, with a default it
    raises NameError: the helper function does not receive input arguments. *)
Theorem C17_input_arg_index_refuted :
  exists c plain args v,
    c = CDefault false None [CArg (T "k")] (int 0) /\ plain = citem None [CArg (T "k")] /\
    args_ok pn tn args c /\
    tconv plain args v = ([], Val (VInt 5)) /\ tconv c args v = ([], Exc NameError).
Proof.
  exists (CDefault false None [CArg (T "k")] (int 0)), (citem None [CArg (T "k")]),
         [(T "k", VStr "a")], (VDict [(VStr "a", VInt 5)]).
  split; [reflexivity|]. split; [reflexivity|]. split; [|split; vm_compute; reflexivity].
  intros y [<-|[]]. split; [discriminate|]. split; [discriminate|].
  split; [intros t H; discriminate|]. split; [intros t H; discriminate|]. eexists. now left.
Qed.
Print Assumptions C17_lookup_or_default_partial.
Print Assumptions C17_lookup_in_or_default_partial.

(** C18: f2 is called once although the condition and the branch both use it. *)
Example C18_instance :
  let gt n := COp (OBin (T ">")) [CThis; int n] in
  let c := cpipe (fcall 2 [CThis]) (CIf false (Some (CBool true [gt 5%Z; gt 0%Z])) (Some CThis) (Some (int 0))) in
  forallb (frag false false false) (stages c) = true /\
  tconv c [] (VInt 3) = ([(2, [VInt 3])], Val (VInt 3)) /\ tconv c [] (VInt (-1)) = ([(2, [VInt (-1)])], Val (VInt 0)).
Proof. vm_compute. auto. Qed.
(** Inside another conversion the piped value has no variable, it is cached while
    the condition is evaluated.  A condition that mentions it twice evaluates it
    twice: list_comp(f2(x).pipe(if_(this == this, ...))) calls f2 twice per item. *)
Theorem C18_nested_condition_using_input_twice_refuted :
  exists c v, c = CComp KList [CPipe (fcall 2 [CThis])
                    (CIf false (Some (COp (OBin (T "==")) [CThis; CThis])) (Some CThis) (Some CThis))] None /\
    tden c [] v = ([(2, [VInt 1])], Val (VList [VInt 1])) /\
    tconv c [] v = ([(2, [VInt 1]); (2, [VInt 1])], Val (VList [VInt 1])).
Proof. eexists. exists (VList [VInt 1]). split; [reflexivity|]. split; vm_compute; reflexivity. Qed.
(** ... and a condition that does not get to evaluate it leaves the cache empty:
    list_comp(f2(x).pipe(if_(and_(False, this), this, this))) raises KeyError. *)
Theorem C18_nested_condition_skipping_input_refuted :
  exists c v, c = CComp KList [CPipe (fcall 2 [CThis])
                    (CIf false (Some (CBool false [CLit (LBool false); CThis])) (Some CThis) (Some CThis))] None /\
    tden c [] v = ([(2, [VInt 1])], Val (VList [VInt 1])) /\
    tconv c [] v = ([], Exc KeyError).
Proof. eexists. exists (VList [VInt 1]). split; [reflexivity|]. split; vm_compute; reflexivity. Qed.
Print Assumptions C18_if_runs_its_input_once.
Print Assumptions C18_if_reads.

(** C19: a falsy labelled value, a post-processed label, labels on both ends. *)
Definition demo19 : option cv :=
  api_pipe 1 2 (key "x") (COp OTuple [CThis; CLabel (U (T "n")); CLabel (U (T "m"))])
    [(T "m", fcall 0 [CThis]); (T "n", CThis)] [(T "o", CThis)].
Example C19_instance :
  exists c, demo19 = Some c /\ forallb (frag false false false) (stages c) = true /\
    labels_ok [(T "m", fcall 0 [CThis]); (T "n", CThis)] /\ labels_ok [(T "o", CThis)] /\
    tconv c [] (VDict [(VStr "x", VInt 0)]) = ([(0, [VInt 0])], Val (VTuple [VInt 0; VInt 0; VInt 1])).
Proof.
  eexists. split; [reflexivity|]. split; [reflexivity|]. split; [|split].
  - split; [|split; [reflexivity|]].
    + constructor; [intros [H|[]]; discriminate|]. constructor; [intros []|constructor].
    + intros n c [H|[H|[]]] m Hm; injection H as <- <-; cbn; auto.
  - split; [|split; [reflexivity|]].
    + constructor; [intros []|constructor].
    + intros n c [H|[]] m Hm; injection H as <- <-; cbn; auto.
  - vm_compute. reflexivity.
Qed.
Example C19_pipe_to_a_function_instance :
  exists c, api_pipe_func 1 2 (key "x") 1 [key "y"; CLabel (U (T "n"))] [] [(T "n", CThis)] [(T "o", CThis)] = Some c /\
    forallb (frag false false false) (stages c) = true /\
    labels_ok [(T "n", CThis)] /\ labels_ok [(T "o", CThis)] /\
    fst (tconv c [] (VDict [(VStr "x", VInt 0); (VStr "y", VInt 7)])) = [(1, [VInt 0; VInt 7; VInt 0])].
Proof.
  assert (L : forall n, labels_ok [(n, CThis)]).
  { intros n. split; [|split; [reflexivity|]].
    - constructor; [intros []|constructor].
    - intros m c [H|[]] m' Hm; injection H as <- <-; cbn; auto. }
  eexists. split; [reflexivity|]. split; [reflexivity|]. split; [apply L|]. split; [apply L|]. vm_compute. reflexivity.
Qed.
Example C19_recall_instance :
  let c := pipe_all (CCache (U (T "t")) (key "x") []) ([fcall 0 [CThis]] ++ [CLabel (U (T "t"))]) in
  forallb (frag false false false) (stages c) = true /\
  tconv c [] (VDict [(VStr "x", VInt 0)]) = ([(0, [VInt 0])], Val (VInt 0)).
Proof. vm_compute. auto. Qed.
(* c.item("x").add_label("n", (c.this() + 1, c.label("n"))) *)
Example C19_add_label_instance :
  exists c, api_add_label 1 (key "x") (T "n") (Some (COp OTuple [COp (OBin (T "+")) [CThis; int 1]; CLabel (U (T "n"))])) = Some c /\
    forallb (frag false false false) (stages c) = true /\
    tconv c [] (VDict [(VStr "x", VInt 4)]) = ([], Val (VTuple [VInt 5; VInt 4])).
Proof. eexists. split; [reflexivity|]. vm_compute. auto. Qed.
(** label_input={"n": c.item("a").pipe(c.this())}: the conversion is taken for a
    plain c.this() and the label names the whole value. *)
Theorem C19_pipe_into_this_refuted :
  exists a b li c v,
    a = key "x" /\ b = CLabel (U (T "n")) /\ li = [(T "n", CPipe (key "a") CThis)] /\
    api_pipe 1 2 a b li [] = Some c /\
    v = VDict [(VStr "x", VDict [(VStr "a", VInt 5)])] /\
    snd (labelled_pipe tpy [] a b li [] v ([], nolab)) = Val (VInt 5) /\
    tconv c [] v = ([], Val (VDict [(VStr "a", VInt 5)])).
Proof.
  do 5 eexists. split; [reflexivity|]. split; [reflexivity|]. split; [reflexivity|]. split; [reflexivity|].
  split; [reflexivity|]. split; vm_compute; reflexivity.
Qed.
Print Assumptions C19_labels_store_the_values.
Print Assumptions C19_pipe_to_a_function.
Print Assumptions C19_label_recalled.
Print Assumptions C19_add_label.
