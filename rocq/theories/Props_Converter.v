(** C14 and C16: the compiled function against the direct reading of the
    conversion. *)
From Coq Require Import String List ZArith NArith Bool Arith.
From Verif Require Import Model_PyVal Model_Code Model_Eval Model_Converter Model_Python Spec_Frag Spec_Eval
  Spec_Converter Spec_Demo Proofs_Den Proofs_Converter.
Import ListNotations.
Open Scope list_scope.

Section Statements.
  Context {V W X : Type}.
  Variable pr : prims V W X.
  Variables (wordch : N -> bool) (srepr : text -> text) (gname : nat -> text) (pnum : list nat -> nat)
            (pname : text -> text) (hname : list nat -> text) (tname : text -> text).
  Notation call_converter := (call_converter wordch srepr gname pnum pname hname tname pr).
  Notation alone_in_turn := (alone_in_turn wordch srepr gname pnum pname hname tname pr).

  (** C14.  Whatever the user's functions and objects do ([pr], [W]), calling the
      compiled converter has the result or exception, the effects and the labels
      of the direct reading.  [frag] says which conversions: any nesting, where a
      piped-into conversion evaluates its input exactly once and first. *)
  Theorem C14_converter_has_the_direct_reading :
    py_ok pr -> names_ok wordch srepr gname pname hname tname ->
    forall c args, args_ok pname tname args c ->
    forallb (frag false false false) (stages c) = true ->
    forall v s, same (call_converter c args v s) (den pr args c v s).
  Proof.
    intros Hp Hn c args Ha Hf v s. eapply converter_reads; eauto. discriminate.
  Qed.

  (** The same with more conversions covered (constants and input arguments as
      inputs of pipes, conditions that do not mention a piped input) when truth
      tests neither fail nor have effects. *)
  Theorem C14_converter_has_the_direct_reading_total_tests :
    py_ok pr -> tests_ok pr -> names_ok wordch srepr gname pname hname tname ->
    forall c args, args_ok pname tname args c ->
    forallb (frag true false false) (stages c) = true ->
    forall v s, same (call_converter c args v s) (den pr args c v s).
  Proof.
    intros Hp Ht Hn c args Ha Hf v s. eapply converter_reads with (pt := true); eauto.
  Qed.

  (** C16, for stages of any kind: s1.pipe(s2). ... .pipe(sn) runs the compiled
      code of every stage once, in order, each on the result of the one before,
      with the variables of the other stages out of its sight, and stops at the
      first exception ([bind]). *)
  Theorem C16_stages_run_once_in_order : forall c l args, args_ok pname tname args (pipe_all c l) ->
    forall v s, call_converter (pipe_all c l) args v s =
                alone_in_turn args 0 (T "data_") (stages c ++ flat_map stages l) v s.
  Proof.
    intros c l args Ha v s. rewrite <- stages_pipe_all. now apply converter_alone.
  Qed.

  (** ... and, for stages in the fragment of C14, that is: s1 on the input, then
      s2 on its result, ... *)
  Theorem C16_stages_in_turn :
    py_ok pr -> names_ok wordch srepr gname pname hname tname ->
    forall c l args, args_ok pname tname args (pipe_all c l) ->
    forallb (frag false false false) (stages c ++ flat_map stages l) = true ->
    forall v s, same (call_converter (pipe_all c l) args v s) (in_turn pr args (c :: l) v s).
  Proof.
    intros Hp Hn c l args Ha Hf v s. rewrite <- stages_pipe_all in Hf.
    assert (H := C14_converter_has_the_direct_reading Hp Hn _ _ Ha Hf v s).
    rewrite (den_in_turn pr args (pipe_all c l) v s) in H.
    now rewrite (in_turn_pipe_all pr args l c v s) in H.
  Qed.

  (** An exception of a stage ends the call: the result and the effects are those
      of the stages up to it, whatever comes after. *)
  Theorem C16_no_stage_after_an_exception :
    py_ok pr -> names_ok wordch srepr gname pname hname tname ->
    forall c l d r args, args_ok pname tname args (pipe_all c (l ++ d :: r)) ->
    forallb (frag false false false) (stages c ++ flat_map stages (l ++ d :: r)) = true ->
    forall v s u s1 x s2,
      in_turn pr args (c :: l) v s = (s1, Val u) -> den pr args d u s1 = (s2, Exc x) ->
      fst (fst (call_converter (pipe_all c (l ++ d :: r)) args v s)) = fst s2 /\
      snd (call_converter (pipe_all c (l ++ d :: r)) args v s) = Exc x.
  Proof.
    intros Hp Hn c l d r args Ha Hf v s u s1 x s2 H1 H2.
    destruct (C16_stages_in_turn Hp Hn c _ args Ha Hf v s) as (A1 & A2 & _).
    change (c :: l ++ d :: r) with ((c :: l) ++ (d :: r)) in A1, A2.
    rewrite (in_turn_app pr args (c :: l) (d :: r) v s) in A1, A2.
    unfold Model_Eval.bind at 1 in A1. unfold Model_Eval.bind at 1 in A2. rewrite H1 in A1, A2.
    cbn [in_turn] in A1, A2. unfold Model_Eval.bind in A1, A2. rewrite H2 in A1, A2. auto.
  Qed.
End Statements.

(** c.if_(c.item("a"), c.call_func(f0, c.item("b", default=c.input_arg("d"))),
          c.list_comp(c.call_func(f2, c.this())) ) on ...: the hypotheses of C14 hold. *)
Definition demo14 : cv :=
  CIf false (Some (key "a"))
    (Some (fcall 0 [CDefault false None [str "b"] (CArg (T "d"))]))
    (Some (CPipe (key "l") (CComp KList [fcall 2 [CThis]] (Some (COp (OBin (T ">")) [CThis; int 1]))))).
Example C14_hypotheses_met :
  args_ok pn tn [(T "d", VInt 7)] demo14 /\
  forallb (frag false false false) (stages demo14) = true.
Proof.
  split; [|reflexivity]. intros y [<-|[]]. split; [discriminate|]. split; [discriminate|].
  split; [intros t H; discriminate|]. split; [intros t H; discriminate|]. exists (VInt 7). now left.
Qed.
Example C14_instance :
  tconv demo14 [(T "d", VInt 7)] (VDict [(VStr "a", VBool true); (VStr "c", VNone)])
    = ([(0, [VInt 7])], Val (VInt 8)) /\
  tconv demo14 [(T "d", VInt 7)] (VDict [(VStr "a", VInt 0); (VStr "l", VList [VInt 1; VInt 2; VInt 3])])
    = ([(2, [VInt 2]); (2, [VInt 3])], Val (VList [VInt 2; VInt 3])).
Proof. split; vm_compute; reflexivity. Qed.
Print Assumptions C14_converter_has_the_direct_reading.
Print Assumptions C14_converter_has_the_direct_reading_total_tests.

(** c.item("a").pipe(f0).pipe(f1).pipe(f2): f1 raises, f2 does not run. *)
Example C16_instance :
  let c := pipe_all (key "a") [fcall 0 [CThis]; fcall 1 [CThis]; fcall 2 [CThis]] in
  forallb (frag false false false) (stages c) = true /\
  tconv c [] (VDict [(VStr "a", VInt 4)]) = ([(0, [VInt 4]); (1, [VInt 5])], Exc (UserError 1)).
Proof. split; vm_compute; reflexivity. Qed.
Print Assumptions C16_stages_run_once_in_order.
Print Assumptions C16_stages_in_turn.
Print Assumptions C16_no_stage_after_an_exception.
