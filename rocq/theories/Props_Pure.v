(** C15: the compiled function against the direct reading, when the functions
    that are called have no side effects. *)
From Coq Require Import String List ZArith NArith Bool Arith.
From Verif Require Import Model_PyVal Model_Code Model_Eval Model_Converter Model_Python Spec_Frag Spec_Eval
  Spec_Converter Spec_Demo Spec_Pure Proofs_Code Proofs_Den Proofs_Converter Proofs_Pure.
Import ListNotations.
Open Scope list_scope.

Section Statements.
  Context {V W X : Type}.
  Variable pr : prims V W X.
  Variables (wordch : N -> bool) (srepr : text -> text) (gname : nat -> text) (pnum : list nat -> nat)
            (pname : text -> text) (hname : list nat -> text) (tname : text -> text).
  Hypothesis Hpy : py_ok pr.
  Hypothesis Hpure : pure pr.
  Hypothesis Hn : names_ok wordch srepr gname pname hname tname.
  Notation call_converter := (call_converter wordch srepr gname pnum pname hname tname pr).

  Lemma run_pure args l : forall i E x v,
    l <> [] -> forallb (plain false) l = true ->
    lookup E x = Some v -> forallb wordch x = true ->
    (forall y c, In c l -> In y (args_of c) ->
       y <> [] /\ y <> T "data_" /\ (forall t, pname t <> y) /\ (forall t, tname t <> y) /\
       exists u, lookup E y = Some u /\ lookup args y = Some u) ->
    forall s s' r, in_turn pr args l v s = (s', Val r) ->
    let b := body wordch srepr gname pnum pname hname tname i x l in
    forall w L, exists L', run pr E (fst b) (snd b) (w, L) = ((w, L'), Val r).
  Proof.
    induction l as [|c l IH]; intros i E x v Hne Hf Hx Hw Ha s s' r Hr; [congruence|].
    cbn [forallb] in Hf. apply andb_true_iff in Hf. destruct Hf as [Hfc Hf].
    cbn [in_turn] in Hr. apply bind_val in Hr. destruct Hr as (u & s1 & E1 & E2).
    assert (HS : forall w L, exists L',
      eval pr E (gen wordch srepr gname pnum pname hname false [i] c (PName x)) (w, L) = ((w, L'), Val u)).
    { intros w L. destruct Hpy as [Hp1 Hp2].
      assert (HM := main pr Hpure Hp1 Hp2 wordch srepr gname pnum pname hname (nk_word _ _ _ _ _ _ Hn)
        (fun t => word_simple wordch _ (proj1 (nk_p _ _ _ _ _ _ Hn t))) args c
        false false [i] (PName x) E v [] (fun _ => False) [] []).
      destruct (HM Hfc (fun _ => word_simple wordch x Hw)) with (s := s) (s' := s1) (r := u) (w := w) (L := L)
        as (L' & HL & _).
      - intros y Hy. destruct (Ha y c (or_introl eq_refl) Hy) as (H1 & H2 & H3 & _ & H4). repeat split; auto.
      - intros k z [].
      - intros k _. repeat split; auto.
      - intros z [].
      - now apply G_name.
      - exact E1.
      - intros k z [].
      - exists L'. exact HL. }
    cbn [body]. destruct l as [|c2 l].
    - cbn [fst snd run]. injection E2 as _ ->. exact HS.
    - destruct (body wordch srepr gname pnum pname hname tname (S i) (tname x) (c2 :: l)) as [ls last] eqn:Eb.
      cbn [fst snd run]. intros w L. destruct (HS w L) as (L1 & HL). unfold bind. rewrite HL.
      destruct (nk_t _ _ _ _ _ _ Hn x) as [Ht1 Ht2].
      specialize (IH (S i) ((tname x, u) :: E) (tname x) u). rewrite Eb in IH. cbn [fst snd] in IH.
      eapply IH; eauto.
      + discriminate.
      + cbn. destruct (text_eq_dec (tname x) (tname x)); congruence.
      + intros y c' Hc Hy. destruct (Ha y c' (or_intror Hc) Hy) as (A1 & A2 & A3 & A4 & z & A5 & A6).
        repeat split; auto. exists z. split; [|exact A6].
        cbn. destruct (text_eq_dec y (tname x)); [|exact A5]. exfalso. apply (A4 x). now symmetry.
  Qed.

  (** Whatever value the direct reading gives, the compiled converter gives, in
      whatever state it is called.  Missing: the exception, when the direct reading
      raises one (C15_exception_refuted: the converter may then return, or raise
      another); labels and mutations; conditions that skip the piped value
      (C18_nested_condition_skipping_input_refuted); truth tests that raise
      (C15_truth_test_refuted). *)
  Theorem C15_value_partial : forall c args, args_ok pname tname args c ->
    forallb (plain false) (stages c) = true ->
    forall v s s' r, den pr args c v s = (s', Val r) ->
    forall w L, exists L', call_converter c args v (w, L) = ((w, L'), Val r).
  Proof.
    intros c args Ha Hf v s s' r Hr w L. rewrite (den_in_turn pr args c v s) in Hr.
    unfold Model_Converter.call_converter, converter.
    eapply (run_pure args (stages c) 0 ((T "data_", v) :: args) (T "data_") v); eauto.
    - apply stages_ne.
    - apply forallb_forall. intros z Hz.
      assert (Hzz : N.ltb z 128 && (ascii_alpha z || (N.leb 48 z && N.leb z 57) || N.eqb z 95) = true).
      { assert (HD : forallb (fun z => N.ltb z 128 && (ascii_alpha z || (N.leb 48 z && N.leb z 57) || N.eqb z 95)) (T "data_") = true) by reflexivity.
        rewrite forallb_forall in HD. now apply HD. }
      apply andb_true_iff in Hzz. destruct Hzz as [Z1 Z2]. apply N.ltb_lt in Z1.
      now rewrite (nk_word _ _ _ _ _ _ Hn).
    - intros y c0 Hc Hy. destruct (Ha y (args_stages c c0 Hc y Hy)) as (A1 & A2 & A3 & A4 & u & A5).
      repeat split; auto. destruct (lookup_in y u args A5) as [u' Hu]. exists u'. split; [|exact Hu].
      cbn [lookup]. destruct (text_eq_dec y (T "data_")); [congruence|exact Hu].
  Qed.

  (** So the converter never returns another value than the direct reading, and
      never raises where the direct reading returns. *)
  Theorem C15_no_other_outcome_partial : forall c args, args_ok pname tname args c ->
    forallb (plain false) (stages c) = true ->
    forall v s, match snd (call_converter c args v s) with
                | Val r => match snd (den pr args c v s) with Val r' => r' = r | Exc _ => True end
                | Exc _ => exists x, snd (den pr args c v s) = Exc x
                end.
  Proof.
    intros c args Ha Hf v [w L]. destruct (den pr args c v (w, L)) as [s' [r|x]] eqn:E.
    - destruct (C15_value_partial c args Ha Hf v _ _ _ E w L) as (L' & ->). reflexivity.
    - destruct (snd (call_converter c args v (w, L))); cbn; eauto.
  Qed.
End Statements.

(** *** instances *)
(** The functions of Spec_Demo.v without the record of the calls. *)
Definition pcall (f : val) (a : list val) (kw : list (text * val)) (w : unit) : unit * out exc val :=
  (w, snd (tcall f a kw [])).
Definition pattr (v : val) (s : string) (w : unit) : unit * out exc val := (w, Exc AttributeError).
Definition ppy := python pcall pattr.

Lemma list_iter_quiet {W} l : quiet (@list_iter W l).
Proof.
  induction l as [|x l IH]; [apply Q_stop; reflexivity|]. eapply Q_yield; [reflexivity|exact IH].
Qed.
Lemma keys_of_pure f l : exists r, forall w, keys_of pcall f l w = (w, r).
Proof.
  induction l as [|x l [r Hr]]; [eexists; reflexivity|].
  cbn [keys_of].
  assert (HF : exists k, forall w, match f with VNone => (w, Val x) | _ => pcall f [x] [] w end = (w, k)).
  { destruct f; eexists; reflexivity. }
  destruct HF as [[k|e] Hk].
  - destruct r as [ks|e].
    + eexists. intros w. rewrite Hk, Hr. reflexivity.
    + eexists. intros w. rewrite Hk, Hr. reflexivity.
  - eexists. intros w. rewrite Hk. reflexivity.
Qed.
Lemma py_sorted_pure a k rv : exists r, forall w, py_sorted pcall a k rv w = (w, r).
Proof.
  unfold py_sorted. destruct (items_of a) as [l|e]; [|eexists; reflexivity].
  destruct (keys_of_pure k l) as [[ps|e] H]; eexists; intros w; rewrite H; reflexivity.
Qed.
Lemma ppy_pure : pure ppy.
Proof.
  constructor.
  - intros o vs. cbn [op ppy python].
    destruct o; try (destruct vs as [|v1 [|v2 [|v3 [|v4 vs]]]]; try (eexists; reflexivity);
      destruct v2; eexists; reflexivity);
    try (destruct vs as [|v1 [|v2 [|v3 [|v4 vs]]]]; try (eexists; reflexivity);
      destruct (py_sorted_pure v1 v2 v3) as [r Hr]; eexists; intros w; cbn; rewrite Hr; reflexivity).
  - intros v. eexists. reflexivity.
  - intros v. cbn [iter ppy python]. destruct (items_of v) as [l|e].
    + eexists. split; [reflexivity|]. intros i Hi. injection Hi as <-. apply list_iter_quiet.
    + eexists. split; [reflexivity|]. discriminate.
  - intros k. eexists. reflexivity.
  - intros k acc vs. eexists. reflexivity.
  - intros k acc. eexists. reflexivity.
Qed.

(** A value mentioned three times after a nested pipe, and a condition on it:
    (f0(this).pipe((this, this + this)), f0(this).pipe(if_(this > 3, this, f0(this)))) *)
Definition twice : cv :=
  COp OTuple [CPipe (fcall 0 [CThis]) (COp OTuple [CThis; COp (OBin (T "+")) [CThis; CThis]]);
              CPipe (fcall 0 [CThis])
                (CIf false (Some (COp (OBin (T ">")) [CThis; int 3])) (Some CThis) (Some (fcall 0 [CThis])))].
Example C15_value_partial_instance :
  args_ok pn tn ([] : list (text * val)) twice /\ forallb (plain false) (stages twice) = true /\
  (* outside the fragment of C14 *)
  forallb (frag true false false) (stages twice) = false /\
  snd (den ppy [] twice (VInt 1) (tt, nolab)) = Val (VTuple [VTuple [VInt 2; VInt 4]; VInt 3]) /\
  snd (den ppy [] twice (VInt 7) (tt, nolab)) = Val (VTuple [VTuple [VInt 8; VInt 16]; VInt 8]).
Proof. split; [intros y []|]. vm_compute. auto. Qed.

(** f1(this) raises; f1(this).pipe(c.and_(0, this)), inside a tuple, gives 0. *)
Theorem C15_exception_refuted : exists c, forallb (plain false) (stages c) = true /\
  snd (den ppy [] c (VInt 1) (tt, nolab)) = Exc (UserError 1) /\
  snd (call_converter word quote gn pnum0 pn hn tn ppy c [] (VInt 1) (tt, nolab)) = Val (VTuple [VInt 0]).
Proof.
  exists (COp OTuple [CPipe (fcall 1 [CThis]) (CBool false [int 0; CThis])]). vm_compute. auto.
Qed.

(** Functions that are free of side effects but may return an array, whose truth
    test raises: f2(f9).pipe(5), inside a tuple, raises. *)
Definition array_truth (v : val) (w : unit) : unit * out exc bool :=
  match v with VObj 9 => (w, Exc ValueError) | _ => (w, Val (truthy v)) end.
Definition apy : prims val unit exc := {|
  litv := litv ppy; globv := globv ppy; op := op ppy; truth := array_truth; iter := iter ppy;
  start := start ppy; push := push ppy; finish := finish ppy; mut := mut ppy;
  name_error := name_error ppy; label_error := label_error ppy; caught := caught ppy |}.
Theorem C15_truth_test_refuted : exists c, forallb (plain false) (stages c) = true /\
  snd (den apy [] c (VInt 1) (tt, nolab)) = Val (VTuple [VInt 5]) /\
  snd (call_converter word quote gn pnum0 pn hn tn apy c [] (VInt 1) (tt, nolab)) = Exc ValueError.
Proof.
  exists (COp OTuple [CPipe (fcall 2 [CGlob 9]) (int 5)]). vm_compute. auto.
Qed.

Print Assumptions C15_value_partial.
Print Assumptions C15_no_other_outcome_partial.
Print Assumptions C15_exception_refuted.
Print Assumptions C15_truth_test_refuted.
