From Coq Require Import String List ZArith NArith Bool Arith Lia.
From Verif Require Import Model_Code Model_Eval Model_Converter Spec_Frag Spec_Eval Spec_Converter
  Proofs_Code Proofs_Eval Proofs_Den.
Import ListNotations.

Lemma args_stages c : forall s, In s (stages c) -> forall y, In y (args_of s) -> In y (args_of c).
Proof.
  induction c; intros s0 Hs y Hy; cbn [stages] in Hs; try (destruct Hs as [<-|[]]; exact Hy).
  apply in_app_or in Hs. cbn [args_of]. apply in_or_app. destruct Hs as [Hs|[<-|[]]]; eauto.
Qed.
Lemma stages_ne c : stages c <> [].
Proof. destruct c; cbn; try discriminate. destruct (stages c1); discriminate. Qed.
Lemma stages_nopipe_pipe a b : stages (CPipe a b) = stages a ++ [b].
Proof. reflexivity. Qed.
Lemma stages_cpipe b : forall a, stages (cpipe a b) = stages a ++ stages b.
Proof.
  induction b; intros a; try reflexivity.
  cbn [cpipe stages]. rewrite IHb1. now rewrite <- app_assoc.
Qed.
Lemma stages_pipe_all l : forall c, stages (pipe_all c l) = stages c ++ flat_map stages l.
Proof.
  induction l as [|d l IH]; intros c; cbn [pipe_all fold_left flat_map]; [now rewrite app_nil_r|].
  unfold pipe_all in IH. rewrite IH, stages_cpipe. now rewrite <- app_assoc.
Qed.

Section C.
  Context {V W X : Type}.
  Variable pr : prims V W X.
  Hypothesis Hpy : py_ok pr.
  Variable pt : bool.
  Hypothesis Hpt : pt = true -> tests_ok pr.
  Variables (wordch : N -> bool) (srepr : text -> text) (gname : nat -> text) (pnum : list nat -> nat)
            (pname : text -> text) (hname : list nat -> text) (tname : text -> text).
  Hypothesis Hn : names_ok wordch srepr gname pname hname tname.
  Variable args : list (text * V).

  Lemma in_turn_app l l' v : meq (in_turn pr args (l ++ l') v)
                                 (bind (in_turn pr args l v) (in_turn pr args l')).
  Proof.
    revert v. induction l as [|c l IH]; intros v; cbn [in_turn app].
    - apply meq_sym, bind_ret_l.
    - eapply meq_trans; [apply bind_meq; [apply meq_refl|intros u; apply IH]|].
      apply meq_sym, bind_assoc.
  Qed.
  Lemma den_in_turn c : forall v, meq (den pr args c v) (in_turn pr args (stages c) v).
  Proof.
    induction c; intros v; cbn [stages in_turn]; try (apply meq_sym, bind_ret_r).
    eapply meq_trans; [|apply meq_sym, in_turn_app]. cbn [den].
    apply bind_meq; [apply IHc1|]. intros u. cbn [in_turn]. apply meq_sym, bind_ret_r.
  Qed.

  Lemma word_simple t : forallb wordch t = true -> simple wordch t = true.
  Proof.
    intros H. unfold simple. apply forallb_forall. intros c Hc.
    assert (Hc' : In c t) by (eapply Sub_in; [apply strip_sub|exact Hc]).
    rewrite forallb_forall in H. now rewrite (H c Hc').
  Qed.

  Lemma lookup_in y (u : V) l : In (y, u) l -> exists u', lookup l y = Some u'.
  Proof.
    induction l as [|[z w] l IH]; intros H; [destruct H|]. cbn.
    destruct (text_eq_dec y z); [eauto|]. apply IH. destruct H as [H|H]; [congruence|exact H].
  Qed.

  Definition Qt : lname -> Prop := fun _ => True.

  Lemma run_sim l : forall i E x v,
    l <> [] -> forallb (frag pt false false) l = true ->
    lookup E x = Some v -> forallb wordch x = true -> x <> [] ->
    (forall y c, In c l -> In y (args_of c) ->
       y <> [] /\ y <> T "data_" /\ (forall t, pname t <> y) /\ (forall t, tname t <> y) /\
       exists u, lookup E y = Some u /\ lookup args y = Some u) ->
    let b := body wordch srepr gname pnum pname hname tname i x l in
    forall s t, R s t ->
      R (fst (run pr E (fst b) (snd b) s)) (fst (in_turn pr args l v t)) /\
      snd (run pr E (fst b) (snd b) s) = snd (in_turn pr args l v t).
  Proof.
    induction l as [|c l IH]; intros i E x v Hne Hf Hx Hw Hxne Ha; [congruence|].
    cbn [forallb] in Hf. apply andb_true_iff in Hf. destruct Hf as [Hfc Hf].
    assert (HS : sim pr Qt E (PName x) v (strict c)
                   (eval pr E (gen wordch srepr gname pnum pname hname false [i] c (PName x)))
                   (den pr args c v)).
    { destruct Hpy as [Hp1 Hp2].
      destruct (both pr Hp1 Hp2 pt Hpt wordch srepr gname pnum pname hname
                  (nk_word _ _ _ _ _ _ Hn) (nk_g _ _ _ _ _ _ Hn) (nk_h _ _ _ _ _ _ Hn) (nk_s _ _ _ _ _ _ Hn)) with (args := args) (c := c)
        as [HM _].
      { intros t. destruct (nk_p _ _ _ _ _ _ Hn t). split; [now apply word_simple|auto]. }
      apply (HM false false); auto.
      - intros _. now apply word_simple.
      - split; intros; exact I.
      - apply avoid_name.
      - intros y Hy. destruct (Ha y c (or_introl eq_refl) Hy) as (H1 & H2 & H3 & _ & H4).
        repeat split; auto. }
    cbn [body]. destruct l as [|c2 l].
    - cbn [fst snd run in_turn]. intros s t HR.
      destruct (HS s t HR (I_name pr E (snd s) x v Hx)) as (H1 & H2 & _).
      assert (HB : in_turn pr args [c] v t = den pr args c v t) by apply (bind_ret_r (den pr args c v) t).
      cbn [in_turn] in HB.
      rewrite HB. split; assumption.
    - remember (body wordch srepr gname pnum pname hname tname (S i) (tname x) (c2 :: l)) as b eqn:Eb.
      destruct b as [ls last]. cbn [fst snd run]. intros s t HR.
      change (in_turn pr args (c :: c2 :: l) v) with
        (bind (den pr args c v) (in_turn pr args (c2 :: l))).
      destruct (HS s t HR (I_name pr E (snd s) x v Hx)) as (H1 & H2 & _).
      unfold bind. destruct (eval pr E _ s) as [s' [u|e]]; destruct (den pr args c v t) as [t' r'];
        cbn [fst snd] in *; subst r'; [|split; auto].
      specialize (IH (S i) ((tname x, u) :: E) (tname x) u).
      rewrite <- Eb in IH. cbn [fst snd] in IH.
      destruct (nk_t _ _ _ _ _ _ Hn x) as [Ht1 Ht2].
      apply IH; auto.
      + discriminate.
      + cbn. destruct (text_eq_dec (tname x) (tname x)); congruence.
      + intros y c' Hc Hy. destruct (Ha y c' (or_intror Hc) Hy) as (A1 & A2 & A3 & A4 & w & A5 & A6).
        repeat split; auto. exists w. split; [|exact A6].
        cbn. destruct (text_eq_dec y (tname x)); [|exact A5]. exfalso. apply (A4 x). now symmetry.
  Qed.

  Theorem converter_reads c v : args_ok pname tname args c ->
    forallb (frag pt false false) (stages c) = true ->
    forall s, same (call_converter wordch srepr gname pnum pname hname tname pr c args v s)
                   (den pr args c v s).
  Proof.
    intros Ha Hf s. unfold call_converter, converter. rewrite (den_in_turn c v s).
    assert (HR : R s s) by (split; auto).
    destruct (run_sim (stages c) 0 ((T "data_", v) :: args) (T "data_") v) with (s := s) (t := s)
      as [[H1 H2] H3]; auto.
    - apply stages_ne.
    - apply forallb_forall. intros z Hz.
      assert (Hzz : N.ltb z 128 && (ascii_alpha z || (N.leb 48 z && N.leb z 57) || N.eqb z 95) = true).
      { assert (HD : forallb (fun z => N.ltb z 128 && (ascii_alpha z || (N.leb 48 z && N.leb z 57) || N.eqb z 95)) (T "data_") = true) by reflexivity.
        rewrite forallb_forall in HD. now apply HD. }
      apply andb_true_iff in Hzz. destruct Hzz as [Z1 Z2]. apply N.ltb_lt in Z1.
      now rewrite (nk_word _ _ _ _ _ _ Hn).
    - discriminate.
    - intros y c0 Hc Hy. destruct (Ha y (args_stages c c0 Hc y Hy)) as (A1 & A2 & A3 & A4 & u & A5).
      repeat split; auto. destruct (lookup_in y u args A5) as [u' Hu]. exists u'. split; [|exact Hu].
      cbn [lookup]. destruct (text_eq_dec y (T "data_")); [congruence|exact Hu].
    - split; [exact H1|]. split; [exact H3|exact H2].
  Qed.
End C.

From Verif Require Import Proofs_Scope.
Section C16.
  Context {V W X : Type}.
  Variable pr : prims V W X.
  Variables (wordch : N -> bool) (srepr : text -> text) (gname : nat -> text) (pnum : list nat -> nat)
            (pname : text -> text) (hname : list nat -> text) (tname : text -> text).
  Variable args : list (text * V).
  Notation alone_in_turn := (alone_in_turn wordch srepr gname pnum pname hname tname pr args).

  Lemma run_alone l : forall i E x v, l <> [] -> lookup E x = Some v ->
    (forall c y, In c l -> In y (args_of c) -> y <> x /\ (forall t, y <> tname t) /\ lookup E y = lookup args y) ->
    meq (run pr E (fst (body wordch srepr gname pnum pname hname tname i x l))
                  (snd (body wordch srepr gname pnum pname hname tname i x l)))
        (alone_in_turn i x l v).
  Proof.
    induction l as [|c l IH]; intros i E x v Hne Hx Ha; [congruence|].
    assert (HS : meq (eval pr E (gen wordch srepr gname pnum pname hname false [i] c (PName x)))
                     (alone wordch srepr gname pnum pname hname pr args [i] x c v)).
    { apply eval_scope. intros y Hy. apply gen_scope in Hy. destruct Hy as [[<-|[]]|Hy].
      - cbn. destruct (text_eq_dec x x); congruence.
      - destruct (Ha c y (or_introl eq_refl) Hy) as (H1 & _ & H2).
        cbn. now destruct (text_eq_dec y x). }
    cbn [body]. destruct l as [|c2 l].
    - cbn [fst snd run Spec_Converter.alone_in_turn]. eapply meq_trans; [exact HS|]. apply meq_sym, bind_ret_r.
    - destruct (body wordch srepr gname pnum pname hname tname (S i) (tname x) (c2 :: l)) as [ls last] eqn:Eb.
      cbn [fst snd run]. change (alone_in_turn i x (c :: c2 :: l) v) with
        (bind (alone wordch srepr gname pnum pname hname pr args [i] x c v) (alone_in_turn (S i) (tname x) (c2 :: l))).
      apply bind_meq; [exact HS|]. intros u.
      specialize (IH (S i) ((tname x, u) :: E) (tname x) u). rewrite Eb in IH. apply IH.
      + discriminate.
      + cbn. destruct (text_eq_dec (tname x) (tname x)); congruence.
      + intros c' y Hc Hy. destruct (Ha c' y (or_intror Hc) Hy) as (H1 & H2 & H3).
        split; [apply H2|]. split; [exact H2|]. cbn. destruct (text_eq_dec y (tname x)) as [E1|]; auto.
        exfalso. now apply (H2 x).
  Qed.
  Lemma converter_alone c v : args_ok pname tname args c ->
    meq (call_converter wordch srepr gname pnum pname hname tname pr c args v)
        (alone_in_turn 0 (T "data_") (stages c) v).
  Proof.
    intros Ha. apply run_alone.
    - apply stages_ne.
    - reflexivity.
    - intros c0 y Hc Hy. destruct (Ha y (args_stages c c0 Hc y Hy)) as (A1 & A2 & A3 & A4 & u & A5).
      split; [exact A2|]. split; [intros t E; now apply (A4 t)|].
      cbn [lookup]. destruct (text_eq_dec y (T "data_")); congruence.
  Qed.
  Lemma in_turn_pipe_all l : forall c v, meq (in_turn pr args (stages (pipe_all c l)) v) (in_turn pr args (c :: l) v).
  Proof.
    intros c v. rewrite stages_pipe_all. revert c v.
    assert (H : forall l v, meq (in_turn pr args (flat_map stages l) v) (in_turn pr args l v)).
    { clear l. induction l as [|c l IH]; intros v; cbn [flat_map in_turn]; [apply meq_refl|].
      eapply meq_trans; [apply in_turn_app|]. apply bind_meq; [|auto]. apply meq_sym, den_in_turn. }
    intros c v. apply (H (c :: l)).
  Qed.
End C16.
