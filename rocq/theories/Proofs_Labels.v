From Coq Require Import String List Bool Arith Lia.
From Verif Require Import Model_Labels Spec_Labels.
Import ListNotations.

Section P.
  Context {In V E S : Type}.
  Variable call : In -> labels V -> labels V * call_out V E S.
  Variable resume : how E -> S -> labels V -> labels V * gen_out V E S.
  Variable close : S -> labels V -> labels V.
  Notation world := (world V S).
  Notation wrapped := (wrapped S).
  Notation step := (step call resume close).
  Notation run := (run call resume close).

  Lemma nth_set_nth_eq (l : list wrapped) : forall i g x,
    nth_error l i = Some x -> nth_error (set_nth i g l) i = Some g.
  Proof. induction l as [|a l IH]; intros [|i] g x; simpl; try discriminate; eauto. Qed.
  Lemma nth_set_nth_ne (l : list wrapped) : forall i j g, i <> j -> nth_error (set_nth i g l) j = nth_error l j.
  Proof.
    induction l as [|a l IH]; intros i j g H; destruct i; simpl; auto.
    - destruct j; [congruence|auto].
    - destruct j; simpl; auto.
  Qed.
  Lemma length_set_nth (l : list wrapped) : forall i g, length (set_nth i g l) = length l.
  Proof. induction l as [|a l IH]; intros [|i] g; simpl; auto. Qed.

  (** some generator is still able (or was, before being thrown away
      unstarted) to hold labels *)
  Definition open_gen (g : wrapped) : Prop :=
    match g with Unstarted _ | Suspended _ | Abandoned => True | Finished => False end.

  Definition linv (w : world) : Prop :=
    store w <> [] -> exists i g, nth_error (gens w) i = Some g /\ open_gen g.

  Lemma resume_wrapped_inv h i s w g : nth_error (gens w) i = Some g ->
    linv (fst (resume_wrapped resume h i s w)).
  Proof.
    intros Hi. unfold resume_wrapped. destruct (resume h s (store w)) as [l [v s'| |e]];
      unfold linv; cbn [store gens fst clear_labels]; try (intros Hn; elim Hn; reflexivity).
    intros _. exists i, (Suspended s'). split; [eapply nth_set_nth_eq; eauto|exact I].
  Qed.

  Lemma step_inv w o : linv w -> linv (fst (step w o)).
  Proof.
    intros L. destruct o as [x|i|i e|i]; cbn [Model_Labels.step].
    - destruct (call x (store w)) as [l [v|s|e]]; unfold linv; cbn [store gens fst clear_labels]; try (intros Hn; elim Hn; reflexivity).
      intros _. exists (length (gens w)), (Unstarted s). split; [|exact I].
      rewrite nth_error_app2, Nat.sub_diag; auto.
    - destruct (nth_error (gens w) i) as [[s|s| |]|] eqn:Eq; cbn [fst]; auto;
        eapply resume_wrapped_inv; eauto.
    - destruct (nth_error (gens w) i) as [[s|s| |]|] eqn:Eq; cbn [fst]; auto.
      + unfold linv; cbn [store gens]. intros _. exists i, Abandoned.
        split; [eapply nth_set_nth_eq; eauto|exact I].
      + eapply resume_wrapped_inv; eauto.
    - destruct (nth_error (gens w) i) as [[s|s| |]|] eqn:Eq; cbn [fst]; auto.
      + unfold linv; cbn [store gens]. intros _. exists i, Abandoned.
        split; [eapply nth_set_nth_eq; eauto|exact I].
      + unfold linv; cbn [store gens clear_labels]; intros Hn; elim Hn; reflexivity.
  Qed.

  Lemma run_inv ops : forall w, linv w -> linv (fst (run w ops)).
  Proof.
    induction ops as [|o ops IH]; intros w L; cbn [Model_Labels.run]; auto.
    destruct (step w o) as [w1 x] eqn:Eq. specialize (IH w1).
    destruct (run w1 ops) as [w2 xs]. apply IH. change w1 with (fst (w1, x)). rewrite <- Eq. apply step_inv; auto.
  Qed.

  Lemma run_app ops1 : forall w ops2,
    run w (ops1 ++ ops2) =
    (let '(w1, x1) := run w ops1 in let '(w2, x2) := run w1 ops2 in (w2, x1 ++ x2)).
  Proof.
    induction ops1 as [|o ops1 IH]; intros w ops2; cbn [Model_Labels.run app].
    - destruct (run w ops2); auto.
    - destruct (step w o) as [w1 x]. rewrite IH. destruct (run w1 ops1) as [w2 xs].
      destruct (run w2 ops2); auto.
  Qed.
  Lemma run_length ops : forall w, length (snd (run w ops)) = length ops.
  Proof.
    induction ops as [|o ops IH]; intros w; cbn [Model_Labels.run]; auto.
    destruct (step w o) as [w1 x]. specialize (IH w1). destruct (run w1 ops). simpl in *; auto.
  Qed.

  (** *** independence of generators that do not depend on labels *)
  Hypothesis call_indep : forall x l l', snd (call x l) = snd (call x l').
  Hypothesis resume_indep : forall h s l l', snd (resume h s l) = snd (resume h s l').

  Definition same_gen (i j : nat) (w w' : world) : Prop :=
    nth_error (gens w) i = nth_error (gens w') j /\ nth_error (gens w) i <> None.

  Lemma step_other i o w : targets i o = false -> nth_error (gens w) i <> None ->
    nth_error (gens (fst (step w o))) i = nth_error (gens w) i.
  Proof.
    intros T N. destruct o as [x|j|j e|j]; cbn [Model_Labels.step targets] in *.
    - destruct (call x (store w)) as [l [v|s|e]]; cbn [fst gens]; auto.
      apply nth_error_app1. apply nth_error_Some; auto.
    - apply Nat.eqb_neq in T. unfold resume_wrapped.
      destruct (nth_error (gens w) j) as [[s|s| |]|]; cbn [fst gens]; auto;
        destruct (resume HNext s (store w)) as [l [v s'| |e]]; cbn [fst gens]; apply nth_set_nth_ne; auto.
    - apply Nat.eqb_neq in T. unfold resume_wrapped.
      destruct (nth_error (gens w) j) as [[s|s| |]|]; cbn [fst gens]; auto;
        try (apply nth_set_nth_ne; auto);
        destruct (resume (HThrow e) s (store w)) as [l [v s'| |e']]; cbn [fst gens]; apply nth_set_nth_ne; auto.
    - apply Nat.eqb_neq in T.
      destruct (nth_error (gens w) j) as [[s|s| |]|]; cbn [fst gens]; auto; apply nth_set_nth_ne; auto.
  Qed.

  Lemma step_same i j o w w' : targets i o = true -> same_gen i j w w' ->
    snd (step w o) = snd (step w' (retarget j o)) /\
    same_gen i j (fst (step w o)) (fst (step w' (retarget j o))).
  Proof.
    intros T [H N].
    assert (R : forall h s, (nth_error (gens w) i = Some (Unstarted s) \/ nth_error (gens w) i = Some (Suspended s)) ->
      snd (resume_wrapped resume h i s w) = snd (resume_wrapped resume h j s w') /\
      same_gen i j (fst (resume_wrapped resume h i s w)) (fst (resume_wrapped resume h j s w'))).
    { intros h s Hs. unfold resume_wrapped, same_gen.
      assert (X : exists g, nth_error (gens w) i = Some g) by (destruct Hs; eauto). destruct X as [g Hg].
      assert (Hg' : nth_error (gens w') j = Some g) by congruence.
      pose proof (resume_indep h s (store w) (store w')) as D.
      destruct (resume h s (store w)) as [l o1], (resume h s (store w')) as [l' o2]. cbn [snd] in D. subst o2.
      destruct o1 as [v s'| |e]; cbn [fst snd gens]; split; auto;
        erewrite !nth_set_nth_eq by eauto; split; congruence. }
    destruct o as [x|k|k e|k]; cbn [targets Model_Labels.step retarget] in *; try discriminate;
      apply Nat.eqb_eq in T; subst k; rewrite <- H;
      destruct (nth_error (gens w) i) as [[s|s| |]|] eqn:Ei; cbn [fst snd]; try congruence;
      try (apply R; auto); unfold same_gen; cbn [gens]; split; auto; try (rewrite Ei, <- H; split; congruence);
      erewrite !nth_set_nth_eq by eauto; split; congruence.
  Qed.

  Lemma project_run i j ops : forall w w', same_gen i j w w' ->
    project i ops (snd (run w ops)) =
    snd (run w' (map (retarget j) (filter (targets i) ops))).
  Proof.
    induction ops as [|o ops IH]; intros w w' SG; cbn [Model_Labels.run filter map project snd]; auto.
    destruct (step w o) as [w1 x] eqn:Eq.
    destruct (run w1 ops) as [w2 xs] eqn:Er. cbn [snd project].
    destruct (targets i o) eqn:T.
    - cbn [map Model_Labels.run].
      destruct (step_same i j o w w' T SG) as [So Sg]. rewrite Eq in So, Sg. cbn [fst snd] in *.
      destruct (step w' (retarget j o)) as [w1' x'] eqn:Eq'. cbn [fst snd] in *. subst x'.
      specialize (IH w1 w1' Sg). rewrite Er in IH. cbn [snd] in IH. rewrite IH.
      destruct (run w1' _); auto.
    - assert (SG1 : same_gen i j w1 w').
      { destruct SG as [H N]. split; replace w1 with (fst (step w o)) by (rewrite Eq; auto);
          rewrite step_other; auto. }
      specialize (IH w1 w' SG1). rewrite Er in IH. auto.
  Qed.
End P.
