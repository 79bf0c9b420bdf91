(** C56: throwing into the generator a join returns, and closing it. *)
From Coq Require Import String List ZArith Bool Arith Lia.
From Verif Require Import Model_PyVal Model_Join Model_Labels Model_JoinLazy Spec_Join Spec_JoinLazy Proofs_JoinLazy Proofs_JoinWorld Props_Join Props_JoinLazy.
Import ListNotations.

Section C56.
  Variable op : string -> list val -> res val.
  Variable h : Model_Join.how.
  Variable cond : option jx.
  Notation run := (run (jcall_out op h cond) (jresume op h cond) jclose).
  Notation step := (step (jcall_out op h cond) (jresume op h cond) jclose).
  Notation outs ops := (snd (run world0 ops)).

  Lemma run_app ops ops' : forall w, run w (ops ++ ops') =
    (fst (run (fst (run w ops)) ops'), snd (run w ops) ++ snd (run (fst (run w ops)) ops')).
  Proof.
    induction ops as [|o ops IH]; intros w; cbn [app Model_Labels.run fst snd]; [now destruct (run w ops')|].
    destruct (step w o) as [w1 x]. rewrite IH. destruct (run w1 ops) as [w2 xs]. reflexivity.
  Qed.
  Lemma dead w i n : nth_error (gens w) i = Some Finished \/ nth_error (gens w) i = Some Abandoned ->
    run w (repeat (Next i) n) = (w, repeat OStop n).
  Proof.
    intros E. induction n as [|n IH]; cbn [repeat Model_Labels.run]; auto. cbn [Model_Labels.step].
    destruct E as [E|E]; rewrite E, IH; reflexivity.
  Qed.

  (** What is thrown into a generator of a join comes out of it, whatever happened before; the
      generator is finished then, and when it had been started the labels are gone.  ([exc] has no
      StopIteration: Python makes a RuntimeError of one that is thrown in.) *)
  Theorem C56_thrown : forall ops i e n,
    i < length (gens (fst (run world0 ops))) ->
    outs (ops ++ Throw i e :: repeat (Next i) n) = outs ops ++ ORaise e :: repeat OStop n /\
    (forall s, nth_error (gens (fst (run world0 ops))) i = Some (Suspended s) ->
       store (fst (run world0 (ops ++ [Throw i e]))) = []).
  Proof.
    intros ops i e n L. rewrite !run_app. cbn [fst snd]. set (w := fst (run world0 ops)) in *.
    destruct (nth_error (gens w) i) as [g|] eqn:E; [|apply nth_error_None in E; lia].
    cbn [Model_Labels.run Model_Labels.step]. rewrite E. split.
    - f_equal. destruct g as [s|s| |]; unfold resume_wrapped; cbn [jresume].
      + pose proof (dead (mkW (store w) (set_nth i Abandoned (gens w))) i n) as D. rewrite D; [reflexivity|].
        right. apply nth_set_nth, L.
      + pose proof (dead (mkW (clear_labels (store w)) (set_nth i Finished (gens w))) i n) as D. rewrite D; [reflexivity|].
        left. apply nth_set_nth, L.
      + rewrite (dead w i n) by auto. reflexivity.
      + rewrite (dead w i n) by auto. reflexivity.
    - intros s [= ->]. reflexivity.
  Qed.

  (** The same for close(), or when the generator is garbage collected. *)
  Theorem C56_closed : forall ops i n,
    i < length (gens (fst (run world0 ops))) ->
    outs (ops ++ Close i :: repeat (Next i) n) = outs ops ++ ODone :: repeat OStop n /\
    (forall s, nth_error (gens (fst (run world0 ops))) i = Some (Suspended s) ->
       store (fst (run world0 (ops ++ [Close i]))) = []).
  Proof.
    intros ops i n L. rewrite !run_app. cbn [fst snd]. set (w := fst (run world0 ops)) in *.
    destruct (nth_error (gens w) i) as [g|] eqn:E; [|apply nth_error_None in E; lia].
    cbn [Model_Labels.run Model_Labels.step]. rewrite E. split.
    - f_equal. destruct g as [s|s| |].
      + pose proof (dead (mkW (store w) (set_nth i Abandoned (gens w))) i n) as D. rewrite D; [reflexivity|].
        right. apply nth_set_nth, L.
      + pose proof (dead (mkW (clear_labels (jclose s (store w))) (set_nth i Finished (gens w))) i n) as D. rewrite D; [reflexivity|].
        left. apply nth_set_nth, L.
      + rewrite (dead w i n) by auto. reflexivity.
      + rewrite (dead w i n) by auto. reflexivity.
    - intros s [= ->]. reflexivity.
  Qed.
End C56.

(** *** an example: a pair, an exception thrown in, nothing afterwards; the same with close() *)
Example C56_thrown_case :
  z_outs Inner [Call (z_call Inner []); Next 0; Throw 0 ValueError; Next 0] =
  [OGenerator; OYield (LPair (z_row 1 5, z_row 11 5)); ORaise ValueError; OStop]%Z /\
  z_outs Inner [Call (z_call Inner []); Next 0; Close 0; Next 0] =
  [OGenerator; OYield (LPair (z_row 1 5, z_row 11 5)); ODone; OStop]%Z.
Proof. vm_compute. auto. Qed.

Print Assumptions C56_thrown.
Print Assumptions C56_closed.
