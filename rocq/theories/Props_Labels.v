(** C20, C21: labels do not outlive calls; overlapping generators. *)
From Coq Require Import String List Bool Arith Lia.
From Verif Require Import Model_Labels Spec_Labels Proofs_Labels.
Import ListNotations.

Section C20.
  Context {In V E S : Type}.
  Variable call : In -> labels V -> labels V * call_out V E S.
  Variable resume : how E -> S -> labels V -> labels V * gen_out V E S.
  Variable close : S -> labels V -> labels V.
  Notation step := (step call resume close).
  Notation run := (run call resume close).
  Notation after ops := (fst (run world0 ops)).
  Notation outs ops := (snd (run world0 ops)).

  (** The operation [o], made in state [w] with answer [x], finishes a call:
      the call itself returned a value or raised, or a started (or just
      starting) generator was exhausted, raised, or was closed. *)
  Definition finishes (w : world V S) (o : op In E) (x : out V E) : Prop :=
    match o with
    | Call _ => (exists v, x = OValue v) \/ (exists e, x = ORaise e)
    | Next i => (exists s, nth_error (gens w) i = Some (Unstarted s) \/ nth_error (gens w) i = Some (Suspended s))
                /\ forall v, x <> OYield v
    | Throw i _ => (exists s, nth_error (gens w) i = Some (Suspended s)) /\ forall v, x <> OYield v
    | Close i => exists s, nth_error (gens w) i = Some (Suspended s)
    end.

  (** C20.  Whatever the compiled code does with labels: after every operation
      that finishes a call, no label is left; and once every generator
      created so far has been started and has finished, a new call behaves
      exactly like the very first call. *)
  Theorem C20_no_label_survives_a_finished_call (ops : list (op In E)) :
    (forall o, finishes (after ops) o (snd (step (after ops) o)) ->
               store (fst (step (after ops) o)) = []) /\
    ((forall g, List.In g (gens (after ops)) -> g = Finished) ->
     forall x, snd (step (after ops) (Call x)) = snd (step world0 (Call x)) /\
               store (fst (step (after ops) (Call x))) = store (fst (step world0 (Call x)))).
  Proof.
    split.
    - generalize (after ops). intros w o. destruct o as [x|i|i e|i]; cbn [finishes Model_Labels.step].
      + destruct (call x (store w)) as [l [v|s|e]]; cbn [fst snd store]; auto.
        intros [[? H]|[? H]]; discriminate.
      + intros [[s Hs] Hy].
        assert (R : store (fst (resume_wrapped resume HNext i s w)) = [] \/
                    exists v, snd (resume_wrapped resume HNext i s w) = OYield v).
        { unfold resume_wrapped. destruct (resume HNext s (store w)) as [l [v s'| |e]]; cbn [fst snd store]; eauto. }
        destruct Hs as [Hs|Hs]; rewrite Hs in *; destruct R as [R|[v R]]; auto; destruct (Hy v); auto.
      + intros [[s Hs] Hy]. rewrite Hs in *.
        unfold resume_wrapped in *. destruct (resume (HThrow e) s (store w)) as [l [v s'| |e']]; cbn [fst snd store] in *; auto.
        destruct (Hy v); auto.
      + intros [s Hs]. rewrite Hs. reflexivity.
    - intros Hf x.
      assert (L : store (after ops) = []).
      { destruct (store (after ops)) eqn:E0; auto. exfalso.
        assert (I0 : linv (after ops)) by (apply run_inv; unfold linv; simpl; congruence).
        destruct I0 as (i & g & Hi & Ho); [congruence|].
        apply nth_error_In in Hi. apply Hf in Hi. subst g. exact Ho. }
      cbn [Model_Labels.step]. rewrite L. cbn [store world0].
      destruct (call x []) as [l [v|s|e]]; auto.
  Qed.

  (** C21, the part that holds.  If the generated code never lets what it yields depend on
      labels stored outside the same step, then in every history every
      generator yields exactly what it would yield when its call is the only
      one ever made and only its own next/throw/close happen.  [ops1] is the
      history before the call, [ops2] what follows it, in any
      interleaving with other calls and generators. *)
  Theorem C21_overlapping_generators_partial
      (call_indep : forall x l l', snd (call x l) = snd (call x l'))
      (resume_indep : forall h s l l', snd (resume h s l) = snd (resume h s l'))
      (ops1 ops2 : list (op In E)) (x : In) :
    snd (step (after ops1) (Call x)) = OGenerator ->
    let i := length (gens (after ops1)) in
    let w := fst (step (after ops1) (Call x)) in
    project i ops2 (snd (run w ops2)) =
    snd (run (fst (step world0 (Call x))) (map (retarget 0) (filter (targets i) ops2))).
  Proof.
    intros Hg i w. apply (project_run call resume close resume_indep).
    subst i w. revert Hg. cbn [Model_Labels.step].
    pose proof (call_indep x (store (after ops1)) (store (world0 (V:=V) (S:=S)))) as D.
    destruct (call x (store (after ops1))) as [l o], (call x (store world0)) as [l' o'].
    cbn [snd] in D. subst o'. destruct o as [v|s|e]; cbn [fst snd gens]; try discriminate.
    intros _. unfold same_gen. cbn [gens world0 app]. rewrite nth_error_app2, Nat.sub_diag by lia. simpl. split; congruence.
  Qed.
End C20.

(** A concrete converter: [c.this().add_label("x").pipe(c.generator_comp(...
    c.label("x") ...))] - the call stores its input under "x" and returns a
    generator; each step of the generator reads "x" (a missing label is the
    KeyError of the dict). *)
Definition demo_call (x : nat) (l : labels nat) : labels nat * call_out nat unit nat :=
  ([("x"%string, x)], if Nat.eqb x 0 then match l with [] => CRaise tt | (_, v) :: _ => CValue v end
                      else CGenerator 2).
Definition demo_resume (h : how unit) (s : nat) (l : labels nat) : labels nat * gen_out nat unit nat :=
  match h, s with
  | HThrow e, _ => (l, GRaise e)
  | HNext, 0 => (l, GStop)
  | HNext, S s' => match l with [] => (l, GRaise tt) | (_, v) :: _ => (l, GYield v s') end
  end.
Definition demo_close (_ : nat) (l : labels nat) := l.

Notation demo_outs ops := (snd (run demo_call demo_resume demo_close world0 ops)).

(** C21 as stated is false: generators of two calls share the labels of the
    converter.  Alone, the call with 7 yields 7, 7; overlapped with a call
    with 8, it yields 8. *)
Theorem C21_overlapping_generators_refuted :
  demo_outs [Call 7; Next 0; Next 0; Next 0] = [OGenerator; OYield 7; OYield 7; OStop] /\
  demo_outs [Call 7; Call 8; Next 0; Next 0] = [OGenerator; OGenerator; OYield 8; OYield 8] /\
  (* ... and finishing one generator clears the labels of the other *)
  demo_outs [Call 7; Call 7; Next 0; Next 0; Next 0; Next 1] =
    [OGenerator; OGenerator; OYield 7; OYield 7; OStop; ORaise tt].
Proof. vm_compute. auto. Qed.

(** The proviso of C20 is needed: a generator dropped before its first next()
    leaves its labels behind, and a later call can see them. *)
Theorem C20_unstarted_generator_refuted :
  demo_outs [Call 0] = [ORaise tt] /\
  demo_outs [Call 7; Close 0; Call 0] = [OGenerator; ODone; OValue 7].
Proof. vm_compute. auto. Qed.

Example C20_hypotheses_met :
  let w := fst (run demo_call demo_resume demo_close world0 [Call 7; Next 0; Call 8; Next 0; Close 1; Next 0; Call 5; Next 2; Close 2]) in
  gens w = [Finished; Abandoned; Finished] /\
  (forall g, List.In g (gens (fst (run demo_call demo_resume demo_close world0 [Call 7; Next 0; Close 0]))) -> g = Finished).
Proof. vm_compute. split; auto. intros g [<-|[]]; auto. Qed.

(** A converter meeting the hypotheses of the C21 theorem: it stores labels, but only
    reads what it has just stored. *)
Definition tidy_call (x : nat) (l : labels nat) : labels nat * call_out nat unit nat :=
  (("a"%string, x) :: l, CGenerator x).
Definition tidy_resume (h : how unit) (s : nat) (l : labels nat) : labels nat * gen_out nat unit nat :=
  let l' := ("b"%string, s) :: l in
  (l', match s with 0 => GStop | S s' => match l' with (_, v) :: _ => GYield v s' | [] => GStop end end).
Example C21_hypotheses_met :
  (forall x l l', snd (tidy_call x l) = snd (tidy_call x l')) /\
  (forall h s l l', snd (tidy_resume h s l) = snd (tidy_resume h s l')) /\
  snd (run tidy_call tidy_resume demo_close world0 [Call 2; Call 3; Next 1; Next 0; Next 1; Next 0; Next 0]) =
    [OGenerator; OGenerator; OYield 3; OYield 2; OYield 2; OYield 1; OStop].
Proof. repeat split; intros; destruct s; reflexivity. Qed.

Print Assumptions C20_no_label_survives_a_finished_call.
Print Assumptions C21_overlapping_generators_partial.
Print Assumptions C21_overlapping_generators_refuted.
Print Assumptions C20_unstarted_generator_refuted.
