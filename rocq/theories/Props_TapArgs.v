(** C26: what tap makes of the mutations it is given. *)
From Coq Require Import String List ZArith NArith Bool Arith.
From Verif Require Import Model_PyVal Model_Code Model_Eval Model_Converter Model_Python Model_Api Spec_Frag Spec_Eval
  Spec_Converter Spec_Coll Spec_Tap Spec_Demo Props_Coll Model_Ensure Spec_Ensure Props_Ensure Model_Tap.
Import ListNotations.
Open Scope list_scope.

(** the parts of what is passed *)
Definition given_parts (g : given_mutation) : list pyobj :=
  match g with
  | GSetItem a b | GSetAttr a b => [a; b]
  | GDelItem a | GDelAttr a | GCustom a | GOther a => [a]
  end.
(** what it does: set_item, ...; anything that is no mutation is only evaluated *)
Definition given_kind (g : given_mutation) : mkind :=
  match g with
  | GSetItem _ _ => MSetItem | GSetAttr _ _ => MSetAttr | GDelItem _ => MDelItem | GDelAttr _ => MDelAttr
  | GCustom _ | GOther _ => MCustom
  end.

Lemma made g : make_mutation g = None /\ (exists p, In p (given_parts g) /\ inside PMutation p) \/
  exists cs, make_mutation g = Some (given_kind g, cs) /\ Forall2 (fun p c => ensure_conversion p = Some c) (given_parts g) cs /\
    forall p, In p (given_parts g) -> ~ inside PMutation p.
Proof.
  assert (R : forall p, (exists c, ensure_conversion p = Some c /\ ~ inside PMutation p) \/ (ensure_conversion p = None /\ inside PMutation p)).
  { intros p. pose proof (C61_mutations_refused p) as H. destruct (ensure_conversion p) as [c|].
    - left. exists c. split; [reflexivity|]. intros I. apply H in I. discriminate I.
    - right. split; [reflexivity|]. now apply H. }
  destruct g as [a b|a b|a|a|a|a]; cbn [make_mutation given_parts given_kind];
    destruct (R a) as [(ca & Ea & Na)|(Ea & Ia)]; rewrite Ea;
    try (destruct (R b) as [(cb & Eb & Nb)|(Eb & Ib)]; rewrite Eb); cbn [option_map];
    try (left; split; [reflexivity|]; eexists; split; [|eassumption]; cbn; tauto);
    right; eexists; (split; [reflexivity|]);
    (split; [repeat (apply Forall2_cons; [assumption|]); apply Forall2_nil|]);
    intros p Hp; cbn in Hp; repeat (destruct Hp as [<-|Hp]; [assumption|]); destruct Hp.
Qed.

(** tap raises exactly when a mutation is passed inside a part of another one (or inside a
    structure). *)
Theorem C26_tap_refused : forall self l,
  api_tap self l = None <-> exists g p, In g l /\ In p (given_parts g) /\ inside PMutation p.
Proof.
  intros self l. unfold api_tap.
  assert (H : make_mutations l = None <-> exists g p, In g l /\ In p (given_parts g) /\ inside PMutation p).
  { induction l as [|g l IH]; cbn [make_mutations]; [split; [discriminate|intros (g & p & [] & _)]|].
    destruct (made g) as [(E & p & Hp & I)|(cs & E & _ & N)]; rewrite E.
    - split; [|reflexivity]. intros _. exists g, p. split; [now left|auto].
    - destruct (make_mutations l) as [ms|].
      + split; [discriminate|]. intros (g' & p & [<-|Hg] & Hp & I); [now destruct (N p Hp)|].
        discriminate (proj2 IH (ex_intro _ g' (ex_intro _ p (conj Hg (conj Hp I))))).
      + split; [|reflexivity]. intros _. destruct (proj1 IH eq_refl) as (g' & p & Hg & R). exists g', p. split; [now right|exact R]. }
  destruct (make_mutations l); cbn [option_map]; rewrite <- H; split; congruence.
Qed.

Section Values.
  Context {W : Type}.
  Variable call : val -> list val -> list (text * val) -> W -> W * out exc val.
  Variable getattr : val -> string -> W -> W * out exc val.
  (** Otherwise it makes the tap of C26 with one mutation for each that was passed, of the same
      kind and in the same order, whose parts have the values that what was passed stands for. *)
  Theorem C26_tap_arguments : forall self l c, api_tap self l = Some c ->
    exists ms, c = CTap self ms /\ Forall shape ms /\
      Forall2 (fun g m => fst m = given_kind g /\
        Forall2 (fun p d => forall args u x, means call getattr args u p x -> gives call getattr args d u x) (given_parts g) (snd m)) l ms.
  Proof.
    intros self l c H. unfold api_tap in H. destruct (make_mutations l) as [ms|] eqn:E; [|discriminate]. injection H as <-.
    exists ms. split; [reflexivity|]. revert ms E. induction l as [|g l IH]; intros ms E; cbn [make_mutations] in E.
    - injection E as <-. split; constructor.
    - destruct (made g) as [(Eg & _)|(cs & Eg & F & _)]; rewrite Eg in E; [discriminate|].
      destruct (make_mutations l) as [ms'|]; [|discriminate]. injection E as <-. destruct (IH _ eq_refl) as [S G].
      split; constructor; auto.
      + destruct g; cbn [given_parts given_kind] in *; inversion F as [|? ? ? ? ? F1]; subst; inversion F1 as [|? ? ? ? ? F2]; subst;
          try inversion F2; exact I.
      + split; [reflexivity|]. cbn [snd]. clear - F. induction F as [|p d ps ds Hp HF IHF]; constructor; auto.
        intros args u x M. exact (ensured_gives call getattr args u p d x Hp M).
  Qed.
End Values.
Print Assumptions C26_tap_refused.
Print Assumptions C26_tap_arguments.

(** c.this().tap(c.Mut.set_item("n", [1, c.item("a")]), c.Mut.del_item("b"), c.item("a")) *)
Definition given_tap : list given_mutation :=
  [GSetItem (PConstant (LStr (T "n"))) (PListing [PConstant (LInt 1); PConversion (key "a")]);
   GDelItem (PConstant (LStr (T "b"))); GOther (PConversion (key "a"))].
Example C26_tap_arguments_instance :
  api_tap CThis given_tap =
    Some (CTap CThis [(MSetItem, [str "n"; COp OList [int 1; key "a"]]); (MDelItem, [str "b"]); (MCustom, [key "a"])]) /\
  means tcall tattr [] (VDict [(VStr "a", VInt 5)]) (PListing [PConstant (LInt 1); PConversion (key "a")]) (VList [VInt 1; VInt 5]) /\
  api_tap CThis [GCustom PMutation] = None.
Proof.
  split; [reflexivity|]. split; [|reflexivity]. constructor. repeat (constructor; try (constructor; intros [w L]; reflexivity)).
Qed.
