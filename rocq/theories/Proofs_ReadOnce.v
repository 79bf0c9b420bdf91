(** Reading a text is unambiguous: statements, blocks and functions. *)
From Coq Require Import String Ascii List NArith ZArith Bool Arith Lia.
From Verif Require Import Model_Code Model_Eval Spec_Syntax Spec_Source Proofs_Syntax Proofs_Lex.
Import ListNotations.

(** *** an assignment sign after an expression is left over *)
Definition ex {A} (X : list token) (o o' : parsed A) : Prop := forall a r, o = Some (a, r) -> o' = Some (a, r ++ X).
Lemma ex_none {A} X (o : parsed A) : ex X None o. Proof. intros a r H; discriminate H. Qed.
Lemma ex_some {A} X (a : A) r r' : r' = r ++ X -> ex X (Some (a, r)) (Some (a, r')).
Proof. intros -> b s H. inversion H; subst. reflexivity. Qed.
Lemma ex_pbind {A B} X (r r' : parsed A) (k k' : A -> list token -> parsed B) :
  ex X r r' -> (forall a ts, ex X (k a ts) (k' a (ts ++ X))) -> ex X (pbind r k) (pbind r' k').
Proof.
  intros H K b s. unfold pbind. destruct r as [[a ts]|]; [|discriminate]. rewrite (H _ _ eq_refl). apply K.
Qed.

Section Ext.
  Variable u : list token.
  Notation X := (Assign :: u).
  Variable p : nat -> list token -> parsed ast.
  Hypothesis E : forall l ts, ex X (p l ts) (p l (ts ++ X)).
  Hypothesis N : forall x e r, p 0 [TName x] = Some (e, r) -> r = [].

  Ltac go :=
    cbn [app];
    first
      [ apply ex_none
      | apply ex_some; reflexivity
      | assumption
      | match goal with |- ex _ (p ?l (?t :: ?ts)) (p ?l (?t :: ?ts ++ _)) => apply (E l (t :: ts)) end
      | apply E
      | match goal with IH : _ |- _ => apply IH end
      | apply ex_pbind; [go | intros; go]
      | match goal with |- ex _ (match ?x with _ => _ end) _ => destruct x; go end ].

  Lemma target_ext ts : ex X (target ts) (target (ts ++ X)).
  Proof. 
    unfold target. do 4 (destruct ts as [|t ts]; [apply ex_none|]; cbn [app]; destruct t; try apply ex_none; try (apply ex_some; reflexivity)).
  Qed.
  Lemma comp_for_ext ts : ex X (comp_for p ts) (comp_for p (ts ++ X)).
  Proof. unfold comp_for. destruct ts as [|[] ts]; cbn [app]; try apply ex_none. apply ex_pbind; [apply target_ext|]. intros. go. Qed.
  Lemma close_ext t ts a : ex X (close t ts a) (close t (ts ++ X) a).
  Proof. unfold close. destruct t; try apply ex_none; destruct ts as [|[]]; go. Qed.
  Lemma gen_rest_ext e x it c ts : ex X (gen_rest p e x it c ts) (gen_rest p e x it c (ts ++ X)).
  Proof.
    pose proof comp_for_ext as CF. unfold gen_rest.
    destruct ts as [|t ts]; [apply ex_none|]. destruct t; try apply (close_ext RPar (_ :: ts)).
    cbn [app]. destruct c; [apply ex_none|]. apply ex_pbind; [apply (CF (KFor :: ts))|]. intros [[y it2] c2] r. apply close_ext.
  Qed.
  Lemma more_ext k : forall cl acc ts, ex X (more p k cl acc ts) (more p k cl acc (ts ++ X)).
  Proof.
    induction k as [|k IH]; intros cl acc ts; [apply ex_none|]. cbn [more].
    destruct ts as [|[] ts]; cbn [app]; try (destruct cl; go).
  Qed.
  Lemma more_pairs_ext k : forall acc ts, ex X (more_pairs p k acc ts) (more_pairs p k acc (ts ++ X)).
  Proof.
    induction k as [|k IH]; intros acc ts; [apply ex_none|]. cbn [more_pairs]. go.
  Qed.
  Lemma call_args_ext k : forall pos kws ts, ex X (call_args p k pos kws ts) (call_args p k pos kws (ts ++ X)).
  Proof.
    pose proof comp_for_ext as CF.
    induction k as [|k IH]; intros pos kws ts; [apply ex_none|]. cbn [call_args].
    assert (G : forall ts, ex X
      (match kws with
            | _ :: _ => None
            | [] =>
                pbind (p 0 ts) (fun e r =>
                match r with
                | Comma :: r => call_args p k (pos ++ [e]) kws r
                | RPar :: r => Some ((pos ++ [e], kws), r)
                | KFor :: _ =>
                    match pos with
                    | [] => pbind (comp_for p r) (fun f r =>
                              let '(x, it, c) := f in
                              match r with
                              | RPar :: r => Some (([AComp GGen [e] x it c], kws), r)
                              | _ => None
                              end)
                    | _ => None
                    end
                | _ => None
                end)
            end)
      (match kws with
            | _ :: _ => None
            | [] =>
                pbind (p 0 (ts ++ X)) (fun e r =>
                match r with
                | Comma :: r => call_args p k (pos ++ [e]) kws r
                | RPar :: r => Some ((pos ++ [e], kws), r)
                | KFor :: _ =>
                    match pos with
                    | [] => pbind (comp_for p r) (fun f r =>
                              let '(x, it, c) := f in
                              match r with
                              | RPar :: r => Some (([AComp GGen [e] x it c], kws), r)
                              | _ => None
                              end)
                    | _ => None
                    end
                | _ => None
                end)
            end)).
    { intros ts0. destruct kws; [|apply ex_none]. apply ex_pbind; [apply E|]. intros e r.
      destruct r as [|[] r]; cbn [app]; try apply ex_none; [apply ex_some; reflexivity|apply IH|].
      destruct pos; [|apply ex_none]. apply ex_pbind; [apply (CF (KFor :: r))|]. intros [[x it] c] r'. go. }
    destruct ts as [|t ts]; [apply (G [])|]. specialize (G (t :: ts)). cbn [app] in G |- *.
    destruct t; try exact G; [|apply ex_some; reflexivity].
    destruct ts as [|w ts].
    - (* TName x at the end: nothing can follow *)
      clear G. cbn [app]. intros a r H. exfalso. destruct kws; [|discriminate].
      unfold pbind in H. destruct (p 0 [TName x]) as [[e r']|] eqn:Q; [|discriminate]. apply N in Q. subst. discriminate.
    - destruct w; try exact G. cbn [app]. destruct (existsb _ kws); [apply ex_none|]. go.
  Qed.
  Lemma trailers_ext k : forall a ts, ex X (trailers p k a ts) (trailers p k a (ts ++ X)).
  Proof.
    induction k as [|k IH]; intros a ts; [apply ex_none|]. cbn [trailers].
    pose proof (call_args_ext k) as CA. go.
  Qed.
  Lemma atom_ext k ts : ex X (atom p k ts) (atom p k (ts ++ X)).
  Proof.
    unfold atom. pose proof comp_for_ext as CF. pose proof (more_ext k) as MM. pose proof (more_pairs_ext k) as MP.
    pose proof close_ext as CL.
    assert (L : forall ts' e, ex X (pbind (more p k RBr [e] ts') (fun l r => Some (AList l, r)))
                        (pbind (more p k RBr [e] (ts' ++ X)) (fun l r => Some (AList l, r)))) by (intros; go).
    assert (Ld : forall ts' e, ex X (pbind (more_pairs p k [e] ts') (fun l r => Some (ADict l, r)))
                        (pbind (more_pairs p k [e] (ts' ++ X)) (fun l r => Some (ADict l, r)))) by (intros; go).
    assert (Ls : forall ts' e, ex X (pbind (more p k RBrace [e] ts') (fun l r => Some (ASet l, r)))
                        (pbind (more p k RBrace [e] (ts' ++ X)) (fun l r => Some (ASet l, r)))) by (intros; go).
    assert (C : forall g t e r, ex X (pbind (comp_for p r) (fun f r => let '(x, it, c) := f in close t r (AComp g e x it c)))
                        (pbind (comp_for p (r ++ X)) (fun f r => let '(x, it, c) := f in close t r (AComp g e x it c)))).
    { intros. apply ex_pbind; [apply CF|]. intros [[x it] c] r'. apply CL. }
    assert (A1 : forall ts, ex X
      (pbind (p 0 ts) (fun e r => match r with
        | RPar :: r => Some (e, r)
        | KFor :: _ => pbind (comp_for p r) (fun f r => let '(x, it, c) := f in gen_rest p e x it c r)
        | Comma :: _ => pbind (more p k RPar [e] r) (fun l r => Some (ATuple l, r))
        | _ => None end))
      (pbind (p 0 (ts ++ X)) (fun e r => match r with
        | RPar :: r => Some (e, r)
        | KFor :: _ => pbind (comp_for p r) (fun f r => let '(x, it, c) := f in gen_rest p e x it c r)
        | Comma :: _ => pbind (more p k RPar [e] r) (fun l r => Some (ATuple l, r))
        | _ => None end))).
    { intros ts0. apply ex_pbind; [apply E|]. intros e r. destruct r as [|[] r]; cbn [app]; try apply ex_none.
      - apply ex_some; reflexivity.
      - apply ex_pbind; [apply (MM RPar [e] (Comma :: r))|]. intros; apply ex_some; reflexivity.
      - apply ex_pbind; [apply (CF (KFor :: r))|]. intros [[x it] c] r'. apply gen_rest_ext. }
    assert (A2 : forall ts, ex X
      (pbind (p 0 ts) (fun e r => match r with
        | KFor :: _ => pbind (comp_for p r) (fun f r => let '(x, it, c) := f in close RBr r (AComp GList [e] x it c))
        | _ => pbind (more p k RBr [e] r) (fun l r => Some (AList l, r)) end))
      (pbind (p 0 (ts ++ X)) (fun e r => match r with
        | KFor :: _ => pbind (comp_for p r) (fun f r => let '(x, it, c) := f in close RBr r (AComp GList [e] x it c))
        | _ => pbind (more p k RBr [e] r) (fun l r => Some (AList l, r)) end))).
    { intros ts0. apply ex_pbind; [apply E|]. intros e r. pose proof (L r e) as L1.
      destruct r as [|[] r]; try exact L1. apply (C GList RBr [e] (KFor :: r)). }
    assert (A3 : forall ts, ex X
      (pbind (p 0 ts) (fun e r => match r with
        | Colon :: r => pbind (p 0 r) (fun v r => match r with
            | KFor :: _ => pbind (comp_for p r) (fun f r => let '(x, it, c) := f in close RBrace r (AComp GDict [e; v] x it c))
            | _ => pbind (more_pairs p k [(e, v)] r) (fun l r => Some (ADict l, r)) end)
        | KFor :: _ => pbind (comp_for p r) (fun f r => let '(x, it, c) := f in close RBrace r (AComp GSet [e] x it c))
        | _ => pbind (more p k RBrace [e] r) (fun l r => Some (ASet l, r)) end))
      (pbind (p 0 (ts ++ X)) (fun e r => match r with
        | Colon :: r => pbind (p 0 r) (fun v r => match r with
            | KFor :: _ => pbind (comp_for p r) (fun f r => let '(x, it, c) := f in close RBrace r (AComp GDict [e; v] x it c))
            | _ => pbind (more_pairs p k [(e, v)] r) (fun l r => Some (ADict l, r)) end)
        | KFor :: _ => pbind (comp_for p r) (fun f r => let '(x, it, c) := f in close RBrace r (AComp GSet [e] x it c))
        | _ => pbind (more p k RBrace [e] r) (fun l r => Some (ASet l, r)) end))).
    { intros ts0. apply ex_pbind; [apply E|]. intros e r. pose proof (Ls r e) as L1.
      destruct r as [|[] r]; try exact L1.
      - cbn [app]. apply ex_pbind; [apply E|]. intros v r'. pose proof (Ld r' (e, v)) as L2.
        destruct r' as [|[] r']; try exact L2. apply (C GDict RBrace [e; v] (KFor :: r')).
      - apply (C GSet RBrace [e] (KFor :: r)). }
    destruct ts as [|[] ts]; cbn [app]; try apply ex_none; try (apply ex_some; reflexivity).
    - destruct ts as [|[] ts]; try exact (A1 []); try exact (A1 (_ :: ts)). apply ex_some; reflexivity.
    - destruct ts as [|[] ts]; try exact (A2 []); try exact (A2 (_ :: ts)). apply ex_some; reflexivity.
    - destruct ts as [|[] ts]; try exact (A3 []); try exact (A3 (_ :: ts)). apply ex_some; reflexivity.
  Qed.
  Lemma bin_loop_ext k l : forall a ts, ex X (bin_loop p k l a ts) (bin_loop p k l a (ts ++ X)).
  Proof. induction k as [|k IH]; intros a ts; [apply ex_none|]. cbn [bin_loop]. go. Qed.
  Lemma comparison_ext ts :
    match comparison_op ts with
    | Some (o, r) => comparison_op (ts ++ X) = Some (o, r ++ X)
    | None => comparison_op (ts ++ X) = None
    end.
  Proof.
    unfold comparison_op. destruct ts as [|[] ts]; cbn [app]; auto.
    - destruct (is_comparison o); reflexivity.
    - destruct ts as [|[] ts]; reflexivity.
    - destruct ts as [|[] ts]; reflexivity.
  Qed.
  Lemma cmp_loop_ext k : forall acc ts, ex X (cmp_loop p k acc ts) (cmp_loop p k acc (ts ++ X)).
  Proof.
    induction k as [|k IH]; intros acc ts; [apply ex_none|]. cbn [cmp_loop]. pose proof (comparison_ext ts) as C.
    destruct (comparison_op ts) as [[o r]|]; rewrite C; go.
  Qed.
  Lemma bool_loop_ext k o : forall acc ts, ex X (bool_loop p k o acc ts) (bool_loop p k o acc (ts ++ X)).
  Proof. induction k as [|k IH]; intros acc ts; [apply ex_none|]. cbn [bool_loop]. destruct o; go. Qed.
  Lemma level_ext k l ts : ex X (level p k l ts) (level p k l (ts ++ X)).
  Proof.
    pose proof (trailers_ext k) as H1. pose proof (atom_ext k) as H2. pose proof (bin_loop_ext k) as H3.
    pose proof (cmp_loop_ext k) as H4. pose proof (bool_loop_ext k) as H5.
    do 3 (destruct l as [|l]; [cbn [level]; go|]).
    destruct l as [|l]; [cbn [level]; destruct ts as [|[] ts]; try exact (E 4 []); try exact (E 4 (_ :: ts)); go|].
    destruct l as [|l]; [cbn [level]; go|].
    do 6 (destruct l as [|l]; [cbn [level]; go|]).
    destruct l as [|l]; [cbn [level]; destruct ts as [|[] ts]; try exact (E 12 []); try exact (E 12 (_ :: ts)); go|].
    destruct l as [|l]; [cbn [level]|cbn [level]; go].
    apply ex_pbind; [apply E|]. intros a r. destruct r as [|[] r]; cbn [app]; try (apply ex_some; reflexivity).
    destruct (teqb o (T "**")); go.
  Qed.
End Ext.

Lemma one_name x n : forall l e r, parse n l [TName x] = Some (e, r) -> r = [].
Proof.
  induction n as [|n IH]; intros l e r H; [discriminate|]. cbn [parse] in H.
  assert (B : forall l0 r0 (k : ast -> list token -> parsed ast),
             pbind (parse n l0 [TName x]) k = Some r0 -> exists a, k a [] = Some r0).
  { intros l0 r0 k Q. unfold pbind in Q. destruct (parse n l0 [TName x]) as [[a r1]|] eqn:Q1; [|discriminate].
    apply IH in Q1. subst. eauto. }
  assert (BL : forall k o acc, bool_loop (parse n) k o acc [] = None \/ bool_loop (parse n) k o acc [] = Some (acc, [])).
  { intros [|k] o acc; cbn; destruct o; auto. }
  assert (BI : forall k o acc, bin_loop (parse n) k o acc [] = None \/ bin_loop (parse n) k o acc [] = Some (acc, [])).
  { intros [|k] o acc; cbn; auto. }
  assert (BC : forall k acc, cmp_loop (parse n) k acc [] = None \/ cmp_loop (parse n) k acc [] = Some (acc, [])).
  { intros [|k] acc; cbn; auto. }
  assert (BT : forall k acc, trailers (parse n) k acc [] = None \/ trailers (parse n) k acc [] = Some (acc, [])).
  { intros [|k] acc; cbn; auto. }
  do 13 (destruct l as [|l];
    [cbn [level] in H; try (apply IH in H; exact H); apply B in H as [a H];
     try (destruct (BL n true [a]) as [Q|Q]; rewrite Q in H; cbn [pbind] in H; [discriminate|inversion H; reflexivity]);
     try (destruct (BL n false [a]) as [Q|Q]; rewrite Q in H; cbn [pbind] in H; [discriminate|inversion H; reflexivity]);
     try (destruct (BC n []) as [Q|Q]; rewrite Q in H; cbn [pbind] in H; [discriminate|inversion H; reflexivity]);
     try (match type of H with bin_loop _ _ ?l _ _ = _ => destruct (BI n l a) as [Q|Q]; rewrite Q in H; [discriminate|inversion H; reflexivity] end);
     try (inversion H; reflexivity)|]).
  cbn [level atom pbind] in H. destruct (BT n (AName x)) as [Q|Q]; rewrite Q in H; [discriminate|inversion H; reflexivity].
Qed.
Lemma parse_ext u n : forall l ts, ex (Assign :: u) (parse n l ts) (parse n l (ts ++ Assign :: u)).
Proof.
  induction n as [|n IH]; intros l ts; [apply ex_none|]. cbn [parse]. apply level_ext; [exact IH|].
  intros x e r. apply one_name.
Qed.
