(** C26: tap. *)
From Coq Require Import String List ZArith NArith Bool Arith.
From Verif Require Import Model_PyVal Model_Code Model_Eval Model_Converter Model_Python Model_Obj Spec_Frag Spec_Eval
  Spec_Converter Spec_Tap Spec_Demo Proofs_Converter Proofs_Tap.
Import ListNotations.
Open Scope list_scope.

Section Statements.
  Context {V W X : Type}.
  Variable pr : prims V W X.
  Variables (wordch : N -> bool) (srepr : text -> text) (gname : nat -> text) (pnum : list nat -> nat)
            (pname : text -> text) (hname : list nat -> text) (tname : text -> text).
  Hypothesis Hpy : py_ok pr.
  Hypothesis Hn : names_ok wordch srepr gname pname hname tname.
  Notation call_converter := (call_converter wordch srepr gname pnum pname hname tname pr).
  Notation den := (den pr).

  Lemma tap_den o ms args v s : args_ok pname tname args (CTap o ms) -> frag false false false (CTap o ms) = true ->
    same (call_converter (CTap o ms) args v s) (den args (CTap o ms) v s).
  Proof.
    intros Ha Hf. apply (converter_reads pr Hpy false ltac:(discriminate) wordch srepr gname pnum pname hname tname Hn); auto.
    cbn [stages forallb]. now rewrite Hf.
  Qed.

  (** obj.tap(m1, ..., mn): [obj] is evaluated once, to [u]; the mutations happen to
      [u] in order; [u] is the result. *)
  Theorem C26_tap_mutates_in_order : forall o ms args,
    args_ok pname tname args (CTap o ms) -> frag false false false (CTap o ms) = true ->
    forall v s s1 u s2, den args o v s = (s1, Val u) -> mutates_all pr args u ms s1 s2 ->
      same (call_converter (CTap o ms) args v s) (s2, Val u).
  Proof.
    intros o ms args Ha Hf v s s1 u s2 Ho Hm. assert (H := tap_den o _ args v s Ha Hf).
    cbn [Spec_Eval.den] in H. unfold bind at 1 in H. rewrite Ho in H. unfold bind in H.
    now rewrite (all_ok pr args u ms s1 s2 Hm) in H.
  Qed.
  (** If one raises, those before it stay done and those after it do not happen. *)
  Theorem C26_tap_failure : forall o ms1 m ms2 args, let ms := ms1 ++ m :: ms2 in
    args_ok pname tname args (CTap o ms) -> frag false false false (CTap o ms) = true -> shape m ->
    forall v s s1 u s2 s3 e, den args o v s = (s1, Val u) ->
      mutates_all pr args u ms1 s1 s2 -> mutation_fails pr args u m s2 s3 e ->
      same (call_converter (CTap o ms) args v s) (s3, Exc e).
  Proof.
    intros o ms1 m ms2 args ms Ha Hf Hs v s s1 u s2 s3 e Ho Hm Hfail. subst ms. assert (H := tap_den o _ args v s Ha Hf).
    cbn [Spec_Eval.den] in H. unfold bind at 1 in H. rewrite Ho in H. unfold bind in H.
    now rewrite (some_fails pr args u ms1 m ms2 s1 s2 s3 e Hs Hm Hfail) in H.
  Qed.
  (** One of the two always happens (or [obj] itself raises). *)
  Theorem C26_tap_outcomes : forall o ms args,
    args_ok pname tname args (CTap o ms) -> frag false false false (CTap o ms) = true -> Forall shape ms ->
    forall v s,
      (exists s1 e, den args o v s = (s1, Exc e) /\ same (call_converter (CTap o ms) args v s) (s1, Exc e)) \/
      (exists s1 u s2, den args o v s = (s1, Val u) /\ mutates_all pr args u ms s1 s2 /\
         same (call_converter (CTap o ms) args v s) (s2, Val u)) \/
      (exists s1 u ms1 m ms2 s2 s3 e, den args o v s = (s1, Val u) /\ ms = ms1 ++ m :: ms2 /\
         mutates_all pr args u ms1 s1 s2 /\ mutation_fails pr args u m s2 s3 e /\
         same (call_converter (CTap o ms) args v s) (s3, Exc e)).
  Proof.
    intros o ms args Ha Hf Hs v s. destruct (den args o v s) as [s1 [u|e]] eqn:Ho.
    - right. destruct (all_cases pr args u ms Hs s1) as [(s2 & Hm)|(l1 & m & l2 & s2 & s3 & e & -> & Hm & Hfail)].
      + left. exists s1, u, s2. split; [reflexivity|]. split; [exact Hm|]. eapply C26_tap_mutates_in_order; eauto.
      + right. exists s1, u, l1, m, l2, s2, s3, e. split; [reflexivity|]. split; [reflexivity|]. split; [exact Hm|].
        split; [exact Hfail|]. eapply C26_tap_failure; eauto. apply Forall_app in Hs. destruct Hs as [_ Hs]. now inversion Hs.
    - left. exists s1, e. split; [reflexivity|]. assert (H := tap_den o _ args v s Ha Hf).
      cbn [Spec_Eval.den] in H. unfold bind at 1 in H. now rewrite Ho in H.
  Qed.
End Statements.

(** On the heap: item and attribute mutations whose operands have no effects
    change no object but the tapped one, whether or not one of them raises; and
    the result is a reference to that same object. *)
Section Frame.
  Variable call : ov -> list ov -> heap -> heap * out exc ov.
  Notation pr := (objects call).
  Variables (wordch : N -> bool) (srepr : text -> text) (gname : nat -> text) (pnum : list nat -> nat)
            (pname : text -> text) (hname : list nat -> text) (tname : text -> text).
  Hypothesis Hn : names_ok wordch srepr gname pname hname tname.
  Notation call_converter := (call_converter wordch srepr gname pnum pname hname tname pr).
  Definition quiet (args : list (text * ov)) (c : cv) : Prop := forall u s, fst (fst (den pr args c u s)) = fst s.

  Lemma omut_frame k a vs h b : b <> a -> fst (omut k (ORef a :: vs) h) b = h b.
  Proof.
    intros Hb. unfold omut. destruct (h a) as [o|]; [|reflexivity].
    destruct (changed h k o vs); cbn; [|reflexivity]. destruct (Nat.eqb_spec b a); congruence.
  Qed.
  Lemma vals_quiet args u l s s1 xs : Forall (quiet args) l -> vals pr args u l s s1 xs -> fst s1 = fst s.
  Proof.
    intros HF H. induction H; [reflexivity|]. inversion HF; subst. rewrite IHvals by auto.
    specialize (H3 u s). now rewrite H in H3.
  Qed.
  Lemma vals_fail_quiet args u l s s1 e : Forall (quiet args) l -> vals_fail pr args u l s s1 e -> fst s1 = fst s.
  Proof.
    intros HF H. induction H; inversion HF; subst.
    - specialize (H2 u s). now rewrite H in H2.
    - rewrite IHvals_fail by auto. specialize (H3 u s). now rewrite H in H3.
  Qed.
  Lemma quiet2 args a b : Forall (quiet args) [a; b] -> Forall (quiet args) [b; a].
  Proof. intros H. inversion H; subst. inversion H3; subst. auto. Qed.
  Lemma mutates_frame args a m s s' b : fst m <> MCustom -> Forall (quiet args) (snd m) -> b <> a ->
    mutates pr args (ORef a) m s s' -> fst s' b = fst s b.
  Proof.
    intros Hc Hq Hb H. inversion H; subst; cbn [fst snd] in *; try congruence;
      match goal with E : mut _ ?k (?u :: ?vs) ?h = _ |- _ =>
        let F := fresh in assert (F := omut_frame k a vs h b Hb); cbn [mut objects] in E; rewrite E in F; cbn [fst] in F; rewrite F end;
      match goal with E : vals _ _ _ _ _ _ _ |- _ => apply vals_quiet in E; [now rewrite E|auto using quiet2] end.
  Qed.
  Lemma mutation_fails_frame args a m s s' e b : Forall (quiet args) (snd m) -> b <> a ->
    mutation_fails pr args (ORef a) m s s' e -> fst s' b = fst s b.
  Proof.
    intros Hq Hb H. inversion H; subst; cbn [fst snd] in *.
    1: { apply vals_fail_quiet in H0; [now rewrite H0|]. destruct k; auto. apply Forall_rev. exact Hq. }
    all: match goal with E : mut _ ?k (?u :: ?vs) ?h = _ |- _ =>
        let F := fresh in assert (F := omut_frame k a vs h b Hb); cbn [mut objects] in E; rewrite E in F; cbn [fst] in F; rewrite F end;
      match goal with E : vals _ _ _ _ _ _ _ |- _ => apply vals_quiet in E; [now rewrite E|auto using quiet2] end.
  Qed.

  Theorem C26_only_that_object : forall o ms args,
    args_ok pname tname args (CTap o ms) -> frag false false false (CTap o ms) = true ->
    Forall (fun m => shape m /\ fst m <> MCustom /\ Forall (quiet args) (snd m)) ms ->
    forall v s s1 a, den pr args o v s = (s1, Val (ORef a)) ->
      let r := call_converter (CTap o ms) args v s in
      (forall b, b <> a -> fst (fst r) b = fst s1 b) /\ (forall u, snd r = Val u -> u = ORef a).
  Proof.
    intros o ms args Ha Hf Hms v s s1 a Ho r.
    assert (Hs : Forall shape ms) by (eapply Forall_impl; [|exact Hms]; cbn; tauto).
    assert (HA : forall l s s', Forall (fun m => shape m /\ fst m <> MCustom /\ Forall (quiet args) (snd m)) l ->
              mutates_all pr args (ORef a) l s s' -> forall b, b <> a -> fst s' b = fst s b).
    { intros l t t' HF H b Hb. induction H; [reflexivity|]. inversion HF; subst.
      rewrite IHmutates_all by auto. apply (mutates_frame args a m); tauto. }
    destruct (C26_tap_outcomes pr wordch srepr gname pnum pname hname tname
                ltac:(split; reflexivity) Hn o ms args Ha Hf Hs v s)
      as [(t & e & E & _)|[(t & u & s2 & E & Hm & Hr)|(t & u & l1 & m & l2 & s2 & s3 & e & E & -> & Hm & Hfail & Hr)]].
    - congruence.
    - rewrite Ho in E. injection E as <- <-. destruct Hr as (R1 & R2 & _). fold r in R1, R2. split.
      + intros b Hb. rewrite R1. cbn [fst]. eauto.
      + intros u Hu. rewrite R2 in Hu. cbn [snd] in Hu. congruence.
    - rewrite Ho in E. injection E as <- <-. destruct Hr as (R1 & R2 & _). fold r in R1, R2. split.
      + intros b Hb. rewrite R1. cbn [fst]. apply Forall_app in Hms. destruct Hms as [H1 H2]. inversion H2; subst.
        rewrite (mutation_fails_frame args a m s2 s3 e b) by tauto. eauto.
      + intros u Hu. rewrite R2 in Hu. cbn [snd] in Hu. congruence.
  Qed.
  (** constants, items and operators have no effects *)
  Lemma quiet_op args o l : (forall vs h, fst (oop call o vs h) = h) -> Forall (quiet args) l -> quiet args (COp o l).
  Proof.
    intros Ho Hl u s. cbn [Spec_Eval.den]. unfold bind.
    assert (E : fst (fst (mapM (fun c => den pr args c u) l s)) = fst s).
    { revert s. induction Hl as [|c l Hc Hl IH]; intros s; [reflexivity|]. cbn [mapM]. unfold bind. specialize (Hc u s).
      destruct (den pr args c u s) as [s1 [x|e]]; [|exact Hc]. specialize (IH s1).
      destruct (mapM _ l s1) as [s2 [xs|e]]; cbn in *; congruence. }
    destruct (mapM _ l s) as [s1 [xs|e]]; [|exact E]. cbn in E. unfold prim. cbn [op objects].
    specialize (Ho xs (fst s1)). destruct (oop call o xs (fst s1)). cbn in *. congruence.
  Qed.
  Lemma quiet_lit args l : quiet args (CLit l). Proof. intros u s. reflexivity. Qed.
  Lemma quiet_this args : quiet args CThis. Proof. intros u s. reflexivity. Qed.
  Lemma item_quiet vs h : fst (oop call OItem vs h) = h.
  Proof. destruct vs as [|? [|? [|? ?]]]; reflexivity. Qed.
  Lemma bin_quiet o vs h : fst (oop call (OBin o) vs h) = h.
  Proof. destruct vs as [|? [|? [|? ?]]]; reflexivity. Qed.
End Frame.

(** c.item("d").tap(set_item("n", item("n") + 1), set_item("m", item("n")),
    del_item("x")): the second mutation sees the first, the third raises KeyError
    when there is no "x" and leaves the first two done; another dict with the same
    contents is untouched. *)
Definition nocall (f : ov) (a : list ov) (h : heap) : heap * out exc ov := (h, Exc TypeError).
Definition demo26 (last : string) : cv :=
  CTap (key "d") [(MSetItem, [str "n"; COp (OBin (T "+")) [key "n"; int 1]]); (MSetItem, [str "m"; key "n"]);
                  (MDelItem, [str last])].
Definition heap26 : heap := fun a =>
  match a with
  | 0 => Some (JDict [(OStr "d", ORef 1); (OStr "e", ORef 2)])
  | 1 | 2 => Some (JDict [(OStr "n", OInt 4); (OStr "y", ONone)])
  | _ => None
  end.
Definition run26 (last : string) :=
  let r := call_converter word quote gn pnum0 pn hn tn (objects nocall) (demo26 last) [] (ORef 0) (heap26, fun _ => None) in
  (map (fst (fst r)) [0; 1; 2; 3], snd r).
Example C26_instance :
  args_ok (V:=ov) pn tn [] (demo26 "y") /\ frag false false false (demo26 "y") = true /\
  (forall last, Forall (fun m => shape m /\ fst m <> MCustom /\ Forall (quiet nocall []) (snd m))
     (match demo26 last with CTap _ ms => ms | _ => [] end)) /\
  run26 "y" = ([heap26 0; Some (JDict [(OStr "n", OInt 5); (OStr "m", OInt 5)]); heap26 2; None], Val (ORef 1)) /\
  run26 "x" = ([heap26 0; Some (JDict [(OStr "n", OInt 5); (OStr "y", ONone); (OStr "m", OInt 5)]); heap26 2; None], Exc KeyError).
Proof.
  split; [intros y []|]. split; [reflexivity|]. split; [|split; vm_compute; reflexivity].
  assert (Hk : forall s, quiet nocall [] (key s)).
  { intros s. apply quiet_op; [apply item_quiet|]. repeat constructor. }
  intros last. repeat (apply Forall_cons || apply Forall_nil);
    (split; [exact I|split; [discriminate|]]); repeat (apply Forall_cons || apply Forall_nil); try apply Hk; try apply quiet_lit.
  apply quiet_op; [apply bin_quiet|]. repeat (apply Forall_cons || apply Forall_nil); try apply Hk; try apply quiet_lit.
Qed.
Print Assumptions C26_tap_mutates_in_order.
Print Assumptions C26_tap_failure.
Print Assumptions C26_tap_outcomes.
Print Assumptions C26_only_that_object.
