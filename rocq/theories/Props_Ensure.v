(** C61: plain Python structures used as conversions. *)
From Coq Require Import String List ZArith NArith Bool Arith.
From Verif Require Import Model_PyVal Model_Code Model_Eval Model_Converter Model_Python Model_Api Spec_Frag Spec_Eval
  Spec_Reducers Spec_Converter Spec_Coll Spec_Demo Proofs_PyVal Proofs_Reducers Proofs_DictReducers Proofs_Converter Proofs_Coll Props_Coll
  Model_Ensure Spec_Ensure.
Import ListNotations.
Open Scope list_scope.

Section Ind.
  Variable P : pyobj -> Prop.
  Hypothesis HC : forall c, P (PConversion c).
  Hypothesis HM : P PMutation.
  Hypothesis HD : forall l, Forall (fun e => P (fst e) /\ P (snd e)) l -> P (PDictionary l).
  Hypothesis HL : forall l, Forall P l -> P (PListing l).
  Hypothesis HT : forall l, Forall P l -> P (PTupling l).
  Hypothesis HS : forall l, Forall P l -> P (PSetting l).
  Hypothesis HSl : forall a b c, P a -> P b -> P c -> P (PSlice a b c).
  Hypothesis HK : forall l, P (PConstant l).
  Hypothesis HO : forall g, P (PObject g).
  Fixpoint pyobj_ind' (p : pyobj) : P p :=
    let all := fix all (l : list pyobj) : Forall P l :=
      match l with [] => Forall_nil _ | x :: r => Forall_cons x (pyobj_ind' x) (all r) end in
    match p with
    | PConversion c => HC c
    | PMutation => HM
    | PDictionary l => HD l ((fix all2 (l : list (pyobj * pyobj)) : Forall (fun e => P (fst e) /\ P (snd e)) l :=
        match l with [] => Forall_nil _
        | e :: r => Forall_cons e (conj (pyobj_ind' (fst e)) (pyobj_ind' (snd e))) (all2 r) end) l)
    | PListing l => HL l (all l)
    | PTupling l => HT l (all l)
    | PSetting l => HS l (all l)
    | PSlice a b c => HSl a b c (pyobj_ind' a) (pyobj_ind' b) (pyobj_ind' c)
    | PConstant l => HK l
    | PObject g => HO g
    end.
End Ind.

(** the parts of collections *)
Fixpoint ensure_each (l : list pyobj) : option (list cv) :=
  match l with
  | [] => Some []
  | x :: r => match ensure_conversion x, ensure_each r with Some c, Some cs => Some (c :: cs) | _, _ => None end
  end.
Fixpoint ensure_pairs (l : list (pyobj * pyobj)) : option (list (cv * cv)) :=
  match l with
  | [] => Some []
  | (k, x) :: r => match ensure_conversion k, ensure_conversion x, ensure_pairs r with
                   | Some a, Some b, Some cs => Some ((a, b) :: cs) | _, _, _ => None end
  end.
Definition req2 (p : cv * cv) : item * item := (Req (fst p), Req (snd p)).
Lemma ensure_coll l :
  ensure_conversion (PListing l) = option_map (fun cs => coll KList (map Req cs)) (ensure_each l) /\
  ensure_conversion (PTupling l) = option_map (fun cs => coll KTuple (map Req cs)) (ensure_each l) /\
  ensure_conversion (PSetting l) = option_map (fun cs => coll KSet (map Req cs)) (ensure_each l).
Proof.
  cbn [ensure_conversion].
  match goal with |- option_map _ (?f l) = _ /\ _ => assert (E : f l = option_map (map Req) (ensure_each l)) end.
  { induction l as [|x l IH]; [reflexivity|]. cbn. rewrite IH. destruct (ensure_conversion x), (ensure_each l); auto. }
  rewrite E. destruct (ensure_each l); auto.
Qed.
Lemma ensure_dict l : ensure_conversion (PDictionary l) = option_map (fun cs => dict (map req2 cs)) (ensure_pairs l).
Proof.
  cbn [ensure_conversion].
  match goal with |- option_map _ (?f l) = _ => assert (E : f l = option_map (map req2) (ensure_pairs l)) end.
  { induction l as [|[k x] l IH]; [reflexivity|]. cbn. rewrite IH. destruct (ensure_conversion k), (ensure_conversion x), (ensure_pairs l); auto. }
  rewrite E. destruct (ensure_pairs l); auto.
Qed.

(** a dict is determined by its pairs *)
Lemma dfind_none (d : list (val * val)) k : dfind d k = None <-> forall x, In x (map fst d) -> py_eq x k = false.
Proof.
  induction d as [|[a b] d IH]; cbn; [easy|]. destruct (py_eq a k) eqn:E.
  - split; [discriminate|]. intros H. rewrite (H a) in E by auto. discriminate.
  - rewrite IH. split; intros H x; [intros [<-|Hx]; auto|auto].
Qed.
Fixpoint apart (l : list val) : Prop :=
  match l with [] => True | x :: r => (forall y, In y r -> py_eq x y = false) /\ apart r end.
Lemma same_dict : forall d d' : list (val * val),
  map fst d = map fst d' -> (forall x, In x (map fst d) -> hashable x = true) -> apart (map fst d) ->
  (forall k, hashable k = true -> dfind d k = dfind d' k) -> d = d'.
Proof.
  induction d as [|[a b] d IH]; intros [|[a' b'] d'] E H A F; try discriminate E; [reflexivity|].
  cbn in E. injection E as <- E. cbn in A. destruct A as [Aa A].
  assert (Ha : hashable a = true) by (apply H; left; auto).
  assert (b = b').
  { pose proof (F a Ha) as Fa. cbn in Fa. rewrite py_eq_refl in Fa by auto. congruence. }
  subst b'. f_equal. apply IH; auto.
  - intros x Hx. apply H. right. auto.
  - intros k Hk. specialize (F k Hk). cbn in F. destruct (py_eq a k) eqn:Eak; [|exact F].
    assert (N : forall e : list (val * val), map fst e = map fst d -> dfind e k = None).
    { intros e Ee. apply dfind_none. intros x Hx. rewrite Ee in Hx. apply Bool.not_true_iff_false. intros Exk.
      assert (Hx' : hashable x = true) by (apply H; right; auto).
      rewrite py_eq_sym in Exk by auto.
      specialize (Aa x Hx). rewrite (py_eq_trans a k x) in Aa; auto. discriminate. }
    rewrite (N d), (N d'); auto.
Qed.

Lemma apart_filter f l : apart l -> apart (filter f l).
Proof.
  induction l as [|x l IH]; cbn; [auto|]. intros [H A]. destruct (f x); cbn; auto.
  split; auto. intros y Hy. apply filter_In in Hy. apply H. tauto.
Qed.
Lemma distinct_apart l : apart (distinct l).
Proof.
  induction l as [|x l IH]; cbn; [auto|]. split; [|now apply apart_filter].
  intros y Hy. apply filter_In in Hy. destruct Hy as [_ Hy]. now apply Bool.negb_true_iff in Hy.
Qed.
Lemma dict_of_unique ps d d' : (forall x, In x (map fst ps) -> hashable x = true) ->
  dict_of ps d -> dict_of ps d' -> d = d'.
Proof.
  intros H [E F] [E' F']. apply same_dict.
  - congruence.
  - intros x Hx. rewrite E in Hx. apply H. apply distinct_incl. exact Hx.
  - rewrite E. apply distinct_apart.
  - intros k Hk. rewrite F, F'; auto.
Qed.

Section Statements.
  Context {W : Type}.
  Variable call : val -> list val -> list (text * val) -> W -> W * out exc val.
  Variable getattr : val -> string -> W -> W * out exc val.
  Variables (wordch : N -> bool) (srepr : text -> text) (gname : nat -> text) (pnum : list nat -> nat)
            (pname : text -> text) (hname : list nat -> text) (tname : text -> text).
  Hypothesis Hn : names_ok wordch srepr gname pname hname tname.
  Notation pr := (python call getattr).
  Notation call_converter := (call_converter wordch srepr gname pnum pname hname tname pr).
  Notation gives := (gives call getattr).
  Notation means := (means call getattr).
  Notation covered := (covered pname tname).

  Lemma coll_gives args k cs v xs : Forall2 (fun c x => gives args c v x) cs xs -> fits k xs ->
    gives args (coll k (map Req cs)) v (holding k xs).
  Proof.
    intros HF Hk.
    assert (E : concat (map (fun x => [x]) xs) = xs) by (clear; induction xs; cbn; congruence).
    rewrite <- E. apply (coll_den call getattr args k (map Plain cs)).
    - clear. induction cs as [|c cs IH]; [reflexivity|]. cbn in *. now rewrite IH.
    - now rewrite E.
    - clear - HF. induction HF; cbn; constructor; auto. apply There; [constructor|auto].
  Qed.
  Lemma dict_gives args cs v ps :
    Forall2 (fun c p => gives args (fst c) v (fst p) /\ gives args (snd c) v (snd p)) cs ps ->
    (forall x, In x (map fst ps) -> hashable x = true) ->
    exists d, dict_of ps d /\ gives args (dict (map req2 cs)) v (VDict d).
  Proof.
    intros HF Hk.
    assert (E : concat (map (fun x => [x]) ps) = ps) by (clear; induction ps; cbn; congruence).
    exists (fold_dict ps []). split; [now apply fold_dict_of|]. rewrite <- E.
    apply (dict_den call getattr args (map (fun p => (Plain (fst p), Plain (snd p))) cs)).
    - clear. induction cs as [|c cs IH]; [reflexivity|]. cbn in *. now rewrite IH.
    - now rewrite E.
    - clear - HF. induction HF as [|c [p q] cs ps [H1 H2] HF IH]; cbn; constructor; auto.
      apply There2; try constructor; auto.
  Qed.

  Lemma ensured_gives args v : forall p c x, ensure_conversion p = Some c -> means args v p x -> gives args c v x.
  Proof.
    assert (All : forall l, Forall (fun p => forall c x, ensure_conversion p = Some c -> means args v p x -> gives args c v x) l ->
      forall cs xs, ensure_each l = Some cs -> Forall2 (means args v) l xs -> Forall2 (fun c x => gives args c v x) cs xs).
    { intros l H. induction H as [|p l Hp Hl IH]; intros cs xs E F; inversion F; subst; cbn in E.
      - injection E as <-. constructor.
      - destruct (ensure_conversion p) as [c|] eqn:Ep; [|discriminate].
        destruct (ensure_each l) as [cs'|] eqn:El; [|discriminate]. injection E as <-. constructor; auto. }
    intros p. induction p as [c0| |l IH|l IH|l IH|l IH|a b c0 IHa IHb IHc|l|g] using pyobj_ind'; intros c x E M.
    - injection E as <-. inversion M; subst; auto.
    - discriminate.
    - rewrite ensure_dict in E. destruct (ensure_pairs l) as [cs|] eqn:El; [|discriminate]. injection E as <-.
      inversion M as [| | | | | | | | |l' ps d F Hk D]; subst.
      assert (G : Forall2 (fun c p => gives args (fst c) v (fst p) /\ gives args (snd c) v (snd p)) cs ps).
      { clear M D Hk. revert cs ps El F. induction IH as [|[k y] l [Hk Hy] Hl IHl]; intros cs ps El F; inversion F; subst; cbn in El.
        - injection El as <-. constructor.
        - destruct (ensure_conversion k) as [ck|] eqn:Ek; [|discriminate].
          destruct (ensure_conversion y) as [cy|] eqn:Ey; [|discriminate].
          destruct (ensure_pairs l) as [cs'|] eqn:El'; [|discriminate]. injection El as <-.
          constructor; [|auto]. cbn in *. split; [apply Hk|apply Hy]; tauto. }
      destruct (dict_gives args cs v ps G Hk) as (d' & D' & Gd). now rewrite (dict_of_unique ps d d' Hk D D').
    - rewrite (proj1 (ensure_coll l)) in E. destruct (ensure_each l) as [cs|] eqn:El; [|discriminate]. injection E as <-.
      inversion M; subst. apply (coll_gives args KList cs v xs); [eapply All; eauto|exact I].
    - rewrite (proj1 (proj2 (ensure_coll l))) in E. destruct (ensure_each l) as [cs|] eqn:El; [|discriminate]. injection E as <-.
      inversion M; subst. apply (coll_gives args KTuple cs v xs); [eapply All; eauto|exact I].
    - rewrite (proj2 (proj2 (ensure_coll l))) in E. destruct (ensure_each l) as [cs|] eqn:El; [|discriminate]. injection E as <-.
      inversion M; subst. apply (coll_gives args KSet cs v xs); [eapply All; eauto|assumption].
    - inversion M.
    - injection E as <-. inversion M; subst; intros ?; reflexivity.
    - injection E as <-. inversion M; subst; intros ?; reflexivity.
  Qed.

  (** C61.  A nested structure of dicts, lists, tuples, sets, constants, other objects
      and conversions, given where a conversion is expected: the converter returns the
      structure with the values of the conversions in their places. *)
  Theorem C61_structures_partial : forall p c args v x,
    ensure_conversion p = Some c -> covered args c -> means args v p x ->
    forall s, just (call_converter c args v s) s x.
  Proof.
    intros p c args v x E C M s. apply (reads call getattr wordch srepr gname pnum pname hname tname Hn); auto.
    eapply ensured_gives; eauto.
  Qed.
End Statements.
Print Assumptions C61_structures_partial.

(** A slice of things that stand for conversions: the call of slice(...) on the start,
    the stop and the step, in this order.  (What Python makes of the slice is outside the model.) *)
Theorem C61_slices : forall start stop step c, ensure_conversion (PSlice start stop step) = Some c ->
  exists a b d, ensure_conversion start = Some a /\ ensure_conversion stop = Some b /\ ensure_conversion step = Some d /\
  forall wordch sr gname pnum pname hname q inp,
  exists q0 q1 q2, let text q c := print sr gname pnum (gen wordch sr gname pnum pname hname false q c inp) in
  text q c = T "(slice(" ++ text q0 a ++ T ", " ++ text q1 b ++ T ", " ++ text q2 d ++ T "))".
Proof.
  intros start stop step c E. cbn in E. destruct (ensure_conversion start) as [a|], (ensure_conversion stop) as [b|],
    (ensure_conversion step) as [d|]; try discriminate E. injection E as <-. exists a, b, d. do 3 (split; [reflexivity|]).
  intros. do 3 eexists. cbn [print gen map]. reflexivity.
Qed.
Print Assumptions C61_slices.

(** It is accepted exactly when no mutation (c.Mut) is in it. *)
Theorem C61_mutations_refused : forall p, ensure_conversion p = None <-> inside PMutation p.
Proof.
  assert (All : forall l, Forall (fun p => ensure_conversion p = None <-> inside PMutation p) l ->
    (ensure_each l = None <-> exists x, In x l /\ inside PMutation x)).
  { intros l H. induction H as [|p l Hp Hl IH]; cbn.
    - split; [discriminate|intros (x & [] & _)].
    - destruct (ensure_conversion p) as [c|] eqn:Ep.
      + destruct (ensure_each l) as [cs|].
        * split; [discriminate|]. intros (x & [<-|Hx] & Ix); [apply Hp in Ix; discriminate|].
          assert (X : Some cs = None) by (apply IH; eauto); discriminate X.
        * split; [|auto]. intros _. destruct (proj1 IH eq_refl) as (x & Hx & Ix). eauto.
      + split; [|auto]. intros _. exists p. split; auto. now apply Hp. }
  intros p. induction p as [c0| |l IH|l IH|l IH|l IH|a b c0 IHa IHb IHc|l|g] using pyobj_ind'.
  - split; [discriminate|]. inversion 1.
  - split; [constructor|reflexivity].
  - rewrite ensure_dict.
    assert (E : ensure_pairs l = None <-> exists k x, In (k, x) l /\ (inside PMutation k \/ inside PMutation x)).
    { induction IH as [|[k y] l [Hk Hy] Hl IHl]; cbn.
      - split; [discriminate|intros (k & x & [] & _)].
      - cbn in Hk, Hy. destruct (ensure_conversion k) as [ck|].
        2:{ split; [|auto]. intros _. exists k, y. split; auto. left. now apply Hk. }
        destruct (ensure_conversion y) as [cy|].
        2:{ split; [|auto]. intros _. exists k, y. split; auto. right. now apply Hy. }
        destruct (ensure_pairs l) as [cs|].
        + split; [discriminate|]. intros (k' & x & [E|Hx] & Ix).
          * injection E as <- <-. destruct Ix as [Ix|Ix]; [apply Hk in Ix|apply Hy in Ix]; discriminate.
          * assert (X : Some cs = None) by (apply IHl; eauto 6); discriminate X.
        + split; [|auto]. intros _. destruct (proj1 IHl eq_refl) as (k' & x & Hx & Ix). eauto 6. }
    destruct (ensure_pairs l) as [cs|]; cbn.
    + split; [discriminate|]. intros Hi. assert (X : Some cs = None) by (apply E; inversion Hi; subst; eauto 6); discriminate X.
    + split; [|auto]. intros _. destruct (proj1 E eq_refl) as (k & x & Hx & [Ix|Ix]); [eapply In_key|eapply In_value]; eauto.
  - rewrite (proj1 (ensure_coll l)). pose proof (All l IH) as E. destruct (ensure_each l) as [cs|]; cbn.
    + split; [discriminate|]. intros Hi. assert (X : Some cs = None) by (apply E; inversion Hi; subst; eauto); discriminate X.
    + split; [|auto]. intros _. destruct (proj1 E eq_refl) as (x & Hx & Ix). eapply In_list; eauto.
  - rewrite (proj1 (proj2 (ensure_coll l))). pose proof (All l IH) as E. destruct (ensure_each l) as [cs|]; cbn.
    + split; [discriminate|]. intros Hi. assert (X : Some cs = None) by (apply E; inversion Hi; subst; eauto); discriminate X.
    + split; [|auto]. intros _. destruct (proj1 E eq_refl) as (x & Hx & Ix). eapply In_tuple; eauto.
  - rewrite (proj2 (proj2 (ensure_coll l))). pose proof (All l IH) as E. destruct (ensure_each l) as [cs|]; cbn.
    + split; [discriminate|]. intros Hi. assert (X : Some cs = None) by (apply E; inversion Hi; subst; eauto); discriminate X.
    + split; [|auto]. intros _. destruct (proj1 E eq_refl) as (x & Hx & Ix). eapply In_set; eauto.
  - cbn. destruct (ensure_conversion a) as [ca|].
    2:{ split; [|auto]. intros _. apply In_start. now apply IHa. }
    destruct (ensure_conversion b) as [cb|].
    2:{ split; [|auto]. intros _. apply In_stop. now apply IHb. }
    destruct (ensure_conversion c0) as [cc|].
    2:{ split; [|auto]. intros _. apply In_step. now apply IHc. }
    split; [discriminate|]. intros Hi. inversion Hi; subst; [apply IHa in H0|apply IHb in H0|apply IHc in H0]; discriminate.
  - split; [discriminate|]. inversion 1.
  - split; [discriminate|]. inversion 1.
Qed.
Print Assumptions C61_mutations_refused.

(** *** instances *)
(* {"a": [c.this() + 1, None], 2: (True, {c.this(), 7, 7}), "a": (f,)} *)
Definition demo_struct : pyobj :=
  PDictionary [(PConstant (LStr (T "a")), PListing [PConversion (COp (OBin (T "+")) [CThis; int 1]); PConstant LNone]);
               (PConstant (LInt 2), PTupling [PConstant (LBool true); PSetting [PConversion CThis; PConstant (LInt 7); PConstant (LInt 7)]]);
               (PConversion (CLit (LStr (T "a"))), PTupling [PObject 0])].
Example C61_instance :
  let x := VDict [(VStr "a", VTuple [VObj 0]); (VInt 2, VTuple [VBool true; VSet [VInt 5; VInt 7]])] in
  exists c, ensure_conversion demo_struct = Some c /\ covered pn tn [] c /\
    means tcall tattr [] (VInt 5) demo_struct x /\ tconv c [] (VInt 5) = ([], Val x).
Proof.
  eexists. split; [reflexivity|]. split; [split; [intros y []|vm_compute; reflexivity]|]. split; [|vm_compute; reflexivity].
  eapply M_dict with (ps := [(VStr "a", VList [VInt 6; VNone]);
                             (VInt 2, VTuple [VBool true; VSet [VInt 5; VInt 7]]); (VStr "a", VTuple [VObj 0])]).
  - apply Forall2_cons; [|apply Forall2_cons; [|apply Forall2_cons; [|constructor]]]; cbn [fst snd].
    + split; [exact (M_str _ _ _ _ (T "a"))|]. apply M_list. apply Forall2_cons; [|apply Forall2_cons; [|constructor]].
      * apply M_conversion. instance_gives.
      * apply M_none.
    + split; [apply M_int|]. apply M_tuple; [discriminate|]. apply Forall2_cons; [apply M_bool|].
      apply Forall2_cons; [|constructor].
      change (VSet [VInt 5; VInt 7]) with (VSet (distinct [VInt 5; VInt 7; VInt 7])). apply M_set; [discriminate| |].
      * apply Forall2_cons; [apply M_conversion; instance_gives|]. apply Forall2_cons; [apply M_int|].
        apply Forall2_cons; [apply M_int|constructor].
      * intros y [<-|[<-|[<-|[]]]]; reflexivity.
    + split; [apply M_conversion; instance_gives|]. apply M_tuple; [discriminate|]. apply Forall2_cons; [apply M_object|constructor].
  - intros y [<-|[<-|[<-|[]]]]; reflexivity.
  - split; [reflexivity|]. intros k _. cbn [dfind last_value]. destruct (py_eq (VStr "a") k), (py_eq (VInt 2) k); reflexivity.
Qed.
Example C61_refused : ensure_conversion (PListing [PConstant LNone; PTupling [PMutation]]) = None.
Proof. reflexivity. Qed.

(** The empty tuple and the empty set, plain or nested, stand for text that Python
    does not read, and for a dict. *)
Theorem C61_empty_refuted : forall sr gname pnum pname hname q inp,
  let text c := print sr gname pnum (gen word sr gname pnum pname hname false q c inp) in
  exists t s d, ensure_conversion (PTupling []) = Some t /\ ensure_conversion (PSetting []) = Some s /\
    ensure_conversion (PDictionary []) = Some d /\
    text t = T "(,)" /\ text s = text d /\ text d = T "{}".
Proof.
  intros. exists (coll KTuple []), (coll KSet []), (dict []).
  split; [reflexivity|]. split; [reflexivity|]. split; [reflexivity|].
  split; [apply C23_empty_tuple_refuted|]. destruct (C23_empty_set_refuted sr gname pnum pname hname q inp) as [A B].
  split; [exact A|]. transitivity (text (coll KSet [])); [symmetry; exact A|exact B].
Qed.
Print Assumptions C61_empty_refuted.
