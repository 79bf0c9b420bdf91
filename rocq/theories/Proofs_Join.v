From Coq Require Import String List ZArith Bool Lia.
From Verif Require Import Model_PyVal Proofs_PyVal Model_Join Spec_Join.
Import ListNotations.

Section JInd.
  Variable P : jx -> Prop.
  Hypothesis HL : P JLeft.
  Hypothesis HR : P JRight.
  Hypothesis HA : forall s, P (JArg s).
  Hypothesis HC : forall v, P (JConst v).
  Hypothesis HT : P JThis.
  Hypothesis HI : forall o k, P o -> P k -> P (JItem o k).
  Hypothesis HE : forall l, Forall P l -> P (JEq l).
  Hypothesis HN : forall l, Forall P l -> P (JAnd l).
  Hypothesis HO : forall l, Forall P l -> P (JOr l).
  Hypothesis HP : forall s l, Forall P l -> P (JOp s l).
  Hypothesis HPi : forall a b, P a -> P b -> P (JPipe a b).
  Fixpoint jx_ind' (e : jx) : P e :=
    let all := fix all (l : list jx) : Forall P l :=
      match l with [] => Forall_nil _ | a :: r => Forall_cons _ (jx_ind' a) (all r) end in
    match e with
    | JLeft => HL | JRight => HR | JArg s => HA s | JConst v => HC v | JThis => HT
    | JItem o k => HI o k (jx_ind' o) (jx_ind' k)
    | JEq l => HE l (all l) | JAnd l => HN l (all l) | JOr l => HO l (all l)
    | JOp s l => HP s l (all l)
    | JPipe a b => HPi a b (jx_ind' a) (jx_ind' b)
    end.
End JInd.

Section Eval.
  Variable op : string -> list val -> res val.
  Local Notation ev := (ev op).

  Definition chain E := fix chain (prev : option val) (l : list jx) : res val :=
           match l with
           | [] => Ok (VBool true)
           | a :: r =>
               do x <- ev E a;
               match prev with
               | Some p => if py_eq p x then chain (Some x) r else Ok (VBool false)
               | None => chain (Some x) r
               end
           end.
  Definition all_of E := fix all (last : val) (l : list jx) : res val :=
           match l with
           | [] => Ok last
           | a :: r => do x <- ev E a; if truthy x then all x r else Ok x
           end.
  Definition any_of E := fix any (last : val) (l : list jx) : res val :=
           match l with
           | [] => Ok last
           | a :: r => do x <- ev E a; if truthy x then Ok x else any x r
           end.
  Definition evs E := (fix evs (l : list jx) : res (list val) :=
           match l with [] => Ok [] | a :: r => do x <- ev E a; do xs <- evs r; Ok (x :: xs) end).

  Lemma chain_ext E E' l : Forall (fun e => ev E e = ev E' e) l -> forall p, chain E p l = chain E' p l.
  Proof. induction 1 as [|a r Ha _ IH]; intros p; simpl; auto. rewrite Ha. destruct (ev E' a); simpl; auto. destruct p as [q|]; [|apply IH]. destruct (py_eq q a0); auto. Qed.
  Lemma all_ext E E' l : Forall (fun e => ev E e = ev E' e) l -> forall p, all_of E p l = all_of E' p l.
  Proof. induction 1 as [|a r Ha _ IH]; intros p; simpl; auto. rewrite Ha. destruct (ev E' a); simpl; auto. destruct (truthy a0); auto. Qed.
  Lemma any_ext E E' l : Forall (fun e => ev E e = ev E' e) l -> forall p, any_of E p l = any_of E' p l.
  Proof. induction 1 as [|a r Ha _ IH]; intros p; simpl; auto. rewrite Ha. destruct (ev E' a); simpl; auto. destruct (truthy a0); auto. Qed.
  Lemma evs_ext E E' l : Forall (fun e => ev E e = ev E' e) l -> evs E l = evs E' l.
  Proof. induction 1 as [|a r Ha _ IH]; simpl; auto. rewrite Ha, IH. auto. Qed.

  Lemma existsb_ext_in {A} (f g : A -> bool) l : (forall x, In x l -> f x = g x) -> existsb f l = existsb g l.
  Proof. induction l; simpl; intros H; auto. rewrite H, IHl; auto. Qed.
  Lemma uses_no_names e : forall n n', no_names e = true -> uses_input n e = uses_input n' e.
  Proof.
    induction e using jx_ind'; intros n n' N; simpl in *; try discriminate; auto.
    1,6: apply andb_true_iff in N as [N1 N2]; rewrite (IHe1 n n') by auto; rewrite ?(IHe2 n n') by auto; reflexivity.
    all: rewrite forallb_forall in N; rewrite Forall_forall in H; apply existsb_ext_in; intros; apply H; auto.
  Qed.

  Lemma ev_no_names e : forall E E', no_names e = true -> cur E = cur E' -> args E = args E' -> ev E e = ev E' e.
  Proof.
    induction e using jx_ind'; intros E E' N C A; simpl in *; try discriminate; auto.
    - congruence.
    - apply andb_true_iff in N as [N1 N2]. rewrite (IHe1 E E'), (IHe2 E E'); auto.
    - apply (chain_ext E E'). rewrite Forall_forall in *. intros; apply H; auto. rewrite forallb_forall in N; auto.
    - apply (all_ext E E'). rewrite Forall_forall in *. intros; apply H; auto. rewrite forallb_forall in N; auto.
    - apply (any_ext E E'). rewrite Forall_forall in *. intros; apply H; auto. rewrite forallb_forall in N; auto.
    - pose proof (evs_ext E E' l) as X. unfold evs in X. rewrite X; auto. rewrite Forall_forall in *. intros; apply H; auto. rewrite forallb_forall in N; auto.
    - apply andb_true_iff in N as [N1 N2]. rewrite (IHe1 E E'), (uses_no_names e2 (is_named E) (is_named E')) by auto.
      rewrite (IHe2 (mkEnv (names E) (ev E' e1) (args E)) (mkEnv (names E') (ev E' e1) (args E'))) by auto. auto.
  Qed.

  Definition leftof E := match names E with Some (l, _) => Ok l | None => cur E end.
  Definition rightof E := match names E with Some (_, r) => Ok r | None => cur E end.

  Lemma ev_agree e : forall E E', closed e = true -> args E = args E' ->
    (dep_left e = true -> leftof E = leftof E') -> (dep_right e = true -> rightof E = rightof E') ->
    ev E e = ev E' e.
  Proof.
    assert (LST : forall l E E', Forall (fun e => forall E E', closed e = true -> args E = args E' ->
      (dep_left e = true -> leftof E = leftof E') -> (dep_right e = true -> rightof E = rightof E') -> ev E e = ev E' e) l ->
      forallb closed l = true -> args E = args E' ->
      (existsb dep_left l = true -> leftof E = leftof E') -> (existsb dep_right l = true -> rightof E = rightof E') ->
      Forall (fun e => ev E e = ev E' e) l).
    { intros l E E' H C A L R. rewrite forallb_forall in C. rewrite Forall_forall in *. intros e0 He.
      apply H; auto.
      - intros D. apply L. apply existsb_exists. eauto.
      - intros D. apply R. apply existsb_exists. eauto. }
    induction e using jx_ind'; intros E E' C A L R; simpl in C, L, R; try discriminate.
    - apply L; auto.
    - apply R; auto.
    - simpl. congruence.
    - reflexivity.
    - apply andb_true_iff in C as [C1 C2]. simpl. rewrite (IHe1 E E'), (IHe2 E E'); auto.
      + intros D. apply L. rewrite D. apply orb_true_r.
      + intros D. apply R. rewrite D. apply orb_true_r.
      + intros D. apply L. rewrite D. auto.
      + intros D. apply R. rewrite D. auto.
    - apply (chain_ext E E'); auto.
    - apply (all_ext E E'); auto.
    - apply (any_ext E E'); auto.
    - simpl. pose proof (evs_ext E E' l) as X. unfold evs in X. rewrite X; auto.
    - apply andb_true_iff in C as [C1 C2]. cbn [ev]. rewrite (uses_no_names e2 (is_named E) (is_named E')) by auto.
      rewrite (IHe1 E E'); auto.
      + rewrite (ev_no_names e2 (mkEnv (names E) (ev E' e1) (args E)) (mkEnv (names E') (ev E' e1) (args E'))); auto.
      + intros D. apply L. rewrite D. auto.
      + intros D. apply R. rewrite D. auto.
  Qed.

  (** Truth of the pieces *)
  Lemma ev_bool_true E e : ev_bool op E e = Ok true <-> exists v, ev E e = Ok v /\ truthy v = true.
  Proof.
    unfold ev_bool. destruct (ev E e); simpl; split.
    - intros Q. injection Q as Q. eauto.
    - intros (v & Q & T). injection Q as ->. rewrite T. auto.
    - discriminate.
    - intros (v & Q & _). discriminate.
  Qed.
  Lemma ev_eq_true E a b : ev_bool op E (JEq [a; b]) = Ok true <->
    exists u v, ev E a = Ok u /\ ev E b = Ok v /\ py_eq u v = true.
  Proof.
    unfold ev_bool. simpl. destruct (ev E a) as [u|]; simpl.
    - destruct (ev E b) as [v|]; simpl.
      + destruct (py_eq u v) eqn:Q; simpl; split; try discriminate; eauto 8.
        intros (u' & v' & H1 & H2 & H3). congruence.
      + split; [discriminate|]. intros (? & ? & _ & Q & _). discriminate.
    - split; [discriminate|]. intros (? & ? & Q & _). discriminate.
  Qed.
  Lemma ev_and_true E l : ev_bool op E (JAnd l) = Ok true <-> Forall (fun e => ev_bool op E e = Ok true) l.
  Proof.
    unfold ev_bool at 1. change (ev E (JAnd l)) with (all_of E (VBool true) l).
    assert (G : forall l v, truthy v = true -> ((do w <- all_of E v l; Ok (truthy w)) = Ok true <-> Forall (fun e => ev_bool op E e = Ok true) l)).
    { clear l. induction l as [|a r IH]; intros v T; simpl.
      - rewrite T. split; auto.
      - destruct (ev E a) as [x|] eqn:Ea; simpl.
        + destruct (truthy x) eqn:Tx.
          * rewrite IH by auto. split; [intros F; constructor; auto; apply ev_bool_true; eauto|inversion 1; auto].
          * simpl. rewrite Tx. split; [discriminate|]. inversion 1; subst.
            match goal with H : ev_bool op E a = Ok true |- _ => apply ev_bool_true in H as (w & Q & T2) end. congruence.
        + split; [discriminate|]. inversion 1; subst.
          match goal with H : ev_bool op E a = Ok true |- _ => apply ev_bool_true in H as (w & Q & T2) end. congruence. }
    apply G. auto.
  Qed.
  Lemma ev_all_true E l : ev_all op E l = Ok true <-> Forall (fun e => ev_bool op E e = Ok true) l.
  Proof.
    induction l as [|a r IH]; simpl; [split; auto|].
    destruct (ev_bool op E a) as [[|]|] eqn:Ea; simpl.
    - rewrite IH. split; [constructor; auto|inversion 1; auto].
    - split; [discriminate|]. inversion 1; congruence.
    - split; [discriminate|]. inversion 1; congruence.
  Qed.
End Eval.

(** * Splitting *)
Section Split.
  Variable op : string -> list val -> res val.
  Variable inputs : string -> val.
  Local Notation evb := (ev_bool op).
  Local Notation R1 := (on_row inputs).
  Local Notation P2 := (on_pair inputs).

  (** [agreeS]: the values are equal whichever way they are compared;
      [agreeW]: in one of the two ways. *)
  Definition agreeS x y a b : Prop :=
    exists u v, ev op (R1 x) a = Ok u /\ ev op (R1 y) b = Ok v /\ py_eq u v = true /\ py_eq v u = true.
  Definition agreeW x y a b : Prop :=
    exists u v, ev op (R1 x) a = Ok u /\ ev op (R1 y) b = Ok v /\ (py_eq u v = true \/ py_eq v u = true).
  Definition sat (ag : robj -> robj -> jx -> jx -> Prop) (c : conds) (x y : robj) : Prop :=
    Forall2 (ag x y) (left_hash c) (right_hash c) /\
    Forall (fun p => evb (R1 x) p = Ok true) (left_collection c ++ left_row c) /\
    Forall (fun p => evb (R1 y) p = Ok true) (right_collection c ++ right_row c) /\
    Forall (fun p => evb (on_nothing inputs) p = Ok true) (pre c) /\
    Forall (fun p => evb (P2 x y) p = Ok true) (inner_loop c).

  Lemma ev_left e x y : closed e = true -> dep_right e = false -> ev op (R1 x) e = ev op (P2 x y) e.
  Proof. intros C D. apply ev_agree; auto. intros Q. congruence. Qed.
  Lemma ev_right e x y : closed e = true -> dep_left e = false -> ev op (R1 y) e = ev op (P2 x y) e.
  Proof. intros C D. apply ev_agree; auto. intros Q. congruence. Qed.
  Lemma ev_none e x y : closed e = true -> dep_left e = false -> dep_right e = false ->
    ev op (on_nothing inputs) e = ev op (P2 x y) e.
  Proof. intros C D D'. apply ev_agree; auto; intros Q; congruence. Qed.

  Lemma Forall_snoc {A} (P : A -> Prop) l a : Forall P (l ++ [a]) <-> Forall P l /\ P a.
  Proof. rewrite Forall_app. split; intros [H1 H2]; split; auto. inversion H2; auto. Qed.

  Lemma Forall_one {A} (P : A -> Prop) a : Forall P [a] <-> P a.
  Proof. split; [inversion 1; auto|auto]. Qed.

  Lemma evb_left e x y : closed e = true -> dep_right e = false -> (evb (R1 x) e = Ok true <-> evb (P2 x y) e = Ok true).
  Proof. intros. unfold ev_bool. rewrite (ev_left e x y); tauto. Qed.
  Lemma evb_right e x y : closed e = true -> dep_left e = false -> (evb (R1 y) e = Ok true <-> evb (P2 x y) e = Ok true).
  Proof. intros. unfold ev_bool. rewrite (ev_right e x y); tauto. Qed.
  Lemma evb_none e x y : closed e = true -> dep_left e = false -> dep_right e = false -> (evb (on_nothing inputs) e = Ok true <-> evb (P2 x y) e = Ok true).
  Proof. intros. unfold ev_bool. rewrite (ev_none e x y); tauto. Qed.

  Section Ag.
  Variable ag : robj -> robj -> jx -> jx -> Prop.

  Lemma sat_add_left h c e x y : closed e = true -> dep_right e = false ->
    (sat ag (add_left h c e) x y <-> sat ag c x y /\ evb (P2 x y) e = Ok true).
  Proof.
    intros C D. unfold add_left, sat. rewrite <- (evb_left e x y C D).
    destruct (left_join h); cbn [left_hash right_hash left_collection left_row right_collection right_row pre inner_loop];
      rewrite ?Forall_app, ?Forall_one; tauto.
  Qed.
  Lemma sat_add_right h c e x y : closed e = true -> dep_left e = false ->
    (sat ag (add_right h c e) x y <-> sat ag c x y /\ evb (P2 x y) e = Ok true).
  Proof.
    intros C D. unfold add_right, sat. rewrite <- (evb_right e x y C D).
    destruct (right_join h); cbn [left_hash right_hash left_collection left_row right_collection right_row pre inner_loop];
      rewrite ?Forall_app, ?Forall_one; tauto.
  Qed.
  Lemma sat_add_pre c e x y : closed e = true -> dep_left e = false -> dep_right e = false ->
    (sat ag (add_pre c e) x y <-> sat ag c x y /\ evb (P2 x y) e = Ok true).
  Proof.
    intros C D D'. unfold add_pre, sat. rewrite <- (evb_none e x y C D D').
    cbn [left_hash right_hash left_collection left_row right_collection right_row pre inner_loop].
    rewrite ?Forall_snoc; tauto.
  Qed.
  Lemma sat_add_inner c e x y : (sat ag (add_inner c e) x y <-> sat ag c x y /\ evb (P2 x y) e = Ok true).
  Proof.
    unfold add_inner, sat.
    cbn [left_hash right_hash left_collection left_row right_collection right_row pre inner_loop].
    rewrite ?Forall_snoc; tauto.
  Qed.
  Lemma sat_add_hash c a b x y : sat ag (add_hash c a b) x y <-> sat ag c x y /\ ag x y a b.
  Proof.
    unfold add_hash, sat.
    cbn [left_hash right_hash left_collection left_row right_collection right_row pre inner_loop].
    assert (G : Forall2 (ag x y) (left_hash c ++ [a]) (right_hash c ++ [b]) <->
                Forall2 (ag x y) (left_hash c) (right_hash c) /\ ag x y a b).
    { split.
      - intros F. apply Forall2_app_inv_l in F as (l1 & l2 & F1 & F2 & E).
        inversion F2 as [|? ? ? ? Q F3]; subst. inversion F3; subst. apply app_inj_tail in E as [-> ->]. auto.
      - intros [F Q]. apply Forall2_app; auto. }
    tauto.
  Qed.

  Lemma other_sat h c e x y : closed e = true -> (sat ag (consume_other h c e) x y <-> sat ag c x y /\ evb (P2 x y) e = Ok true).
  Proof.
    intros C. unfold consume_other. destruct (dep_left e) eqn:L, (dep_right e) eqn:R.
    - apply sat_add_inner.
    - apply sat_add_left; auto.
    - apply sat_add_right; auto.
    - apply sat_add_pre; auto.
  Qed.

  Lemma eq_cases h c l x y : closed (JEq l) = true ->
    (sat ag (consume_eq h c (JEq l) l) x y <-> sat ag c x y /\ evb (P2 x y) (JEq l) = Ok true) \/
    (exists a b, l = [a; b] /\
       (((sat ag (consume_eq h c (JEq l) l) x y <-> sat ag c x y /\ ag x y a b) /\
         (forall E : True, ev op (R1 x) a = ev op (P2 x y) a /\ ev op (R1 y) b = ev op (P2 x y) b)) \/
        ((sat ag (consume_eq h c (JEq l) l) x y <-> sat ag c x y /\ ag x y b a) /\
         (forall E : True, ev op (R1 x) b = ev op (P2 x y) b /\ ev op (R1 y) a = ev op (P2 x y) a)))).
  Proof.
    intros C. unfold consume_eq. destruct l as [|a [|b [|c' r]]]; try (left; apply sat_add_inner).
    destruct ((dep_left a && dep_right a) || (dep_left b && dep_right b)) eqn:B; [left; apply sat_add_inner|].
    apply orb_false_iff in B as [B1 B2].
    assert (C' := C). simpl in C'. apply andb_true_iff in C' as [Ca C']. apply andb_true_iff in C' as [Cb _].
    destruct ((dep_left a || dep_left b) && (dep_right a || dep_right b)) eqn:T.
    - right. exists a, b. split; auto. apply andb_true_iff in T as [T1 T2].
      destruct (dep_left a) eqn:La.
      + destruct (dep_right a) eqn:Ra; [discriminate|]. simpl in T2. rewrite T2 in B2. rewrite andb_true_r in B2.
        left. split; [apply sat_add_hash|]. intros _. split; [apply ev_left|apply ev_right]; auto.
      + simpl in T1. rewrite T1 in B2. simpl in B2. rewrite B2 in T2. rewrite orb_false_r in T2.
        right. split; [apply sat_add_hash|]. intros _. split; [apply ev_left|apply ev_right]; auto.
    - left. apply andb_false_iff in T.
      assert (DL : dep_left (JEq [a; b]) = dep_left a || dep_left b) by (simpl; rewrite orb_false_r; auto).
      assert (DR : dep_right (JEq [a; b]) = dep_right a || dep_right b) by (simpl; rewrite orb_false_r; auto).
      destruct (dep_left a || dep_left b) eqn:L.
      + apply sat_add_left; auto. rewrite DR. destruct T; congruence.
      + destruct (dep_right a || dep_right b) eqn:R.
        * apply sat_add_right; auto.
        * apply sat_add_pre; auto.
  Qed.
  End Ag.

  Lemma eq_sat_S h c l x y : closed (JEq l) = true ->
    sat agreeS (consume_eq h c (JEq l) l) x y -> sat agreeS c x y /\ evb (P2 x y) (JEq l) = Ok true.
  Proof.
    intros C. destruct (eq_cases agreeS h c l x y C) as [->|(a & b & -> & [(-> & Q)|(-> & Q)])]; auto;
      destruct (Q I) as [Q1 Q2]; intros (S & u & v & H1 & H2 & H3 & H4); split; auto; apply ev_eq_true.
    - exists u, v. rewrite <- Q1, <- Q2. auto.
    - exists v, u. rewrite <- Q1, <- Q2. auto.
  Qed.
  Lemma eq_sat_W h c l x y : closed (JEq l) = true ->
    sat agreeW c x y /\ evb (P2 x y) (JEq l) = Ok true -> sat agreeW (consume_eq h c (JEq l) l) x y.
  Proof.
    intros C. destruct (eq_cases agreeW h c l x y C) as [->|(a & b & -> & [(-> & Q)|(-> & Q)])]; auto;
      destruct (Q I) as [Q1 Q2]; intros (S & H); split; auto; apply ev_eq_true in H as (u & v & H1 & H2 & H3).
    - exists u, v. rewrite Q1, Q2. auto.
    - exists v, u. rewrite Q1, Q2. auto.
  Qed.

  Lemma consume_pipe h a b : forall c w, unpiped (JPipe a b) = true -> consume h c w (JPipe a b) = consume_other h c w.
  Proof.
    revert a. induction b; intros a0 c w U; simpl in *; auto; try discriminate.
  Qed.

  Lemma consume_sat_S h e x y : forall c, closed e = true -> unpiped e = true ->
    sat agreeS (consume h c e e) x y -> sat agreeS c x y /\ evb (P2 x y) e = Ok true.
  Proof.
    induction e using jx_ind'; intros c C U S; try (apply other_sat in S; [exact S|exact C]).
    - eapply eq_sat_S; eauto.
    - rewrite ev_and_true. cbn [consume] in S.
      revert c S. simpl in C, U. induction l as [|a r IH]; intros c S.
      + auto.
      + inversion H as [|? ? Ha Hr]; subst. simpl in C, U.
        apply andb_true_iff in C as [Ca Cr]. apply andb_true_iff in U as [Ua Ur].
        destruct (IH Hr Cr Ur _ S) as [S1 S2]. destruct (Ha _ Ca Ua S1). auto.
    - rewrite consume_pipe in S by auto. apply other_sat in S; auto.
  Qed.
  Lemma consume_sat_W h e x y : forall c, closed e = true -> unpiped e = true ->
    sat agreeW c x y -> evb (P2 x y) e = Ok true -> sat agreeW (consume h c e e) x y.
  Proof.
    induction e using jx_ind'; intros c C U S T; try (apply other_sat; [exact C|split; [exact S|exact T]]).
    - eapply eq_sat_W; eauto.
    - rewrite ev_and_true in T. cbn [consume].
      revert c S. simpl in C, U. induction l as [|a r IH]; intros c S.
      + auto.
      + inversion H as [|? ? Ha Hr]; inversion T as [|? ? Ta Tr]; subst. simpl in C, U.
        apply andb_true_iff in C as [Ca Cr]. apply andb_true_iff in U as [Ua Ur].
        apply (IH Hr Cr Ur Tr). apply Ha; auto.
    - rewrite consume_pipe by auto. apply other_sat; auto.
  Qed.

  Lemma sat_no_conds ag x y : sat ag no_conds x y.
  Proof. repeat split; simpl; constructor. Qed.
  Lemma holds_evb e x y : holds op inputs (Some e) x y = true <-> evb (P2 x y) e = Ok true.
  Proof.
    unfold holds, ev_bool. destruct (ev op (P2 x y) e); simpl; split; intros H; try discriminate.
    - rewrite H; auto.
    - injection H; auto.
  Qed.
  Lemma split_S h cond x y : proper cond -> sat agreeS (from_condition h cond) x y -> holds op inputs cond x y = true.
  Proof.
    destruct cond as [e|]; simpl; auto.
    intros [C U] S. apply (holds_evb e x y). eapply consume_sat_S; eauto.
  Qed.
  Lemma split_W h cond x y : proper cond -> holds op inputs cond x y = true -> sat agreeW (from_condition h cond) x y.
  Proof.
    destruct cond as [e|]; simpl.
    - intros [C U] S. apply (holds_evb e x y) in S. apply consume_sat_W; auto. apply sat_no_conds.
    - intros _ _. apply sat_no_conds.
  Qed.

  (** What ends up in which list *)
  Lemma from_parts h (P : conds -> list jx -> Prop) :
    P no_conds [] ->
    (forall c l e, is_key e = false -> P c l -> P (consume_other h c e) (l ++ [e])) ->
    (forall c l args, P c l -> P (consume_eq h c (JEq args) args) (l ++ [JEq args])) ->
    forall cond, proper cond -> P (from_condition h cond) (cond_parts cond).
  Proof.
    intros P0 PO PE [e|] Hp; simpl; auto. destruct Hp as [_ U].
    assert (G : forall e, unpiped e = true -> forall c l, P c l -> P (consume h c e e) (l ++ parts e)).
    { clear e U. induction e using jx_ind'; intros U c l0 Hc; try (apply PO; [reflexivity|exact Hc]).
      - apply PE; auto.
      - simpl. simpl in U. revert c l0 Hc. induction l as [|a r IH]; intros c l0 Hc; simpl.
        + rewrite app_nil_r; auto.
        + inversion H; subst. simpl in U. apply andb_true_iff in U as [Ua Ur]. rewrite app_assoc. apply IH; auto.
      - rewrite consume_pipe by auto. apply PO; auto. }
    apply (G e U no_conds []); auto.
  Qed.
End Split.
