From Coq Require Import String List Bool Arith Lia.
From Verif Require Import Model_Options Spec_Options.
Import ListNotations.

Section Proofs.
  Context {Val : Type}.
  Variable defaults : list (string * Val).
  Notation getattr := (getattr defaults).
  Notation dflt := (assoc defaults).

  Definition declared (n : string) : Prop := In n (map fst defaults).

  Lemma assoc_in (d : list (string * Val)) n : In n (map fst d) <-> assoc d n <> None.
  Proof.
    induction d as [|[n' v] d IH]; simpl; [intuition congruence|].
    destruct (string_dec n n') as [->|ne]; [intuition congruence|].
    rewrite <- IH. intuition congruence.
  Qed.

  Lemma clone_fold o (l : list (string * Val)) acc n :
    (forall x, In x (map fst l) -> getattr o x <> None) ->
    assoc (fold_left (fun acc nv => match getattr o (fst nv) with
                                    | Some v => setattr acc (fst nv) v
                                    | None => acc end) l acc) n =
    if in_dec string_dec n (map fst l) then getattr o n else assoc acc n.
  Proof.
    revert acc. induction l as [|[x v] l IH]; intros acc H; simpl; auto.
    rewrite IH by (intros; apply H; right; auto).
    destruct (string_dec x n) as [->|ne].
    - destruct (in_dec string_dec n (map fst l)); auto.
      specialize (H n (or_introl eq_refl)). destruct (getattr o n); [|congruence].
      simpl. destruct (string_dec n n); congruence.
    - destruct (in_dec string_dec n (map fst l)); auto.
      specialize (H x (or_introl eq_refl)). destruct (getattr o x); [|congruence].
      simpl. destruct (string_dec n x); congruence.
  Qed.

  Lemma getattr_declared o n : declared n -> getattr o n <> None.
  Proof.
    unfold declared, Model_Options.getattr. intros H. apply assoc_in in H.
    destruct (assoc o n); congruence.
  Qed.

  Lemma getattr_clone o n : declared n -> getattr (clone defaults o) n = getattr o n.
  Proof.
    intros H. unfold Model_Options.getattr at 1. unfold clone.
    rewrite clone_fold by (intros; apply getattr_declared; auto).
    destruct (in_dec string_dec n (map fst defaults)); [|contradiction].
    destruct (getattr o n) eqn:E; auto. exfalso. eapply getattr_declared; eauto.
  Qed.

  Lemma getattr_setattr o n v n' :
    getattr (setattr o n v) n' = if string_dec n' n then Some v else getattr o n'.
  Proof. unfold Model_Options.getattr, setattr. simpl. destruct (string_dec n' n); auto. Qed.

  Lemma fold_defaults_assoc (l : list (string * Val)) : forall acc n,
    NoDup (map fst l) ->
    assoc (fold_left (fun acc nv => setattr acc (fst nv) (snd nv)) l acc) n =
    match assoc l n with Some v => Some v | None => assoc acc n end.
  Proof.
    induction l as [|[x v] l IH]; intros acc n Hnd; simpl; auto.
    inversion Hnd; subst. rewrite IH by auto.
    destruct (string_dec n x) as [->|ne].
    - destruct (assoc l x) eqn:E.
      + exfalso. apply H1. apply assoc_in. congruence.
      + simpl. destruct (string_dec x x); congruence.
    - destruct (assoc l n); auto. simpl. destruct (string_dec n x); congruence.
  Qed.

  Lemma getattr_to_defaults_all o n : NoDup (map fst defaults) -> declared n ->
    getattr (to_defaults defaults o None) n = dflt n.
  Proof.
    intros Hnd H. unfold Model_Options.getattr, to_defaults.
    rewrite fold_defaults_assoc by auto. apply assoc_in in H.
    destruct (assoc defaults n); congruence.
  Qed.
  Lemma getattr_to_defaults_one o n n' : declared n ->
    getattr (to_defaults defaults o (Some n)) n' =
    if string_dec n' n then dflt n else getattr o n'.
  Proof.
    intros H. unfold to_defaults. apply assoc_in in H.
    destruct (assoc defaults n) eqn:E; [|congruence].
    rewrite getattr_setattr. auto.
  Qed.

  Lemma nth_update (l : list (@inst Val)) : forall i f j,
    nth j (update_nth l i f) [] =
    if Nat.eqb i j then (if Nat.ltb i (length l) then f (nth j l []) else nth j l [])
    else nth j l [].
  Proof.
    induction l as [|x l IH]; intros [|i] f [|j]; simpl; auto.
    - destruct (Nat.eqb i j); auto.
    - rewrite IH. destruct (Nat.eqb i j); auto.
  Qed.
  Lemma length_update (l : list (@inst Val)) : forall i f,
    length (update_nth l i f) = length l.
  Proof. induction l; intros [|i] f; simpl; auto. Qed.

  (** ---- inheritance and locality, at any depth ---- *)
  Lemma enter_inherits s n : declared n ->
    (forall i, options s = Some i -> i < length (objs s)) ->
    get_option_value defaults (enter defaults s) n = get_option_value defaults s n.
  Proof.
    intros H Hi. unfold get_option_value, enter. cbn [options]. unfold obj. cbn [objs].
    rewrite app_nth2 by lia. rewrite Nat.sub_diag. simpl.
    destruct (options s) as [i|].
    - apply getattr_clone; auto.
    - reflexivity.
  Qed.

  Definition bounded (s : @tls Val) : Prop :=
    (forall i, options s = Some i -> i < length (objs s)) /\
    (forall i, prev_options s = Some i -> i < length (objs s)).

  Lemma step_bounded o s : bounded s -> bounded (fst (step defaults o s)).
  Proof.
    intros [H1 H2]. destruct o; simpl; unfold bounded; cbn [objs options prev_options];
      rewrite ?length_update; auto.
    - unfold enter; cbn [objs options prev_options]. rewrite app_length. simpl. split.
      + intros i Hi. injection Hi. lia.
      + intros i Hi. apply H1 in Hi. lia.
    - split; [auto|discriminate].
  Qed.
  Lemma run_bounded ops : forall s, bounded s -> bounded (fst (run defaults ops s)).
  Proof.
    induction ops as [|o ops IH]; intros s H; simpl; auto.
    destruct (step defaults o s) as [s1 out1] eqn:E.
    specialize (IH s1). destruct (run defaults ops s1) as [s2 out2]. simpl in *.
    apply IH. replace s1 with (fst (step defaults o s)) by (rewrite E; auto).
    apply step_bounded; auto.
  Qed.
  Lemma bounded0 : bounded tls0.
  Proof. split; discriminate. Qed.

  (** ---- refinement, at most two open blocks ---- *)
  Hypothesis defaults_nodup : NoDup (map fst defaults).

  Definition same (o : list (string * Val)) (m : string -> option Val) : Prop :=
    forall n, declared n -> getattr o n = m n.

  Definition slots (st : list nat) : option (option nat * option nat) :=
    match st with
    | [] => Some (None, None)
    | [a] => Some (Some a, None)
    | [b; a] => Some (Some b, Some a)
    | _ => None
    end.

  Record R (s : @tls Val) (t : @sstate Val) : Prop := {
    R_len : length (objs s) = length (maps t);
    R_maps : forall i, i < length (maps t) -> same (obj s i) (smap dflt t i);
    R_slots : slots (stack t) = Some (options s, prev_options s);
    R_stack : forall i, In i (stack t) -> i < length (maps t)
  }.

  Lemma nth_upd (l : list (string -> option Val)) : forall i f j,
    nth j (upd l i f) dflt =
    if Nat.eqb i j then (if Nat.ltb i (length l) then f (nth j l dflt) else nth j l dflt)
    else nth j l dflt.
  Proof.
    induction l as [|x l IH]; intros [|i] f [|j]; simpl; auto.
    - destruct (Nat.eqb i j); auto.
    - rewrite IH. destruct (Nat.eqb i j); auto.
  Qed.
  Lemma length_upd (l : list (string -> option Val)) : forall i f,
    length (upd l i f) = length l.
  Proof. induction l; intros [|i] f; simpl; auto. Qed.

  Lemma R_read s t n : R s t -> declared n ->
    get_option_value defaults s n = visible dflt t n.
  Proof.
    intros [H1 H2 H3 H4] Hn. unfold get_option_value, visible.
    destruct (stack t) as [|b [|a [|? ?]]]; simpl in H3; inversion H3; subst; auto.
    - apply H2; auto. apply H4. left; auto.
    - apply H2; auto. apply H4. left; auto.
  Qed.

  Lemma R_update s t h f g : R s t ->
    (forall o m, same o m -> same (f o) (g m)) ->
    R (mkTls (update_nth (objs s) h f) (options s) (prev_options s))
      (mkS (upd (maps t) h g) (stack t)).
  Proof.
    intros [H1 H2 H3 H4] H. constructor; cbn [objs maps stack options prev_options]; auto.
    - rewrite length_update, length_upd; auto.
    - rewrite length_upd. intros i Hi. unfold obj, smap. cbn [objs maps].
      rewrite nth_update, nth_upd, H1.
      destruct (Nat.eqb h i) eqn:E; [|apply H2; auto].
      apply Nat.eqb_eq in E; subst. rewrite (proj2 (Nat.ltb_lt _ _) Hi).
      apply H. apply H2. auto.
    - rewrite length_upd. auto.
  Qed.

  Lemma R0 : R tls0 s0.
  Proof. constructor; simpl; auto; intuition lia. Qed.

  Lemma refine ops : forall s t, R s t ->
    nested declared 2 (length (stack t)) ops ->
    snd (run defaults ops s) = snd (srun dflt ops t).
  Proof.
    induction ops as [|o ops IH]; intros s t HR Hn; auto.
    assert (G : forall s' t' out, R s' t' -> nested declared 2 (length (stack t')) ops ->
              snd (let '(s2, out2) := run defaults ops s' in (s2, out ++ out2)) =
              snd (let '(s2, out2) := srun dflt ops t' in (s2, out ++ out2))).
    { intros s' t' out HR' Hn'. specialize (IH s' t' HR' Hn').
      destruct (run defaults ops s'), (srun dflt ops t'). simpl in *. congruence. }
    destruct o as [| |h n v|h n|n]; cbn [run srun step sstep nested] in *.
    - destruct Hn as [Hd Hn]. apply G; auto.
      pose proof HR as HR0.
      destruct HR as [H1 H2 H3 H4]. constructor; unfold enter; cbn [objs maps stack options prev_options].
      + rewrite !app_length. simpl. lia.
      + intros i Hi. rewrite app_length in Hi. simpl in Hi. unfold obj, smap. cbn [objs maps].
        destruct (Nat.eq_dec i (length (maps t))) as [->|ne].
        * rewrite !app_nth2 by lia. rewrite H1, Nat.sub_diag. simpl.
          intros n Hnd. rewrite <- (R_read s t n HR0 Hnd).
          unfold get_option_value. destruct (options s); auto. apply getattr_clone; auto.
        * rewrite !app_nth1 by lia. apply H2. lia.
      + destruct (stack t) as [|b [|a [|? ?]]]; simpl in H3; inversion H3; subst; simpl in *; try lia;
          rewrite H1; auto.
      + intros i [<-|Hi]; rewrite app_length; simpl; [lia|]. apply H4 in Hi. lia.
    - destruct (stack t) as [|b st] eqn:Es; simpl in Hn; [contradiction|].
      apply G.
      + destruct HR as [H1 H2 H3 H4]. constructor; unfold exit; cbn [objs maps stack options prev_options]; auto.
        * rewrite Es in *. destruct st as [|a [|? ?]]; simpl in H3; inversion H3; subst; auto.
        * rewrite Es in *. intros i Hi. apply H4. right; auto.
      + cbn [stack tl]. auto.
    - destruct Hn as [Hd Hn]. apply G; auto. apply R_update; auto.
      intros o m Ho n' Hn'. rewrite getattr_setattr. destruct (string_dec n' n); auto.
    - destruct n as [n|].
      + destruct Hn as [Hd Hn]. apply G; auto. apply R_update; auto.
        intros o m Ho n' Hn'. rewrite getattr_to_defaults_one by auto.
        destruct (string_dec n' n); auto.
      + apply G; auto. apply R_update; auto.
        intros o m Ho n' Hn'. apply getattr_to_defaults_all; auto.
    - destruct Hn as [Hd Hn]. rewrite (R_read s t n HR Hd). apply G; auto.
  Qed.

  Lemma refine_lemma ops : nested declared 2 0 ops ->
    snd (run defaults ops tls0) = snd (srun dflt ops s0).
  Proof. intros H. apply refine; auto. apply R0. Qed.
End Proofs.

Section Leaf.
  Context {Val : Type}.
  Variable defaults : list (string * Val).

  Lemma noblock_slots ops : forall s, Forall no_block ops ->
    options (fst (run defaults ops s)) = options s /\ prev_options (fst (run defaults ops s)) = prev_options s.
  Proof.
    induction ops as [|o ops IH]; intros s H; simpl; auto.
    inversion H; subst.
    destruct o; simpl in *; try contradiction;
      (match goal with |- context [run defaults ops ?x] => specialize (IH x H3);
         destruct (run defaults ops x) end; simpl in *; auto).
  Qed.

  Lemma run_app ops1 : forall ops2 (s : @tls Val),
    run defaults (ops1 ++ ops2) s =
    let '(s1, o1) := run defaults ops1 s in
    let '(s2, o2) := run defaults ops2 s1 in (s2, o1 ++ o2).
  Proof.
    induction ops1 as [|o ops1 IH]; intros ops2 s; simpl.
    - destruct (run defaults ops2 s); auto.
    - destruct (step defaults o s) as [s1 o1]. rewrite IH.
      destruct (run defaults ops1 s1) as [s2 o2]. destruct (run defaults ops2 s2) as [s3 o3].
      simpl. rewrite app_assoc. reflexivity.
  Qed.

  Lemma leaf_restores s body : Forall no_block body ->
    options (fst (run defaults (Enter :: body ++ [Exit]) s)) = options s.
  Proof.
    intros H. simpl. rewrite run_app.
    destruct (noblock_slots body (enter defaults s) H) as [_ P].
    destruct (run defaults body (enter defaults s)) as [s1 o1]. simpl in *. auto.
  Qed.
End Leaf.

Section Interleave.
  Context {Val Slot : Type}.
  Variable slot_eq : forall a b : Slot, {a = b} + {a <> b}.
  Variable defaults : Slot -> list (string * Val).

  Lemma proj_map t t' (l : list (option Val)) :
    proj slot_eq t (map (fun v => (t', v)) l) = if slot_eq t' t then l else [].
  Proof.
    induction l as [|x l IH]; simpl; destruct (slot_eq t' t); auto. f_equal; auto.
  Qed.
  Lemma proj_app {A} t (l1 l2 : list (Slot * A)) :
    proj slot_eq t (l1 ++ l2) = proj slot_eq t l1 ++ proj slot_eq t l2.
  Proof.
    induction l1 as [|[t' a] l1 IH]; simpl; auto. destruct (slot_eq t' t); simpl; rewrite IH; auto.
  Qed.

  Lemma interleave sched : forall (w : @world Val Slot) t,
    let '(w', out) := wrun slot_eq defaults sched w in
    let '(s', o) := run (defaults t) (proj slot_eq t sched) (w t) in
    w' t = s' /\ proj slot_eq t out = o.
  Proof.
    induction sched as [|[t' o] sched IH]; intros w t; simpl; auto.
    unfold wstep. destruct (step (defaults t') o (w t')) as [s1 o1] eqn:E1.
    set (w1 := fun t'' => if slot_eq t' t'' then s1 else w t'').
    specialize (IH w1 t). destruct (wrun slot_eq defaults sched w1) as [w2 out2].
    rewrite proj_app, proj_map. unfold w1 in IH.
    destruct (slot_eq t' t) as [->|ne].
    - simpl. rewrite E1. destruct (run (defaults t) (proj slot_eq t sched) s1) as [s3 o3].
      destruct IH as [-> ->]. auto.
    - destruct (run (defaults t) (proj slot_eq t sched) (w t)) as [s3 o3]. destruct IH as [-> ->]. auto.
  Qed.
End Interleave.
