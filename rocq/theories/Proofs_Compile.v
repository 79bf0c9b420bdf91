(** Compiling in several threads: the invariant. *)
From Coq Require Import String List Bool Arith Lia.
From Verif Require Import Model_Heap Spec_Heap Proofs_Heap Model_Compile Spec_Compile.
Import ListNotations.

Section P.
  Context {P : Type}.
  Variable gen : heap P -> nat -> bool -> string -> option string.
  Variable pipe_name : string -> string.
  Notation step := (step gen pipe_name).
  Notation interleave := (interleave gen pipe_name).

  (** *** stages *)
  Lemma stages_are_det (h : heap P) i l : stages_are h i l -> forall l', stages_are h i l' -> l = l'.
  Proof.
    induction 1 as [i o H E|i o p l H E _ IH]; intros l' K; inversion K; subst; auto; try congruence.
    f_equal. apply IH. assert (p = p0) by congruence. subst; auto.
  Qed.
  Lemma stages_are_head (h : heap P) i l : stages_are h i l -> exists r, l = i :: r.
  Proof. destruct 1; eauto. Qed.
  Lemma stages_are_lt (h : heap P) i l : stages_are h i l -> forall k, In k l -> k < length h.
  Proof.
    induction 1 as [i o H E|i o p l H E _ IH]; intros k [<-|K]; auto; try (apply nth_error_Some; congruence).
    destruct K.
  Qed.
  Lemma stages_are_from (h : heap P) i l : stages_are h i l -> forall l1 k l2, l = l1 ++ k :: l2 -> stages_are h k (k :: l2).
  Proof.
    induction 1 as [i o H E|i o p l H E K IH]; intros l1 k l2 Q.
    - destruct l1 as [|x [|y l1]]; inversion Q; subst. eapply only; eauto.
    - destruct l1 as [|x l1]; inversion Q; subst; [eapply after; eauto|]. eapply IH; eauto.
  Qed.
  Lemma stages_are_nodup (h : heap P) i l : stages_are h i l -> NoDup l.
  Proof.
    induction 1 as [i o H E|i o p l H E K IH]; [repeat constructor; auto|].
    constructor; auto. intros I. apply in_split in I as (l1 & l2 & Q).
    assert (A : stages_are h i (i :: l2)) by (eapply stages_are_from with (l1 := l1); eauto).
    assert (B : stages_are h i (i :: l)) by (eapply after; eauto).
    pose proof (stages_are_det _ _ _ A _ B) as C. injection C as C. subst l. apply (f_equal (@length nat)) in C.
    rewrite app_length in C. cbn in C. lia.
  Qed.
  Lemma stages_are_stages (h : heap P) i l : stages_are h i l -> forall n, length l <= n -> stages n h i = l.
  Proof.
    induction 1 as [i o H E|i o p l H E K IH]; intros n L; cbn in L; (destruct n as [|n]; [lia|]); cbn; rewrite H, E; auto.
    f_equal. apply IH. lia.
  Qed.
  Lemma stages_are_sequential (h : heap P) i l : stages_are h i l ->
    gen_converter gen pipe_name h i = gen_stages gen pipe_name h (rev l) (Nat.eqb (length l) 1) "data_" [].
  Proof.
    intros H. unfold gen_converter. rewrite (stages_are_stages _ _ _ H (length h)); auto.
    rewrite <- (seq_length (length h) 0). apply NoDup_incl_length; [eapply stages_are_nodup; eauto|].
    intros k K. apply in_seq. pose proof (stages_are_lt _ _ _ H k K). lia.
  Qed.

  (** *** the invariant *)
  Variable h0 : heap P.
  Variable idss : list (list nat).
  Hypothesis HA : apart h0 idss.
  Hypothesis HU : unseen gen h0 idss.

  Definition solo (ids : list nat) := gen_stages gen pipe_name h0 (rev ids) (Nat.eqb (length ids) 1) "data_" [].

  Definition tinv (ids : list nat) (t : thread) : Prop :=
    match t with
    | Collecting conv pipes => exists rest, ids = rev pipes ++ rest /\ stages_are h0 conv rest
    | Reading single todo input lines => incl todo ids /\ gen_stages gen pipe_name h0 todo single input lines = solo ids
    | Clearing saved single i todo input lines | Generating saved single i todo input lines =>
        saved = input_of h0 i /\ incl (i :: todo) ids /\ gen_stages gen pipe_name h0 (i :: todo) single input lines = solo ids
    | Restoring saved single i todo input lines =>
        saved = input_of h0 i /\ incl (i :: todo) ids /\ gen_stages gen pipe_name h0 todo single input lines = solo ids
    | Compiled lines => solo ids = Code h0 lines
    | Raised => exists k, In k ids /\ solo ids = GenError (update h0 k (set_pred None))
    end.
  Definition holds (ids : list nat) (t : thread) (j : nat) : Prop :=
    match t with
    | Generating _ _ i _ _ _ | Restoring _ _ i _ _ _ => j = i
    | Raised => In j ids
    | _ => False
    end.
  Definition taken (t : thread) : option nat :=
    match t with Generating _ _ i _ _ _ | Restoring _ _ i _ _ _ => Some i | _ => None end.
  Definition cost (ids : list nat) (t : thread) : nat :=
    match t with
    | Collecting _ pipes => (length ids - length pipes) + 4 * length ids + 1
    | Reading _ todo _ _ => 4 * length todo + 1
    | Clearing _ _ _ todo _ _ => 4 * length todo + 4
    | Generating _ _ _ todo _ _ => 4 * length todo + 3
    | Restoring _ _ _ todo _ _ => 4 * length todo + 2
    | Compiled _ | Raised => 0
    end.
  Definition cleared (j : nat) : option (obj P) := option_map (set_pred None) (nth_error h0 j).
  Record inv (h : heap P) (ts : list thread) : Prop := {
    i_len : length ts = length idss;
    i_t : forall a t ids, nth_error ts a = Some t -> nth_error idss a = Some ids -> tinv ids t;
    i_h : forall j, nth_error h j = nth_error h0 j \/
            (exists a t ids, nth_error ts a = Some t /\ nth_error idss a = Some ids /\ holds ids t j /\ nth_error h j = cleared j);
    i_k : forall a t i, nth_error ts a = Some t -> taken t = Some i -> nth_error h i = cleared i }.

  Lemma nth_put_eq ts a t : a < length ts -> nth_error (put ts a t) a = Some t.
  Proof. revert a; induction ts as [|u ts IHts]; intros [|a]; cbn; intros; try lia; auto. apply IHts. lia. Qed.
  Lemma nth_put_ne ts a b t : a <> b -> nth_error (put ts a t) b = nth_error ts b.
  Proof. revert a b; induction ts as [|u ts IHts]; intros [|a] [|b]; cbn; intros; auto; try lia. Qed.
  Lemma length_put ts a t : length (put ts a t) = length ts.
  Proof. revert a; induction ts as [|u ts IHts]; intros [|a]; cbn; auto. Qed.
  Lemma set_none_idem (o : obj P) : set_pred None (set_pred None o) = set_pred None o.
  Proof. reflexivity. Qed.
  Lemma option_map_idem (x : option (obj P)) : option_map (set_pred None) (option_map (set_pred None) x) = option_map (set_pred None) x.
  Proof. destruct x; reflexivity. Qed.
  Lemma nth_update (h : heap P) i f j :
    nth_error (update h i f) j = if Nat.eq_dec i j then option_map f (nth_error h j) else nth_error h j.
  Proof.
    destruct (Nat.eq_dec i j) as [<-|N]; [|apply nth_update_ne; auto].
    destruct (nth_error h i) eqn:E; cbn; [eapply nth_update_eq; eauto|].
    apply nth_error_None. rewrite length_update. apply nth_error_None; auto.
  Qed.

  Lemma no_link a b ids ids' j : a <> b -> nth_error idss a = Some ids -> nth_error idss b = Some ids' ->
    In j ids -> In j ids' -> cleared j = nth_error h0 j.
  Proof.
    intros D Hi Hi' J J'. unfold cleared. destruct (nth_error h0 j) as [o|] eqn:E; auto. cbn. f_equal.
    pose proof (HA a b ids ids' j o D Hi Hi' J J' E). destruct o; cbn in *; subst; reflexivity.
  Qed.
  (** A stage of a thread which that thread does not hold is as it was. *)
  Lemma own h ts a t ids j : inv h ts -> nth_error ts a = Some t -> nth_error idss a = Some ids -> In j ids ->
    ~ holds ids t j -> nth_error h j = nth_error h0 j.
  Proof.
    intros I Ht Hi J N. destruct (i_h _ _ I j) as [E|(b & t' & ids' & Ht' & Hi' & Hh & E)]; auto.
    destruct (Nat.eq_dec a b) as [<-|D]; [congruence|].
    assert (J' : In j ids').
    { pose proof (i_t _ _ I b t' ids' Ht' Hi') as T.
      destruct t'; cbn in Hh; try tauto; subst; cbn in T; destruct T as (_ & T & _); apply T; left; auto. }
    rewrite E. eapply no_link; eauto.
  Qed.
  Lemma own_input h ts a t ids j : inv h ts -> nth_error ts a = Some t -> nth_error idss a = Some ids -> In j ids ->
    ~ holds ids t j -> input_of h j = input_of h0 j.
  Proof. intros. unfold input_of. erewrite own; eauto. Qed.

  Lemma step_inv h ts a t h' t' : inv h ts -> nth_error ts a = Some t -> step h t = (h', t') -> inv h' (put ts a t').
  Proof.
    intros I Ht E.
    assert (La : a < length ts) by (apply nth_error_Some; congruence).
    destruct (nth_error idss a) as [ids|] eqn:Hi.
    2: { exfalso. apply nth_error_None in Hi. rewrite (i_len _ _ I) in La. lia. }
    pose proof (i_t _ _ I a t ids Ht Hi) as T.
    (* when the heap does not change and the thread holds and takes as much as before *)
    assert (same : h' = h -> tinv ids t' -> (forall j, holds ids t j -> holds ids t' j) ->
                   (forall i, taken t' = Some i -> taken t = Some i) -> inv h' (put ts a t')).
    { intros -> T' HH HT. constructor.
      - rewrite length_put. apply I.
      - intros b u ids' Hu Hu'. destruct (Nat.eq_dec a b) as [<-|D].
        + rewrite nth_put_eq in Hu by auto. congruence.
        + rewrite nth_put_ne in Hu by auto. eapply i_t; eauto.
      - intros j. destruct (i_h _ _ I j) as [?|(b & u & ids' & Hu & Hu' & Hh & E1)]; auto. right.
        destruct (Nat.eq_dec a b) as [<-|D].
        + exists a, t', ids'. rewrite nth_put_eq by auto. assert (u = t) by congruence. assert (ids' = ids) by congruence. subst. auto.
        + exists b, u, ids'. rewrite nth_put_ne by auto. auto.
      - intros b u i Hu Hu'. destruct (Nat.eq_dec a b) as [<-|D].
        + rewrite nth_put_eq in Hu by auto. injection Hu as <-. eapply i_k; eauto.
        + rewrite nth_put_ne in Hu by auto. eapply i_k; eauto. }
    destruct t as [conv pipes|single todo input lines|saved single i todo input lines|saved single i todo input lines
                  |saved single i todo input lines|lines|]; cbn in E.
    - (* Collecting *)
      injection E as <- <-. apply same; auto.
      2: { intros j []. }
      2: { intros i. destruct (input_of h conv); discriminate. }
      destruct T as (rest & Q & R). pose proof (stages_are_head _ _ _ R) as (r & ->).
      rewrite (own_input h ts a _ ids conv I Ht Hi); [|rewrite Q, in_app_iff; cbn; auto|cbn; tauto].
      inversion R as [? o Ho Hp|? o p l Ho Hp Hs]; subst; unfold input_of; rewrite Ho, Hp; cbn.
      + split; [intros x X; rewrite in_app_iff; cbn in *; destruct X as [<-|X]; [auto|left; apply -> in_rev; auto]|].
        unfold solo. rewrite rev_app_distr, rev_involutive. cbn. rewrite app_length, rev_length. cbn.
        replace (length pipes + 1) with (S (length pipes)) by lia. reflexivity.
      + exists r. split; auto. now rewrite <- app_assoc.
    - (* Reading *)
      destruct todo as [|i todo]; injection E as <- <-.
      + apply same; [reflexivity|cbn in *; symmetry; apply T|intros j []|discriminate].
      + apply same; [reflexivity| |intros j []|discriminate]. cbn in T |- *. destruct T as [Q R].
        split; [|split; auto]. eapply (own_input h ts a _ ids i I Ht Hi); [apply Q; cbn; auto|cbn; tauto].
    - (* Clearing *)
      injection E as <- <-. cbn in T. destruct T as (Hs & Q & R).
      assert (O : nth_error h i = nth_error h0 i) by (apply (own h ts a _ ids i I Ht Hi); [apply Q; cbn; auto|cbn; tauto]).
      constructor.
      + rewrite length_put. apply I.
      + intros b u ids' Hu Hu'. destruct (Nat.eq_dec a b) as [<-|D].
        * rewrite nth_put_eq in Hu by auto. injection Hu as <-. assert (ids' = ids) by congruence. subst. cbn. auto.
        * rewrite nth_put_ne in Hu by auto. eapply i_t; eauto.
      + intros j. rewrite nth_update. destruct (Nat.eq_dec i j) as [<-|D].
        * right. eexists a, _, ids. rewrite nth_put_eq by auto. repeat split; auto. unfold cleared. now rewrite O.
        * destruct (i_h _ _ I j) as [?|(b & u & ids' & Hu & Hu' & Hh & E1)]; auto. right.
          destruct (Nat.eq_dec a b) as [<-|D']; [assert (u = Clearing saved single i todo input lines) by congruence; subst; destruct Hh|].
          exists b, u, ids'. rewrite nth_put_ne by auto. auto.
      + intros b u k Hu Hk. rewrite nth_update. destruct (Nat.eq_dec a b) as [<-|D].
        * rewrite nth_put_eq in Hu by auto. injection Hu as <-. cbn in Hk. injection Hk as <-.
          destruct (Nat.eq_dec i i) as [_|N]; [|congruence]. unfold cleared. now rewrite O.
        * rewrite nth_put_ne in Hu by auto. pose proof (i_k _ _ I b u k Hu Hk) as C.
          destruct (Nat.eq_dec i k) as [<-|N]; auto. rewrite C. unfold cleared. apply option_map_idem.
    - (* Generating *)
      cbn in T. destruct T as (Hs & Q & R).
      assert (G : gen h i single input = gen (update h0 i (set_pred None)) i single input).
      { eapply (HU a ids i); eauto; [apply Q; cbn; auto|]. intros j. rewrite nth_update.
        destruct (Nat.eq_dec i j) as [<-|D].
        - left. rewrite (i_k _ _ I a _ i Ht eq_refl). reflexivity.
        - destruct (i_h _ _ I j) as [?|(b & u & ids' & Hu & Hu' & Hh & E1)]; auto.
          destruct (Nat.eq_dec a b) as [<-|D']; [assert (u = Generating saved single i todo input lines) by congruence; subst; cbn in Hh; congruence|].
          assert (L : linked h0 j \/ cleared j = nth_error h0 j).
          { unfold linked, cleared. destruct (nth_error h0 j) as [[p d pl]|]; [|auto].
            destruct p; [left; eexists _, _; split; reflexivity|right; reflexivity]. }
          destruct L as [L|L]; [|left; congruence].
          right. split; [split; [exact L|]|rewrite E1; unfold cleared; apply option_map_idem].
          exists b, ids'. repeat split; auto. pose proof (i_t _ _ I b u ids' Hu Hu') as T.
          destruct u; cbn in Hh; try tauto; subst; cbn in T; destruct T as (_ & T & _); apply T; left; auto. }
      rewrite G in E. cbn in R. destruct (gen (update h0 i (set_pred None)) i single input) as [code|] eqn:Gi;
        injection E as <- <-.
      + apply same; [reflexivity| |cbn; auto|cbn; auto]. cbn. split; auto. split; auto. rewrite unlink_relink in R. exact R.
      + apply same; [reflexivity| |intros j ->; apply Q; cbn; auto|discriminate].
        cbn. exists i. split; [apply Q; cbn; auto|auto].
    - (* Restoring *)
      injection E as <- <-. cbn in T. destruct T as (Hs & Q & R).
      assert (O : option_map (set_pred saved) (nth_error h i) = nth_error h0 i).
      { rewrite (i_k _ _ I a _ i Ht eq_refl). unfold cleared. rewrite Hs. unfold input_of.
        destruct (nth_error h0 i) as [[? ? ?]|]; reflexivity. }
      constructor.
      + rewrite length_put. apply I.
      + intros b u ids' Hu Hu'. destruct (Nat.eq_dec a b) as [<-|D].
        * rewrite nth_put_eq in Hu by auto. injection Hu as <-. assert (ids' = ids) by congruence. subst. cbn.
          split; auto. intros x X. apply Q. cbn. auto.
        * rewrite nth_put_ne in Hu by auto. eapply i_t; eauto.
      + intros j. rewrite nth_update. destruct (Nat.eq_dec i j) as [<-|D]; auto.
        destruct (i_h _ _ I j) as [?|(b & u & ids' & Hu & Hu' & Hh & E1)]; auto. right.
        destruct (Nat.eq_dec a b) as [<-|D']; [assert (u = Restoring saved single i todo input lines) by congruence; subst; cbn in Hh; congruence|].
        exists b, u, ids'. rewrite nth_put_ne by auto. auto.
      + intros b u k Hu Hk. rewrite nth_update. destruct (Nat.eq_dec a b) as [<-|D].
        * rewrite nth_put_eq in Hu by auto. injection Hu as <-. discriminate.
        * rewrite nth_put_ne in Hu by auto. pose proof (i_k _ _ I b u k Hu Hk) as C.
          destruct (Nat.eq_dec i k) as [<-|N]; auto.
          assert (exists ids', nth_error idss b = Some ids') as (ids' & Hi').
          { destruct (nth_error idss b) eqn:X; eauto. exfalso. apply nth_error_None in X. rewrite <- (i_len _ _ I) in X.
            apply nth_error_None in X. congruence. }
          pose proof (i_t _ _ I b u ids' Hu Hi') as T. rewrite O. symmetry. apply (no_link a b ids ids'); auto.
          { apply Q; cbn; auto. }
          destruct u; cbn in Hk; try discriminate; injection Hk as <-; cbn in T; destruct T as (_ & T & _); apply T; left; auto.
    - injection E as <- <-. apply same; auto.
    - injection E as <- <-. apply same; auto.
  Qed.

  Lemma step_cost h ts a t ids h' t' : inv h ts -> nth_error ts a = Some t -> nth_error idss a = Some ids ->
    step h t = (h', t') -> S (cost ids t') <= cost ids t \/ cost ids t = 0.
  Proof.
    intros I Ht Hi E. pose proof (i_t _ _ I a t ids Ht Hi) as T.
    destruct t as [conv pipes|single todo input lines|saved single i todo input lines|saved single i todo input lines
                  |saved single i todo input lines|lines|]; cbn in E.
    - injection E as <- <-. destruct T as (rest & -> & R). pose proof (stages_are_head _ _ _ R) as (r & ->).
      left. destruct (input_of h conv); cbn [cost length]; rewrite app_length, rev_length; cbn [length].
      + lia.
      + lia.
    - destruct todo; injection E as <- <-; cbn [cost length]; lia.
    - injection E as <- <-; cbn [cost length]; lia.
    - destruct (gen h i single input); injection E as <- <-; cbn [cost length]; lia.
    - injection E as <- <-; cbn [cost length]; lia.
    - auto.
    - auto.
  Qed.

  Lemma interleave_inv sched : forall h ts h' ts', inv h ts -> interleave sched h ts = (h', ts') ->
    inv h' ts' /\ (forall a t ids t', nth_error ts a = Some t -> nth_error idss a = Some ids -> nth_error ts' a = Some t' ->
                     cost ids t' <= cost ids t - turns sched a).
  Proof.
    induction sched as [|k sched IH]; intros h ts h' ts' I E; cbn in E.
    - injection E as <- <-. split; auto. intros a t ids t' A B C. cbn. assert (t' = t) by congruence. subst. lia.
    - destruct (nth_error ts k) as [t|] eqn:Ht.
      + destruct (step h t) as [h1 t1] eqn:Es. pose proof (step_inv _ _ _ _ _ _ I Ht Es) as I1.
        destruct (IH _ _ _ _ I1 E) as [I2 C]. split; auto. intros a u ids u' A B D. cbn. unfold turns in *. cbn.
        destruct (Nat.eq_dec k a) as [<-|N].
        * assert (u = t) by congruence. subst u.
          assert (La : k < length ts) by (apply nth_error_Some; congruence).
          specialize (C k t1 ids u' (nth_put_eq _ _ _ La) B D).
          pose proof (step_cost h ts k t ids h1 t1 I Ht B Es). 
          destruct H; [lia|]. assert (cost ids t1 = 0); [|lia].
          destruct t; cbn in *; try lia; injection Es as <- <-; auto.
        * rewrite <- (nth_put_ne ts k a t1) in A by auto. eapply C; eauto.
      + destruct (IH _ _ _ _ I E) as [I2 C]. split; auto. intros a u ids u' A B D. unfold turns in *. cbn.
        destruct (Nat.eq_dec k a) as [<-|N]; [congruence|]. eapply C; eauto.
  Qed.

  Lemma start_inv roots : Forall2 (stages_are h0) roots idss -> inv h0 (map called roots).
  Proof.
    intros F. constructor.
    - rewrite map_length. clear HA HU. induction F; cbn; auto.
    - intros a t ids Ht Hi. rewrite nth_error_map in Ht. destruct (nth_error roots a) as [i|] eqn:Hr; [|discriminate].
      injection Ht as <-. exists ids. split; auto. clear HA HU. revert a Hr Hi. induction F; intros [|a] Hr Hi; try discriminate; cbn in *.
      + injection Hr as <-. injection Hi as <-. auto.
      + eauto.
    - auto.
    - intros a t i Ht. rewrite nth_error_map in Ht. destruct (nth_error roots a); [|discriminate]. injection Ht as <-. discriminate.
  Qed.

  Lemma heap_ext : forall (h h' : heap P), (forall j, nth_error h j = nth_error h' j) -> h = h'.
  Proof.
    induction h as [|o h IH]; intros [|o' h'] E; auto; try (specialize (E 0); discriminate).
    pose proof (E 0) as E0. injection E0 as <-. f_equal. apply IH. intros j. exact (E (S j)).
  Qed.
  Lemma done_heap h ts : inv h ts -> (forall a t, nth_error ts a = Some t -> exists lines, t = Compiled lines) -> h = h0.
  Proof.
    intros I D. apply heap_ext. intros j. destruct (i_h _ _ I j) as [?|(a & t & ids & Ht & _ & Hh & _)]; auto.
    destruct (D a t Ht) as (ls & ->). destruct Hh.
  Qed.
End P.
