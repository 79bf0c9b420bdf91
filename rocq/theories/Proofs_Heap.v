From Coq Require Import String List ZArith Bool Lia Arith.
From Verif Require Import Model_Heap Spec_Heap.
Import ListNotations.
Local Open Scope Z_scope.

Section P.
  Context {P : Type}.
  Notation heap := (heap P).
  Notation obj := (obj P).

  Lemma nth_update_eq (h : heap) : forall i f o, nth_error h i = Some o -> nth_error (update h i f) i = Some (f o).
  Proof. induction h as [|x h IH]; intros [|i] f o; simpl; try discriminate; [congruence|eauto]. Qed.
  Lemma nth_update_ne (h : heap) : forall i j f, i <> j -> nth_error (update h i f) j = nth_error h j.
  Proof.
    induction h as [|x h IH]; intros [|i] [|j] f H; simpl; auto; congruence.
  Qed.
  Lemma length_update (h : heap) : forall i f, length (update h i f) = length h.
  Proof. induction h as [|x h IH]; intros [|i] f; simpl; auto. Qed.
  Lemma update_update (h : heap) : forall i f g, update (update h i f) i g = update h i (fun o => g (f o)).
  Proof. induction h as [|x h IH]; intros [|i] f g; simpl; auto. f_equal; auto. Qed.
  Lemma update_id (h : heap) : forall i f, (forall o, nth_error h i = Some o -> f o = o) -> update h i f = h.
  Proof.
    induction h as [|x h IH]; intros [|i] f H; simpl; auto.
    - f_equal. apply H; auto.
    - f_equal. apply IH. intros; apply H; auto.
  Qed.

  (** cells below [n] unchanged *)
  Definition agree (n : nat) (h h' : heap) : Prop :=
    (length h <= length h')%nat /\ forall i, (i < n)%nat -> nth_error h' i = nth_error h i.
  Lemma agree_refl n h : agree n h h.
  Proof. split; auto. Qed.
  Lemma agree_trans n h1 h2 h3 : agree n h1 h2 -> agree n h2 h3 -> agree n h1 h3.
  Proof. intros [L1 A1] [L2 A2]. split; [lia|]. intros i Hi. rewrite A2, A1; auto. Qed.
  Lemma agree_app n h l : (n <= length h)%nat -> agree n h (h ++ l).
  Proof. intros H. split; [rewrite app_length; lia|]. intros i Hi. apply nth_error_app1. lia. Qed.
  Lemma agree_update n (h : heap) i f : (n <= i)%nat -> agree n h (update h i f).
  Proof. intros H. split; [rewrite length_update; auto|]. intros j Hj. apply nth_update_ne. lia. Qed.
  Lemma agree_le n m h h' : (m <= n)%nat -> agree n h h' -> agree m h h'.
  Proof. intros H [L A]. split; auto. intros; apply A; lia. Qed.

  Lemma pipeline_len_pos (h : heap) i l : pipeline h i l -> (1 <= length l)%nat.
  Proof. destruct 1; simpl; lia. Qed.
  Lemma pipeline_det (h : heap) i l1 : pipeline h i l1 -> forall l2, pipeline h i l2 -> l1 = l2.
  Proof.
    induction 1; intros l2 H2; inversion H2; subst; try congruence.
    assert (o0 = o) by congruence. subst. f_equal. apply IHpipeline. congruence.
  Qed.

  (** all cells of the chain starting at i are at addresses satisfying Q *)
  Inductive chain_in (Q : nat -> Prop) (h : heap) : nat -> list P -> Prop :=
  | ci_one i o : Q i -> nth_error h i = Some o -> pred o = None -> chain_in Q h i [payload o]
  | ci_more i o p l : Q i -> nth_error h i = Some o -> pred o = Some p -> chain_in Q h p l ->
      chain_in Q h i (payload o :: l).
  Lemma chain_in_mono (Q R : nat -> Prop) h i l : (forall j, Q j -> R j) -> chain_in Q h i l -> chain_in R h i l.
  Proof. intros M. induction 1; econstructor; eauto. Qed.
  Lemma chain_in_pipeline Q h i l : chain_in Q h i l -> pipeline h i l.
  Proof. induction 1; econstructor; eauto. Qed.
  Lemma pipeline_chain_in h i l : pipeline h i l -> chain_in (fun j => (j < length h)%nat) h i l.
  Proof.
    induction 1; econstructor; eauto; apply nth_error_Some; congruence.
  Qed.
  Lemma chain_in_agree (Q : nat -> Prop) h h' i l :
    (forall j, Q j -> nth_error h' j = nth_error h j) -> chain_in Q h i l -> chain_in Q h' i l.
  Proof. intros A. induction 1; econstructor; eauto; rewrite A; auto. Qed.

  (** cloning one chain *)
  Lemma clone_loop_ok (n : nat) : forall h0 h conv o l k,
    agree k h0 h ->
    (k <= conv)%nat -> length h = S conv ->
    nth_error h conv = Some o ->
    (pred o = None /\ l = [] \/
     exists p, pred o = Some p /\ chain_in (fun j => (j < k)%nat) h0 p l) ->
    (if (length l <? n)%nat then
       exists h', clone_loop n h conv = Done h' tt /\ agree k h0 h' /\
                  chain_in (fun j => (conv <= j)%nat /\ (j < length h')%nat) h' conv (payload o :: l) /\
                  (forall j, (j < conv)%nat -> nth_error h' j = nth_error h j) /\
                  (exists o', nth_error h' conv = Some o' /\ deps o' = deps o)
     else exists h', clone_loop n h conv = ConversionException h' /\ agree k h0 h').
  Proof.
    induction n as [|n IH]; intros h0 h conv o l k A Hk Hlen Ho Hp.
    - simpl. exists h. auto.
    - cbn [clone_loop]. rewrite Ho. destruct Hp as [[Hp ->]|(p & Hp & Hc)].
      + rewrite Hp. simpl. exists h. split; [auto|]. split; [auto|]. split; [|split; [auto|eauto]].
        constructor; auto. lia.
      + rewrite Hp.
        assert (Hin : exists op, nth_error h0 p = Some op /\ (p < k)%nat /\ exists l', l = payload op :: l' /\
                 (pred op = None /\ l' = [] \/ exists p2, pred op = Some p2 /\ chain_in (fun j => (j < k)%nat) h0 p2 l')).
        { inversion Hc; subst; eauto 10. }
        destruct Hin as (op & Hop & Hpk & l' & -> & Hrest).
        assert (Hop' : nth_error h p = Some op) by (rewrite (proj2 A); auto).
        unfold clone1. rewrite Hop'.
        set (h1 := update (h ++ [op]) conv (set_pred (Some (length h)))).
        assert (A1 : agree k h0 h1).
        { eapply agree_trans; [eapply agree_trans; [exact A|]|]; [apply agree_app; lia|apply agree_update; auto]. }
        assert (L1 : length h1 = S (length h)).
        { unfold h1. rewrite length_update, app_length. simpl. lia. }
        assert (N1 : nth_error h1 (length h) = Some op).
        { unfold h1. rewrite nth_update_ne by lia. rewrite nth_error_app2, Nat.sub_diag by lia. reflexivity. }
        assert (C1 : nth_error h1 conv = Some (set_pred (Some (length h)) o)).
        { unfold h1. apply nth_update_eq. rewrite nth_error_app1; auto. lia. }
        specialize (IH h0 h1 (length h) op l' k A1 ltac:(lia) L1 N1 Hrest).
        cbn [length]. change (S (length l') <? S n)%nat with (length l' <? n)%nat.
        destruct (length l' <? n)%nat.
        * destruct IH as (h' & E & A2 & Ch & Same & (o' & Ho' & Hd')). exists h'.
          assert (NC : nth_error h' conv = Some (set_pred (Some (length h)) o)).
          { rewrite Same; auto. lia. }
          split; [auto|]. split; [auto|]. split; [|split].
          -- change (payload o) with (payload (set_pred (Some (length h)) o)).
             eapply ci_more; eauto.
             ++ split; [lia|]. apply nth_error_Some. congruence.
             ++ reflexivity.
             ++ apply (chain_in_mono (fun j => (length h <= j)%nat /\ (j < length h')%nat)); [|exact Ch].
                simpl. intros; lia.
          -- intros j Hj. rewrite Same by lia. unfold h1. rewrite nth_update_ne by lia.
             apply nth_error_app1. lia.
          -- eexists; split; [exact NC|reflexivity].
        * destruct IH as (h' & E & A2). exists h'. auto.
  Qed.

  Lemma to_nat_ltb (n : nat) (m : Z) : (n <? Z.to_nat m)%nat = (Z.of_nat n <? m).
  Proof.
    destruct (Z.ltb_spec (Z.of_nat n) m); [apply Nat.ltb_lt|apply Nat.ltb_ge]; lia.
  Qed.

  Lemma clone_ok (m : Z) (h : heap) i l :
    pipeline h i l ->
    if Z.of_nat (length l) <=? m then
      exists h', clone m h i = Done h' (length h) /\ agree (length h) h h' /\
        chain_in (fun j => (length h <= j)%nat /\ (j < length h')%nat) h' (length h) l /\
        (exists o o', nth_error h i = Some o /\ nth_error h' (length h) = Some o' /\
            deps o' = deps o /\ payload o' = payload o)
    else exists h', clone m h i = ConversionException h' /\ agree (length h) h h'.
  Proof.
    intros Hp. apply pipeline_chain_in in Hp.
    assert (X : exists o l', nth_error h i = Some o /\ l = payload o :: l' /\
      (pred o = None /\ l' = [] \/ exists p, pred o = Some p /\ chain_in (fun j => (j < length h)%nat) h p l')).
    { inversion Hp; subst; eauto 10. }
    destruct X as (o & l' & Ho & -> & Hr).
    unfold clone, clone1. rewrite Ho.
    assert (A : agree (length h) h (h ++ [o])) by (apply agree_app; auto).
    pose proof (clone_loop_ok (Z.to_nat m) h (h ++ [o]) (length h) o l' (length h) A (le_n _)
                  ltac:(rewrite app_length; simpl; lia)
                  ltac:(rewrite nth_error_app2, Nat.sub_diag by lia; reflexivity) Hr) as K.
    rewrite to_nat_ltb in K. cbn [length].
    replace (Z.of_nat (S (length l')) <=? m) with (Z.of_nat (length l') <? m)
      by (destruct (Z.ltb_spec (Z.of_nat (length l')) m), (Z.leb_spec (Z.of_nat (S (length l'))) m); lia).
    destruct (Z.of_nat (length l') <? m).
    - destruct K as (h' & -> & A' & Ch & _ & (o' & Ho' & Hd)). exists h'.
      repeat split; try apply A'; auto.
      exists o, o'. repeat split; auto.
      inversion Ch; subst; congruence.
    - destruct K as (h' & -> & A'). exists h'. split; [auto|exact A'].
  Qed.

  (** linking: [q] is the last cell of the chain, all others keep their link *)
  Definition linked (h h' : heap) (q input : nat) : Prop :=
    length h' = length h /\
    forall j o, nth_error h j = Some o ->
      exists o', nth_error h' j = Some o' /\ payload o' = payload o /\
        (exists extra, deps o' = deps o ++ extra) /\
        (j <> q -> pred o' = pred o) /\
        (j = q -> pred o = None /\ pred o' = Some input).

  Lemma linked_step h c input d h' q :
    linked (update h c (add_deps d)) h' q input -> linked h h' q input.
  Proof.
    intros [L H]. rewrite length_update in L. split; auto.
    intros j o Hj. destruct (Nat.eq_dec c j) as [->|n].
    - destruct (H j (add_deps d o)) as (o' & E & Ep & (x & Ed) & Hn & Hq); [apply nth_update_eq; auto|].
      exists o'. simpl in *. rewrite <- app_assoc in Ed. repeat split; eauto; apply Hq; auto.
    - apply H. rewrite nth_update_ne; auto.
  Qed.

  Lemma chain_in_deps Q h c d i l : chain_in Q h i l -> chain_in Q (update h c (add_deps d)) i l.
  Proof.
    induction 1 as [i o Hq Hi Hp|i o p l Hq Hi Hp Hc IH]; destruct (Nat.eq_dec c i) as [->|n].
    - change (payload o) with (payload (add_deps d o)). constructor; auto. apply nth_update_eq; auto.
    - constructor; auto. rewrite nth_update_ne; auto.
    - change (payload o) with (payload (add_deps d o)). eapply ci_more; eauto. apply nth_update_eq; auto.
    - eapply ci_more; eauto. rewrite nth_update_ne; auto.
  Qed.

  Lemma set_input_loop_ok k input l : forall n (h : heap) conv,
    chain_in (fun j => (k <= j)%nat) h conv l ->
    (if (length l <=? n)%nat then
       exists h' q, set_input_loop n h conv input = Done h' tt /\ (k <= q)%nat /\
         linked h h' q input /\
         (forall j, (j < k)%nat -> nth_error h' j = nth_error h j) /\
         (forall l2, pipeline h' input l2 -> pipeline h' conv (l ++ l2)) /\
         (exists o o', nth_error h conv = Some o /\ nth_error h' conv = Some o' /\
            incl (deps o ++ get_dependencies h input) (deps o'))
     else exists h', set_input_loop n h conv input = ConversionException h' /\
         forall j, (j < k)%nat -> nth_error h' j = nth_error h j).
  Proof.
    induction l as [|x l IH]; intros n h conv Hc; [inversion Hc|].
    destruct n as [|n].
    - simpl. exists h; auto.
    - cbn [set_input_loop length].
      change (S (length l) <=? S n)%nat with (length l <=? n)%nat.
      inversion Hc as [i o Hq Hi Hp|i o p l0 Hq Hi Hp Hr]; subst; rewrite Hi, Hp.
      + exists (update (depends_on h conv input) conv (set_pred (Some input))), conv.
        assert (Hu : depends_on h conv input = update h conv (add_deps (get_dependencies h input))) by reflexivity.
        rewrite Hu, update_update.
        assert (Hn : nth_error (update h conv (fun o0 => set_pred (Some input) (add_deps (get_dependencies h input) o0))) conv
                     = Some (set_pred (Some input) (add_deps (get_dependencies h input) o))) by (exact (nth_update_eq h conv (fun o0 => set_pred (Some input) (add_deps (get_dependencies h input) o0)) o Hi)).
        split; auto. split; auto. split; [|split; [|split]].
        * split; [apply length_update|]. intros j o0 Hj. destruct (Nat.eq_dec conv j) as [<-|ne].
          -- assert (o0 = o) by congruence. subst o0. eexists. split; [exact Hn|]. simpl.
             repeat split; eauto; intros; congruence.
          -- exists o0. rewrite nth_update_ne by auto.
             repeat split; auto; try congruence. exists []. rewrite app_nil_r; auto.
        * intros j Hj. apply nth_update_ne. lia.
        * intros l2 H2. simpl.
          change (payload o) with (payload (set_pred (Some input) (add_deps (get_dependencies h input) o))).
          eapply more_stages; eauto; reflexivity.
        * eexists o, _. split; [auto|]. split; [exact Hn|]. simpl. apply incl_refl.
      + assert (Hu : depends_on h conv input = update h conv (add_deps (get_dependencies h input))) by reflexivity.
        rewrite Hu.
        specialize (IH n _ p (chain_in_deps _ h conv (get_dependencies h input) p l Hr)).
        destruct (length l <=? n)%nat.
        * destruct IH as (h' & q & E & Kq & Lk & Same & Ch & _). exists h', q.
          assert (Hn : nth_error (update h conv (add_deps (get_dependencies h input))) conv
                       = Some (add_deps (get_dependencies h input) o)) by (apply nth_update_eq; auto).
          destruct (proj2 Lk _ _ Hn) as (o' & Eo & Ep & (ex & Ed) & Hne & Heq).
          assert (conv <> q). { intros ->. destruct (Heq eq_refl) as [X _]. simpl in X. congruence. }
          split; auto. split; auto. split; [eapply linked_step; eauto|]. split; [|split].
          -- intros j Hj. rewrite Same by auto. apply nth_update_ne. lia.
          -- intros l2 H2. simpl. simpl in Ep. rewrite <- Ep. eapply more_stages; eauto.
             rewrite Hne by auto. auto.
          -- exists o, o'. split; auto. split; auto. rewrite Ed. simpl. apply incl_appl, incl_refl.
        * destruct IH as (h' & E & Same). exists h'. split; auto.
          intros j Hj. rewrite Same by auto. apply nth_update_ne. lia.
  Qed.

  Lemma pipeline_agree (h h' : heap) k i l :
    (forall j, (j < k)%nat -> nth_error h' j = nth_error h j) ->
    chain_in (fun j => (j < k)%nat) h i l -> pipeline h' i l.
  Proof. intros A H. apply (chain_in_pipeline _ _ _ _ (chain_in_agree _ h h' i l A H)). Qed.

  Lemma agree_length n h h' : agree n h h' -> (length h <= length h')%nat.
  Proof. intros [L _]; auto. Qed.
  Lemma agree_get n h h' i : agree n h h' -> (i < n)%nat -> nth_error h' i = nth_error h i.
  Proof. intros [_ A]; auto. Qed.

  (** *** compiling *)
  Section Gen.
  Variable gen : heap -> nat -> bool -> string -> option string.
  Variable pipe_name : string -> string.

  Lemma unlink_relink (h : heap) i :
    update (update h i (set_pred None)) i
      (set_pred (match nth_error h i with Some o => pred o | None => None end)) = h.
  Proof.
    rewrite update_update. apply update_id. intros o ->. destruct o; reflexivity.
  Qed.

  Lemma gen_stages_spec ids : forall (h : heap) single input lines,
    match gen_stages gen pipe_name h ids single input lines with
    | Code h' _ => h' = h
    | GenError h' => exists i, In i ids /\ h' = update h i (set_pred None)
    end.
  Proof.
    induction ids as [|i ids IH]; intros h single input lines; simpl; auto.
    destruct (gen (update h i (set_pred None)) i single input) as [code|].
    - rewrite unlink_relink. specialize (IH h single (pipe_name input) (lines ++ [code])).
      destruct (gen_stages gen pipe_name h ids single (pipe_name input) (lines ++ [code])) as [h' ls|h']; auto.
      destruct IH as (j & Hj & E). eauto.
    - eauto.
  Qed.
  End Gen.
End P.
