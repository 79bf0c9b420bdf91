(** Proofs about input arguments and signatures. *)
From Coq Require Import String List ZArith NArith Bool Arith Lia Sorting.Sorted.
From Verif Require Import Model_Code Model_Heap Spec_Heap Proofs_Heap Props_Heap Model_Args Spec_Args Proofs_Code.
From Verif Require Export Proofs_Deps.
Import ListNotations.

Definition own (p : node) : list text := match p with NArg x => [x] | _ => [] end.
Lemma arg_names_names h i : arg_names h i = names text own h i.
Proof.
  unfold arg_names, names, name_at. apply flat_map_ext_in'. intros j _.
  destruct (nth_error h j) as [o|]; [destruct (payload o)|]; reflexivity.
Qed.
Notation regs := (Proofs_Deps.regs text own).
Notation oregs := (Proofs_Deps.oregs text own).

Lemma build_args m c h i : build m c [] = Done h i -> forall x, In x (arg_names h i) <-> In x (regs c).
Proof.
  intros B x. assert (W0 : wf []) by (intros j o H; destruct j; discriminate).
  pose proof (build_ok text own eq_refl False m c [] W0) as K. rewrite B in K.
  destruct K as (_ & _ & _ & N). rewrite arg_names_names. apply N.
Qed.

(** *** registered = used *)
Lemma uses_part c d x : part d c -> uses d x -> uses c x.
Proof. intros P U. eapply within_part; eauto. Qed.
Lemma uses_inv c x : uses c x -> c = CArg x \/ exists d, part d c /\ uses d x.
Proof. inversion 1; subst; eauto. Qed.

Lemma in_flat_regs (l : list cv) x : In x (flat_map regs l) <-> exists c, In c l /\ In x (regs c).
Proof. apply in_flat_map. Qed.

Lemma regs_used c : forall x, In x (regs c) -> uses c x.
Proof.
  assert (L : forall l, Forall (fun c => forall x, In x (regs c) -> uses c x) l ->
              forall x, In x (flat_map regs l) -> exists c, In c l /\ uses c x).
  { intros l F x Hx. apply in_flat_map in Hx as (c0 & Hc & Hx). rewrite Forall_forall in F. eauto. }
  assert (O : forall o, optP (fun c => forall x, In x (regs c) -> uses c x) o ->
              forall x, In x (oregs o) -> exists c, o = Some c /\ uses c x).
  { intros [c0|] H x Hx; [eauto|destruct Hx]. }
  induction c using cv_ind'; intros y; cbn [regs]; try solve [intros []].
  - intros [->|[]]. constructor.
  - intros Hy.
    assert (Hy' : exists c, In c l /\ uses c y).
    { assert (S1 : In y (match l with [] => [] | s :: _ => regs s end) -> exists c, In c l /\ uses c y).
      { destruct l as [|s l]; [intros []|]. intros Hs. inversion H; subst. exists s. split; [left; auto|auto]. }
      destruct o; try (destruct l; [destruct Hy|]; now apply L); auto. }
    destruct Hy' as (c & Hc & Hu). eapply uses_part; [apply part_op; eauto|auto].
  - intros Hy. apply in_app_or in Hy as [Hy|Hy]; eapply uses_part; [| |apply part_attr_name|]; eauto using part_attr_object.
  - intros Hy. apply L in Hy as (c & Hc & Hu); auto. eapply uses_part; [apply part_bool; eauto|auto].
  - intros Hy. apply L in Hy as (c & Hc & Hu); auto. eapply uses_part; [apply part_eqs; eauto|auto].
  - intros Hy. apply in_app_or in Hy as [Hy|Hy]; [|apply in_app_or in Hy as [Hy|Hy]].
    + apply O in Hy as (c0 & -> & Hu); auto. eapply uses_part; [apply part_if_condition|auto].
    + apply O in Hy as (c0 & -> & Hu); auto. eapply uses_part; [apply part_if_true|auto].
    + apply O in Hy as (c0 & -> & Hu); auto. eapply uses_part; [apply part_if_false|auto].
  - intros Hy. apply in_app_or in Hy as [Hy|Hy]; [|apply in_app_or in Hy as [Hy|Hy]].
    + apply O in Hy as (c0 & -> & Hu); auto. eapply uses_part; [apply part_default_self|auto].
    + apply L in Hy as (c0 & Hc & Hu); auto. eapply uses_part; [apply part_default_index; eauto|auto].
    + eapply uses_part; [apply part_default_value|auto].
  - intros Hy. apply in_app_or in Hy as [Hy|Hy].
    + apply L in Hy as (c0 & Hc & Hu); auto. eapply uses_part; [apply part_comp_element; eauto|auto].
    + apply O in Hy as (c0 & -> & Hu); auto. eapply uses_part; [apply part_comp_condition|auto].
  - intros Hy. apply in_flat_map in Hy as ([co e] & Hl & Hy). cbn [fst snd] in Hy.
    rewrite Forall_forall in H. destruct (H _ Hl) as [Hc He]. cbn [fst snd] in *.
    apply in_app_or in Hy as [Hy|Hy].
    + apply O in Hy as (c0 & -> & Hu); auto. eapply uses_part; [eapply part_items_condition; eauto|auto].
    + eapply uses_part; [eapply part_items_element; eauto|auto].
  - intros Hy. apply in_app_or in Hy as [Hy|Hy].
    + eapply uses_part; [apply part_cached|auto].
    + apply in_flat_map in Hy as ([nl e] & Hl & Hy). rewrite Forall_forall in H.
      eapply uses_part; [eapply part_label; eauto|]. apply (H _ Hl); auto.
  - intros Hy. apply in_app_or in Hy as [Hy|Hy]; eapply uses_part; [apply part_pipe_first| |apply part_pipe_second|]; auto.
  - intros Hy. apply in_app_or in Hy as [Hy|Hy].
    + eapply uses_part; [apply part_tapped|auto].
    + apply in_flat_map in Hy as ([k l] & Hl & Hy). rewrite Forall_forall in H.
      apply L in Hy as (c0 & Hc & Hu); [|apply (H _ Hl)]. eapply uses_part; [eapply part_mutation; eauto|auto].
Qed.

Lemma sorts_part c d : part d c -> sorts_use_no_argument c -> sorts_use_no_argument d.
Proof. intros P H o s kr k x Hw. apply (H o s kr k x). eapply within_part; eauto. Qed.

Lemma used_regs c : sorts_use_no_argument c -> forall x, uses c x -> In x (regs c).
Proof.
  intros S x U. remember (CArg x) as a eqn:Ea. unfold uses in U. rewrite <- Ea in U.
  induction U as [c|a b c Hw IH Hp].
  - subst c. left. reflexivity.
  - specialize (IH (sorts_part _ _ Hp S) Ea). subst a.
    destruct Hp; cbn [regs]; try (apply in_flat_map; eauto; fail);
      repeat rewrite in_app_iff; try tauto; try (left; apply in_flat_map; eauto; fail);
      try (right; left; apply in_flat_map; eauto; fail); try (right; apply in_flat_map; eauto; fail).
    + (* operations *)
      assert (G : In x (flat_map regs l)) by (apply in_flat_map; eauto).
      destruct l as [|s l]; [destruct H|].
      assert (Srt : is_sort o -> In x (regs s)).
      { intros Hs. destruct H as [<-|H]; [auto|].
        exfalso. apply (S o s l a x); auto. constructor. }
      destruct o; auto; apply Srt; exact I.
    + apply in_flat_map. exists (Some c, e). split; auto. cbn [fst snd]. apply in_or_app; auto.
    + apply in_flat_map. exists (co, e). split; auto. cbn [fst snd]. apply in_or_app; auto.
    + right. apply in_flat_map. exists (k, l). split; auto. apply in_flat_map. eauto.
Qed.

(** *** the order of the names *)
Lemma tleb_before a : forall b, tleb a b = true -> a = b \/ before a b.
Proof.
  induction a as [|x a IH]; intros [|y b]; simpl; try discriminate; auto using before_shorter.
  destruct (N.ltb_spec x y) as [L|L]; [right; constructor; auto|].
  destruct (N.eqb_spec x y) as [->|n]; [|discriminate].
  intros H. destruct (IH _ H) as [->|B]; [auto|right; apply before_later; auto].
Qed.
Lemma tleb_total a : forall b, tleb a b = false -> before b a.
Proof.
  induction a as [|x a IH]; intros [|y b]; simpl; try discriminate; auto using before_shorter.
  destruct (N.ltb_spec x y) as [L|L]; [discriminate|].
  destruct (N.eqb_spec x y) as [->|n]; [|intros _; apply before_smaller; lia].
  intros H. apply before_later. auto.
Qed.
Lemma before_trans a b c : before a b -> before b c -> before a c.
Proof.
  intros H. revert c. induction H; intros c Hc; inversion Hc; subst;
    try (constructor; auto; lia); try (apply before_smaller; lia); auto.
Qed.
Lemma insert_sorted y l : ~ In y l -> StronglySorted before l -> StronglySorted before (tinsert y l).
Proof.
  intros N S. induction S as [|z l S IH F]; simpl; [repeat constructor|].
  destruct (tleb y z) eqn:E.
  - constructor; [constructor; auto|].
    assert (B : before y z). { destruct (tleb_before _ _ E) as [->|B]; auto. destruct N; left; auto. }
    constructor; auto. eapply Forall_impl; [|exact F]. intros; eapply before_trans; eauto.
  - apply tleb_total in E. constructor; [apply IH; intros H; apply N; right; auto|].
    rewrite Forall_forall in *. intros w Hw. apply in_insert in Hw as [->|Hw]; auto.
Qed.
Lemma sort_sorted l : NoDup l -> StronglySorted before (sort_names l).
Proof.
  induction 1; simpl; [constructor|]. apply insert_sorted; auto. rewrite in_sort; auto.
Qed.
Lemma get_args_ok h i :
  StronglySorted before (get_args h i) /\ forall x, In x (get_args h i) <-> In x (arg_names h i).
Proof.
  unfold get_args. split; [apply sort_sorted, NoDup_nodup|]. intros x. rewrite in_sort. apply nodup_In.
Qed.
Lemma filter_sorted f l : StronglySorted before l -> StronglySorted before (filter f l).
Proof.
  induction 1 as [|x l S IH F]; simpl; [constructor|]. destruct (f x); auto. constructor; auto.
  rewrite Forall_forall in *. intros y Hy. apply filter_In in Hy as [Hy _]. auto.
Qed.
Lemma intersperse_joined sep l : intersperse sep l = joined sep l.
Proof. induction l as [|a [|b l] IH]; simpl in *; auto. Qed.
Lemma teqb_eq a b : teqb a b = true <-> a = b.
Proof. unfold teqb. destruct (text_eq_dec a b); split; congruence. Qed.

(** *** words *)
Section Words.
  Variable wordch : N -> bool.
  Lemma words_from_run cur w t :
    forallb wordch w = true -> words_from wordch cur (w ++ t) = words_from wordch (cur ++ w) t.
  Proof.
    revert cur. induction w as [|c w IH]; intros cur H; simpl; [now rewrite app_nil_r|].
    simpl in H. apply andb_prop in H as [H1 H2]. rewrite H1, IH by auto. now rewrite <- app_assoc.
  Qed.
  Definition plain (w : text) : Prop := w <> [] /\ forallb wordch w = true.
  Hypothesis comma : wordch 44%N = false.
  Hypothesis space : wordch 32%N = false.
  Lemma comma_space : T ", " = [44%N; 32%N]. Proof. reflexivity. Qed.
  Lemma words_joined l : Forall plain l -> findall_words wordch (joined (T ", ") l) = l.
  Proof.
    unfold findall_words. induction 1 as [|w l [Hw Hp] Hl IH]; [reflexivity|].
    destruct l as [|b l].
    - cbn [joined]. rewrite <- (app_nil_r w) at 1. rewrite words_from_run by auto. simpl. destruct w; [easy|reflexivity].
    - change (joined (T ", ") (w :: b :: l)) with (w ++ T ", " ++ joined (T ", ") (b :: l)).
      rewrite words_from_run by auto. rewrite comma_space. set (rest := joined (T ", ") (b :: l)) in *.
      cbn [app words_from]. rewrite comma, space. destruct w as [|c w]; [easy|]. f_equal. exact IH.
  Qed.
  Lemma words_def l : Forall plain l ->
    findall_words wordch (match l with [] => [] | _ => T ", " ++ joined (T ", ") l end) = l.
  Proof.
    intros F. destruct l as [|a l]; [reflexivity|]. unfold findall_words.
    rewrite comma_space. cbn [app words_from]. rewrite comma, space. apply (words_joined _ F).
  Qed.
End Words.

Section HasWord.
  Variable wordch : N -> bool.
  Lemma all_word_no cur a c b : forallb wordch cur = true -> cur = a ++ c :: b -> wordch c = false -> False.
  Proof.
    intros H -> E. rewrite forallb_app in H. simpl in H. rewrite E in H. simpl in H.
    rewrite andb_false_r in H. discriminate.
  Qed.
  Lemma has_word_end cur x : forallb wordch cur = true -> (has_word wordch cur x <-> cur <> [] /\ x = cur).
  Proof.
    intros W. split.
    - intros (N & F & a & b & E & A & B).
      destruct A as [->|(a' & c & -> & Hc)].
      2:{ exfalso. rewrite <- app_assoc in E. exact (all_word_no _ _ _ _ W E Hc). }
      destruct B as [->|(c & b' & -> & Hc)].
      2:{ exfalso. simpl in E. exact (all_word_no _ _ _ _ W E Hc). }
      simpl in E. rewrite app_nil_r in E. subst. auto.
    - intros [N ->]. split; [auto|]. split; [auto|]. exists [], []. rewrite app_nil_r. auto.
  Qed.
  Lemma has_word_split cur c r x : forallb wordch cur = true -> wordch c = false ->
    (has_word wordch (cur ++ c :: r) x <-> cur <> [] /\ x = cur \/ has_word wordch r x).
  Proof.
    intros W Hc. split.
    - intros (N & F & a & b & E & A & B).
      (* where does [a] end? *)
      assert (K : (exists t, cur = a ++ t) \/ exists t, a = cur ++ c :: t /\ r = t ++ x ++ b).
      { symmetry in E. apply app_eq_app in E as (t & [[E1 E2]|[E1 E2]]).
        - destruct t as [|d t].
          + left. exists []. rewrite app_nil_r in *. auto.
          + right. simpl in E2. inversion E2; subst. eauto.
        - left. exists t. auto. }
      destruct K as [[t ->]|(t & -> & ->)].
      + (* a is a prefix of cur, all word characters: so a = [] *)
        destruct A as [->|(a' & d & -> & Hd)].
        2:{ exfalso. rewrite <- app_assoc in W. eapply all_word_no; [exact W| |exact Hd]. reflexivity. }
        simpl in E, W. symmetry in E. left.
        apply app_eq_app in E as (u & [[E1 E2]|[E1 E2]]).
        * (* x = t ++ u *) destruct u as [|d u].
          -- rewrite app_nil_r in E1. subst. split; [auto|reflexivity].
          -- exfalso. simpl in E2. inversion E2; subst d. subst x. rewrite forallb_app in F. simpl in F.
             rewrite Hc in F. simpl in F. rewrite andb_false_r in F. discriminate.
        * (* t = x ++ u *) destruct u as [|d u].
          -- rewrite app_nil_r in E1. subst. split; [auto|reflexivity].
          -- exfalso. destruct B as [->|(d' & b' & -> & Hd)]; [discriminate|].
             simpl in E2. inversion E2; subst d'. exact (all_word_no _ _ _ _ W E1 Hd).
      + right. split; [auto|]. split; [auto|]. exists t, b. split; [auto|]. split; [|auto].
        destruct t as [|d t] using rev_ind; [left; auto|]. right. exists t, d. split; [auto|].
        destruct A as [A|(a' & e & A & He)]; [destruct cur; discriminate|].
        rewrite app_comm_cons, app_assoc in A. apply app_inj_tail in A as [_ ->]. auto.
    - intros [[N ->]|(N & F & a & b & -> & A & B)].
      + split; [auto|]. split; [auto|]. exists [], (c :: r). split; [auto|]. split; [auto|]. right. eauto.
      + split; [auto|]. split; [auto|]. exists (cur ++ c :: a), b. split; [now rewrite <- app_assoc|]. split; [|auto].
        right. destruct A as [->|(a' & d & -> & Hd)].
        * exists cur, c. auto.
        * exists (cur ++ c :: a'), d. split; [now rewrite <- app_assoc|auto].
  Qed.
  Lemma words_from_spec t : forall cur x, forallb wordch cur = true ->
    (In x (words_from wordch cur t) <-> has_word wordch (cur ++ t) x).
  Proof.
    induction t as [|c t IH]; intros cur x W; cbn [words_from].
    - rewrite app_nil_r, has_word_end by auto. destruct cur; simpl; intuition congruence.
    - destruct (wordch c) eqn:Hc.
      + rewrite IH; [|rewrite forallb_app, W; simpl; now rewrite Hc]. rewrite <- app_assoc. reflexivity.
      + rewrite has_word_split by auto. destruct cur as [|d cur].
        * rewrite IH by auto. intuition congruence.
        * cbn [In]. rewrite IH by auto. simpl. intuition congruence.
  Qed.
  Lemma findall_spec t x : In x (findall_words wordch t) <-> has_word wordch t x.
  Proof. apply (words_from_spec t [] x). reflexivity. Qed.
End HasWord.
