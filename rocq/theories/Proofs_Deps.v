(** What conversion objects register, for any way [own] of reading something off the
    kind of an object. *)
From Coq Require Import String List ZArith NArith Bool Arith Lia Sorting.Sorted.
From Verif Require Import Model_Code Model_Heap Spec_Heap Proofs_Heap Props_Heap Model_Args Spec_Args Proofs_Code.
Import ListNotations.

Section Names.
Variable Tag : Type.
Variable own : node -> list Tag.
Definition name_at (h : oheap) (j : nat) : list Tag :=
  match nth_error h j with Some o => own (payload o) | None => [] end.
(** what [own] says of everything the object at [i] depends on *)
Definition names (h : oheap) (i : nat) : list Tag := flat_map (name_at h) (get_dependencies h i).
Lemma arg_names_eq h i : names h i = flat_map (name_at h) (get_dependencies h i).
Proof. reflexivity. Qed.

Definition wf (h : oheap) : Prop :=
  forall j o, nth_error h j = Some o -> forall d, In d (deps o) -> (d < length h)%nat.

(** same dependencies and payload for everything that was there *)
Definition dpx (h h' : oheap) : Prop :=
  forall j o, nth_error h j = Some o ->
    exists o', nth_error h' j = Some o' /\ deps o' = deps o /\ payload o' = payload o.
Lemma dpx_refl h : dpx h h.
Proof. intros j o H. eauto. Qed.
Lemma dpx_trans a b c : dpx a b -> dpx b c -> dpx a c.
Proof.
  intros H1 H2 j o H. destruct (H1 _ _ H) as (o1 & E1 & D1 & P1).
  destruct (H2 _ _ E1) as (o2 & E2 & D2 & P2). exists o2. split; [auto|]. split; congruence.
Qed.
Lemma preserved_dpx h h' : preserved h h' -> dpx h h'.
Proof. intros H j o E. exists o. auto. Qed.
Lemma dpx_len h h' : dpx h h' -> (length h <= length h')%nat.
Proof.
  intros H. destruct (Nat.le_gt_cases (length h) (length h')) as [|L]; auto.
  destruct (nth_error h (length h')) as [o|] eqn:E.
  - destruct (H _ _ E) as (o' & E' & _). assert (X : nth_error h' (length h') <> None) by congruence.
    apply nth_error_Some in X. lia.
  - apply nth_error_None in E. lia.
Qed.
Lemma valid_nth (h : oheap) j : (j < length h)%nat -> exists o, nth_error h j = Some o.
Proof. intros H. destruct (nth_error h j) eqn:E; eauto. apply nth_error_None in E. lia. Qed.
Lemma nth_valid (h : oheap) j o : nth_error h j = Some o -> (j < length h)%nat.
Proof. intros H. apply nth_error_Some. congruence. Qed.

Lemma name_at_dpx h h' j : dpx h h' -> (j < length h)%nat -> name_at h' j = name_at h j.
Proof.
  intros H L. destruct (valid_nth _ _ L) as [o E]. destruct (H _ _ E) as (o' & E' & _ & P).
  unfold name_at. rewrite E, E', P. reflexivity.
Qed.
Lemma get_deps_dpx h h' i : dpx h h' -> (i < length h)%nat -> get_dependencies h' i = get_dependencies h i.
Proof.
  intros H L. destruct (valid_nth _ _ L) as [o E]. destruct (H _ _ E) as (o' & E' & D & _).
  unfold get_dependencies. rewrite E, E', D. reflexivity.
Qed.
Lemma deps_valid h i d : wf h -> In d (get_dependencies h i) -> (d < length h)%nat.
Proof.
  intros W. unfold get_dependencies. destruct (nth_error h i) as [o|] eqn:E; [|easy].
  intros H. apply in_app_or in H as [H|[<-|[]]]; [eapply W; eauto|eapply nth_valid; eauto].
Qed.
Lemma flat_map_ext_in' {A B} (f g : A -> list B) l : (forall a, In a l -> f a = g a) -> flat_map f l = flat_map g l.
Proof. induction l; simpl; intros H; auto. rewrite H, IHl; auto. Qed.
Lemma arg_names_dpx h h' i : wf h -> dpx h h' -> (i < length h)%nat -> names h' i = names h i.
Proof.
  intros W H L. rewrite !arg_names_eq, (get_deps_dpx h h' i H L). apply flat_map_ext_in'.
  intros d Hd. apply name_at_dpx; auto. eapply deps_valid; eauto.
Qed.
Lemma pipeline_preserved (h h' : oheap) i l : preserved h h' -> pipeline h i l -> pipeline h' i l.
Proof. intros H. induction 1; econstructor; eauto. Qed.
Lemma pipeline_valid (h : oheap) i l : pipeline h i l -> (i < length h)%nat.
Proof. destruct 1; eapply nth_valid; eauto. Qed.
Lemma preserved_refl (h : oheap) : preserved h h. Proof. intros i o H; auto. Qed.
Lemma preserved_trans (a b c : oheap) : preserved a b -> preserved b c -> preserved a c.
Proof. intros H1 H2 i o H; auto. Qed.

(** *** a new object *)
Lemma ensure_last (h : oheap) p l : forall d,
  Forall (fun j => (j < length h)%nat) l ->
  ensure (h ++ [mkObj None d p]) (length h) l = h ++ [mkObj None (d ++ flat_map (get_dependencies h) l) p].
Proof.
  induction l as [|j l IH]; intros d F; cbn [ensure fold_left flat_map].
  - rewrite app_nil_r. reflexivity.
  - inversion F; subst.
    assert (E : depends_on (h ++ [mkObj None d p]) (length h) j
                = h ++ [mkObj None (d ++ get_dependencies h j) p]).
    { unfold depends_on.
      replace (get_dependencies (h ++ [mkObj None d p]) j) with (get_dependencies h j)
        by (unfold get_dependencies; rewrite nth_error_app1; auto).
      generalize (get_dependencies h j). clear. induction h as [|o h IH]; intros g; simpl; [reflexivity|]. f_equal. apply IH. }
    change (fold_left (fun h0 j0 => depends_on h0 (length h) j0) l (depends_on (h ++ [mkObj None d p]) (length h) j))
      with (ensure (depends_on (h ++ [mkObj None d p]) (length h) j) (length h) l).
    rewrite E, IH by auto. now rewrite app_assoc.
Qed.


Lemma alloc_ok (h : oheap) p l :
  wf h -> Forall (fun j => (j < length h)%nat) l ->
  let h' := h ++ [mkObj None (flat_map (get_dependencies h) l) p] in
  wf h' /\ preserved h h' /\ pipeline h' (length h) [p] /\
  names h' (length h) = flat_map (names h) l ++ own p.
Proof.
  intros W F h'.
  assert (Pr : preserved h h').
  { intros j o H. unfold h'. rewrite nth_error_app1; auto. eapply nth_valid; eauto. }
  assert (N : nth_error h' (length h) = Some (mkObj None (flat_map (get_dependencies h) l) p)).
  { unfold h'. rewrite nth_error_app2, Nat.sub_diag by lia. reflexivity. }
  split; [|split; [auto|split]].
  - intros j o H d Hd. unfold h'. rewrite app_length. simpl.
    destruct (Nat.lt_ge_cases j (length h)) as [L|L].
    + unfold h' in H. rewrite nth_error_app1 in H by auto. specialize (W _ _ H d Hd). lia.
    + assert (j = length h). { apply nth_valid in H. unfold h' in H. rewrite app_length in H. simpl in H. lia. }
      subst j. rewrite N in H. inversion H; subst o. simpl in Hd. apply in_flat_map in Hd as (x & _ & Hx).
      pose proof (deps_valid _ _ _ W Hx). lia.
  - apply (one_stage h' (length h) _ N). reflexivity.
  - rewrite arg_names_eq. unfold get_dependencies at 1. rewrite N. cbn [deps].
    rewrite flat_map_app. f_equal.
    + rewrite (flat_map_ext_in' _ (name_at h)).
      2:{ intros d Hd. apply in_flat_map in Hd as (x & _ & Hx). apply name_at_dpx.
          - apply preserved_dpx; auto.
          - eapply deps_valid; eauto. }
      clear. induction l; simpl; auto. rewrite flat_map_app, IHl. reflexivity.
    + simpl. unfold name_at. rewrite N. cbn [payload]. apply app_nil_r.
Qed.
Lemma make_alloc (h : oheap) p l :
  Forall (fun j => (j < length h)%nat) l ->
  make h p l = (h ++ [mkObj None (flat_map (get_dependencies h) l) p], length h).
Proof.
  intros F. unfold make, new. rewrite ensure_last by auto. reflexivity.
Qed.

(** *** pipe *)
Lemma nth_app_old (h : oheap) o j x : nth_error h j = Some x -> nth_error (h ++ [o]) j = Some x.
Proof. intros H. rewrite nth_error_app1; auto. eapply nth_valid; eauto. Qed.

Lemma clone_loop_dpx n : forall (h : oheap) conv h',
  clone_loop n h conv = Done h' tt -> wf h -> dpx h h' /\ wf h'.
Proof.
  induction n as [|n IH]; intros h conv h' E W; [discriminate|]. cbn [clone_loop] in E.
  destruct (nth_error h conv) as [o|] eqn:Ho; [|discriminate].
  destruct (pred o) as [p|] eqn:Hp.
  2:{ inversion E; subst. split; auto using dpx_refl. }
  unfold clone1 in E. destruct (nth_error h p) as [op|] eqn:Hop; [|discriminate].
  set (h1 := update (h ++ [op]) conv (set_pred (Some (length h)))) in *.
  assert (D1 : dpx h h1).
  { intros j x Hj. pose proof (nth_app_old _ op _ _ Hj) as Hj'. unfold h1.
    destruct (Nat.eq_dec conv j) as [->|ne].
    - rewrite (nth_update_eq _ _ _ _ Hj'). eexists. split; [reflexivity|]. split; reflexivity.
    - rewrite nth_update_ne by auto. eauto. }
  assert (W1 : wf h1).
  { assert (L : length h1 = S (length h)) by (unfold h1; rewrite length_update, app_length; simpl; lia).
    intros j x Hj d Hd. rewrite L.
    assert (K : exists y, nth_error (h ++ [op]) j = Some y /\ deps y = deps x).
    { unfold h1 in Hj. destruct (Nat.eq_dec conv j) as [->|ne].
      - pose proof (nth_app_old _ op _ _ Ho) as H0. rewrite (nth_update_eq _ _ _ _ H0) in Hj.
        inversion Hj; subst x. eauto.
      - rewrite nth_update_ne in Hj by auto. eauto. }
    destruct K as (y & Ey & Dy). rewrite <- Dy in Hd.
    destruct (Nat.lt_ge_cases j (length h)) as [Lj|Lj].
    - rewrite nth_error_app1 in Ey by auto. specialize (W _ _ Ey d Hd). lia.
    - rewrite nth_error_app2 in Ey by auto.
      destruct (j - length h)%nat as [|k]; [|destruct k; discriminate]. inversion Ey; subst y.
      specialize (W _ _ Hop d Hd). lia. }
  destruct (IH _ _ _ E W1) as (D2 & W2). split; auto. eapply dpx_trans; eauto.
Qed.

Lemma clone_dpx m (h : oheap) i h' i' :
  clone m h i = Done h' i' -> wf h ->
  dpx h h' /\ wf h' /\ (i < length h)%nat /\ (i' < length h')%nat /\ names h' i' = names h i /\
  (forall d, In d (deps match nth_error h' i' with Some o => o | None => mkObj None [] NOther end) -> (d < length h)%nat).
Proof.
  unfold clone, clone1. destruct (nth_error h i) as [o|] eqn:Ho; [|discriminate].
  destruct (clone_loop (Z.to_nat m) (h ++ [o]) (length h)) as [h2 []| |] eqn:E; try discriminate.
  intros R W. inversion R; subst h2 i'; clear R.
  assert (D0 : dpx h (h ++ [o])).
  { intros j x Hj. exists x. split; [apply nth_app_old; auto|]. auto. }
  assert (W0 : wf (h ++ [o])).
  { intros j x Hj d Hd. rewrite app_length. simpl.
    destruct (Nat.lt_ge_cases j (length h)) as [Lj|Lj].
    - rewrite nth_error_app1 in Hj by auto. specialize (W _ _ Hj d Hd). lia.
    - rewrite nth_error_app2 in Hj by auto.
      destruct (j - length h)%nat as [|k]; [|destruct k; discriminate]. inversion Hj; subst x.
      specialize (W _ _ Ho d Hd). lia. }
  destruct (clone_loop_dpx _ _ _ _ E W0) as (D1 & W1).
  assert (D : dpx h h') by (eapply dpx_trans; eauto).
  assert (N0 : nth_error (h ++ [o]) (length h) = Some o) by (rewrite nth_error_app2, Nat.sub_diag by lia; reflexivity).
  destruct (D1 _ _ N0) as (o' & N' & Dd & Pp).
  split; [auto|]. split; [auto|]. split; [eapply nth_valid; eauto|]. split; [eapply nth_valid; eauto|].
  split.
  - rewrite !arg_names_eq. unfold get_dependencies. rewrite N', Ho, Dd, !flat_map_app. f_equal.
    + apply flat_map_ext_in'. intros d Hd. apply name_at_dpx; auto. eapply W; eauto.
    + simpl. unfold name_at. rewrite N', Ho, Pp. reflexivity.
  - rewrite N', Dd. intros d Hd. eapply W; eauto.
Qed.

Lemma set_input_loop_deps input Dl n : forall (h : oheap) conv h',
  set_input_loop n h conv input = Done h' tt -> wf h ->
  incl (get_dependencies h input) Dl ->
  wf h' /\ length h' = length h /\
  (forall j o, nth_error h j = Some o -> exists o', nth_error h' j = Some o' /\ payload o' = payload o /\
     incl (deps o) (deps o') /\ incl (deps o') (deps o ++ Dl)) /\
  (exists o', nth_error h' conv = Some o' /\ incl (get_dependencies h input) (deps o')).
Proof.
  induction n as [|n IH]; intros h conv h' E W I; [discriminate|]. cbn [set_input_loop] in E.
  destruct (nth_error h conv) as [o|] eqn:Ho; [|discriminate].
  assert (St : forall f : obj node -> obj node,
    (forall x, deps (f x) = deps x ++ get_dependencies h input /\ payload (f x) = payload x) ->
    let h1 := update h conv f in
    wf h1 /\ length h1 = length h /\
    (forall j x, nth_error h j = Some x -> exists o', nth_error h1 j = Some o' /\ payload o' = payload x /\
       incl (deps x) (deps o') /\ incl (deps o') (deps x ++ Dl)) /\
    (exists o', nth_error h1 conv = Some o' /\ incl (get_dependencies h input) (deps o'))).
  { intros f Hf h1. assert (L : length h1 = length h) by apply length_update.
    split; [|split; [auto|split]].
    - intros j x Hj d Hd. rewrite L. unfold h1 in Hj. destruct (Nat.eq_dec conv j) as [->|ne].
      + rewrite (nth_update_eq _ _ _ _ Ho) in Hj. inversion Hj; subst x.
        rewrite (proj1 (Hf o)) in Hd. apply in_app_or in Hd as [Hd|Hd]; [eapply W; eauto|eapply deps_valid; eauto].
      + rewrite nth_update_ne in Hj by auto. eapply W; eauto.
    - intros j x Hj. unfold h1. destruct (Nat.eq_dec conv j) as [->|ne].
      + rewrite (nth_update_eq _ _ _ _ Hj). eexists. split; [reflexivity|]. destruct (Hf x) as [-> ->].
        split; [auto|]. split; [apply incl_appl, incl_refl|]. apply incl_app; [apply incl_appl, incl_refl|apply incl_appr; auto].
      + rewrite nth_update_ne by auto. exists x. split; [auto|]. split; [auto|].
        split; [apply incl_refl|apply incl_appl, incl_refl].
    - unfold h1. rewrite (nth_update_eq _ _ _ _ Ho). eexists. split; [reflexivity|].
      rewrite (proj1 (Hf o)). apply incl_appr, incl_refl. }
  destruct (pred o) as [p|] eqn:Hp.
  - unfold depends_on in E.
    destruct (St (add_deps (get_dependencies h input)) ltac:(intros; split; reflexivity)) as (W1 & L1 & M1 & C1).
    set (h1 := update h conv (add_deps (get_dependencies h input))) in *.
    assert (I1 : incl (get_dependencies h1 input) Dl).
    { unfold get_dependencies. destruct (nth_error h1 input) as [x|] eqn:Ex; [|intros ? []].
      assert (Lx : (input < length h)%nat) by (rewrite <- L1; eapply nth_valid; eauto).
      destruct (valid_nth _ _ Lx) as [y Ey]. destruct (M1 _ _ Ey) as (x' & Ex' & _ & _ & I').
      assert (x' = x) by congruence. subst x'.
      unfold get_dependencies in I. rewrite Ey in I.
      apply incl_app.
      - eapply incl_tran; [exact I'|]. apply incl_app; [|apply incl_refl].
        eapply incl_tran; [|exact I]. apply incl_appl, incl_refl.
      - eapply incl_tran; [|exact I]. apply incl_appr, incl_refl. }
    destruct (IH _ _ _ E W1 I1) as (W2 & L2 & M2 & _).
    split; [auto|]. split; [congruence|]. split.
    + intros j x Hj. destruct (M1 _ _ Hj) as (x1 & E1 & P1 & A1 & B1).
      destruct (M2 _ _ E1) as (x2 & E2 & P2 & A2 & B2).
      exists x2. split; [auto|]. split; [congruence|]. split; [eapply incl_tran; eauto|].
      eapply incl_tran; [exact B2|]. apply incl_app; [exact B1|apply incl_appr, incl_refl].
    + destruct C1 as (x1 & E1 & A1). destruct (M2 _ _ E1) as (x2 & E2 & _ & A2 & _).
      exists x2. split; [auto|]. eapply incl_tran; eauto.
  - inversion E as [E']; clear E. unfold depends_on. rewrite update_update.
    apply (St (fun x => set_pred (Some input) (add_deps (get_dependencies h input) x))).
    intros x. split; reflexivity.
Qed.

Section Pipe.
  Variable caching : nat -> list (lname * nat) -> node.
  Hypothesis caching_no_arg : forall i l, own (caching i l) = [].
  Definition olabels (o : option (list (lname * nat))) : list (lname * nat) :=
    match o with Some l => l | None => [] end.

  Lemma wrap_ok (h : oheap) i ls h' r :
    wf h -> (i < length h)%nat -> Forall (fun l => (snd l < length h)%nat) ls ->
    wrap_labels lname caching h i ls = (h', r) ->
    wf h' /\ preserved h h' /\ (exists p, pipeline h' r [p]) /\
    names h' r = names h i ++ flat_map (fun l => names h (snd l)) ls.
  Proof.
    intros W L F E. unfold wrap_labels in E.
    assert (Eq : get_dependencies h i ++ flat_map (fun l => get_dependencies h (snd l)) ls
                 = flat_map (get_dependencies h) (i :: map snd ls)).
    { cbn [flat_map]. f_equal. clear. induction ls; simpl; auto. now rewrite IHls. }
    rewrite Eq in E. inversion E; subst h' r; clear E.
    assert (F' : Forall (fun j => (j < length h)%nat) (i :: map snd ls)).
    { constructor; auto. clear -F. induction F; simpl; auto. }
    destruct (alloc_ok h (caching i ls) _ W F') as (W' & Pr & Pi & An).
    split; [auto|]. split; [auto|]. split; [eauto|].
    etransitivity; [exact An|]. rewrite caching_no_arg, app_nil_r. cbn [flat_map]. f_equal.
    clear. induction ls; simpl; auto. now rewrite IHls.
  Qed.

  Lemma pipe_args m (h h' : oheap) a b li lo r :
    wf h -> (b < length h)%nat -> pipe lname caching m h a b li lo = Done h' r ->
    Forall (fun l => (snd l < length h)%nat) (olabels li) ->
    Forall (fun l => (snd l < length h)%nat) (olabels lo) ->
    wf h' /\
    forall x, In x (names h' r) <->
      In x (names h a) \/ In x (names h b) \/
      exists l, In l (olabels li ++ olabels lo) /\ In x (names h (snd l)).
  Proof.
    intros W Vb E Fi Fo. unfold Model_Heap.pipe in E.
    destruct (clone m h a) as [h1 s| |] eqn:Ea; try discriminate.
    destruct (clone_dpx _ _ _ _ _ Ea W) as (D1 & W1 & La & Ls & N1 & _).
    set (w1 := match li with None => (h1, s) | Some ls => wrap_labels lname caching h1 s ls end) in *.
    assert (K1 : exists h2 s2, w1 = (h2, s2) /\ wf h2 /\ dpx h h2 /\ (s2 < length h2)%nat /\
              forall x, In x (names h2 s2) <-> In x (names h a) \/
                 exists l, In l (olabels li) /\ In x (names h (snd l))).
    { unfold w1. destruct li as [ls|].
      - destruct (wrap_labels lname caching h1 s ls) as [h2 s2] eqn:Ew.
        assert (F1 : Forall (fun l => (snd l < length h1)%nat) ls).
        { pose proof (dpx_len _ _ D1). eapply Forall_impl; [|exact Fi]. simpl. intros; lia. }
        destruct (wrap_ok h1 s ls h2 s2 W1 Ls F1 Ew) as (W2 & Pr & (p & Pi) & An).
        exists h2, s2. split; [auto|]. split; [auto|].
        split; [eapply dpx_trans; [exact D1|apply preserved_dpx; auto]|].
        split; [eapply pipeline_valid; eauto|]. intros x. rewrite An, in_app_iff, N1, in_flat_map.
        split; intros [H|(l & Hl & Hx)]; auto; right; exists l; (split; [auto|]); simpl in Fi;
          rewrite Forall_forall in Fi; [rewrite <- (arg_names_dpx h h1) by auto|rewrite (arg_names_dpx h h1) by auto]; auto.
      - exists h1, s. split; [auto|]. split; [auto|]. split; [auto|]. split; [auto|].
        intros x. rewrite N1. split; auto. intros [H|(l & [] & _)]; auto. }
    destruct K1 as (h2 & s2 & Ew1 & W2 & D2 & L2 & N2). rewrite Ew1 in E. clear w1 Ew1.
    destruct (clone m h2 b) as [h3 n| |] eqn:Eb; try discriminate.
    destruct (clone_dpx _ _ _ _ _ Eb W2) as (D3 & W3 & Lb & Ln & N3 & _).
    assert (Bold : (b < length h)%nat -> names h2 b = names h b) by (intros; apply arg_names_dpx; auto).
    set (w2 := match lo with None => (h3, n) | Some ls => wrap_labels lname caching h3 n ls end) in *.
    assert (D13 : dpx h h3) by (eapply dpx_trans; eauto).
    assert (K2 : exists h4 n2, w2 = (h4, n2) /\ wf h4 /\ dpx h3 h4 /\ (n2 < length h4)%nat /\
              forall x, In x (names h4 n2) <-> In x (names h2 b) \/
                 exists l, In l (olabels lo) /\ In x (names h (snd l))).
    { unfold w2. destruct lo as [ls|].
      - destruct (wrap_labels lname caching h3 n ls) as [h4 n2] eqn:Ew.
        assert (F1 : Forall (fun l => (snd l < length h3)%nat) ls).
        { pose proof (dpx_len _ _ D13). eapply Forall_impl; [|exact Fo]. simpl. intros; lia. }
        destruct (wrap_ok h3 n ls h4 n2 W3 Ln F1 Ew) as (W4 & Pr & (p & Pi) & An).
        exists h4, n2. split; [auto|]. split; [auto|]. split; [apply preserved_dpx; auto|].
        split; [eapply pipeline_valid; eauto|]. intros x. rewrite An, in_app_iff, N3, in_flat_map.
        split; intros [H|(l & Hl & Hx)]; auto; right; exists l; (split; [auto|]); simpl in Fo;
          rewrite Forall_forall in Fo; [rewrite <- (arg_names_dpx h h3) by auto|rewrite (arg_names_dpx h h3) by auto]; auto.
      - exists h3, n. split; [auto|]. split; [auto|]. split; [apply dpx_refl|]. split; [auto|].
        intros x. rewrite N3. split; auto. intros [H|(l & [] & _)]; auto. }
    destruct K2 as (h4 & n2 & Ew2 & W4 & D4 & L4 & N4). rewrite Ew2 in E. clear w2 Ew2.
    unfold set_predefined_input in E.
    destruct (set_input_loop (Z.to_nat (m - 1)) h4 n2 s2) as [h5 []| |] eqn:Es; try discriminate.
    inversion E; subst h5 r; clear E.
    destruct (set_input_loop_deps s2 _ _ _ _ _ Es W4 (incl_refl _)) as (W5 & L5 & M5 & C5).
    split; [auto|].
    assert (D24 : dpx h2 h4) by (eapply dpx_trans; eauto).
    assert (S4 : names h4 s2 = names h2 s2) by (apply arg_names_dpx; auto).
    assert (Fin : forall x, In x (names h' n2) <-> In x (names h4 n2) \/ In x (names h4 s2)).
    { destruct (valid_nth _ _ L4) as [o Ho]. destruct (M5 _ _ Ho) as (o' & Ho' & Po & I1 & I2).
      destruct C5 as (o'' & Ho'' & I3). assert (o'' = o') by congruence. subst o''.
      assert (NA : forall j, (j < length h4)%nat -> name_at h' j = name_at h4 j).
      { intros j Lj. destruct (valid_nth _ _ Lj) as [y Ey]. destruct (M5 _ _ Ey) as (y' & Ey' & Py & _).
        unfold name_at. rewrite Ey, Ey', Py. reflexivity. }
      intros x. rewrite !arg_names_eq, !in_flat_map. split.
      - intros (j & Hj & Hx). unfold get_dependencies in Hj. rewrite Ho' in Hj.
        assert (Lj : (j < length h4)%nat).
        { rewrite <- L5. apply (deps_valid h' n2 j W5). unfold get_dependencies. rewrite Ho'. auto. }
        rewrite NA in Hx by auto.
        apply in_app_or in Hj as [Hj|[<-|[]]].
        + apply I2 in Hj. apply in_app_or in Hj as [Hj|Hj].
          * left. exists j. split; auto. unfold get_dependencies. rewrite Ho. apply in_or_app; auto.
          * right. exists j. auto.
        + left. exists n2. split; auto. unfold get_dependencies. rewrite Ho. apply in_or_app; right; left; auto.
      - intros [(j & Hj & Hx)|(j & Hj & Hx)]; exists j;
          (assert (Lj : (j < length h4)%nat) by (eapply deps_valid; eauto)); rewrite NA by auto; (split; [|auto]);
          unfold get_dependencies; rewrite Ho'.
        + unfold get_dependencies in Hj. rewrite Ho in Hj.
          apply in_app_or in Hj as [Hj|[<-|[]]]; apply in_or_app; [left; auto|right; left; auto].
        + apply in_or_app. left. auto. }
    intros x. rewrite Fin, S4, N4, N2.
    assert (Bv : In x (names h2 b) <-> In x (names h b)).
    { rewrite Bold; tauto. }
    rewrite Bv. setoid_rewrite in_app_iff. split.
    - intros [[H|(l & Hl & Hx)]|[H|(l & Hl & Hx)]]; eauto 8.
    - intros [H|[H|(l & [Hl|Hl] & Hx)]]; eauto 8.
  Qed.
End Pipe.

(** *** what a dependency depends on is a dependency *)
Definition tclosed (h : oheap) (i : nat) : Prop :=
  forall d, In d (get_dependencies h i) -> incl (names h d) (names h i).
Lemma tclosed_dpx h h' i : wf h -> dpx h h' -> (i < length h)%nat -> tclosed h i -> tclosed h' i.
Proof.
  intros W D L C d Hd. rewrite (get_deps_dpx h h' i D L) in Hd.
  assert (Ld : (d < length h)%nat) by (eapply deps_valid; eauto).
  rewrite (arg_names_dpx h h' d), (arg_names_dpx h h' i) by auto. apply C; auto.
Qed.
Lemma alloc_closed (h : oheap) p l :
  wf h -> Forall (fun j => (j < length h)%nat) l -> Forall (tclosed h) l ->
  tclosed (h ++ [mkObj None (flat_map (get_dependencies h) l) p]) (length h).
Proof.
  intros W F C d Hd. destruct (alloc_ok h p l W F) as (W' & P & Pi & An). cbv zeta in *.
  set (h' := h ++ _) in *.
  assert (N : nth_error h' (length h) = Some (mkObj None (flat_map (get_dependencies h) l) p)).
  { unfold h'. rewrite nth_error_app2, Nat.sub_diag by lia. reflexivity. }
  unfold get_dependencies in Hd. rewrite N in Hd. cbn [deps] in Hd.
  apply in_app_or in Hd as [Hd|[<-|[]]]; [|apply incl_refl].
  change (In d (flat_map (get_dependencies h) l)) in Hd.
  apply in_flat_map in Hd as (x & Hx & Hd). rewrite An. apply incl_appl.
  rewrite Forall_forall in C.
  assert (Ld : (d < length h)%nat) by (eapply deps_valid; eauto).
  rewrite (arg_names_dpx h h' d) by (auto; apply preserved_dpx; auto).
  intros t Ht. apply in_flat_map. exists x. split; [auto|]. apply (C x Hx d Hd); auto.
Qed.
Lemma names_grow (h h' : oheap) Dl d :
  wf h -> (d < length h)%nat ->
  (forall j o, nth_error h j = Some o -> exists o', nth_error h' j = Some o' /\ payload o' = payload o /\
     incl (deps o) (deps o') /\ incl (deps o') (deps o ++ Dl)) ->
  (forall j, In j Dl -> (j < length h)%nat) ->
  incl (names h' d) (names h d ++ flat_map (name_at h) Dl).
Proof.
  intros W L M V t Ht. unfold names in Ht. apply in_flat_map in Ht as (j & Hj & Ht).
  destruct (valid_nth _ _ L) as [o Ho]. destruct (M _ _ Ho) as (o' & Ho' & _ & _ & I).
  assert (NA : forall j, (j < length h)%nat -> name_at h' j = name_at h j).
  { intros e Le. destruct (valid_nth _ _ Le) as [y Ey]. destruct (M _ _ Ey) as (y' & Ey' & Py & _).
    unfold name_at. rewrite Ey, Ey', Py. reflexivity. }
  unfold get_dependencies in Hj. rewrite Ho' in Hj.
  apply in_app_or in Hj as [Hj|[<-|[]]].
  - apply I in Hj. apply in_app_or in Hj as [Hj|Hj].
    + rewrite NA in Ht by (eapply W; eauto). apply in_or_app. left. unfold names. apply in_flat_map.
      exists j. split; [|auto]. unfold get_dependencies. rewrite Ho. apply in_or_app. auto.
    + rewrite NA in Ht by auto. apply in_or_app. right. apply in_flat_map. eauto.
  - rewrite NA in Ht by auto. apply in_or_app. left. unfold names. apply in_flat_map. exists d.
    split; [|auto]. unfold get_dependencies. rewrite Ho. apply in_or_app. right. left. auto.
Qed.
Lemma pipe_closed caching m (h h' : oheap) a b r :
  wf h -> (b < length h)%nat -> pipe lname caching m h a b None None = Done h' r ->
  tclosed h a -> tclosed h b -> tclosed h' r.
Proof.
  intros W Vb E Ca Cb. unfold Model_Heap.pipe in E.
  destruct (clone m h a) as [h1 s| |] eqn:Ea; try discriminate.
  destruct (clone_dpx _ _ _ _ _ Ea W) as (D1 & W1 & La & Ls & N1 & V1).
  destruct (clone m h1 b) as [h3 n| |] eqn:Eb; try discriminate.
  destruct (clone_dpx _ _ _ _ _ Eb W1) as (D3 & W3 & Lb & Ln & N3 & V3).
  unfold set_predefined_input in E.
  destruct (set_input_loop (Z.to_nat (m - 1)) h3 n s) as [h5 []| |] eqn:Es; try discriminate.
  inversion E; subst h5 r; clear E.
  destruct (set_input_loop_deps s _ _ _ _ _ Es W3 (incl_refl _)) as (W5 & L5 & M5 & C5).
  pose proof (dpx_len _ _ D3) as L13. pose proof (dpx_len _ _ D1) as L01.
  assert (Ls3 : (s < length h3)%nat) by lia.
  assert (VD : forall j, In j (get_dependencies h3 s) -> (j < length h3)%nat).
  { intros j Hj. eapply deps_valid; eauto. }
  assert (Cn : tclosed h3 n).
  { intros d Hd. rewrite N3. unfold get_dependencies in Hd. destruct (valid_nth _ _ Ln) as [on En].
    rewrite En in Hd. apply in_app_or in Hd as [Hd|[<-|[]]]; [|rewrite N3; apply incl_refl].
    rewrite En in V3.
    (* the dependencies of the clone are those of b *)
    assert (Ed : In d (get_dependencies h1 b)).
    { revert Hd En. revert Eb. unfold clone, clone1.
      destruct (nth_error h1 b) as [ob|] eqn:Hb; [|discriminate].
      destruct (clone_loop (Z.to_nat m) (h1 ++ [ob]) (length h1)) as [h2 []| |] eqn:El; try discriminate.
      intros R. inversion R; subst h2 n. intros Hd En.
      assert (W0 : wf (h1 ++ [ob])).
      { intros j x Hj e He. rewrite app_length. simpl.
        destruct (Nat.lt_ge_cases j (length h1)) as [Lj|Lj].
        - rewrite nth_error_app1 in Hj by auto. specialize (W1 _ _ Hj e He). lia.
        - rewrite nth_error_app2 in Hj by auto.
          destruct (j - length h1)%nat as [|k]; [|destruct k; discriminate]. inversion Hj; subst x.
          specialize (W1 _ _ Hb e He). lia. }
      destruct (clone_loop_dpx _ _ _ _ El W0) as (D & _).
      assert (N0 : nth_error (h1 ++ [ob]) (length h1) = Some ob)
        by (rewrite nth_error_app2, Nat.sub_diag by lia; reflexivity).
      destruct (D _ _ N0) as (o' & N' & Dd & _). assert (o' = on) by congruence. subst o'.
      unfold get_dependencies. rewrite Hb. apply in_or_app. left. rewrite <- Dd. auto. }
    assert (Cb1 : tclosed h1 b) by (apply (tclosed_dpx h); auto).
    assert (Ld : (d < length h1)%nat) by (apply V3; auto).
    rewrite (arg_names_dpx h1 h3 d) by auto. apply Cb1; auto. }
  assert (Cs : tclosed h3 s).
  { apply (tclosed_dpx h1 h3 s W1 D3 Ls).
    intros d Hd. rewrite N1. unfold get_dependencies in Hd. destruct (valid_nth _ _ Ls) as [os Eos].
    rewrite Eos in Hd. apply in_app_or in Hd as [Hd|[<-|[]]]; [|rewrite N1; apply incl_refl].
    rewrite Eos in V1.
    assert (Ed : In d (get_dependencies h a)).
    { revert Hd Eos. revert Ea. unfold clone, clone1.
      destruct (nth_error h a) as [ob|] eqn:Hb; [|discriminate].
      destruct (clone_loop (Z.to_nat m) (h ++ [ob]) (length h)) as [h2 []| |] eqn:El; try discriminate.
      intros R. inversion R; subst h2 s. intros Hd En.
      assert (W0 : wf (h ++ [ob])).
      { intros j x Hj e He. rewrite app_length. simpl.
        destruct (Nat.lt_ge_cases j (length h)) as [Lj|Lj].
        - rewrite nth_error_app1 in Hj by auto. specialize (W _ _ Hj e He). lia.
        - rewrite nth_error_app2 in Hj by auto.
          destruct (j - length h)%nat as [|k]; [|destruct k; discriminate]. inversion Hj; subst x.
          specialize (W _ _ Hb e He). lia. }
      destruct (clone_loop_dpx _ _ _ _ El W0) as (D & _).
      assert (N0 : nth_error (h ++ [ob]) (length h) = Some ob)
        by (rewrite nth_error_app2, Nat.sub_diag by lia; reflexivity).
      destruct (D _ _ N0) as (o' & N' & Dd & _). assert (o' = os) by congruence. subst o'.
      unfold get_dependencies. rewrite Hb. apply in_or_app. left. rewrite <- Dd. auto. }
    assert (Ld : (d < length h)%nat) by (apply V1; auto).
    rewrite (arg_names_dpx h h1 d) by auto. apply Ca; auto. }
  (* everything registered at [n] before, and at [s], is registered at [n] now *)
  destruct (valid_nth _ _ Ln) as [o Ho]. destruct (M5 _ _ Ho) as (o' & Ho' & Po & I1 & I2).
  destruct C5 as (o'' & Ho'' & I3). assert (o'' = o') by congruence. subst o''.
  assert (NA : forall j, (j < length h3)%nat -> name_at h' j = name_at h3 j).
  { intros e Le. destruct (valid_nth _ _ Le) as [y Ey]. destruct (M5 _ _ Ey) as (y' & Ey' & Py & _).
    unfold name_at. rewrite Ey, Ey', Py. reflexivity. }
  assert (Sup : incl (names h3 n ++ flat_map (name_at h3) (get_dependencies h3 s)) (names h' n)).
  { intros t Ht. unfold names at 1 in Ht. unfold names. apply in_or_app || idtac.
    apply in_app_or in Ht as [Ht|Ht]; apply in_flat_map in Ht as (j & Hj & Ht); apply in_flat_map; exists j;
      (assert (Lj : (j < length h3)%nat) by (eapply deps_valid; eauto)); rewrite NA by auto; (split; [|auto]);
      unfold get_dependencies; rewrite Ho'.
    - unfold get_dependencies in Hj. rewrite Ho in Hj.
      apply in_app_or in Hj as [Hj|[<-|[]]]; apply in_or_app; [left; auto|right; left; auto].
    - apply in_or_app. left. auto. }
  assert (Low : forall d, (d < length h3)%nat -> incl (names h3 d) (names h' n) -> incl (names h' d) (names h' n)).
  { intros d Ld I. eapply incl_tran; [apply (names_grow h3 h' (get_dependencies h3 s) d W3 Ld M5 VD)|].
    apply incl_app; [auto|]. eapply incl_tran; [|exact Sup]. apply incl_appr, incl_refl. }
  intros d Hd. unfold get_dependencies in Hd. rewrite Ho' in Hd.
  apply in_app_or in Hd as [Hd|[<-|[]]]; [|apply incl_refl].
  apply I2 in Hd. apply in_app_or in Hd as [Hd|Hd].
  - assert (Hd' : In d (get_dependencies h3 n)). { unfold get_dependencies. rewrite Ho. apply in_or_app. auto. }
    apply Low; [eapply deps_valid; eauto|]. eapply incl_tran; [apply (Cn d Hd')|].
    eapply incl_tran; [|exact Sup]. apply incl_appl, incl_refl.
  - apply Low; [eapply deps_valid; eauto|]. eapply incl_tran; [apply (Cs d Hd)|].
    eapply incl_tran; [|exact Sup]. apply incl_appr, incl_refl.
Qed.

Hypothesis own_other : own NOther = [].
(** whether to keep track of [tclosed] as well *)
Variable strict : Prop.

(** *** building a conversion *)
Fixpoint regs (c : cv) : list Tag :=
  let opt (o : option cv) := match o with Some c => regs c | None => [] end in
  match c with
  | CThis | CLit _ | CGlob _ => []
  | CLabel n => own (NLabel n)
  | CArg x => own (NArg x)
  | COp o l => match o, l with
               | (OSortedList | OSortedTuple | OSortedDict), [] => []
               | (OSortedList | OSortedTuple | OSortedDict), s :: _ => regs s
               | _, l => flat_map regs l
               end
  | CBool _ l | CEqs l => flat_map regs l
  | CAttr a n => regs a ++ regs n
  | CIf _ c t f => opt c ++ opt t ++ opt f
  | CDefault _ s idx d => opt s ++ flat_map regs idx ++ regs d
  | CComp _ elts cond => flat_map regs elts ++ opt cond
  | CItems _ lines => flat_map (fun l => opt (fst l) ++ regs (snd l)) lines
  | CCache _ c ls => regs c ++ flat_map (fun l => regs (snd l)) ls
  | CPipe a b => regs a ++ regs b
  | CTap o ms => regs o ++ flat_map (fun m => flat_map regs (snd m)) ms
  end.
Definition oregs (o : option cv) : list Tag := match o with Some c => regs c | None => [] end.

Definition Post {A} (h : oheap) (ok : oheap -> A -> Prop) (r : res node A) : Prop :=
  match r with
  | Done h' a => wf h' /\ preserved h h' /\ ok h' a
  | ConversionException _ => True
  | Dangling => True
  end.
(** an object of the heap that registered exactly the arguments [l] *)
Definition has (l : list Tag) (h : oheap) (i : nat) : Prop :=
  (exists pl, pipeline h i pl /\ (strict -> tclosed h i)) /\ forall x, In x (names h i) <-> In x l.
(** objects that together registered exactly [l] *)
Definition have (l : list Tag) (h : oheap) (is : list nat) : Prop :=
  Forall (fun i => exists pl, pipeline h i pl /\ (strict -> tclosed h i)) is /\
  forall x, (exists i, In i is /\ In x (names h i)) <-> In x l.

Lemma Post_then {A B} h (ok : oheap -> A -> Prop) (ok2 : oheap -> B -> Prop) r k :
  Post h ok r ->
  (forall h' a, wf h' -> preserved h h' -> ok h' a -> Post h' ok2 (k h' a)) ->
  Post h ok2 (andthen r k).
Proof.
  destruct r as [h' a| |]; simpl; auto. intros (W & P & O) H. specialize (H h' a W P O).
  destruct (k h' a) as [h'' b| |]; simpl in *; auto. destruct H as (W2 & P2 & O2).
  split; [auto|]. split; [eapply preserved_trans; eauto|auto].
Qed.
Lemma arg_names_preserved h h' i : wf h -> preserved h h' -> (i < length h)%nat -> names h' i = names h i.
Proof. intros. apply arg_names_dpx; auto. apply preserved_dpx; auto. Qed.
Lemma has_preserved l h h' i : wf h -> preserved h h' -> has l h i -> has l h' i.
Proof.
  intros W P ((pl & H & C) & N). assert (L : (i < length h)%nat) by (eapply pipeline_valid; eauto).
  split; [exists pl; split; [eapply pipeline_preserved; eauto|intros st; apply (tclosed_dpx h); auto; apply preserved_dpx; auto]|].
  intros x. rewrite (arg_names_preserved h h') by (auto; eapply pipeline_valid; eauto). apply N.
Qed.
Lemma have_preserved l h h' is : wf h -> preserved h h' -> have l h is -> have l h' is.
Proof.
  intros W P (F & N). split.
  - eapply Forall_impl; [|exact F]. intros i (pl & H & C). exists pl. split; [eapply pipeline_preserved; eauto|].
    intros st. apply (tclosed_dpx h); auto; [apply preserved_dpx; auto|eapply pipeline_valid; eauto].
  - intros x. rewrite <- N. rewrite Forall_forall in F.
    split; intros (i & Hi & Hx); exists i; (split; [auto|]); destruct (F i Hi) as (pl & Hp & _);
      apply pipeline_valid in Hp; [rewrite (arg_names_preserved h h') in Hx by auto|rewrite (arg_names_preserved h h') by auto]; auto.
Qed.
Lemma have_nil h : have [] h [].
Proof. split; [constructor|]. intros x. split; [intros (i & [] & _)|intros []]. Qed.
Lemma have_one l h i : has l h i -> have l h [i].
Proof.
  intros (H & N). split; [constructor; auto|]. intros x. rewrite <- N. split.
  - intros (j & [<-|[]] & Hx); auto.
  - intros Hx. exists i. split; [left; auto|auto].
Qed.
Lemma have_app l1 l2 h a b : have l1 h a -> have l2 h b -> have (l1 ++ l2) h (a ++ b).
Proof.
  intros (F1 & N1) (F2 & N2). split; [apply Forall_app; auto|]. intros x. rewrite in_app_iff, <- N1, <- N2. split.
  - intros (i & Hi & Hx). apply in_app_or in Hi as [Hi|Hi]; eauto.
  - intros [(i & Hi & Hx)|(i & Hi & Hx)]; exists i; split; auto; apply in_or_app; auto.
Qed.
Lemma have_cons l1 l2 h a b : has l1 h a -> have l2 h b -> have (l1 ++ l2) h (a :: b).
Proof. intros H1 H2. apply (have_app l1 l2 h [a] b); auto. apply have_one; auto. Qed.

Lemma done_ok h p l is : wf h -> have l h is -> Post h (has (l ++ own p)) (done h p is).
Proof.
  intros W (F & N). unfold done.
  assert (Fv : Forall (fun j => (j < length h)%nat) is).
  { eapply Forall_impl; [|exact F]. intros i (pl & H & _). eapply pipeline_valid; eauto. }
  assert (Fc : strict -> Forall (tclosed h) is).
  { intros st. eapply Forall_impl; [|exact F]. intros i (pl & _ & C). auto. }
  rewrite make_alloc by auto.
  destruct (alloc_ok h p is W Fv) as (W' & P & Pi & An). simpl.
  split; [auto|]. split; [auto|]. split; [exists [p]; split; [auto|intros st; apply alloc_closed; auto]|].
  intros x. rewrite An, !in_app_iff, in_flat_map, N. tauto.
Qed.
Lemma done_other h l is : wf h -> have l h is -> Post h (has l) (done h NOther is).
Proof. intros W H. rewrite <- (app_nil_r l), <- own_other. apply (done_ok h NOther l is W H). Qed.

Lemma each_ok {X Y} (f : X -> oheap -> res node Y) (g : X -> list Tag) (ids : Y -> list nat) l :
  Forall (fun x => forall h, wf h -> Post h (fun h y => have (g x) h (ids y)) (f x h)) l ->
  forall h, wf h -> Post h (fun h ys => have (flat_map g l) h (flat_map ids ys)) (each f l h).
Proof.
  induction 1 as [|x l Hx Hl IH]; intros h W; cbn [each flat_map].
  - simpl. split; [auto|]. split; [apply preserved_refl|apply have_nil].
  - eapply Post_then; [apply Hx; auto|]. intros h1 y W1 P1 O1.
    eapply Post_then; [apply IH; auto|]. intros h2 ys W2 P2 O2.
    simpl. split; [auto|]. split; [apply preserved_refl|]. apply have_app; auto. apply (have_preserved _ h1); auto.
Qed.
Lemma each_build m l :
  Forall (fun c => forall h, wf h -> Post h (has (regs c)) (build m c h)) l ->
  forall h, wf h -> Post h (fun h is => have (flat_map regs l) h is) (each (build m) l h).
Proof.
  intros F h W.
  assert (K := each_ok (build m) regs (fun i => [i]) l).
  assert (E : forall is : list nat, flat_map (fun i => [i]) is = is) by (induction is as [|? ? IH]; simpl; [auto|now rewrite IH]).
  assert (F' : Forall (fun x => forall h, wf h -> Post h (fun h0 y => have (regs x) h0 [y]) (build m x h)) l).
  { eapply Forall_impl; [|exact F]. intros c H h0 W0. specialize (H h0 W0).
    destruct (build m c h0) as [h' i| |]; simpl in *; auto. destruct H as (A & B & C).
    split; [auto|]. split; [auto|]. apply have_one; auto. }
  specialize (K F' h W). destruct (each (build m) l h) as [h' is| |]; simpl in *; auto. now rewrite E in K.
Qed.
Lemma opt_build m o :
  optP (fun c => forall h, wf h -> Post h (has (regs c)) (build m c h)) o ->
  forall h, wf h -> Post h (have (oregs o))
    (match o with None => Done h [] | Some c => andthen (build m c h) (fun h i => Done h [i]) end).
Proof.
  destruct o as [c|]; simpl; intros H h W.
  - eapply Post_then; [apply H; auto|]. intros h1 i W1 P1 O1. simpl.
    split; [auto|]. split; [apply preserved_refl|apply have_one; auto].
  - split; [auto|]. split; [apply preserved_refl|apply have_nil].
Qed.

Lemma Post_impl {A} h (P Q : oheap -> A -> Prop) r : (forall h a, P h a -> Q h a) -> Post h P r -> Post h Q r.
Proof. destruct r; simpl; auto. intros H (W & Pr & O). auto. Qed.

(** each object alone: needed when only the first is registered *)
Lemma each_build_first m l :
  Forall (fun c => forall h, wf h -> Post h (has (regs c)) (build m c h)) l ->
  forall h, wf h ->
  Post h (fun h is => have (match l with [] => [] | s :: _ => regs s end) h (firstn 1 is)) (each (build m) l h).
Proof.
  intros F h W. destruct F as [|c l Hc Hl]; cbn [each].
  - simpl. split; [auto|]. split; [apply preserved_refl|apply have_nil].
  - eapply Post_then; [apply Hc; auto|]. intros h1 i W1 P1 O1.
    eapply Post_then; [apply (each_build m l Hl h1 W1)|]. intros h2 is W2 P2 _. cbn [firstn].
    simpl. split; [auto|]. split; [apply preserved_refl|].
    apply have_one. apply (has_preserved _ h1); auto.
Qed.

Lemma build_ok m c : forall h, wf h -> Post h (has (regs c)) (build m c h).
Proof.
  induction c using cv_ind'; intros h W; cbn [build regs];
    try (apply done_other; [auto|apply have_nil]).
  - apply (done_ok h (NArg x) []); auto. apply have_nil.
  - apply (done_ok h (NLabel n) []); auto. apply have_nil.
  - (* COp *)
    assert (All : Post h (fun h is => have (flat_map regs l) h is) (each (build m) l h)) by (apply each_build; auto).
    assert (Fst : Post h (fun h is => have (match l with [] => [] | s :: _ => regs s end) h (firstn 1 is))
                    (each (build m) l h)) by (apply each_build_first; auto).
    destruct o; try (eapply Post_then; [exact All|]; intros h1 is W1 P1 O1; apply done_other; solve [auto]);
      (eapply Post_then; [exact Fst|]; intros h1 is W1 P1 O1; apply done_other; auto).
  - (* CAttr *)
    eapply Post_then; [apply IHc1; auto|]. intros h1 i W1 P1 O1.
    eapply Post_then; [apply IHc2; auto|]. intros h2 j W2 P2 O2.
    apply done_other; auto. apply have_cons; [apply (has_preserved _ h1); auto|apply have_one; auto].
  - eapply Post_then; [apply each_build; eauto|]. intros h1 is W1 P1 O1. apply done_other; auto.
  - eapply Post_then; [apply each_build; eauto|]. intros h1 is W1 P1 O1. apply done_other; auto.
  - (* CIf *)
    eapply Post_then; [apply opt_build; eauto|]. intros h1 i W1 P1 O1.
    eapply Post_then; [apply opt_build; eauto|]. intros h2 j W2 P2 O2.
    eapply Post_then; [apply opt_build; eauto|]. intros h3 k W3 P3 O3.
    apply done_other; auto.
    apply have_app; [apply (have_preserved _ h1); auto; apply (preserved_trans _ h2); auto|].
    apply have_app; [apply (have_preserved _ h2); auto|auto].
  - (* CDefault *)
    eapply Post_then; [apply opt_build; eauto|]. intros h1 i W1 P1 O1.
    eapply Post_then; [apply each_build; eauto|]. intros h2 j W2 P2 O2.
    eapply Post_then; [apply IHc; auto|]. intros h3 k W3 P3 O3.
    apply done_other; auto.
    apply have_app; [apply (have_preserved _ h1); auto; apply (preserved_trans _ h2); auto|].
    apply have_app; [apply (have_preserved _ h2); auto|apply have_one; auto].
  - (* CComp *)
    eapply Post_then; [apply each_build; eauto|]. intros h1 i W1 P1 O1.
    eapply Post_then; [apply opt_build; eauto|]. intros h2 j W2 P2 O2.
    apply done_other; auto. apply have_app; [apply (have_preserved _ h1); auto|auto].
  - (* CItems *)
    eapply Post_then.
    { apply (each_ok _ (fun l => oregs (fst l) ++ regs (snd l)) (fun l => l)); auto.
      eapply Forall_impl; [|exact H]. intros [co e] [Hc He] h0 W0. cbn [fst snd] in *.
      eapply Post_then; [apply opt_build; eauto|]. intros h1 i W1 P1 O1.
      eapply Post_then; [apply He; auto|]. intros h2 j W2 P2 O2.
      simpl. split; [auto|]. split; [apply preserved_refl|].
      apply have_app; [apply (have_preserved _ h1); auto|apply have_one; auto]. }
    intros h1 is W1 P1 O1. apply done_other; auto.
  - (* CCache *)
    eapply Post_then; [apply IHc; auto|]. intros h1 i W1 P1 O1.
    eapply Post_then.
    { apply (each_ok _ (fun l => regs (snd l)) (fun l : lname * nat => [snd l])); auto.
      eapply Forall_impl; [|exact H]. intros [nl e] He h0 W0. cbn [fst snd] in *.
      eapply Post_then; [apply He; auto|]. intros h2 j W2 P2 O2.
      simpl. split; [auto|]. split; [apply preserved_refl|]. apply have_one; auto. }
    intros h2 ls' W2 P2 (F2 & N2).
    destruct (wrap_labels lname (fun _ _ => NOther) h2 i ls') as [h3 r] eqn:Ew.
    destruct O1 as ((pl & Hp & Cl) & N1).
    assert (Li : (i < length h1)%nat) by (eapply pipeline_valid; eauto).
    assert (Li2 : (i < length h2)%nat). { pose proof (dpx_len _ _ (preserved_dpx _ _ P2)). lia. }
    assert (Fl : Forall (fun l => (snd l < length h2)%nat) ls').
    { rewrite Forall_forall in *. intros l Hl. destruct (F2 (snd l)) as (pl2 & H2 & _).
      - apply in_flat_map. exists l. split; [auto|left; auto].
      - eapply pipeline_valid; eauto. }
    destruct (wrap_ok (fun _ _ => NOther) (fun _ _ => own_other) h2 i ls' h3 r W2 Li2 Fl Ew) as (W3 & P3 & (p & Pp) & An).
    assert (Cr : strict -> tclosed h3 r).
    { intros st. unfold wrap_labels in Ew. inversion Ew; subst h3 r.
      replace (get_dependencies h2 i ++ flat_map (fun l => get_dependencies h2 (snd l)) ls')
        with (flat_map (get_dependencies h2) (i :: map snd ls')).
      2:{ cbn [flat_map]. f_equal. clear. induction ls'; simpl; auto. now rewrite IHls'. }
      apply alloc_closed; auto.
      - constructor; auto. clear -Fl. induction Fl; simpl; auto.
      - constructor; [apply (tclosed_dpx h1 h2); auto; apply preserved_dpx; auto|].
        rewrite Forall_forall in *. intros j Hj. apply in_map_iff in Hj as (l & <- & Hl).
        destruct (F2 (snd l)) as (? & _ & C2); [|exact (C2 st)].
        apply in_flat_map. exists l. split; [auto|left; auto]. }
    simpl. split; [auto|]. split; [auto|]. split; [eauto|]. intros x.
    rewrite An, !in_app_iff, (arg_names_preserved h1 h2), N1, <- N2, in_flat_map by auto.
    setoid_rewrite in_flat_map. cbn [In]. split.
    + intros [Hx|(l & Hl & Hx)]; [auto|]. right. exists (snd l). split; [|auto]. exists l. split; [auto|left; auto].
    + intros [Hx|(j & (l & Hl & [<-|[]]) & Hx)]; [auto|]. right. exists l. auto.
  - (* CPipe *)
    eapply Post_then; [apply IHc1; auto|]. intros h1 i W1 P1 O1.
    eapply Post_then; [apply IHc2; auto|]. intros h2 j W2 P2 O2.
    assert (O1' : has (regs c1) h2 i) by (apply (has_preserved _ h1); auto).
    destruct O1' as ((pi & Hi & Ci) & Ni), O2 as ((pj & Hj & Cj) & Nj).
    pose proof (pipe_exact (Label := lname) (fun _ _ => NOther) m h2 i j pi pj None None Hi Hj) as PE.
    cbv zeta in PE.
    destruct ((Z.of_nat (length pi) <=? m) && (Z.of_nat (length pj) <=? m) && (Z.of_nat (length pj) <=? m - 1))%Z.
    + destruct PE as (h' & r & ra & rb & E & Pr & _ & _ & Pl).
      destruct (pipe_args (fun _ _ => NOther) (fun _ _ => own_other) m h2 h' i j None None r W2
                  (pipeline_valid _ _ _ Hj) E (Forall_nil _) (Forall_nil _)) as (W' & N').
      pose proof (fun st => pipe_closed _ m h2 h' i j r W2 (pipeline_valid _ _ _ Hj) E (Ci st) (Cj st)) as Cr.
      rewrite E. simpl. split; [auto|]. split; [auto|]. split; [eauto|].
      intros x. rewrite N', in_app_iff, Ni, Nj. split; [|tauto]. intros [|[|(l & [] & _)]]; auto.
    + destruct PE as (h' & E & _). rewrite E. exact I.
  - (* CTap *)
    eapply Post_then; [apply IHc; auto|]. intros h1 i W1 P1 O1.
    eapply Post_then.
    { apply (each_ok _ (fun mu => flat_map regs (snd mu)) (fun j : nat => [j])); auto.
      eapply Forall_impl; [|exact H]. intros [k l] He h0 W0. cbn [fst snd] in *.
      eapply Post_then; [apply each_build; eauto|]. intros h2 js W2 P2 O2.
      eapply Post_impl; [|apply done_other; eauto]. intros h3 j Hj. apply have_one; auto. }
    intros h2 js W2 P2 O2. apply done_other; auto.
    assert (E : flat_map (fun j => [j]) js = js) by (clear; induction js; simpl; congruence).
    cbv beta in O2; rewrite E in O2. apply have_cons; auto. apply (has_preserved _ h1); auto.
Qed.


End Names.
