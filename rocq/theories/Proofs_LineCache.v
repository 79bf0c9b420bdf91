From Coq Require Import String List ZArith Bool Lia.
From Verif Require Import Model_RUCache Spec_RUCache Proofs_RUCache Model_Names Model_LineCache.
Import ListNotations.
Local Open Scope Z_scope.

Section P.
  Context {Conv : Type}.
  Variable conv_eq : forall a b : Conv, {a = b} + {a <> b}.
  Notation inv := (@inv string bool string_dec).
  Notation lwd := (@lworld Conv).

  Lemma sassoc_clean (lc : list (string * string)) f g :
    sassoc (clean lc f) g = if string_dec f g then None else sassoc lc g.
  Proof.
    induction lc as [|[k v] lc IH]; simpl.
    - destruct (string_dec f g); auto.
    - destruct (string_dec f k) as [->|n]; simpl.
      + rewrite IH. destruct (string_dec k g); auto. destruct (string_dec g k); congruence.
      + rewrite IH. destruct (string_dec g k); auto. subst. destruct (string_dec f k); congruence.
  Qed.
  Lemma sassoc_put lc f t g :
    sassoc (put lc f t) g = if string_dec f g then Some t else sassoc lc g.
  Proof.
    unfold put. simpl. rewrite sassoc_clean.
    destruct (string_dec g f), (string_dec f g); congruence.
  Qed.

  Lemma clean_nodup (lc : list (string * string)) f : NoDup (map fst lc) -> NoDup (map fst (clean lc f)).
  Proof.
    induction lc as [|[k v] lc IH]; simpl; intros H; auto. inversion H; subst.
    destruct (string_dec f k); simpl; auto. constructor; auto.
    intros Hin. apply H2. clear -Hin. induction lc as [|[a b] lc IH]; simpl in *; auto.
    destruct (string_dec f a); simpl in *; intuition.
  Qed.
  Lemma clean_not_in (lc : list (string * string)) f : ~ In f (map fst (clean lc f)).
  Proof.
    induction lc as [|[k v] lc IH]; simpl; auto.
    destruct (string_dec f k); simpl; auto. intros [->|]; auto.
  Qed.
  Lemma put_nodup lc f t : NoDup (map fst lc) -> NoDup (map fst (put lc f t)).
  Proof.
    intros H. simpl. constructor; [apply clean_not_in|apply clean_nodup; auto].
  Qed.
  Lemma sassoc_in_fst (lc : list (string * string)) f : In f (map fst lc) <-> sassoc lc f <> None.
  Proof.
    induction lc as [|[k v] lc IH]; simpl; [intuition congruence|].
    destruct (string_dec f k) as [->|]; [intuition congruence|]. rewrite <- IH. intuition congruence.
  Qed.

  Lemma apply_evictions_nodup evs : forall lc, NoDup (map fst lc) -> NoDup (map fst (apply_evictions evs lc)).
  Proof. induction evs as [|[f v|f v] evs IH]; simpl; intros; auto. apply IH, clean_nodup; auto. Qed.

  (** [good src lc tr]: every cached file is tracked, holds its known text. *)
  Record good (truth : string -> string -> Prop) (lc : list (string * string)) (tr : @cache string bool) : Prop := {
    g_inv : inv tr;
    g_tracked : forall f, sassoc lc f <> None -> In f (keys tr);
    g_nodup : NoDup (map fst lc);
    g_truth : forall f t, sassoc lc f = Some t -> truth f t
  }.

  Lemma populate_one_good (truth : string -> string -> Prop) f t lc tr :
    good truth lc tr -> truth f t ->
    good truth (fst (populate_one (f, t) (lc, tr))) (snd (populate_one (f, t) (lc, tr)))
    /\ max_size (snd (populate_one (f, t) (lc, tr))) = max_size tr.
  Proof.
    intros [I T N S] Ht. unfold populate_one.
    assert (Hh : has string_dec f true tr =
      match lookup string_dec (data tr) f with
      | Some _ => (Ret (RBool true), mkCache (max_size tr) (keys tr) (set_add string_dec f (put_back tr)) (data tr), [])
      | None => (Ret (RBool false), tr, []) end) by reflexivity.
    rewrite Hh. clear Hh.
    destruct (lookup string_dec (data tr) f) eqn:E.
    - simpl. split; auto. constructor; auto. apply touch_inv; auto; congruence.
    - destruct (set string_dec (fun _ _ => false) f true tr) as [[r tr2] evs] eqn:Es.
      destruct (set_inv string_dec _ _ _ _ _ _ I Es) as (I2 & _ & M2).
      cbn [fst snd]. split; auto.
      destruct (set_cases string_dec tr f true I) as [(Hl & E1)|[(Hl & Hlt & E1)|(Hl & Hlen & a & b & vic & val & q & Hs & Hv & Hval & Hne & E1)]];
        [congruence| |]; rewrite E1 in Es; injection Es as <- <- <-; cbn [apply_evictions fst snd].
      + constructor; auto.
        * intros g. rewrite sassoc_put. cbn [keys].
          destruct (string_dec f g); [intros; left; auto|right; auto].
        * apply put_nodup; auto.
        * intros g u. rewrite sassoc_put. destruct (string_dec f g); [intros; subst; congruence|auto].
      + constructor; auto.
        * intros g. rewrite sassoc_clean, sassoc_put. cbn [keys].
          destruct (string_dec vic g); [congruence|].
          destruct (string_dec f g); [intros; left; auto|]. intros Hg. right.
          apply T in Hg. rewrite <- in_rev.
          destruct (split_touched_spec _ _ _ _ Hs) as (Hq & _).
          apply in_rev in Hg. rewrite Hq in Hg.
          destruct (victim_in _ _ _ _ Hv) as (_ & _ & Q & _).
          { rewrite <- Hq. apply NoDup_rev, I. }
          apply Q in Hg as [->|]; [congruence|auto].
        * apply clean_nodup, put_nodup; auto.
        * intros g u. rewrite sassoc_clean, sassoc_put.
          destruct (string_dec vic g); [congruence|].
          destruct (string_dec f g); [intros; subst; congruence|auto].
  Qed.

  Lemma populate_good truth srcs : forall lc tr,
    good truth lc tr -> (forall f t, In (f, t) srcs -> truth f t) ->
    let st := fold_left (fun st ft => populate_one ft st) srcs (lc, tr) in
    good truth (fst st) (snd st) /\ max_size (snd st) = max_size tr.
  Proof.
    induction srcs as [|[f t] srcs IH]; intros lc tr G H; [simpl; auto|]; cbn [fold_left].
    destruct (populate_one_good truth f t lc tr G) as [G1 M1]; [apply H; left; auto|].
    destruct (populate_one (f, t) (lc, tr)) as [lc1 tr1] eqn:Ep. simpl in G1, M1.
    assert (H' : forall f0 t0, In (f0, t0) srcs -> truth f0 t0) by (intros; apply H; right; auto).
    destruct (IH lc1 tr1 G1 H') as [G2 M2]. cbv zeta in *.
    split; [exact G2|]. exact (eq_trans M2 M1).
  Qed.

  Definition added (ops : list (lop Conv)) (f t : string) : Prop :=
    exists c, In (AddSource c f t) ops.

  Record winv (m : Z) (truth : string -> string -> Prop) (w : lwd) : Prop := {
    w_good : good truth (linecache w) (tracker w);
    w_max : max_size (tracker w) = m;
    w_src : forall c f t, In (f, t) (sources w c) -> truth f t;
    w_srcnd : forall c, NoDup (map fst (sources w c))
  }.

  Lemma lstep_inv m (truth : string -> string -> Prop) (w : lwd) (o : lop Conv) :
    (forall c f t, o = AddSource c f t -> truth f t) ->
    winv m truth w -> winv m truth (lstep conv_eq w o).
  Proof.
    intros Ho [G M S N]. destruct o as [c f t|c|f]; simpl.
    - unfold add_sources. destruct (sassoc (sources w c) f) eqn:E.
      + destruct (string_dec s t); constructor; auto.
      + simpl. constructor; cbn [linecache tracker sources]; auto.
        * intros c0 f0 t0. destruct (conv_eq c c0); eauto.
          rewrite in_app_iff. intros [H|[H|[]]]; [eauto|]. injection H as <- <-. eauto.
        * intros c0. destruct (conv_eq c c0); eauto. rewrite map_app. simpl.
          assert (Nin : ~ In f (map fst (sources w c))) by (rewrite sassoc_in_fst; congruence).
          specialize (N c). clear -N Nin. induction (map fst (sources w c)); simpl.
          -- repeat constructor; auto.
          -- inversion N; subst. constructor.
             ++ rewrite in_app_iff. simpl in *. intuition.
             ++ apply IHl; auto. simpl in Nin. tauto.
    - unfold populate.
      destruct (populate_good truth (sources w c) (linecache w) (tracker w) G) as [G1 M1]; [eauto|].
      destruct (fold_left _ (sources w c) (linecache w, tracker w)) as [lc tr]. simpl in *.
      constructor; cbn [linecache tracker sources]; auto. congruence.
    - constructor; cbn [linecache tracker sources]; auto.
      destruct G as [I T Nd Tr]. constructor; auto.
      + intros g. rewrite sassoc_clean. destruct (string_dec f g); [congruence|auto].
      + apply clean_nodup; auto.
      + intros g u. rewrite sassoc_clean. destruct (string_dec f g); [congruence|auto].
  Qed.

  Lemma winv0 m (truth : string -> string -> Prop) : 1 <= m -> winv m truth (lworld0 m).
  Proof.
    intros H. constructor; simpl; auto.
    - constructor; simpl; auto using inv_new; try constructor; try congruence.
    - tauto.
    - intros; constructor.
  Qed.

  Lemma lrun_inv m (truth : string -> string -> Prop) (ops : list (lop Conv)) : 1 <= m ->
    (forall c f t, In (AddSource c f t) ops -> truth f t) ->
    winv m truth (lrun conv_eq m ops).
  Proof.
    intros Hm. unfold lrun.
    assert (G : forall w, winv m truth w -> (forall c f t, In (AddSource c f t) ops -> truth f t) ->
              winv m truth (fold_left (lstep conv_eq) ops w)).
    { induction ops as [|o ops IH]; intros w W H; simpl; auto.
      apply IH.
      - apply lstep_inv; auto. intros c f t ->. eapply H. left; eauto.
      - intros. eapply H. right; eauto. }
    intros H. apply G; auto. apply winv0; auto.
  Qed.

  (** a binding in a converter's dict is never changed *)
  Lemma lstep_src (w : lwd) (o : lop Conv) c f t :
    sassoc (sources w c) f = Some t -> sassoc (sources (lstep conv_eq w o) c) f = Some t.
  Proof.
    intros H. destruct o as [c' f' t'|c'|f']; simpl; auto.
    - unfold add_sources. destruct (sassoc (sources w c') f') eqn:E.
      + destruct (string_dec s t'); auto.
      + simpl. destruct (conv_eq c' c) as [->|]; auto.
        revert H. clear. induction (sources w c) as [|[k v] l IH]; simpl; [discriminate|].
        destruct (string_dec f k); auto.
    - unfold populate. destruct (fold_left _ (sources w c') _). auto.
  Qed.

  Lemma lrun_app m ops1 ops2 :
    lrun conv_eq m (ops1 ++ ops2) = fold_left (lstep conv_eq) ops2 (lrun conv_eq m ops1).
  Proof. unfold lrun. apply fold_left_app. Qed.

  (** Without evictions and drops, tracked = present. *)
  Record full (names : list string) (lc : list (string * string)) (tr : @cache string bool) : Prop := {
    f_inv : inv tr;
    f_names : forall f, In f (keys tr) -> In f names;
    f_pres : forall f, In f (keys tr) -> sassoc lc f <> None
  }.

  Lemma populate_one_full names f t lc tr :
    full names lc tr -> In f names -> Z.of_nat (length names) <= max_size tr ->
    let st := populate_one (f, t) (lc, tr) in
    full names (fst st) (snd st) /\ max_size (snd st) = max_size tr /\
    In f (keys (snd st)) /\ (forall g, In g (keys tr) -> In g (keys (snd st))).
  Proof.
    intros [I N P] Hf Hl. unfold populate_one.
    assert (Hh : has string_dec f true tr =
      match lookup string_dec (data tr) f with
      | Some _ => (Ret (RBool true), mkCache (max_size tr) (keys tr) (set_add string_dec f (put_back tr)) (data tr), [])
      | None => (Ret (RBool false), tr, []) end) by reflexivity.
    rewrite Hh. clear Hh.
    destruct (lookup string_dec (data tr) f) eqn:E.
    - simpl. split; [constructor; auto; apply touch_inv; auto; congruence|].
      repeat split; auto. apply (inv_data string_dec _ I). congruence.
    - destruct (set string_dec (fun _ _ => false) f true tr) as [[r tr2] evs] eqn:Es.
      destruct (set_inv string_dec _ _ _ _ _ _ I Es) as (I2 & _ & M2).
      cbn [fst snd].
      destruct (set_cases string_dec tr f true I) as [(Hl' & E1)|[(Hl' & Hlt & E1)|(Hl' & Hlen & _)]]; [congruence| |].
      + rewrite E1 in Es; injection Es as <- <- <-; cbn [apply_evictions fst snd keys].
        split; [constructor; auto; cbn [keys]|].
        * intros g [<-|]; auto.
        * intros g. rewrite sassoc_put. destruct (string_dec f g); [congruence|].
          intros [|]; [congruence|auto].
        * simpl; auto.
      + exfalso.
        assert (Nin : ~ In f (keys tr)) by (intros Hin; apply (inv_data string_dec _ I) in Hin; congruence).
        assert (L : (length (f :: keys tr) <= length names)%nat).
        { apply NoDup_incl_length.
          - constructor; auto. apply I.
          - intros g [<-|]; auto. }
        simpl in L. lia.
  Qed.

  Lemma populate_full names srcs : forall lc tr,
    full names lc tr -> (forall f t, In (f, t) srcs -> In f names) ->
    Z.of_nat (length names) <= max_size tr ->
    let st := fold_left (fun st ft => populate_one ft st) srcs (lc, tr) in
    full names (fst st) (snd st) /\
    (forall f t, In (f, t) srcs -> In f (keys (snd st))) /\
    (forall g, In g (keys tr) -> In g (keys (snd st))).
  Proof.
    induction srcs as [|[f t] srcs IH]; intros lc tr F H Hl; [simpl; intuition|]; cbn [fold_left].
    destruct (populate_one_full names f t lc tr F) as (F1 & M1 & K1 & M2);
      [eapply H; left; eauto|auto|].
    destruct (populate_one (f, t) (lc, tr)) as [lc1 tr1]. cbn [fst snd] in *.
    assert (H' : forall f0 t0, In (f0, t0) srcs -> In f0 names) by (intros; eapply H; right; eauto).
    destruct (IH lc1 tr1 F1 H') as (F2 & S2 & M3); [lia|]. cbv zeta in *.
    split; auto. split; auto.
    intros f0 t0 [E|Hin]; [injection E as <- <-; auto|eauto].
  Qed.

  Lemma lrun_full m names (ops : list (lop Conv)) : 1 <= m ->
    Z.of_nat (length names) <= m ->
    (forall c f t, In (AddSource c f t) ops -> In f names) ->
    (forall f, ~ In (Dropped f) ops) ->
    full names (linecache (lrun conv_eq m ops)) (tracker (lrun conv_eq m ops)).
  Proof.
    intros Hm Hl. induction ops as [|o ops IH] using rev_ind; intros Ha Hd.
    - constructor; simpl; auto using inv_new; tauto.
    - assert (Ha' : forall c f t, In (AddSource c f t) ops -> In f names)
        by (intros; eapply Ha; apply in_or_app; left; eauto).
      assert (F : full names (linecache (lrun conv_eq m ops)) (tracker (lrun conv_eq m ops))).
      { apply IH; auto. intros f Hf. apply (Hd f). apply in_or_app; auto. }
      assert (W : winv m (fun f _ => In f names) (lrun conv_eq m ops)) by (apply lrun_inv; eauto).
      rewrite lrun_app. cbn [fold_left].
      destruct o as [c f t|c|f]; cbn [lstep].
      + unfold add_sources. destruct (sassoc _ f); [destruct (string_dec _ _)|]; auto.
      + unfold populate.
        destruct (populate_full names (sources (lrun conv_eq m ops) c) _ _ F) as (F1 & _).
        * intros f0 t0 H0. exact (w_src _ _ _ W _ _ _ H0).
        * rewrite (w_max _ _ _ W); auto.
        * destruct (fold_left _ _ _). auto.
      + exfalso. apply (Hd f). apply in_or_app; simpl; auto.
  Qed.
End P.
