From Coq Require Import List ZArith Bool Lia Arith.
From Verif Require Import Model_Code Model_Heap Spec_Heap Proofs_Heap Model_Derive Spec_Derive.
Import ListNotations.

Lemma pipeline_update_off (h : objects) i l : pipeline h i l -> forall c f,
  (forall l2, pipeline h c l2 -> length l < length l2) -> pipeline (update h c f) i l.
Proof.
  induction 1 as [i o Ho Hp|i o p l Ho Hp Hl IH]; intros c f L.
  - apply one_stage; auto. rewrite nth_update_ne; auto. intros ->.
    specialize (L _ (one_stage h i o Ho Hp)). simpl in L. lia.
  - apply more_stages with p; auto.
    + rewrite nth_update_ne; auto. intros ->.
      specialize (L _ (more_stages h i o p l Ho Hp Hl)). simpl in L. lia.
    + apply IH. intros l2 P2. specialize (L _ P2). simpl in L. lia.
Qed.

Lemma pipeline_set_payload (h : objects) c a l p :
  pipeline h c (a :: l) -> pipeline (update h c (set_payload p)) c (p :: l).
Proof.
  intros P. inversion P as [i o Ho Hp|i o q l' Ho Hp Hl]; subst.
  - exact (one_stage _ c (set_payload p o) (nth_update_eq h c _ o Ho) Hp).
  - refine (more_stages _ c (set_payload p o) q l (nth_update_eq h c _ o Ho) Hp _).
    apply pipeline_update_off; auto. intros l2 P2. rewrite (pipeline_det _ _ _ P2 _ P). simpl. lia.
Qed.

Lemma agree_deps n (h h' : objects) j : agree n h h' -> j < n -> get_dependencies h' j = get_dependencies h j.
Proof. intros A L. unfold get_dependencies. rewrite (agree_get _ _ _ _ A L). auto. Qed.

Lemma ensure_all_objs s c l :
  ensure_all s c l = with_objs s (fold_left (fun h j => depends_on h c j) l (objs s)).
Proof.
  revert s. induction l as [|x l IH]; intros s; simpl.
  - destruct s. auto.
  - rewrite IH. reflexivity.
Qed.

Lemma ensured n (h0 : objects) c l : n <= c -> Forall (fun j => j < n) l -> forall h o,
  agree n h0 h -> nth_error h c = Some o ->
  let h' := fold_left (fun h j => depends_on h c j) l h in
  agree n h0 h' /\ length h' = length h /\
  nth_error h' c = Some (add_deps (flat_map (get_dependencies h0) l) o) /\
  (forall i st, pipeline h i st -> pipeline h' i st).
Proof.
  intros Lc. induction 1 as [|x l Hx Hl IH]; intros h o A Ho; simpl.
  - repeat split; try apply A; auto. rewrite Ho. destruct o; unfold add_deps; simpl. rewrite app_nil_r. auto.
  - destruct (IH (depends_on h c x) (add_deps (get_dependencies h x) o)) as (A' & L & E & P).
    + eapply agree_trans; [exact A|]. apply agree_update. auto.
    + unfold depends_on. apply nth_update_eq. auto.
    + simpl in A', L, E, P. split; [exact A'|]. split; [rewrite L; apply length_update|]. split.
      * rewrite E. unfold add_deps; simpl. rewrite <- app_assoc, (agree_deps _ _ _ _ A Hx). auto.
      * intros i st Hp. apply P. apply pipeline_chain_in in Hp.
        eapply chain_in_pipeline. eapply chain_in_deps. exact Hp.
Qed.

Lemma chain_len (h : objects) i l : pipeline h i l -> i < length h.
Proof. intros [? o Ho|? o q l' Ho]; apply nth_error_Some; congruence. Qed.

Lemma deps_flat (h : objects) l d : Forall (fun j => j < length h) l ->
  (In d (flat_map (get_dependencies h) l) <->
   exists j o, In j l /\ nth_error h j = Some o /\ (d = j \/ In d (deps o))).
Proof.
  intros F. rewrite in_flat_map. unfold get_dependencies. split.
  - intros (j & Hj & Hd). destruct (nth_error h j) as [o|] eqn:E; [|destruct Hd].
    exists j, o. split; auto. split; auto. apply in_app_or in Hd. destruct Hd as [H|[H|[]]]; auto.
  - intros (j & o & Hj & Ho & Hd). exists j. split; auto. rewrite Ho. apply in_or_app.
    destruct Hd as [->|H]; [right; left; auto|left; auto].
Qed.

(** a clone with conversions [cs] ensured and attributes [p] *)
Lemma derive_ok m s i a l p cs (k : state -> nat -> outcome) :
  closed s -> pipeline (objs s) i (a :: l) -> Forall (fun j => j < length (objs s)) cs ->
  (forall x, a <> Argument x) -> (forall x, p <> Argument x) ->
  (forall s1 c, k s1 c = Ok (assign (ensure_all s1 c cs) c p) c) ->
  (if (Z.of_nat (S (length l)) <=? m)%Z then
     exists s' r, on_clone m s i k = Ok s' r /\ unchanged s s' /\ new_conversion s s' r p l /\
       (forall x, asks_for s' r x <-> asks_for s i x \/ exists c, In c cs /\ asks_for s c x)
   else exists s', on_clone m s i k = Conversion_exception s' /\ unchanged s s').
Proof.
  intros W P F Na Np K. unfold on_clone.
  pose proof (clone_ok m (objs s) i (a :: l) P) as C. cbn [length] in C.
  assert (U : forall h, agree (length (objs s)) (objs s) h -> unchanged s (with_objs s h)).
  { intros h A. split; [|simpl; auto]. intros j o Hj. simpl. rewrite (agree_get _ _ _ _ A); auto.
    apply nth_error_Some. congruence. }
  destruct (Z.of_nat (S (length l)) <=? m)%Z.
  2:{ destruct C as (h & -> & A). exists (with_objs s h). auto. }
  destruct C as (h & -> & A & Ch & o & o' & Ho & Ho' & Hd & Hp).
  rewrite K, ensure_all_objs. cbn [objs with_objs].
  pose proof (ensured (length (objs s)) (objs s) (length (objs s)) cs (le_n _) F h o' A Ho') as (A2 & L2 & E2 & P2).
  set (h2 := fold_left (fun h j => depends_on h (length (objs s)) j) cs h) in *. clearbody h2.
  unfold assign, with_objs. cbn [objs dicts].
  set (h3 := update h2 (length (objs s)) (set_payload p)).
  assert (A3 : agree (length (objs s)) (objs s) h3).
  { eapply agree_trans; [exact A2|]. apply agree_update. auto. }
  assert (E3 : nth_error h3 (length (objs s)) =
    Some (set_payload p (add_deps (flat_map (get_dependencies (objs s)) cs) o'))).
  { unfold h3. apply nth_update_eq. exact E2. }
  eexists _, _. split; [reflexivity|]. split; [apply (U h3 A3)|]. split.
  { split; [auto|]. cbn [objs]. unfold h3. eapply pipeline_set_payload. apply P2. eapply chain_in_pipeline. exact Ch. }
  assert (Look : forall d, d < length (objs s) -> nth_error h3 d = nth_error (objs s) d).
  { intros d Hd'. apply (agree_get _ _ _ _ A3). auto. }
  assert (Pa : payload o = a) by (inversion P; subst; congruence).
  assert (Cd : forall d, In d (flat_map (get_dependencies (objs s)) cs) -> d < length (objs s)).
  { intros d Hin. apply deps_flat in Hin; auto. destruct Hin as (j & oj & Hj & Hoj & [->|Hin]).
    - rewrite Forall_forall in F. auto. - eapply W; eauto. }
  intros x. unfold asks_for, has_dependency. cbn [objs]. split.
  - intros (d & od & (oo & Eoo & Hdd) & Eod & Pd). rewrite E3 in Eoo. injection Eoo as <-.
    destruct Hdd as [->|Hdd]; [rewrite E3 in Eod; injection Eod as <-; destruct (Np x); exact Pd|].
    cbn [deps set_payload add_deps] in Hdd. apply in_app_or in Hdd. destruct Hdd as [Hdd|Hdd].
    + rewrite Hd in Hdd. left. exists d, od. rewrite Look in Eod by eauto. eauto 10.
    + right. rewrite Look in Eod by auto. apply deps_flat in Hdd; auto.
      destruct Hdd as (j & oj & Hj & Hoj & Hor). exists j. split; auto. eauto 10.
  - intros [(d & od & (oo & Eoo & Hdd) & Eod & Pd)|(j & Hj & d & od & (oo & Eoo & Hdd) & Eod & Pd)].
    + rewrite Ho in Eoo. injection Eoo as <-.
      destruct Hdd as [->|Hdd]; [rewrite Ho in Eod; injection Eod as <-; destruct (Na x); congruence|].
      exists d, od. split; [|rewrite Look; eauto]. eexists. split; [exact E3|]. right. cbn. apply in_or_app. left. congruence.
    + exists d, od. assert (Hin : In d (flat_map (get_dependencies (objs s)) cs)) by (apply deps_flat; eauto 10).
      split; [|rewrite Look; auto]. eexists. split; [exact E3|]. right. cbn. apply in_or_app. auto.
Qed.

Lemma attributes_pipeline s i a l : pipeline (objs s) i (a :: l) -> attributes s i = Some a.
Proof. intros P. unfold attributes. inversion P as [? o Ho|? o q ? Ho]; subst; rewrite Ho; auto. Qed.

Lemma asks_attr s i x : asks_for s i x <-> exists d, has_dependency s i d /\ attributes s d = Some (Argument x).
Proof.
  unfold asks_for, attributes. split.
  - intros (d & o & H & E & Hp). exists d. split; auto. rewrite E. simpl. congruence.
  - intros (d & H & E). destruct (nth_error (objs s) d) as [o|] eqn:Eo; [|discriminate].
    exists d, o. split; auto. split; auto. simpl in E. congruence.
Qed.
