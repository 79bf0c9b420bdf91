(** C45, C47: generated sources and the shared line cache. *)
From Coq Require Import String List ZArith Bool Lia.
From Verif Require Import Model_RUCache Proofs_RUCache Model_Names Model_LineCache Proofs_LineCache.
Import ListNotations.
Local Open Scope Z_scope.

Section C45.
  Context {Conv : Type}.
  Variable conv_eq : forall a b : Conv, {a = b} + {a <> b}.
  Notation after := (lrun conv_eq).

  (** C45.  For every capacity m >= 1 (the code uses 1000) and every history of
      compilations, failing calls and removals by the linecache module:
      the line cache never holds two entries for one file nor more than m files,
      each is known to the tracker (so it will be evicted), and every text in it was registered by
      some converter under that name. A name once bound to a text by a converter stays
      bound to it whatever follows, and registering another text is refused
      without any effect. *)
  Theorem C45_sources_stable_and_bounded (m : Z) (Hm : 1 <= m) (ops : list (lop Conv)) :
    let w := after m ops in
    NoDup (map fst (linecache w)) /\
    Z.of_nat (length (linecache w)) <= m /\
    (forall f, In f (map fst (linecache w)) -> In f (keys (tracker w))) /\
    (forall f t, In (f, t) (linecache w) -> exists c, In (AddSource c f t) ops) /\
    (forall c f t, In (f, t) (sources w c) ->
       forall more, In (f, t) (sources (after m (ops ++ more)) c)) /\
    (forall c f t t', In (f, t) (sources w c) -> t' <> t ->
       add_sources conv_eq c f t' w = (w, false)).
  Proof.
    intros w.
    destruct (lrun_inv conv_eq m (added ops) ops Hm) as [G M S N]; [intros; exists c; auto|].
    fold w in G, M, S, N. destruct G as [I T Nd Tr].
    assert (Hk : forall f, In f (map fst (linecache w)) -> In f (keys (tracker w))).
    { intros f Hf. apply T. apply sassoc_in_fst; auto. }
    assert (Hin : forall (l : list (string * string)) f t, NoDup (map fst l) ->
              In (f, t) l <-> sassoc l f = Some t).
    { clear. induction l as [|[k v] l IH]; simpl; intros f t H; [intuition congruence|].
      inversion H; subst. destruct (string_dec f k) as [->|n].
      - split; [|intros E; left; congruence]. intros [E|Hi]; [congruence|].
        exfalso. apply H2. change k with (fst (k, t)). apply in_map; auto.
      - rewrite <- IH; auto. intuition congruence. }
    repeat split; auto.
    - transitivity (Z.of_nat (length (keys (tracker w)))).
      + rewrite <- (map_length fst (linecache w)).
        apply inj_le, NoDup_incl_length; auto.
      + rewrite <- M. apply I.
    - intros f t Hf. apply Hin in Hf; auto. apply Tr in Hf as [c Hc]; eauto.
    - intros c f t Hf more. apply Hin in Hf; auto.
      apply Hin.
      { destruct (lrun_inv conv_eq m (fun _ _ => True) (ops ++ more) Hm) as [_ _ _ N']; auto. }
      rewrite lrun_app. fold w. clear - Hf. revert Hf. generalize w. clear w.
      induction more as [|o more IH]; intros w Hf; cbn [fold_left]; auto.
      apply IH, lstep_src; auto.
    - intros c f t t' Hf Hne. apply Hin in Hf; auto. unfold add_sources. rewrite Hf.
      destruct (string_dec t t'); congruence.
  Qed.

  (** C47, the part that holds.  If no two converters ever use one generated
      name for different texts (names end in random letters), then right after
      converter c fails, its files are never shown with a wrong text; and if,
      moreover, the process uses no more than m generated names and nobody
      purges linecache, each of them is shown with its text.
      Missing for the full property: name clashes (see the refutation). *)
  Theorem C47_traceback_source_partial (m : Z) (Hm : 1 <= m) (ops : list (lop Conv)) (c : Conv) :
    (forall c1 c2 f t1 t2, In (AddSource c1 f t1) ops -> In (AddSource c2 f t2) ops -> t1 = t2) ->
    let w := after m (ops ++ [Fails c]) in
    (forall f t shown, In (f, t) (sources w c) -> In (f, shown) (linecache w) -> shown = t) /\
    (forall names,
       (forall c' f t, In (AddSource c' f t) ops -> In f names) ->
       Z.of_nat (length names) <= m ->
       (forall f, ~ In (Dropped f) ops) ->
       forall f t, In (f, t) (sources w c) -> In (f, t) (linecache w)).
  Proof.
    intros Hfun w.
    assert (W : winv m (added ops) w).
    { apply lrun_inv; auto. intros c0 f t Hin. apply in_app_or in Hin as [Hin|[Hin|[]]]; [exists c0; auto|discriminate]. }
    destruct W as [[I T Nd Tr] M S N].
    assert (A1 : forall f t shown, In (f, t) (sources w c) -> In (f, shown) (linecache w) -> shown = t).
    { intros f t shown Hs Hl. destruct (S _ _ _ Hs) as [c1 H1].
      assert (E : sassoc (linecache w) f = Some shown).
      { revert Nd Hl. clear. induction (linecache w) as [|[k v] l IH]; simpl; [tauto|].
        intros H. inversion H; subst. destruct (string_dec f k) as [->|n].
        - intros [E|Hi]; [congruence|]. exfalso. apply H2. change k with (fst (k, shown)). apply in_map; auto.
        - intros [E|Hi]; [congruence|auto]. }
      destruct (Tr _ _ E) as [c2 H2]. eauto. }
    split; auto.
    intros names Hn Hl Hd f t Hs.
    assert (F : full names (linecache (after m ops)) (tracker (after m ops))) by (apply lrun_full; auto).
    assert (W0 : winv m (added ops) (after m ops)) by (apply lrun_inv; auto; intros c0 f0 t0 H0; exists c0; auto).
    assert (K : In f (keys (tracker w)) /\ full names (linecache w) (tracker w)).
    { subst w. rewrite lrun_app in *. cbn [fold_left lstep] in *. unfold populate in *.
      destruct (populate_full names (sources (after m ops) c) _ _ F) as (F1 & K1 & _).
      - intros f0 t0 H0. destruct (w_src _ _ _ W0 _ _ _ H0); eauto.
      - rewrite (w_max _ _ _ W0); auto.
      - destruct (fold_left _ _ _) as [lc tr]. cbn [fst snd tracker linecache sources] in *. eauto. }
    destruct K as [K F1]. apply (f_pres _ _ _ F1) in K.
    destruct (sassoc (linecache w) f) as [shown|] eqn:E; [|congruence].
    assert (Hin : In (f, shown) (linecache w)).
    { revert E. clear. induction (linecache w) as [|[k v] l IH]; simpl; [discriminate|].
      destruct (string_dec f k) as [->|n]; [intros E; left; congruence|auto]. }
    rewrite <- (A1 _ _ _ Hs Hin). auto.
  Qed.
End C45.

(** C47 fails when two converters draw the same random suffix for a
    name: the second converter's traceback shows the first one's text. *)
Theorem C47_traceback_source_refuted :
  exists (ops : list (lop nat)) (c : nat),
    let w := lrun Nat.eq_dec 1000 (ops ++ [Fails c]) in
    exists f t shown, In (f, t) (sources w c) /\ In (f, shown) (linecache w) /\ shown <> t.
Proof.
  exists [AddSource 1%nat "_fake_converter_ab.py" "return data_ + 1"; Fails 1%nat;
          AddSource 2%nat "_fake_converter_ab.py" "return data_[0]"]%string, 2%nat.
  exists "_fake_converter_ab.py"%string, "return data_[0]"%string, "return data_ + 1"%string.
  vm_compute. intuition congruence.
Qed.

(** Purging linecache (or an eviction) is not repaired: the tracker still
    believes the file is there. *)
Theorem C47_purged_source_not_restored_refuted :
  exists (ops : list (lop nat)) (c : nat),
    let w := lrun Nat.eq_dec 1000 (ops ++ [Fails c]) in
    exists f t, In (f, t) (sources w c) /\ linecache w = [].
Proof.
  exists [AddSource 1%nat "f.py" "code"; Fails 1%nat; Dropped "f.py"]%string, 1%nat, "f.py"%string, "code"%string.
  vm_compute. auto.
Qed.

(** The hypotheses of the theorems are met by a history with two converters,
    three files, capacity 2 (with an eviction) resp. capacity 3. *)
Definition demo : list (lop nat) :=
  [AddSource 1%nat "a.py" "A"; AddSource 2%nat "b.py" "B"; AddSource 2%nat "c.py" "C";
   Fails 1%nat; AddSource 2%nat "b.py" "other"]%string.
Example C45_example :
  let w := lrun Nat.eq_dec 2 (demo ++ [Fails 2%nat]) in
  linecache w = [("c.py", "C"); ("b.py", "B")]%string /\ sources w 1%nat = [("a.py", "A")]%string.
Proof. vm_compute. auto. Qed.
Definition demo3 : list (lop nat) :=
  [AddSource 1%nat "a.py" "A"; AddSource 2%nat "b.py" "B"; AddSource 2%nat "c.py" "C"; Fails 1%nat]%string.
Example C47_hypotheses_met :
  (forall c1 c2 f t1 t2, In (AddSource c1 f t1) demo3 -> In (AddSource c2 f t2) demo3 -> t1 = t2) /\
  (forall c' f t, In (AddSource c' f t) demo3 -> In f ["a.py"; "b.py"; "c.py"]%string) /\
  (forall f, ~ In (Dropped f) demo3) /\
  length (linecache (lrun Nat.eq_dec 3 (demo3 ++ [Fails 2%nat]))) = 3%nat.
Proof. unfold demo3. simpl. intuition congruence. Qed.

Print Assumptions C45_sources_stable_and_bounded.
Print Assumptions C47_traceback_source_partial.
Print Assumptions C47_traceback_source_refuted.
Print Assumptions C47_purged_source_not_restored_refuted.
