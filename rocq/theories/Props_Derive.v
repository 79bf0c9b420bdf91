(** C60: what deriving a conversion from another one does to the other one. *)
From Coq Require Import String List ZArith Bool Lia Arith.
From Verif Require Import Model_Code Proofs_Api Model_Heap Spec_Heap Proofs_Heap Model_Derive Spec_Derive Proofs_Derive.
Import ListNotations.

(** *** On a clone: the original, and everything else, stays as it was *)

(** [fails] : the pipeline of the conversion is longer than the limit [m]. *)
Definition too_long (m : Z) (l : list attrs) : Prop := (Z.of_nat (S (length l)) > m)%Z.

Theorem C60_comprehension_filter m s i st items c0 k rv l cond :
  closed s -> pipeline (objs s) i (Comprehension st items c0 k rv :: l) -> cond < length (objs s) ->
  (exists s', comp_filter m s i cond = Conversion_exception s' /\ too_long m l /\ unchanged s s') \/
  (exists s' r, comp_filter m s i cond = Ok s' r /\ ~ too_long m l /\ unchanged s s' /\
    new_conversion s s' r (Comprehension st items (Some cond) k rv) l /\
    forall x, asks_for s' r x <-> asks_for s i x \/ asks_for s cond x).
Proof.
  intros W P C. unfold comp_filter. rewrite (attributes_pipeline _ _ _ _ P).
  pose proof (derive_ok m s i _ l (Comprehension st items (Some cond) k rv) [cond]
    (fun s1 c => Ok (assign (ensure s1 c cond) c (Comprehension st items (Some cond) k rv)) c)
    W P ltac:(repeat constructor; auto) ltac:(discriminate) ltac:(discriminate) ltac:(reflexivity)) as D.
  unfold too_long. destruct (Z.leb_spec (Z.of_nat (S (length l))) m) as [L|L].
  - right. destruct D as (s' & r & E & U & N & A). exists s', r. split; [exact E|]. split; [lia|].
    split; auto. split; auto. intros x. rewrite A. split.
    + intros [H|(c & [<-|[]] & H)]; auto.
    + intros [H|H]; [auto|right; exists cond; split; [left; auto|auto]].
  - left. destruct D as (s' & E & U). exists s'. split; [exact E|]. split; [lia|auto].
Qed.
Print Assumptions C60_comprehension_filter.

(** key and reverse are stored as passed; a set cannot be sorted *)
Theorem C60_comprehension_sort m s i st items c0 k rv l key reverse :
  closed s -> pipeline (objs s) i (Comprehension st items c0 k rv :: l) ->
  (exists s', comp_sort m s i key reverse = Conversion_exception s' /\ (too_long m l \/ st = true) /\ unchanged s s') \/
  (exists s' r, comp_sort m s i key reverse = Ok s' r /\ ~ too_long m l /\ st = false /\ unchanged s s' /\
    new_conversion s s' r (Comprehension st items c0 (Some key) reverse) l /\
    forall x, asks_for s' r x <-> asks_for s i x).
Proof.
  intros W P. unfold comp_sort. rewrite (attributes_pipeline _ _ _ _ P). destruct st.
  { left. exists s. split; auto. split; auto. split; [intros ? ? ?|]; auto. }
  pose proof (derive_ok m s i _ l (Comprehension false items c0 (Some key) reverse) []
    (fun s1 c => Ok (assign s1 c (Comprehension false items c0 (Some key) reverse)) c)
    W P ltac:(constructor) ltac:(discriminate) ltac:(discriminate) ltac:(reflexivity)) as D.
  unfold too_long. destruct (Z.leb_spec (Z.of_nat (S (length l))) m) as [L|L].
  - right. destruct D as (s' & r & E & U & N & A). exists s', r. split; [exact E|]. split; [lia|].
    split; auto. split; auto. split; auto. intros x. rewrite A. split; [intros [H|(c & [] & _)]; auto|auto].
  - left. destruct D as (s' & E & U). exists s'. split; [exact E|]. split; [left; lia|auto].
Qed.
Print Assumptions C60_comprehension_sort.

(** arguments passed before are replaced, but the converter goes on asking for
    their input arguments *)
Theorem C60_pass_args m s i code args0 kwargs0 l args kwargs :
  closed s -> pipeline (objs s) i (Inline code args0 kwargs0 :: l) ->
  Forall (fun j => j < length (objs s)) args -> Forall (fun e => snd e < length (objs s)) kwargs ->
  (exists s', pass_args m s i args kwargs = Conversion_exception s' /\ too_long m l /\ unchanged s s') \/
  (exists s' r, pass_args m s i args kwargs = Ok s' r /\ ~ too_long m l /\ unchanged s s' /\
    new_conversion s s' r (Inline code args kwargs) l /\
    forall x, asks_for s' r x <->
      asks_for s i x \/ (exists a, In a args /\ asks_for s a x) \/ (exists n a, In (n, a) kwargs /\ asks_for s a x)).
Proof.
  intros W P Fa Fk. unfold pass_args. rewrite (attributes_pipeline _ _ _ _ P).
  assert (F : Forall (fun j => j < length (objs s)) (args ++ map snd kwargs)).
  { apply Forall_app. split; auto. apply Forall_forall. intros j Hj. apply in_map_iff in Hj.
    destruct Hj as (e & <- & He). rewrite Forall_forall in Fk. auto. }
  pose proof (derive_ok m s i _ l (Inline code args kwargs) (args ++ map snd kwargs)
    (fun s1 c => Ok (assign (ensure_all (ensure_all s1 c args) c (map snd kwargs)) c (Inline code args kwargs)) c)
    W P F ltac:(discriminate) ltac:(discriminate)
    ltac:(intros; unfold ensure_all; rewrite fold_left_app; reflexivity)) as D.
  unfold too_long. destruct (Z.leb_spec (Z.of_nat (S (length l))) m) as [L|L].
  - right. destruct D as (s' & r & E & U & N & A). exists s', r. split; [exact E|]. split; [lia|].
    split; auto. split; auto. intros x. rewrite A. split.
    + intros [H|(c & Hc & H)]; auto. right. apply in_app_or in Hc. destruct Hc as [Hc|Hc]; [left; eauto|right].
      apply in_map_iff in Hc. destruct Hc as ([n a] & <- & He). exists n, a. auto.
    + intros [H|[(a & Ha & H)|(n & a & Ha & H)]]; [auto| |]; right; exists a; (split; [|auto]); apply in_or_app; [auto|].
      right. apply in_map_iff. exists (n, a). auto.
  - left. destruct D as (s' & E & U). exists s'. split; [exact E|]. split; [lia|auto].
Qed.
Print Assumptions C60_pass_args.

Theorem C60_group_by_sort m s i b res ag k rv l key reverse :
  closed s -> pipeline (objs s) i (Group b res ag k rv :: l) ->
  (exists s', group_sort m s i key reverse = Conversion_exception s' /\ too_long m l /\ unchanged s s') \/
  (exists s' r, group_sort m s i key reverse = Ok s' r /\ ~ too_long m l /\ unchanged s s' /\
    new_conversion s s' r (Group b res ag (Some key) reverse) l /\
    forall x, asks_for s' r x <-> asks_for s i x).
Proof.
  intros W P. unfold group_sort. rewrite (attributes_pipeline _ _ _ _ P).
  pose proof (derive_ok m s i _ l (Group b res ag (Some key) reverse) []
    (fun s1 c => Ok (assign s1 c (Group b res ag (Some key) reverse)) c)
    W P ltac:(constructor) ltac:(discriminate) ltac:(discriminate) ltac:(reflexivity)) as D.
  unfold too_long. destruct (Z.leb_spec (Z.of_nat (S (length l))) m) as [L|L].
  - right. destruct D as (s' & r & E & U & N & A). exists s', r. split; [exact E|]. split; [lia|].
    split; auto. split; auto. intros x. rewrite A. split; [intros [H|(c & [] & _)]; auto|auto].
  - left. destruct D as (s' & E & U). exists s'. split; [exact E|]. split; [lia|auto].
Qed.
Print Assumptions C60_group_by_sort.

(** *** group_by(...).aggregate(...): the original keeps its definition, but a
    converter made of it, or of anything derived from it later, asks for the
    input arguments of the reducer too *)

(** what the reducer of an aggregate consists of *)
Definition parts (s : state) (reducer : nat) : list nat :=
  match attributes s reducer with Some (Collection l) => l | _ => [reducer] end.
(** nothing but the registered dependencies of [g] differs *)
Definition unchanged_but_dependencies (s s' : state) (g : nat) : Prop :=
  (forall j o, nth_error (objs s) j = Some o ->
     exists o', nth_error (objs s') j = Some o' /\ pred o' = pred o /\ payload o' = payload o /\
                (j <> g -> deps o' = deps o)) /\
  (forall d x, nth_error (dicts s) d = Some x -> nth_error (dicts s') d = Some x).
Definition a_reducer (s : state) (j : nat) : Prop := exists w c, attributes s j = Some (Reducer w c).

Theorem C60_aggregate m s g b r0 ag0 k rv l reducer :
  closed s -> pipeline (objs s) g (Group b r0 ag0 k rv :: l) ->
  reducer < length (objs s) -> reducer <> g ->
  Forall (fun j => j < length (objs s) /\ j <> g) (parts s reducer) ->
  (exists s', aggregate m s g reducer = Conversion_exception s' /\ too_long m l /\ unchanged s s') \/
  (exists s', aggregate m s g reducer = Assertion_error s' /\ attributes s reducer = Some Naive /\
     unchanged_but_dependencies s s' g) \/
  (exists s' r found, aggregate m s g reducer = Ok s' r /\ ~ too_long m l /\
     attributes s reducer <> Some Naive /\
     unchanged_but_dependencies s s' g /\
     new_conversion s s' r (Group b (Some reducer) found k rv) l /\
     (forall j, In j found <-> a_reducer s j /\ exists it, In it (parts s reducer) /\ has_dependency s it j) /\
     (forall x, asks_for s' r x <-> asks_for s g x \/ asks_for s reducer x) /\
     (forall x, asks_for s' g x <-> asks_for s g x \/ asks_for s reducer x)).
Proof.
  intros W P Lr Ng Fp.
  destruct (nth_error (objs s) reducer) as [orr|] eqn:Er; [|apply nth_error_None in Er; lia].
  assert (Ar : attributes s reducer = Some (payload orr)) by (unfold attributes; rewrite Er; auto).
  unfold aggregate. rewrite (attributes_pipeline _ _ _ _ P). unfold on_clone.
  pose proof (chain_len _ _ _ P) as Lg.
  pose proof (clone_ok m (objs s) g _ P) as C. cbn [length] in C. unfold too_long.
  destruct (Z.leb_spec (Z.of_nat (S (length l))) m) as [L|L].
  2:{ left. destruct C as (h & -> & A). exists (with_objs s h). split; auto. split; [lia|].
      split; [|simpl; auto]. intros j o Hj. simpl. rewrite (agree_get _ _ _ _ A); auto. apply nth_error_Some. congruence. }
  right. destruct C as (h & -> & A & Ch & og & oc & Hg & Hc & Hd & Hp).
  set (n := length (objs s)) in *.
  assert (Pg : payload og = Group b r0 ag0 k rv) by (inversion P; subst; congruence).
  assert (Dr : get_dependencies h reducer = deps orr ++ [reducer]).
  { rewrite (agree_deps _ _ _ _ A) by auto. unfold get_dependencies. rewrite Er. auto. }
  set (D := deps orr ++ [reducer]) in *.
  set (s2 := ensure (with_objs s h) g reducer).
  set (h2 := update h g (add_deps D)).
  assert (E2 : objs s2 = h2) by (unfold s2, ensure, depends_on, with_objs; cbn [objs]; rewrite Dr; auto).
  assert (G2 : nth_error h2 g = Some (add_deps D og)).
  { apply nth_update_eq. rewrite (agree_get _ _ _ _ A); auto. }
  assert (O2 : forall j, j < n -> j <> g -> nth_error h2 j = nth_error (objs s) j).
  { intros j Hj Hn. unfold h2. rewrite nth_update_ne by auto. apply (agree_get _ _ _ _ A); auto. }
  assert (C2 : nth_error h2 n = Some oc) by (unfold h2; rewrite nth_update_ne by lia; auto).
  assert (Ub : forall h', (forall j, j < n -> nth_error h' j = nth_error h2 j) ->
     unchanged_but_dependencies s (mkState h' (dicts s)) g).
  { intros h' Same. split; [|simpl; auto]. intros j o Hj. cbn [objs].
    assert (j < n) by (apply nth_error_Some; congruence). rewrite Same by auto.
    destruct (Nat.eq_dec j g) as [->|Hn].
    - rewrite G2. rewrite Hg in Hj. injection Hj as <-. eexists. split; [reflexivity|]. cbn. split; [auto|]. split; [auto|]. congruence.
    - rewrite O2 by auto. eauto 6. }
  assert (A2 : attributes s2 reducer = Some (payload orr)).
  { unfold attributes. rewrite E2, O2, Er; auto. }
  rewrite A2.
  destruct (match payload orr with Naive => true | _ => false end) eqn:En.
  { left. exists s2. assert (payload orr = Naive) as Pn by (destruct (payload orr); congruence).
    rewrite Pn. split; auto. split; [congruence|].
    replace s2 with (mkState h2 (dicts s)) by (rewrite <- E2; reflexivity). apply Ub. auto. }
  right.
  set (s3 := ensure s2 n reducer).
  set (h3 := update h2 n (add_deps D)).
  assert (Dr2 : get_dependencies h2 reducer = D).
  { unfold get_dependencies. rewrite O2, Er; auto. }
  assert (E3 : objs s3 = h3) by (unfold s3, ensure, depends_on, with_objs; cbn [objs]; rewrite E2, Dr2; auto).
  set (found := flat_map (fun j => List.filter (is_reducer s3) (get_dependencies (objs s3) j)) (parts s reducer)).
  assert (O3 : forall j, j < n -> nth_error h3 j = nth_error h2 j).
  { intros j Hj. unfold h3. apply nth_update_ne. lia. }
  set (h4 := update h3 n (set_payload (Group b (Some reducer) found k rv))).
  exists (mkState h4 (dicts s)), n, found.
  split.
  { transitivity (Ok (assign s3 n (Group b (Some reducer) found k rv)) n).
    - unfold found, parts. rewrite Ar. destruct (payload orr); try discriminate En; reflexivity.
    - unfold assign, with_objs. rewrite E3. reflexivity. }
  split; [lia|]. split.
  { intros X. rewrite Ar in X. injection X as X. rewrite X in En. discriminate. }
  assert (O4 : forall j, j < n -> nth_error h4 j = nth_error h2 j).
  { intros j Hj. unfold h4. rewrite nth_update_ne by lia. auto. }
  split; [apply Ub; auto|].
  split.
  { split; [auto|]. cbn [objs]. unfold h4. eapply pipeline_set_payload.
    eapply chain_in_pipeline. apply chain_in_deps. apply chain_in_deps. exact Ch. }
  assert (Pay : forall j, j < n -> attributes (mkState h4 (dicts s)) j = attributes s j /\ attributes s3 j = attributes s j).
  { intros j Hj. unfold attributes. rewrite E3. cbn [objs]. rewrite O4, O3 by auto.
    destruct (Nat.eq_dec j g) as [->|Hn]; [rewrite G2, Hg; auto|rewrite O2 by auto; auto]. }
  assert (Nh : forall j, has_dependency s reducer j <-> In j D).
  { intros j. unfold has_dependency. rewrite Er. unfold D. rewrite in_app_iff. split.
    - intros (o & E & Hj). injection E as <-. destruct Hj as [->|Hj]; simpl; auto.
    - intros [Hj|[Hj|[]]]; exists orr; split; auto. }
  assert (DB : forall d, In d D -> d < n).
  { intros d Hin. unfold D in Hin. apply in_app_or in Hin. destruct Hin as [H|[<-|[]]]; [exact (W _ _ Er _ H)|auto]. }
  split.
  { intros j. unfold found. rewrite in_flat_map. split.
    - intros (it & Hit & Hj). apply filter_In in Hj. destruct Hj as [Hj Rj].
      rewrite Forall_forall in Fp. destruct (Fp _ Hit) as [Bi Ni].
      unfold get_dependencies in Hj. rewrite E3, O3, O2 in Hj by auto.
      destruct (nth_error (objs s) it) as [oi|] eqn:Ei; [|destruct Hj].
      assert (Hj' : j = it \/ In j (deps oi)) by (apply in_app_or in Hj; destruct Hj as [H|[H|[]]]; auto).
      assert (j < n) by (destruct Hj' as [->|H]; [auto|exact (W _ _ Ei _ H)]).
      split.
      + unfold is_reducer in Rj. destruct (Pay j) as [_ Pj]; auto. rewrite Pj in Rj.
        unfold a_reducer. destruct (attributes s j) as [[]|]; try discriminate. eauto.
      + exists it. split; auto. exists oi. auto.
    - intros ((w & c & Rj) & it & Hit & oi & Ei & Hj). exists it. split; auto.
      rewrite Forall_forall in Fp. destruct (Fp _ Hit) as [Bi Ni].
      apply filter_In. unfold get_dependencies. rewrite E3, O3, O2, Ei by auto. split.
      + apply in_or_app. destruct Hj as [->|H]; simpl; auto.
      + unfold is_reducer. assert (j < n) by (destruct Hj as [->|H]; [auto|exact (W _ _ Ei _ H)]).
        destruct (Pay j) as [_ Pj]; auto. rewrite Pj, Rj. auto. }
  assert (Has : forall c oo, nth_error h4 c = Some oo -> deps oo = deps og ++ D ->
     (forall x, attributes (mkState h4 (dicts s)) c <> Some (Argument x)) ->
     forall x, asks_for (mkState h4 (dicts s)) c x <-> asks_for s g x \/ asks_for s reducer x).
  { intros c oo Ec Edd Nc x. rewrite !asks_attr. split.
    - intros (d & (o1 & E1 & Hin) & Ha). cbn [objs] in E1. rewrite Ec in E1. injection E1 as <-.
      destruct Hin as [->|Hin]; [destruct (Nc _ Ha)|]. rewrite Edd in Hin. apply in_app_or in Hin.
      destruct Hin as [Hin|Hin]; [left|right]; exists d.
      + destruct (Pay d) as [Pd _]; [exact (W _ _ Hg _ Hin)|]. split; [|congruence]. exists og. auto.
      + destruct (Pay d) as [Pd _]; [auto|]. split; [apply Nh; auto|congruence].
    - assert (K : forall d, d < n -> In d (deps og ++ D) -> attributes s d = Some (Argument x) ->
        exists d, has_dependency (mkState h4 (dicts s)) c d /\ attributes (mkState h4 (dicts s)) d = Some (Argument x)).
      { intros d Bd Hin Ha. exists d. destruct (Pay d) as [Pd _]; auto. split; [|congruence].
        exists oo. cbn [objs]. split; auto. right. rewrite Edd. auto. }
      intros [(d & (o1 & E1 & Hin) & Ha)|(d & Hin & Ha)].
      + rewrite Hg in E1. injection E1 as <-. destruct Hin as [->|Hin].
        * unfold attributes in Ha. rewrite Hg in Ha. simpl in Ha. rewrite Pg in Ha. discriminate.
        * apply (K d); auto; [exact (W _ _ Hg _ Hin)|apply in_or_app; auto].
      + apply Nh in Hin. apply (K d); auto. apply in_or_app. auto. }
  split.
  - assert (E4 : nth_error h4 n = Some (set_payload (Group b (Some reducer) found k rv) (add_deps D oc))).
    { unfold h4. apply nth_update_eq. unfold h3. apply nth_update_eq. exact C2. }
    apply (Has n _ E4).
    + cbn. congruence.
    + intros x. unfold attributes. cbn [objs]. rewrite E4. discriminate.
  - apply (Has g (add_deps D og)).
    + rewrite O4 by auto. exact G2.
    + reflexivity.
    + intros x. unfold attributes. cbn [objs]. rewrite O4, G2 by auto. cbn. rewrite Pg. discriminate.
Qed.
Print Assumptions C60_aggregate.

(** *** c.reduce(...).filter(...): on the object itself *)

(** objects other than [i], and all dicts, are as they were *)
Definition only_changes (s s' : state) (i : nat) : Prop :=
  length (objs s') = length (objs s) /\ (forall j, j <> i -> nth_error (objs s') j = nth_error (objs s) j) /\
  dicts s' = dicts s.
(** a reduce within a reduce: [i] with condition [cond] would depend on one *)
Definition nested_with (s : state) (i cond : nat) : Prop :=
  exists d, a_reducer s d /\
    ((exists o, nth_error (objs s) i = Some o /\ In d (deps o)) \/ has_dependency s cond d).

Lemma is_reducer_true s j : is_reducer s j = true <-> a_reducer s j.
Proof.
  unfold is_reducer, a_reducer. split.
  - destruct (attributes s j) as [[]|]; try discriminate; eauto.
  - intros (w & c & ->). auto.
Qed.

Theorem C60_reduce_filter_in_place s i w c0 cond :
  attributes s i = Some (Reducer w c0) -> cond < length (objs s) ->
  (exists s', reduce_filter s i cond = Assertion_error s' /\ nested_with s i cond /\ only_changes s s' i /\
     forall good, good < length (objs s') -> exists s'', reduce_filter s' i good = Assertion_error s'') \/
  (exists s', reduce_filter s i cond = Ok s' i /\ ~ nested_with s i cond /\ only_changes s s' i /\
     attributes s' i = Some (Reducer w (Some cond)) /\
     forall x, asks_for s' i x <-> asks_for s i x \/ asks_for s cond x).
Proof.
  intros Ai Lc. unfold reduce_filter at 1 3. rewrite Ai.
  pose proof Ai as Ai'. unfold attributes in Ai. destruct (nth_error (objs s) i) as [o|] eqn:Eo; [|discriminate].
  simpl in Ai. injection Ai as Ai.
  destruct (nth_error (objs s) cond) as [oc|] eqn:Ec; [|apply nth_error_None in Ec; lia].
  set (D := deps oc ++ [cond]).
  assert (Dd : get_dependencies (objs s) cond = D) by (unfold get_dependencies; rewrite Ec; auto).
  set (s1 := ensure s i cond).
  assert (E1 : objs s1 = update (objs s) i (add_deps D)) by (unfold s1, ensure, depends_on; rewrite Dd; auto).
  assert (N1 : nth_error (objs s1) i = Some (add_deps D o)) by (rewrite E1; apply nth_update_eq; auto).
  rewrite N1. cbn [deps add_deps].
  assert (Pay : forall j, attributes s1 j = attributes s j).
  { intros j. unfold attributes. destruct (Nat.eq_dec j i) as [->|Hn].
    - rewrite N1, Eo. auto.
    - rewrite E1, nth_update_ne by auto. auto. }
  assert (Oc : only_changes s s1 i).
  { split; [rewrite E1; apply length_update|]. split; [|auto]. intros j Hj. rewrite E1. apply nth_update_ne. auto. }
  assert (Hc : forall d, has_dependency s cond d <-> In d D).
  { intros d. unfold has_dependency, D. rewrite Ec, in_app_iff. split.
    - intros (q & Eq & H). injection Eq as <-. destruct H as [->|H]; simpl; auto.
    - intros [H|[H|[]]]; exists oc; split; auto. }
  assert (Red : forall j, is_reducer s1 j = true <-> a_reducer s j).
  { intros j. rewrite is_reducer_true. unfold a_reducer. rewrite Pay. tauto. }
  destruct (existsb (is_reducer s1) (deps o ++ D)) eqn:X.
  - left. exists s1. split; auto. pose proof X as X0. apply existsb_exists in X. destruct X as (d & Hd & Rd).
    split.
    + exists d. split; [apply Red; auto|]. apply in_app_or in Hd. destruct Hd as [H|H]; [left; eauto|right; apply Hc; auto].
    + split; [exact Oc|]. intros good Lg. unfold reduce_filter. rewrite Pay, Ai'.
      set (G := get_dependencies (objs s1) good).
      assert (N2 : nth_error (objs (ensure s1 i good)) i = Some (add_deps G (add_deps D o))).
      { unfold ensure, depends_on. cbn [objs with_objs]. apply nth_update_eq. exact N1. }
      rewrite N2. cbn [deps add_deps].
      assert (Y : existsb (is_reducer (ensure s1 i good)) ((deps o ++ D) ++ G) = true).
      { apply existsb_exists. exists d. split; [apply in_or_app; auto|].
        apply is_reducer_true. apply is_reducer_true in Rd. destruct Rd as (w' & c' & Rd). exists w', c'.
        unfold attributes in *. destruct (Nat.eq_dec d i) as [->|Hn].
        - rewrite N2. rewrite N1 in Rd. exact Rd.
        - unfold ensure, depends_on. cbn [objs with_objs]. rewrite nth_update_ne by auto. exact Rd. }
      rewrite Y. eauto.
  - right. eexists. split; [reflexivity|].
    assert (N3 : nth_error (objs (assign s1 i (Reducer w (Some cond)))) i =
       Some (set_payload (Reducer w (Some cond)) (add_deps D o))).
    { unfold assign. cbn [objs with_objs]. apply nth_update_eq. exact N1. }
    assert (O3 : forall j, j <> i -> nth_error (objs (assign s1 i (Reducer w (Some cond)))) j = nth_error (objs s) j).
    { intros j Hj. unfold assign. cbn [objs with_objs]. rewrite nth_update_ne by auto. apply Oc. auto. }
    split.
    { intros (d & Rd & Hd). apply Bool.not_true_iff_false in X. apply X. apply existsb_exists. exists d.
      split; [|apply Red; auto]. apply in_or_app. destruct Hd as [(q & Eq & H)|H]; [left; congruence|right; apply Hc; auto]. }
    split. { split; [unfold assign; cbn [objs with_objs]; rewrite length_update; apply Oc|]. split; [exact O3|reflexivity]. }
    split. { unfold attributes. rewrite N3. reflexivity. }
    intros x. rewrite !asks_attr. unfold has_dependency at 1 2.
    assert (Arg : forall d, attributes (assign s1 i (Reducer w (Some cond))) d = Some (Argument x) <->
       attributes s d = Some (Argument x)).
    { intros d. unfold attributes. destruct (Nat.eq_dec d i) as [->|Hn].
      - rewrite N3, Eo. simpl. rewrite Ai. split; discriminate.
      - rewrite O3 by auto. tauto. }
    split.
    + intros (d & (q & Eq & Hd) & Ha). rewrite N3 in Eq. injection Eq as <-. apply Arg in Ha. cbn in Hd.
      destruct Hd as [->|Hd]; [left; exists i; split; [exists o; auto|auto]|].
      apply in_app_or in Hd. destruct Hd as [H|H]; [left; exists d; split; [exists o; auto|auto]|].
      right. exists d. split; [apply Hc; auto|auto].
    + intros [(d & (q & Eq & Hd) & Ha)|(d & Hd & Ha)]; exists d; (split; [|apply Arg; auto]); eexists; (split; [exact N3|]).
      * rewrite Eo in Eq. injection Eq as <-. destruct Hd as [->|H]; [auto|right; cbn; apply in_or_app; auto].
      * right. cbn. apply in_or_app. right. apply Hc. auto.
Qed.
Print Assumptions C60_reduce_filter_in_place.

(** So two conversions filtered from one reduce are one and the same conversion,
    with the condition given last. *)
Theorem C60_filtered_reduces_are_one s i w c0 cond1 cond2 s1 r1 s2 r2 :
  attributes s i = Some (Reducer w c0) -> cond1 < length (objs s) -> cond2 < length (objs s) ->
  reduce_filter s i cond1 = Ok s1 r1 -> reduce_filter s1 i cond2 = Ok s2 r2 ->
  r1 = i /\ r2 = i /\ attributes s1 r1 = Some (Reducer w (Some cond1)) /\
  attributes s2 r1 = Some (Reducer w (Some cond2)).
Proof.
  intros A L1 L2 E1 E2.
  destruct (C60_reduce_filter_in_place s i w c0 cond1 A L1) as [(q & X & _)|(q & X & _ & O & B & _)]; [congruence|].
  rewrite E1 in X. injection X as <- ->.
  assert (L2' : cond2 < length (objs s1)) by (destruct O as [-> _]; auto).
  destruct (C60_reduce_filter_in_place s1 i w (Some cond1) cond2 B L2') as [(q & X & _)|(q & X & _ & O' & B' & _)]; [congruence|].
  rewrite E2 in X. injection X as <- ->. auto.
Qed.
Print Assumptions C60_filtered_reduces_are_one.

(** *** add_label on a conversion that is labelled already: on the object itself,
    and on the dict of labels it shares with its clones *)
Definition labels_of (s : state) (i : nat) : option dict :=
  match attributes s i with
  | Some (Caching _ _ d) => nth_error (dicts s) d
  | _ => None
  end.

Lemma nth_put {A} (l : list A) : forall i x y, nth_error l i = Some y -> nth_error (put l i x) i = Some x.
Proof. induction l as [|a l IH]; intros [|i] x y; simpl; try discriminate; eauto. Qed.

(** [j] is any conversion that has the same dict of labels, like a clone of [i] *)
Theorem C60_label_reaches_clones s i j of_ n of_' n' d ls label conv :
  attributes s i = Some (Caching of_ (Some n) d) -> attributes s j = Some (Caching of_' n' d) ->
  nth_error (dicts s) d = Some ls -> ~ In label (map fst ls) -> label <> n -> conv < length (objs s) ->
  exists s', add_label s i label conv = Ok s' i /\
    labels_of s' i = Some (ls ++ [(label, conv)]) /\ labels_of s' j = Some (ls ++ [(label, conv)]) /\
    (j <> i -> nth_error (objs s') j = nth_error (objs s) j).
Proof.
  intros Ai Aj Ed Nl Nn Lc. unfold add_label. rewrite Ai, Ed.
  assert (H1 : has_key ls label = false).
  { apply Bool.not_true_iff_false. intros H. apply existsb_exists in H. destruct H as (e & He & T).
    apply teqb_true in T. apply Nl. subst. apply in_map. auto. }
  assert (H2 : teqb label n = false).
  { apply Bool.not_true_iff_false. intros H. apply teqb_true in H. auto. }
  rewrite H1, H2. cbn [orb].
  assert (Pay : forall q, attributes (ensure s i conv) q = attributes s q).
  { intros q. unfold attributes, ensure, depends_on. cbn [objs with_objs]. destruct (Nat.eq_dec q i) as [->|Hn].
    - destruct (nth_error (objs s) i) as [o|] eqn:E.
      + rewrite (nth_update_eq _ _ _ _ E). auto.
      + assert (L : length (objs s) <= i) by (apply nth_error_None; auto).
        rewrite (proj2 (nth_error_None _ _)); auto. rewrite length_update. auto.
    - rewrite nth_update_ne by auto. auto. }
  eexists. split; [reflexivity|]. unfold labels_of.
  assert (P2 : forall q, attributes (mkState (objs (ensure s i conv)) (put (dicts (ensure s i conv)) d (ls ++ [(label, conv)]))) q = attributes s q).
  { intros q. rewrite <- Pay. reflexivity. }
  rewrite !P2, Ai, Aj. cbn [dicts ensure with_objs].
  rewrite (nth_put _ _ _ _ Ed). split; auto. split; auto.
  intros Hn. cbn [objs]. unfold depends_on. apply nth_update_ne. auto.
Qed.
Print Assumptions C60_label_reaches_clones.

(** A clone does have the same dict. *)
Theorem C60_clone_shares_labels m s i of_ n d l h c :
  pipeline (objs s) i (Caching of_ n d :: l) -> clone m (objs s) i = Done h c ->
  c <> i /\ attributes (with_objs s h) c = Some (Caching of_ n d) /\
  attributes (with_objs s h) i = Some (Caching of_ n d).
Proof.
  intros P E. pose proof (clone_ok m (objs s) i _ P) as C.
  destruct (Z.of_nat (length (Caching of_ n d :: l)) <=? m)%Z.
  - destruct C as (h' & E' & A & Ch & o & o' & Ho & Ho' & _ & Hp). rewrite E in E'. injection E' as <- ->.
    pose proof (chain_len _ _ _ P). split; [lia|]. unfold attributes. cbn [objs with_objs].
    rewrite Ho', (agree_get _ _ _ _ A) by auto. pose proof (attributes_pipeline _ _ _ _ P) as X. unfold attributes in X.
    rewrite Ho in *. simpl in *. split; congruence.
  - destruct C as (h' & E' & _). congruence.
Qed.
Print Assumptions C60_clone_shares_labels.

(** The same label cannot be put twice on a labelled conversion: the second
    add_label, meant to make another conversion, raises. *)
Theorem C60_label_twice_raises s i label conv s' r conv2 :
  add_label s i label conv = Ok s' r -> r = i /\ add_label s' i label conv2 = Conversion_exception s'.
Proof.
  unfold add_label. destruct (attributes s i) as [[]|] eqn:Ai; try discriminate.
  destruct (nth_error (dicts s) labels) as [ls|] eqn:Ed; [|discriminate].
  destruct (has_key ls label || match name with Some n => teqb label n | None => false end); [discriminate|].
  assert (T : teqb label label = true) by (unfold teqb; destruct (text_eq_dec label label); congruence).
  assert (Pay : forall q a, attributes s q = Some a -> attributes (ensure s i conv) q = Some a).
  { intros q a. unfold attributes, ensure, depends_on. cbn [objs with_objs].
    destruct (nth_error (objs s) q) as [o|] eqn:E; [|discriminate]. destruct (Nat.eq_dec q i) as [->|Hn].
    - rewrite (nth_update_eq _ _ _ _ E). auto.
    - rewrite nth_update_ne, E by auto. auto. }
  assert (K : forall s1, s1 = mkState (objs (ensure s i conv)) (put (dicts s) labels (ls ++ [(label, conv)])) ->
     attributes s1 i = Some (Caching of_ name labels) /\ nth_error (dicts s1) labels = Some (ls ++ [(label, conv)])).
  { intros s1 ->. split; [exact (Pay _ _ Ai)|]. cbn [dicts]. exact (nth_put _ _ _ _ Ed). }
  assert (Hk : has_key (ls ++ [(label, conv)]) label = true).
  { unfold has_key. rewrite existsb_app. cbn. rewrite T, Bool.orb_true_r. auto. }
  assert (Fin2 : forall s1 r1, Ok (assign (ensure s i conv) i (Caching of_ (Some label) labels)) i = Ok s1 r1 ->
     r1 = i /\ attributes s1 i = Some (Caching of_ (Some label) labels) /\ nth_error (dicts s1) labels = Some ls).
  { intros s1 r1 E. injection E as <- <-. split; auto. split; [|exact Ed].
    pose proof (Pay _ _ Ai) as Pi. unfold attributes in *. unfold assign. cbn [objs with_objs] in *.
    destruct (nth_error (objs (ensure s i conv)) i) as [o|] eqn:E; [|discriminate].
    rewrite (nth_update_eq _ _ _ _ E). auto. }
  destruct name as [nm|].
  2: destruct (attributes (ensure s i conv) conv) as [[]|].
  all: intros E.
  all: change (dicts (ensure s i conv)) with (dicts s) in E.
  all: try (pose proof (f_equal (fun o => match o with Ok q _ => q | _ => s end) E) as Es; cbv beta iota in Es;
            destruct (K s' (eq_sym Es)) as [A1 A2]; rewrite A1, A2, Hk; split; [congruence|reflexivity]).
  destruct (Fin2 _ _ E) as (-> & -> & ->). split; auto. rewrite T, Bool.orb_true_r. auto.
Qed.
Print Assumptions C60_label_twice_raises.

(** *** cases and refutations *)
Definition x_arg := T "x".
Definition mk (d : list nat) (p : attrs) : obj attrs := mkObj None d p.
Definition demo : state := mkState
  [ mk [] (Argument x_arg);                        (* 0: c.input_arg("x") *)
    mk [] Other;                                   (* 1: c.item(1) *)
    mk [1] (Reducer 1 None);                       (* 2: c.reduce(Sum, c.item(1)) *)
    mk [0; 1] Other;                               (* 3: c.item(1) + c.input_arg("x") *)
    mk [0; 1; 3] (Reducer 3 None);                 (* 4: c.reduce(Sum, 3) *)
    mk [1] (Group [1] None [] None false);         (* 5: c.group_by(c.item(1)) *)
    mk [0; 1; 3; 4] (Collection [4]);              (* 6: (4,) *)
    mk [1; 2] (Collection [2]);                    (* 7: (2,) *)
    mk [1] (Comprehension false [1] None None false);  (* 8: c.list_comp(c.item(1)) *)
    mk [] (Inline (T "{} + 1") [] []);             (* 9: c.inline_expr *)
    mk [1] (Caching 1 (Some (T "a")) 0);           (* 10: labelled *)
    mk [1] (Caching 1 (Some (T "a")) 0) ]          (* 11: a clone of it *)
  [[]].

Example C60_demo_closed : closed demo.
Proof.
  intros j o E d Hd. do 12 (destruct j as [|j]; [injection E as <-; simpl in *; lia|]). destruct j; discriminate.
Qed.
Definition attributes_of (o : outcome) : option attrs :=
  match o with Ok s i => attributes s i | _ => None end.
Example C60_demo :
  attributes_of (comp_filter 64 demo 8 3) = Some (Comprehension false [1] (Some 3) None false) /\
  attributes_of (comp_sort 64 demo 8 (Some 1) true) = Some (Comprehension false [1] None (Some (Some 1)) true) /\
  attributes_of (pass_args 64 demo 9 [3] [(T "k", 1)]) = Some (Inline (T "{} + 1") [3] [(T "k", 1)]) /\
  attributes_of (group_sort 64 demo 5 None true) = Some (Group [1] None [] (Some None) true) /\
  attributes_of (aggregate 64 demo 5 6) = Some (Group [1] (Some 6) [4] None false) /\
  attributes_of (reduce_filter demo 2 3) = Some (Reducer 1 (Some 3)) /\
  (exists s', reduce_filter demo 2 6 = Assertion_error s').
Proof. repeat split; try (vm_compute; reflexivity). eexists. vm_compute. reflexivity. Qed.
Example C60_demo_pipelines :
  pipeline (objs demo) 8 [Comprehension false [1] None None false] /\
  pipeline (objs demo) 9 [Inline (T "{} + 1") [] []] /\
  pipeline (objs demo) 5 [Group [1] None [] None false] /\
  Forall (fun j => j < length (objs demo) /\ j <> 5) (parts demo 6).
Proof.
  split; [|split; [|split]]; try (refine (one_stage _ _ (mk _ _) _ _); reflexivity).
  cbn. apply Forall_cons; [split; [lia|lia]|constructor].
Qed.

(** g = c.group_by(c.item(1)); g.aggregate(Sum(item(1) + input_arg("x"))), then
    g.aggregate(Sum(item(1))): the second one asks for x. *)
Theorem C60_aggregate_is_reusable_refuted :
  exists s g a b x s1 r1 s2 r2,
    closed s /\ aggregate 64 s g a = Ok s1 r1 /\ aggregate 64 s1 g b = Ok s2 r2 /\
    ~ asks_for s g x /\ ~ asks_for s b x /\ asks_for s2 r2 x.
Proof.
  exists demo, 5, 6, 7, x_arg. eexists _, _, _, _.
  split; [exact C60_demo_closed|]. split; [vm_compute; reflexivity|]. split; [vm_compute; reflexivity|].
  split; [|split].
  - rewrite asks_attr. intros (d & (o & E & H) & A). injection E as <-.
    destruct H as [->|[<-|[]]]; discriminate.
  - rewrite asks_attr. intros (d & (o & E & H) & A). injection E as <-.
    destruct H as [->|[<-|[<-|[]]]]; discriminate.
  - rewrite asks_attr. exists 0. split; [|reflexivity]. eexists. split; [reflexivity|]. cbn. auto 10.
Qed.
Print Assumptions C60_aggregate_is_reusable_refuted.

(** r = c.reduce(Sum, c.item(1)); a = r.filter(...); b = r.filter(...): [a] has the
    condition of [b]. *)
Theorem C60_reduce_filter_is_reusable_refuted :
  exists s r c1 c2 s1 a s2 b,
    closed s /\ c1 <> c2 /\ reduce_filter s r c1 = Ok s1 a /\ reduce_filter s1 r c2 = Ok s2 b /\
    attributes s1 a = Some (Reducer 1 (Some c1)) /\ attributes s2 a = Some (Reducer 1 (Some c2)).
Proof.
  exists demo, 2, 3, 1. eexists _, _, _, _.
  split; [exact C60_demo_closed|]. split; [lia|]. split; [vm_compute; reflexivity|].
  split; [vm_compute; reflexivity|]. split; [reflexivity|reflexivity].
Qed.
Print Assumptions C60_reduce_filter_is_reusable_refuted.

(** A label put on a clone, made by piping into it, say, is evaluated by the
    original too; if it uses an input argument, the original does not ask for it. *)
Theorem C60_label_on_clone_refuted :
  exists s i c label conv x s',
    closed s /\ c <> i /\ add_label s c label conv = Ok s' c /\ labels_of s i = Some [] /\
    labels_of s' i = Some [(label, conv)] /\ asks_for s' conv x /\ ~ asks_for s' i x.
Proof.
  exists demo, 10, 11, (T "b"), 3, x_arg. eexists.
  split; [exact C60_demo_closed|]. split; [lia|]. split; [vm_compute; reflexivity|]. split; [reflexivity|].
  split; [reflexivity|]. split.
  - rewrite asks_attr. exists 0. split; [|reflexivity]. eexists. split; [reflexivity|]. cbn. auto.
  - rewrite asks_attr. intros (d & (o & E & H) & A). injection E as <-.
    destruct H as [->|[<-|[]]]; discriminate.
Qed.
Print Assumptions C60_label_on_clone_refuted.
