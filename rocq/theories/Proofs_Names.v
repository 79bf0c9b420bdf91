From Coq Require Import String Ascii ZArith Bool List Lia.
From Coq Require Import DecimalString DecimalZ DecimalFacts.
From Verif Require Import Model_Names Spec_Names.
Import ListNotations.
Local Open Scope string_scope.

(** ---- decimal strings ---- *)
Lemma string_of_int_inj d d' : 
  d <> Decimal.Pos Decimal.Nil -> d <> Decimal.Neg Decimal.Nil ->
  d' <> Decimal.Pos Decimal.Nil -> d' <> Decimal.Neg Decimal.Nil ->
  NilZero.string_of_int d = NilZero.string_of_int d' -> d = d'.
Proof.
  intros H1 H2 H3 H4 H. apply (f_equal NilZero.int_of_string) in H.
  rewrite !NilZero.isi in H by auto. congruence.
Qed.

Lemma to_int_not_nil z : Z.to_int z <> Decimal.Pos Decimal.Nil /\ Z.to_int z <> Decimal.Neg Decimal.Nil.
Proof.
  pose proof (DecimalZ.of_to z) as H.
  assert (N : forall p, Pos.to_uint p <> Decimal.Nil) by (intros p; apply DecimalPos.Unsigned.to_uint_nonnil).
  destruct z; simpl; split; try discriminate; intros E; injection E; apply N.
Qed.

Lemma str_of_Z_inj z z' : str_of_Z z = str_of_Z z' -> z = z'.
Proof.
  unfold str_of_Z. intros H.
  destruct (to_int_not_nil z), (to_int_not_nil z').
  apply string_of_int_inj in H; auto. apply (f_equal Z.of_int) in H.
  rewrite !DecimalZ.of_to in H. auto.
Qed.

Fixpoint no_us (s : string) : Prop :=
  match s with
  | EmptyString => True
  | String c s' => c <> "_"%char /\ no_us s'
  end.

Lemma nilempty_no_us d : no_us (NilEmpty.string_of_uint d).
Proof. induction d; simpl; auto; split; auto; discriminate. Qed.
Lemma nilzero_no_us d : no_us (NilZero.string_of_uint d).
Proof.
  destruct d; simpl; try (split; [discriminate|]; auto using nilempty_no_us).
Qed.
Lemma str_of_Z_no_us z : no_us (str_of_Z z).
Proof.
  unfold str_of_Z, NilZero.string_of_int. destruct (Z.to_int z).
  - apply nilzero_no_us.
  - simpl. split; [discriminate|]. apply nilzero_no_us.
Qed.

Lemma split_last_us p : forall p' s s', no_us s -> no_us s' ->
  p ++ "_" ++ s = p' ++ "_" ++ s' -> p = p' /\ s = s'.
Proof.
  assert (A : forall p s s', no_us s -> s = p ++ "_" ++ s' -> False).
  { induction p0 as [|c p0 IH]; intros s s' H E; subst; simpl in H; [tauto|].
    eapply IH; [|reflexivity]. apply H. }
  induction p as [|c p IH]; intros [|c' p'] s s' H H' E; simpl in E.
  - injection E as ->. auto.
  - exfalso. injection E as <- E. exact (A _ _ _ H E).
  - exfalso. injection E as -> E. symmetry in E. exact (A _ _ _ H' E).
  - injection E as -> E. destruct (IH p' s s' H H' E) as [-> ->]. auto.
Qed.

Lemma prefixed_hash_inj p h p' h' :
  prefixed_hash p h = prefixed_hash p' h' -> p = p' /\ h = h'.
Proof.
  unfold prefixed_hash. intros H.
  apply split_last_us in H as [-> H]; auto using str_of_Z_no_us.
  apply str_of_Z_inj in H. auto.
Qed.

(** ---- gen_name ---- *)
Lemma smem_false k l : smem k l = false <-> ~ In k l.
Proof. unfold smem. destruct (in_dec string_dec k l); split; intros; try congruence; tauto. Qed.

Lemma app_assoc_s (a b c : string) : (a ++ b) ++ c = a ++ b ++ c.
Proof. induction a; simpl; congruence. Qed.

Lemma gen_rounds_fresh n : forall i name taken rnd r,
  gen_rounds n i name taken rnd = Some r ->
  ~ In r taken /\ exists s, r = name ++ s /\ s <> "".
Proof.
  induction n as [|n IH]; simpl; intros i name taken rnd r H; [discriminate|].
  destruct (smem (name ++ pick_str (rnd i)) taken) eqn:E.
  - apply IH in H as (H1 & s & -> & Hs). split; auto.
    exists (pick_str (rnd i) ++ s). rewrite app_assoc_s. split; auto. discriminate.
  - injection H as <-. apply smem_false in E. split; auto.
    exists (pick_str (rnd i)). split; auto. discriminate.
Qed.

Lemma gen_rounds_fail n : forall i name taken rnd,
  gen_rounds n i name taken rnd = None -> all_taken n i name taken rnd.
Proof.
  induction n as [|n IH]; simpl; intros i name taken rnd H; auto.
  destruct (smem (name ++ pick_str (rnd i)) taken) eqn:E; [|discriminate].
  split; auto. unfold smem in E. destruct (in_dec string_dec _ taken); auto; discriminate.
Qed.

Lemma sassoc_in {A} (d : list (string * A)) k v : sassoc d k = Some v -> In (k, v) d.
Proof.
  induction d as [|[k' v'] d IH]; simpl; [discriminate|].
  destruct (string_dec k k') as [->|]; intros H; [left; congruence|right; auto].
Qed.

Record ninv (st : names) : Prop := {
  ni_names : forall k n, sassoc (hash_to_name st) k = Some n -> In n (generated st);
  ni_inj : forall k k' n, sassoc (hash_to_name st) k = Some n ->
           sassoc (hash_to_name st) k' = Some n -> k = k'
}.
Lemma ninv0 : ninv names0.
Proof. constructor; simpl; discriminate. Qed.

Lemma gen_name_inv st p h rnd st' r :
  ninv st -> gen_name st p h rnd = (st', r) ->
  ninv st' /\
  (forall k n, sassoc (hash_to_name st) k = Some n -> sassoc (hash_to_name st') k = Some n) /\
  (forall n, In n (generated st) -> In n (generated st')) /\
  match r with
  | Some n => sassoc (hash_to_name st') (prefixed_hash p h) = Some n /\
              (sassoc (hash_to_name st) (prefixed_hash p h) = None ->
               (exists s, n = p ++ s /\ s <> "") /\ ~ In n (generated st))
  | None => st' = st /\ all_taken 10 0 p (generated st) rnd /\
            sassoc (hash_to_name st) (prefixed_hash p h) = None
  end.
Proof.
  intros [N1 N2] H. unfold gen_name in H.
  destruct (sassoc (hash_to_name st) (prefixed_hash p h)) eqn:E.
  - injection H as <- <-. split; [constructor; auto|]. repeat split; auto; discriminate.
  - destruct (gen_rounds 10 0 p (generated st) rnd) as [n|] eqn:G.
    + injection H as <- <-. apply gen_rounds_fresh in G as (G1 & G2).
      split; [|split; [|split; [|split; [|split]]]].
      * constructor; cbn [hash_to_name generated sassoc].
        -- intros k n0. destruct (string_dec k (prefixed_hash p h)); intros Hs.
           ++ injection Hs as <-. left; auto.
           ++ right. eauto.
        -- intros k k' n0. destruct (string_dec k (prefixed_hash p h)), (string_dec k' (prefixed_hash p h));
             intros Hs Hs'; try congruence.
           ++ injection Hs as <-. exfalso. eauto.
           ++ injection Hs' as <-. exfalso. eauto.
           ++ eauto.
      * intros k n0 Hk. cbn. destruct (string_dec k (prefixed_hash p h)); [congruence|auto].
      * intros n0 Hn. right; auto.
      * cbn. destruct (string_dec (prefixed_hash p h) (prefixed_hash p h)); congruence.
      * auto.
      * auto.
    + injection H as <- <-. apply gen_rounds_fail in G. split; [constructor; auto|].
      split; [auto|]. split; [auto|]. split; [auto|]. split; auto.
Qed.

Lemma sassoc_prefix_inv st : (forall p h n, sassoc (hash_to_name st) (prefixed_hash p h) = Some n ->
   exists s, n = p ++ s /\ s <> "") ->
  forall p h rnd st' r, gen_name st p h rnd = (st', r) ->
  (forall p h n, sassoc (hash_to_name st') (prefixed_hash p h) = Some n -> exists s, n = p ++ s /\ s <> "").
Proof.
  intros I p h rnd st' r H p0 h0 n Hs. unfold gen_name in H.
  destruct (sassoc (hash_to_name st) (prefixed_hash p h)) eqn:E.
  - injection H as <- <-. eauto.
  - destruct (gen_rounds 10 0 p (generated st) rnd) as [n'|] eqn:G.
    + injection H as <- <-. apply gen_rounds_fresh in G as (_ & G2).
      cbn in Hs. destruct (string_dec (prefixed_hash p0 h0) (prefixed_hash p h)) as [e|].
      * apply prefixed_hash_inj in e as [-> ->]. injection Hs as <-. auto.
      * eauto.
    + injection H as <- <-. eauto.
Qed.

(** Histories. *)
Lemma gen_names_spec reqs : forall st st' ns,
  ninv st ->
  (forall p h n, sassoc (hash_to_name st) (prefixed_hash p h) = Some n -> exists s, n = p ++ s /\ s <> "") ->
  gen_names reqs st = (st', ns) ->
  ninv st' /\ length ns = length reqs /\
  (forall k n, sassoc (hash_to_name st) k = Some n -> sassoc (hash_to_name st') k = Some n) /\
  (forall i r n, nth_error reqs i = Some r -> nth_error ns i = Some (Some n) ->
     sassoc (hash_to_name st') (prefixed_hash (r_prefix r) (r_hash r)) = Some n /\
     exists s, n = r_prefix r ++ s /\ s <> "").
Proof.
  induction reqs as [|r reqs IH]; simpl; intros st st' ns I P H.
  - injection H as <- <-. split; auto. split; auto. split; auto. intros [|i]; discriminate.
  - destruct (gen_name st (r_prefix r) (r_hash r) (r_rnd r)) as [st1 n1] eqn:E1.
    destruct (gen_names reqs st1) as [st2 ns2] eqn:E2. injection H as <- <-.
    destruct (gen_name_inv _ _ _ _ _ _ I E1) as (I1 & M1 & _ & R1).
    pose proof (sassoc_prefix_inv st P _ _ _ _ _ E1) as P1.
    destruct (IH st1 st2 ns2 I1 P1 E2) as (I2 & L2 & M2 & R2).
    split; auto. split; [simpl; lia|]. split; [auto|].
    intros [|i] r0 n Hr Hn; simpl in *; eauto.
    injection Hr as <-. injection Hn as ->. destruct R1 as (R1 & _). split; eauto.
Qed.

Lemma gen_names_lemma reqs :
  let ns := snd (gen_names reqs names0) in
  length ns = length reqs /\
  (forall i j r r' n n',
     nth_error reqs i = Some r -> nth_error reqs j = Some r' ->
     nth_error ns i = Some (Some n) -> nth_error ns j = Some (Some n') ->
     (n = n' <-> r_prefix r = r_prefix r' /\ r_hash r = r_hash r')) /\
  (forall i r n, nth_error reqs i = Some r -> nth_error ns i = Some (Some n) ->
     exists s, n = r_prefix r ++ s /\ s <> "").
Proof.
  intros ns. unfold ns. destruct (gen_names reqs names0) as [st' ns'] eqn:E. simpl.
  destruct (gen_names_spec reqs names0 st' ns' ninv0) as ([_ I2] & L & _ & R); auto.
  { simpl; discriminate. }
  split; auto. split.
  - intros i j r r' n n' Hr Hr' Hn Hn'.
    destruct (R _ _ _ Hr Hn) as [A _]. destruct (R _ _ _ Hr' Hn') as [A' _].
    split.
    + intros <-. apply (I2 _ _ _ A) in A'. apply prefixed_hash_inj in A'. auto.
    + intros [Hp Hh]. rewrite Hp, Hh in A. congruence.
  - intros i r n Hr Hn. destruct (R _ _ _ Hr Hn). auto.
Qed.

(** a request fails only when all ten candidates it tried were taken *)
Lemma gen_names_fail reqs : forall i r st,
  ninv st ->
  nth_error reqs i = Some r ->
  nth_error (snd (gen_names reqs st)) i = Some None ->
  let st' := fst (gen_names (firstn i reqs) st) in
  all_taken 10 0 (r_prefix r) (generated st') (r_rnd r).
Proof.
  induction reqs as [|r0 reqs IH]; intros [|i] r st I Hr Hn; simpl in *; try discriminate.
  - injection Hr as ->.
    destruct (gen_name st (r_prefix r) (r_hash r) (r_rnd r)) as [st1 n1] eqn:E1.
    destruct (gen_names reqs st1) as [st2 ns2] eqn:E2. simpl in Hn. injection Hn as ->.
    apply gen_name_inv in E1; auto. destruct E1 as (_ & _ & _ & _ & HH & _). exact HH.
  - destruct (gen_name st (r_prefix r0) (r_hash r0) (r_rnd r0)) as [st1 n1] eqn:E1.
    destruct (gen_name_inv _ _ _ _ _ _ I E1) as (I1 & _).
    specialize (IH i r st1 I1 Hr).
    destruct (gen_names reqs st1) as [st2 ns2] eqn:E2. simpl in *.
    destruct (gen_names (firstn i reqs) st1) as [st3 ns3]. simpl in *. auto.
Qed.

(** ---- embedding ---- *)
Section Embed.
  Context {Obj : Type}.
  Variable prefix_of : Obj -> string.
  Variable hash_of : Obj -> Z.

  Notation same_key := (same_key prefix_of hash_of).
  Notation last_same := (last_same prefix_of hash_of).

  Lemma same_key_spec a b : same_key a b = true <-> prefix_of a = prefix_of b /\ hash_of a = hash_of b.
  Proof.
    unfold Spec_Names.same_key. destruct (string_dec (prefix_of a) (prefix_of b)).
    - rewrite Z.eqb_eq. tauto.
    - split; [discriminate|tauto].
  Qed.

  Definition names_of (objs : list (Obj * picks)) : list request :=
    map (fun op => mkReq (prefix_of (fst op)) (hash_of (fst op)) (snd op)) objs.

  Lemma embed_names objs : forall st g,
    snd (embed prefix_of hash_of objs st g) = snd (gen_names (names_of objs) st).
  Proof.
    induction objs as [|[o rnd] objs IH]; intros st g; simpl; auto.
    destruct (gen_name st (prefix_of o) (hash_of o) rnd) as [st1 n1].
    match goal with |- context [embed _ _ objs st1 ?g1] => specialize (IH st1 g1);
      destruct (embed prefix_of hash_of objs st1 g1) end.
    destruct (gen_names (names_of objs) st1). simpl in *. congruence.
  Qed.

  (** the globals after embedding [objs], looked up at a name already bound
      to key [key o] *)
  Lemma embed_lookup objs : forall st g o nm x,
    ninv st ->
    sassoc (hash_to_name st) (prefixed_hash (prefix_of o) (hash_of o)) = Some nm ->
    sassoc g nm = Some x ->
    ~ In None (snd (embed prefix_of hash_of objs st g)) ->
    sassoc (fst (embed prefix_of hash_of objs st g)) nm = Some (last_same o objs x).
  Proof.
    induction objs as [|[o1 rnd] objs IH]; intros st g o nm x I Hst Hg Hok; simpl; auto.
    simpl in Hok.
    destruct (gen_name st (prefix_of o1) (hash_of o1) rnd) as [st1 n1] eqn:E1.
    destruct (gen_name_inv _ _ _ _ _ _ I E1) as (I1 & M1 & _ & R1).
    destruct n1 as [n1|].
    - destruct R1 as (R1 & _).
      specialize (IH st1 ((n1, o1) :: g) o nm (if same_key o o1 then o1 else x) I1).
      destruct (embed prefix_of hash_of objs st1 ((n1, o1) :: g)) as [g2 ns2]. simpl in *.
      apply IH; auto.
      destruct (string_dec nm n1) as [->|ne].
      + pose proof (M1 _ _ Hst) as Hst1.
        destruct I1 as [_ J]. pose proof (J _ _ _ Hst1 R1) as K.
        apply prefixed_hash_inj in K as [K1 K2].
        replace (same_key o o1) with true; auto. symmetry. apply same_key_spec. auto.
      + replace (same_key o o1) with false; auto. symmetry.
        destruct (same_key o o1) eqn:S; auto. apply same_key_spec in S as [S1 S2].
        rewrite <- S1, <- S2 in R1. apply M1 in Hst. congruence.
    - exfalso. apply Hok. destruct (embed prefix_of hash_of objs st1 g). simpl. auto.
  Qed.

  Lemma embed_lemma objs1 o rnd objs2 :
    let objs := (objs1 ++ (o, rnd) :: objs2)%list in
    let '(globals, ns) := embed prefix_of hash_of objs names0 [] in
    ~ In None ns ->
    exists nm, nth_error ns (length objs1) = Some (Some nm) /\
               sassoc globals nm = Some (last_same o objs2 o).
  Proof.
    cbv zeta.
    assert (G : forall st g, ninv st ->
      let '(globals, ns) := embed prefix_of hash_of (objs1 ++ (o, rnd) :: objs2)%list st g in
      ~ In None ns ->
      exists nm, nth_error ns (length objs1) = Some (Some nm) /\
                 sassoc globals nm = Some (last_same o objs2 o)).
    { induction objs1 as [|[o1 rnd1] objs1 IH]; intros st g I; simpl.
      - destruct (gen_name st (prefix_of o) (hash_of o) rnd) as [st1 [n1|]] eqn:E1.
        + destruct (gen_name_inv _ _ _ _ _ _ I E1) as (I1 & M1 & _ & R1 & _).
          pose proof (embed_lookup objs2 st1 ((n1, o) :: g) o n1 o I1 R1) as L.
          destruct (embed prefix_of hash_of objs2 st1 ((n1, o) :: g)) as [g2 ns2].
          intros Hok. exists n1. split; auto. apply L; simpl; auto.
          * destruct (string_dec n1 n1); congruence.
          * intros Hin. apply Hok. right; auto.
        + destruct (embed prefix_of hash_of objs2 st1 g). intros Hok. exfalso. apply Hok. left; auto.
      - destruct (gen_name st (prefix_of o1) (hash_of o1) rnd1) as [st1 n1] eqn:E1.
        destruct (gen_name_inv _ _ _ _ _ _ I E1) as (I1 & _).
        match goal with |- context [embed _ _ _ st1 ?g1] => specialize (IH st1 g1 I1);
          destruct (embed prefix_of hash_of (objs1 ++ (o, rnd) :: objs2)%list st1 g1) as [g2 ns2] end.
        intros Hok. destruct IH as (nm & H1 & H2).
        + intros Hin. apply Hok. right; auto.
        + exists nm. auto. }
    apply G. apply ninv0.
  Qed.

  Lemma last_same_id o l acc :
    acc = o -> (forall x, In x (map fst l) -> same_key o x = true -> x = o) -> last_same o l acc = o.
  Proof.
    revert acc. induction l as [|[x r] l IH]; simpl; intros acc Ha H; auto.
    apply IH; auto. destruct (same_key o x) eqn:S; auto.
  Qed.
End Embed.
