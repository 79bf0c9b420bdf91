(** Converters called from several threads: the invariant. *)
From Coq Require Import String List Bool Arith Lia.
From Verif Require Import Model_Threads Spec_Threads.
Import ListNotations.

Section P.
  Context {V E : Type}.
  Variable key_error : string -> E.
  Notation prog := (@prog V E).
  Notation thread := (@thread V E).
  Notation step := (@step V E key_error).
  Notation run := (@run V E key_error).

  Lemma gives_ext L (p : prog) r : gives L p r -> forall L', (forall n, L n = L' n) -> gives L' p r.
  Proof.
    induction 1; intros L' X; constructor; auto.
    - apply IHgives. intros m. destruct (String.eqb m n); auto.
    - rewrite <- X. auto.
  Qed.
  Lemma find_store n v (d : @dict V) m : find m (store n v d) = if String.eqb m n then Some v else find m d.
  Proof.
    induction d as [|[k w] d IH]; cbn.
    - destruct (String.eqb m n); auto.
    - destruct (String.eqb n k) eqn:E1; cbn.
      + apply String.eqb_eq in E1 as <-. destruct (String.eqb m n); auto.
      + rewrite IH. destruct (String.eqb m k) eqn:E2; auto.
        destruct (String.eqb m n) eqn:E3; auto. apply String.eqb_eq in E2, E3. subst. rewrite String.eqb_refl in E1. discriminate.
  Qed.

  Definition none : string -> option V := fun _ => None.
  Definition tinv (d : @dict V) (p : prog) (t : thread) : Prop :=
    match t with
    | Body q => forall r, gives (fun m => find m d) q r -> gives none p r
    | Testing r | Listing r => gives none p r
    | Deleting ks r => gives none p r /\ map fst d = ks
    | Done r => gives none p r /\ d = []
    end.
  Definition quiet (d : @dict V) (t : thread) : Prop :=
    d = [] /\ match t with Body q => without_labels q | Testing _ | Done _ => True | _ => False end.

  Lemma step_tinv d p t d' t' : tinv d p t -> step d t = (d', t') -> tinv d' p t'.
  Proof.
    intros T S. destruct t as [q|r|r|ks r|r]; cbn in S.
    - destruct q; injection S as <- <-; cbn in *; try (apply T; constructor).
      + intros r G. apply T. now constructor.
      + intros r G. apply T. constructor. eapply gives_ext; [exact G|]. intros m. apply find_store.
      + intros r G. apply T. now constructor.
    - injection S as <- <-. destruct d; cbn in *; auto.
    - injection S as <- <-. cbn in *. auto.
    - destruct T as [G K]. destruct ks as [|n ks].
      + injection S as <- <-. cbn. split; auto. now apply map_eq_nil in K.
      + destruct d as [|[m v] d]; [discriminate|]. cbn in K. injection K as -> <-. cbn in S. rewrite String.eqb_refl in S.
        injection S as <- <-. cbn. auto.
    - injection S as <- <-. auto.
  Qed.
  Lemma step_quiet d t d' t' : quiet d t -> step d t = (d', t') -> quiet d' t' /\ d' = d.
  Proof.
    intros [-> Q] S. unfold quiet. destruct t as [q|r|r|ks r|r]; cbn in S; try tauto.
    - destruct Q; injection S as <- <-; auto.
    - injection S as <- <-. auto.
    - injection S as <- <-. auto.
  Qed.

  Variable calls : list (nat * prog).
  Hypothesis HO : own_labels calls.

  Record inv (w : @world V E) : Prop := {
    i_len : length (snd w) = length calls;
    i_conv : forall a c p c' t, nth_error calls a = Some (c, p) -> nth_error (snd w) a = Some (c', t) -> c' = c;
    i_t : forall a c p t, nth_error calls a = Some (c, p) -> nth_error (snd w) a = Some (c, t) -> tinv (fst w c) p t;
    i_q : forall a c p t, nth_error calls a = Some (c, p) -> nth_error (snd w) a = Some (c, t) -> without_labels p ->
            quiet (fst w c) t }.

  Lemma nth_put_eq (ts : list (nat * thread)) a t : a < length ts -> nth_error (put_thread ts a t) a = Some t.
  Proof. revert a; induction ts as [|u ts IHts]; intros [|a]; cbn; intros; try lia; auto. apply IHts. lia. Qed.
  Lemma nth_put_ne (ts : list (nat * thread)) a b t : a <> b -> nth_error (put_thread ts a t) b = nth_error ts b.
  Proof. revert a b; induction ts as [|u ts IHts]; intros [|a] [|b]; cbn; intros; auto; try lia. Qed.
  Lemma length_put (ts : list (nat * thread)) a t : length (put_thread ts a t) = length ts.
  Proof. revert a; induction ts as [|u ts IHts]; intros [|a]; cbn; auto. Qed.

  Lemma run_inv sched : forall w, inv w -> inv (run sched w).
  Proof.
    induction sched as [|k sched IH]; intros w I; [exact I|]. cbn [Model_Threads.run]. apply IH.
    destruct (nth_error (snd w) k) as [[c t]|] eqn:Hk; [|exact I].
    destruct (step (fst w c) t) as [d t'] eqn:S.
    assert (La : k < length (snd w)) by (apply nth_error_Some; congruence).
    destruct (nth_error calls k) as [[c0 p]|] eqn:Hc.
    2: { apply nth_error_None in Hc. rewrite (i_len _ I) in La. lia. }
    assert (c = c0) by (eapply i_conv; eauto). subst c0.
    pose proof (step_tinv _ p _ _ _ (i_t _ I k c p t Hc Hk) S) as T'.
    assert (other : forall b c' q u, b <> k -> nth_error calls b = Some (c', q) -> nth_error (snd w) b = Some (c', u) ->
              set_dict (fst w) c d c' = fst w c').
    { intros b c' q u N Hb Hu. unfold set_dict. destruct (Nat.eqb c c') eqn:Q; auto. apply Nat.eqb_eq in Q. subst c'.
      destruct (HO k b c p q (not_eq_sym N) Hc Hb) as [W _].
      destruct (step_quiet _ _ _ _ (i_q _ I k c p t Hc Hk W) S); auto. }
    assert (here : set_dict (fst w) c d c = d) by (unfold set_dict; now rewrite Nat.eqb_refl).
    constructor; cbn [fst snd].
    - rewrite length_put. apply I.
    - intros a c1 q c2 u Ha Hu. destruct (Nat.eq_dec k a) as [<-|N].
      + rewrite nth_put_eq in Hu by auto. congruence.
      + rewrite nth_put_ne in Hu by auto. eapply i_conv; eauto.
    - intros a c1 q u Ha Hu. destruct (Nat.eq_dec k a) as [<-|N].
      + rewrite nth_put_eq in Hu by auto. injection Hu as <- <-. rewrite here. assert (q = p) by congruence. subst. auto.
      + rewrite nth_put_ne in Hu by auto. rewrite (other a c1 q u) by auto. eapply i_t; eauto.
    - intros a c1 q u Ha Hu W. destruct (Nat.eq_dec k a) as [<-|N].
      + rewrite nth_put_eq in Hu by auto. injection Hu as <- <-. rewrite here. assert (q = p) by congruence. subst.
        destruct (step_quiet _ _ _ _ (i_q _ I k c p t Hc Hk W) S); auto.
      + rewrite nth_put_ne in Hu by auto. rewrite (other a c1 q u) by auto. eapply i_q; eauto.
  Qed.

  Lemma start_inv : inv (start calls).
  Proof.
    constructor; unfold start; cbn [fst snd].
    - apply map_length.
    - intros a c p c' t Ha Ht. rewrite nth_error_map, Ha in Ht. cbn in Ht. congruence.
    - intros a c p t Ha Ht. rewrite nth_error_map, Ha in Ht. cbn in Ht. injection Ht as <-. cbn. auto.
    - intros a c p t Ha Ht W. rewrite nth_error_map, Ha in Ht. cbn in Ht. injection Ht as <-. split; auto.
  Qed.

  (** Every call ends: [rem d t n] - [t] needs [n] more of its own steps. *)
  Inductive cost : @dict V -> prog -> nat -> Prop :=
  | c_ret d v : cost d (Ret v) (4 + length d)
  | c_raise d e : cost d (Raise e) (4 + length d)
  | c_work d p n : cost d p n -> cost d (Work p) (S n)
  | c_put d x v p n : cost (store x v d) p n -> cost d (Put x v p) (S n)
  | c_get d x k n : cost d (k (find x d)) n -> cost d (Get x k) (S n).
  Lemma cost_total p : forall d, exists n, cost d p n.
  Proof.
    induction p as [v|e|p IH|x v p IH|x k IH]; intros d.
    - eexists; constructor.
    - eexists; constructor.
    - destruct (IH d) as [n H]. eexists; constructor; eauto.
    - destruct (IH (store x v d)) as [n H]. eexists; constructor; eauto.
    - destruct (IH (find x d) d) as [n H]. eexists; constructor; eauto.
  Qed.
  Definition left_ (d : @dict V) (t : thread) (n : nat) : Prop :=
    match t with
    | Body q => exists m, cost d q m /\ m <= n
    | Testing _ => 3 + length d <= n
    | Listing _ => 2 + length d <= n
    | Deleting ks _ => 1 + length ks <= n
    | Done _ => True
    end.
  Lemma step_left d t d' t' n : left_ d t (S n) -> step d t = (d', t') -> left_ d' t' n.
  Proof.
    intros L S. destruct t as [q|r|r|ks r|r]; cbn in S.
    - destruct L as (m & C & B). destruct C; injection S as <- <-; cbn in *; try lia; exists n0; split; auto; lia.
    - injection S as <- <-. destruct d; cbn in *; auto. lia.
    - injection S as <- <-. cbn in *. rewrite map_length. lia.
    - destruct ks as [|x ks]; [injection S as <- <-; cbn; auto|]. destruct (find x d); injection S as <- <-; cbn in *; auto. lia.
    - injection S as <- <-. cbn. auto.
  Qed.
  Lemma left_0 d t : left_ d t 0 -> exists r, t = Done r.
  Proof. destruct t; cbn; try lia; eauto. intros (m & C & B). destruct C; lia. Qed.
  Lemma left_S d t n : left_ d t n -> left_ d t (S n).
  Proof. destruct t; cbn; auto. intros (m & C & B). exists m. auto. Qed.
  Lemma left_le d t n m : n <= m -> left_ d t n -> left_ d t m.
  Proof. induction 1; auto using left_S. Qed.

  Lemma run_ends k c p (Hc : nth_error calls k = Some (c, p)) sched : forall w n, inv w ->
    (forall t, nth_error (snd w) k = Some (c, t) -> left_ (fst w c) t n) ->
    n <= count_occ Nat.eq_dec sched k ->
    exists r, nth_error (snd (run sched w)) k = Some (c, Done r).
  Proof.
    induction sched as [|j sched IH]; intros w n I L B.
    - cbn in *. assert (exists c' t, nth_error (snd w) k = Some (c', t)) as (c' & t & Ht).
      { destruct (nth_error (snd w) k) as [[? ?]|] eqn:Q; eauto. apply nth_error_None in Q. rewrite (i_len _ I) in Q.
        assert (k < length calls) by (apply nth_error_Some; congruence). lia. }
      assert (c' = c) by (eapply i_conv; eauto). subst. assert (n = 0) by lia. subst n.
      destruct (left_0 _ _ (L _ Ht)) as [r ->]. eauto.
    - cbn [Model_Threads.run]. pose proof (run_inv [j] w I) as I'. cbn [Model_Threads.run] in I'.
      destruct (nth_error (snd w) j) as [[c1 t1]|] eqn:Hj.
      2: { apply (IH w n); auto. cbn in B. destruct (Nat.eq_dec j k) as [->|]; auto. exfalso.
           apply nth_error_None in Hj. rewrite (i_len _ I) in Hj.
           assert (k < length calls) by (apply nth_error_Some; congruence). lia. }
      destruct (step (fst w c1) t1) as [d t'] eqn:S.
      assert (La : j < length (snd w)) by (apply nth_error_Some; congruence).
      cbn in B. destruct (Nat.eq_dec j k) as [->|N].
      + assert (c1 = c) by (exact (i_conv _ I k c p c1 t1 Hc Hj)). subst c1.
        apply (IH _ (pred n)); auto; [|lia]. cbn [fst snd]. intros t Ht. rewrite nth_put_eq in Ht by auto. injection Ht as <-.
        unfold set_dict. rewrite Nat.eqb_refl. eapply step_left; [|exact S].
        eapply left_le; [|apply L; exact Hj]. lia.
      + apply (IH _ n); auto. cbn [fst snd]. intros t Ht. rewrite nth_put_ne in Ht by auto.
        assert (Q : set_dict (fst w) c1 d c = fst w c).
        { unfold set_dict. destruct (Nat.eqb c1 c) eqn:Q; auto. apply Nat.eqb_eq in Q. subst c1.
          destruct (nth_error calls j) as [[c0 q]|] eqn:Hcj.
          2: { apply nth_error_None in Hcj. rewrite (i_len _ I) in La. lia. }
          assert (c = c0) by (exact (i_conv _ I j c0 q c t1 Hcj Hj)). subst c0.
          destruct (HO j k c q p N Hcj Hc) as [W _].
          destruct (step_quiet _ _ _ _ (i_q _ I j c q t1 Hcj Hj W) S); auto. }
        rewrite Q. auto.
  Qed.
  Lemma start_ends k c p : nth_error calls k = Some (c, p) ->
    exists n, forall sched, n <= count_occ Nat.eq_dec sched k ->
      exists r, nth_error (snd (run sched (start calls))) k = Some (c, Done r).
  Proof.
    intros Hc. destruct (cost_total p []) as [n C]. exists n. intros sched B.
    eapply run_ends; eauto using start_inv. intros t Ht. unfold start in Ht; cbn in Ht.
    rewrite nth_error_map, Hc in Ht. cbn in Ht. injection Ht as <-. exists n. auto.
  Qed.
End P.
