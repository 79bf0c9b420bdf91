(** Lemmas about the cache model. *)
From Coq Require Import List ZArith Bool Lia.
From Verif Require Import Model_RUCache Spec_RUCache.
Import ListNotations.
Local Open Scope Z_scope.

Section Proofs.
  Context {K V : Type}.
  Variable keq : forall a b : K, {a = b} + {a <> b}.
  Notation cache := (@cache K V).
  Notation lookup := (@lookup K V keq).
  Notation delete := (@delete K V keq).
  Notation mem := (mem keq).
  Notation no_raise := (fun (_ : K) (_ : V) => false).

  Lemma mem_true k l : mem k l = true <-> In k l.
  Proof. unfold Model_RUCache.mem. destruct (in_dec keq k l); split; auto; discriminate. Qed.
  Lemma mem_false k l : mem k l = false <-> ~ In k l.
  Proof. unfold Model_RUCache.mem. destruct (in_dec keq k l); split; auto; try discriminate; tauto. Qed.

  Lemma lookup_delete_eq d k : lookup (delete d k) k = None.
  Proof.
    induction d as [|[k' v] d IH]; simpl; auto.
    destruct (keq k k') as [->|n]; simpl; auto.
    destruct (keq k k'); [contradiction|auto].
  Qed.
  Lemma lookup_delete_ne d k k' : k <> k' -> lookup (delete d k) k' = lookup d k'.
  Proof.
    intros n. induction d as [|[k2 v] d IH]; simpl; auto.
    destruct (keq k k2) as [->|n2]; simpl.
    - destruct (keq k' k2); [congruence|auto].
    - destruct (keq k' k2); auto.
  Qed.
  Lemma lookup_assign d k v k' :
    lookup (assign keq d k v) k' = if keq k k' then Some v else lookup d k'.
  Proof.
    unfold assign. simpl. destruct (keq k' k) as [->|n].
    - destruct (keq k k); congruence.
    - destruct (keq k k'); [congruence|]. apply lookup_delete_ne; auto.
  Qed.
  Lemma in_set_add k l x : In x (set_add keq k l) <-> x = k \/ In x l.
  Proof.
    unfold set_add. destruct (mem k l) eqn:E; simpl.
    - apply mem_true in E. split; [tauto|intros [->|]; auto].
    - intuition.
  Qed.
  Lemma in_set_remove k l x : In x (set_remove keq k l) <-> x <> k /\ In x l.
  Proof.
    unfold set_remove. rewrite filter_In. destruct (keq k x); intuition congruence.
  Qed.

  Lemma pop_right_rev (ks : list K) k q :
    rev ks = k :: q -> pop_right ks = Some (rev q, k).
  Proof. unfold pop_right. intros ->. reflexivity. Qed.

  Lemma rev_eq_cons (l : list K) x q : rev l = x :: q -> l = rev q ++ [x].
  Proof. intros H. rewrite <- (rev_involutive l), H. reflexivity. Qed.

  Definition remove_all (a l : list K) : list K :=
    filter (fun k => negb (mem k a)) l.

  Lemma remove_all_cons k a l :
    remove_all a (set_remove keq k l) = remove_all (k :: a) l.
  Proof.
    unfold remove_all, set_remove. induction l as [|x l IH]; simpl; auto.
    destruct (keq k x) as [->|n].
    - replace (mem x (x :: a)) with true; simpl; auto.
      symmetry. apply mem_true. left; auto.
    - simpl. replace (mem x (k :: a)) with (mem x a).
      + destruct (mem x a); simpl; rewrite IH; auto.
      + destruct (mem x a) eqn:E; symmetry.
        * apply mem_true in E. apply mem_true. right; auto.
        * apply mem_false in E. apply mem_false. intros [?|?]; auto.
  Qed.
  Lemma in_remove_all a l x : In x (remove_all a l) <-> In x l /\ ~ In x a.
  Proof.
    unfold remove_all. rewrite filter_In, negb_true_iff, mem_false. tauto.
  Qed.

  (** Passing over a prefix of touched keys. *)
  Lemma loop_pass a : forall b n e (c : cache),
    rev (keys c) = a ++ b ->
    NoDup (a ++ b) ->
    (forall k, In k a -> In k (put_back c)) ->
    Z.of_nat (length (keys c)) > e ->
    evict_loop keq no_raise (length a + n) e c =
    evict_loop keq no_raise n e
      (mkCache (max_size c) (rev (b ++ a)) (remove_all a (put_back c)) (data c)).
  Proof.
    induction a as [|k a IH]; intros b n e c Hr Hnd Hin Hlen.
    - simpl in *. rewrite app_nil_r, <- Hr, rev_involutive. destruct c as [m ks pb d]; simpl.
      f_equal. f_equal. unfold remove_all. symmetry. clear.
      induction pb; simpl; auto. f_equal; auto.
    - cbn [length plus evict_loop].
      replace (Z.of_nat (length (keys c)) >? e) with true
        by (symmetry; apply Z.gtb_lt; lia).
      rewrite (pop_right_rev _ k (a ++ b) Hr).
      replace (mem k (put_back c)) with true
        by (symmetry; apply mem_true, Hin; left; auto).
      rewrite (IH (b ++ [k])); simpl.
      + rewrite <- !app_assoc. simpl. f_equal. f_equal. apply remove_all_cons.
      + rewrite rev_involutive, app_assoc. reflexivity.
      + rewrite app_assoc. inversion Hnd; subst.
        apply NoDup_rev in H2. rewrite <- (rev_involutive ((a ++ b) ++ [k])).
        apply NoDup_rev. rewrite rev_app_distr. simpl. constructor; auto.
        rewrite <- in_rev. auto.
      + intros x Hx. apply in_set_remove. split.
        * inversion Hnd; subst. intros ->. apply H1. apply in_or_app; auto.
        * apply Hin. right; auto.
      + apply (f_equal (@length K)) in Hr. rewrite rev_length in Hr. simpl in Hr.
        rewrite rev_length. rewrite Hr in Hlen. lia.
  Qed.

  (** Evicting the head of the queue when it is not touched. *)
  Lemma loop_hit n e (c : cache) k q v :
    rev (keys c) = k :: q ->
    ~ In k (put_back c) ->
    lookup (data c) k = Some v ->
    Z.of_nat (length (keys c)) = e + 1 ->
    evict_loop keq no_raise (S n) e c =
    (Ret tt, mkCache (max_size c) (rev q) (put_back c) (delete (data c) k),
     [Evicted k v]).
  Proof.
    intros Hr Hn Hl Hlen. cbn [evict_loop].
    replace (Z.of_nat (length (keys c)) >? e) with true
      by (symmetry; apply Z.gtb_lt; lia).
    rewrite (pop_right_rev _ _ _ Hr).
    replace (mem k (put_back c)) with false by (symmetry; apply mem_false; auto).
    rewrite Hl.
    apply (f_equal (@length K)) in Hr. rewrite rev_length in Hr. simpl in Hr.
    destruct n; simpl; auto.
    rewrite rev_length.
    replace (Z.of_nat (length q) >? e) with false; auto.
    symmetry. rewrite Z.gtb_ltb. apply Z.ltb_ge. lia.
  Qed.

  Local Arguments Model_RUCache.delete : simpl never.
  Local Arguments Model_RUCache.assign : simpl never.

  (** The invariant. *)
  Record inv (c : cache) : Prop := {
    inv_pos : 1 <= max_size c;
    inv_nodup : NoDup (keys c);
    inv_len : Z.of_nat (length (keys c)) <= max_size c;
    inv_marks : forall k, In k (put_back c) -> In k (keys c);
    inv_data : forall k, In k (keys c) <-> lookup (data c) k <> None;
    inv_dnodup : NoDup (map fst (data c))
  }.

  Lemma in_fst_lookup (d : list (K * V)) k : In k (map fst d) <-> lookup d k <> None.
  Proof.
    induction d as [|[k' v] d IH]; simpl.
    - split; [tauto|congruence].
    - destruct (keq k k') as [->|n].
      + split; [congruence|auto].
      + rewrite <- IH. intuition.
  Qed.
  Lemma nodup_delete (d : list (K * V)) k : NoDup (map fst d) -> NoDup (map fst (delete d k)).
  Proof.
    induction d as [|[k' v] d IH]; unfold Model_RUCache.delete in *; simpl; intros H; auto.
    inversion H; subst. destruct (keq k k'); simpl; auto.
    constructor; auto. intros Hin. apply H2. apply in_fst_lookup.
    apply in_fst_lookup in Hin. fold (delete d k) in Hin. rewrite lookup_delete_ne in Hin; auto.
  Qed.
  Lemma nodup_assign (d : list (K * V)) k v : NoDup (map fst d) -> NoDup (map fst (assign keq d k v)).
  Proof.
    intros H. unfold assign. simpl. constructor.
    - rewrite in_fst_lookup, lookup_delete_eq. congruence.
    - apply nodup_delete; auto.
  Qed.

  Lemma inv_new m : 1 <= m -> inv (new_cache m).
  Proof.
    intros H. constructor; simpl; auto; try constructor; try lia; intuition.
  Qed.

  Lemma split_touched_spec (t : K -> bool) q a b :
    split_touched t q = (a, b) ->
    q = a ++ b /\ (forall k, In k a -> t k = true) /\
    match b with [] => True | k :: _ => t k = false end.
  Proof.
    revert a b. induction q as [|k q IH]; simpl; intros a b H.
    - inversion H; subst; simpl; intuition.
    - destruct (t k) eqn:E.
      + destruct (split_touched t q) as [a' b']. inversion H; subst.
        destruct (IH a' b eq_refl) as (-> & H1 & H2).
        split; [auto|split; auto]. intros x [<-|]; auto.
      + inversion H; subst. simpl. intuition.
  Qed.

  (** What eviction does on a full, consistent cache. *)
  Definition victim_and_rest (a b : list K) : option (K * list K) :=
    match b with
    | v :: r => Some (v, r ++ a)
    | [] => match a with v :: r => Some (v, r) | [] => None end
    end.

  Lemma evict_full (c : cache) a b :
    1 <= max_size c ->
    NoDup (keys c) ->
    Z.of_nat (length (keys c)) = max_size c ->
    (forall k, In k (keys c) -> lookup (data c) k <> None) ->
    split_touched (fun k => mem k (put_back c)) (rev (keys c)) = (a, b) ->
    exists v val q,
      victim_and_rest a b = Some (v, q) /\
      lookup (data c) v = Some val /\
      evict keq no_raise (max_size c - 1) c =
      (Ret tt, mkCache (max_size c) (rev q) (remove_all a (put_back c))
                 (delete (data c) v), [Evicted v val]).
  Proof.
    intros Hpos Hnd Hlen Hdata Hs.
    destruct (split_touched_spec _ _ _ _ Hs) as (Hq & Ha & Hb).
    assert (Hnd' : NoDup (a ++ b)) by (rewrite <- Hq; apply NoDup_rev; auto).
    assert (Hl : (length a + length b)%nat = length (keys c)).
    { rewrite <- app_length, <- Hq. apply rev_length. }
    unfold evict.
    assert (HN : exists n, Z.to_nat (max_size c + 1) = (length a + S n)%nat).
    { exists (length b). lia. }
    destruct HN as [n ->].
    rewrite (loop_pass a b); auto; try lia.
    2:{ intros k Hk. apply mem_true, Ha; auto. }
    assert (Hlen2 : Z.of_nat (length (rev (b ++ a))) = max_size c - 1 + 1).
    { rewrite rev_length, app_length. lia. }
    destruct b as [|v r].
    - destruct a as [|v r]; [simpl in Hl; lia|].
      destruct (lookup (data c) v) as [val|] eqn:E.
      2:{ exfalso. apply (Hdata v); auto. apply in_rev. rewrite Hq. left; auto. }
      exists v, val, r. split; [reflexivity|]. split; [auto|].
      rewrite (loop_hit n _ _ v r val); simpl; auto.
      + rewrite rev_app_distr. simpl. rewrite rev_involutive. auto.
      + rewrite in_remove_all. simpl. tauto.
    - destruct (lookup (data c) v) as [val|] eqn:E.
      2:{ exfalso. apply (Hdata v); auto. apply in_rev. rewrite Hq. apply in_or_app. right; left; auto. }
      exists v, val, (r ++ a). split; [reflexivity|]. split; [auto|].
      rewrite (loop_hit n _ _ v (r ++ a) val); cbn [keys put_back data max_size]; auto.
      + rewrite rev_involutive. reflexivity.
      + rewrite in_remove_all. intros [H _]. apply mem_true in H. congruence.
  Qed.

  Lemma victim_in a b v q : victim_and_rest a b = Some (v, q) ->
    NoDup (a ++ b) ->
    NoDup q /\ ~ In v q /\ (forall k, In k (a ++ b) <-> k = v \/ In k q) /\
    length (a ++ b) = S (length q).
  Proof.
    intros H Hnd. destruct b as [|v' r]; simpl in H.
    - destruct a; inversion H; subst. rewrite app_nil_r in *. inversion Hnd; subst.
      simpl. intuition.
    - inversion H; subst. apply NoDup_remove in Hnd as (H1 & H2).
      repeat split.
      + apply NoDup_rev in H1. rewrite rev_app_distr in H1.
        rewrite <- (rev_involutive (r ++ a)). apply NoDup_rev. rewrite rev_app_distr.
        clear -H1. revert H1. generalize (rev r) (rev a). intros x y H.
        (* NoDup (x ++ y) -> NoDup (y ++ x) *)
        induction x as [|h x IH]; simpl in *; [rewrite app_nil_r; auto|].
        inversion H; subst. 
        apply NoDup_Add with (a := h) (l := y ++ x).
        * apply Add_app.
        * split; auto. rewrite in_app_iff in *. tauto.
      + rewrite in_app_iff in *. tauto.
      + rewrite !in_app_iff. simpl. intuition.
      + rewrite !in_app_iff. simpl. intuition; subst; auto.
      + rewrite !app_length. simpl. lia.
  Qed.

  (** Complete description of [set] on a consistent cache. *)
  Lemma set_cases (c : cache) k v : inv c ->
    (lookup (data c) k <> None /\
     set keq no_raise k v c =
       (Ret RNone, mkCache (max_size c) (keys c) (set_add keq k (put_back c))
                     (assign keq (data c) k v), [Stored k v]))
    \/
    (lookup (data c) k = None /\
     Z.of_nat (length (keys c)) < max_size c /\
     set keq no_raise k v c =
       (Ret RNone, mkCache (max_size c) (k :: keys c) (put_back c)
                     (assign keq (data c) k v), [Stored k v]))
    \/
    (lookup (data c) k = None /\
     Z.of_nat (length (keys c)) = max_size c /\
     exists a b vic val q,
       split_touched (fun x => mem x (put_back c)) (rev (keys c)) = (a, b) /\
       victim_and_rest a b = Some (vic, q) /\
       lookup (data c) vic = Some val /\ vic <> k /\
       set keq no_raise k v c =
         (Ret RNone, mkCache (max_size c) (k :: rev q) (remove_all a (put_back c))
                       (delete (assign keq (data c) k v) vic),
          [Stored k v; Evicted vic val])).
  Proof.
    intros I. unfold set. destruct (lookup (data c) k) as [old|] eqn:E.
    - left. split; [congruence|reflexivity].
    - right. cbn [keys max_size put_back data].
      destruct (Z.of_nat (length (keys c)) >? max_size c - 1) eqn:G.
      + right. split; auto. apply Z.gtb_lt in G.
        assert (L : Z.of_nat (length (keys c)) = max_size c)
          by (destruct I; lia).
        split; auto.
        destruct (split_touched (fun x => mem x (put_back c)) (rev (keys c)))
          as [a b] eqn:Hs.
        set (c1 := mkCache (max_size c) (keys c) (put_back c) (assign keq (data c) k v)).
        destruct (evict_full c1 a b) as (vic & val & q & Hv & Hval & He); auto.
        * apply I.
        * apply I.
        * intros x Hx. cbn [data c1]. rewrite lookup_assign. destruct (keq k x); [congruence|].
          apply I. auto.
        * assert (Hin : In vic (keys c)).
          { destruct (split_touched_spec _ _ _ _ Hs) as (Hq & _).
            apply victim_in in Hv as (_ & _ & Hv & _).
            - apply in_rev. rewrite Hq. apply Hv. auto.
            - rewrite <- Hq. apply NoDup_rev, I. }
          assert (Hne : vic <> k).
          { intros ->. apply I in Hin. congruence. }
          exists a, b, vic, val, q. repeat split; auto.
          -- cbn [data c1] in Hval. rewrite lookup_assign in Hval. destruct (keq k vic); congruence.
          -- change (max_size c) with (max_size c1) at 1. rewrite He. reflexivity.
      + left. split; auto. rewrite Z.gtb_ltb in G. apply Z.ltb_ge in G.
        split; [lia|reflexivity].
  Qed.

  Lemma set_inv (c : cache) k v r c' evs : inv c ->
    set keq no_raise k v c = (r, c', evs) -> inv c' /\ r = Ret RNone /\ max_size c' = max_size c.
  Proof.
    intros I H. destruct (set_cases c k v I) as [(Hl & E)|[(Hl & Hlt & E)|(Hl & Hlen & a & b & vic & val & q & Hs & Hv & Hval & Hne & E)]];
      rewrite E in H; inversion H; subst; clear H; split; try (split; reflexivity).
    - destruct I. constructor; cbn [keys max_size put_back data]; auto.
      + intros x. rewrite in_set_add. intros [->|]; auto. apply inv_data0; auto.
      + intros x. rewrite inv_data0. rewrite lookup_assign. destruct (keq k x); subst; intuition congruence.
      + apply nodup_assign; auto.
    - destruct I. constructor; cbn [keys max_size put_back data]; auto.
      + constructor; auto. rewrite inv_data0. congruence.
      + simpl length. lia.
      + intros x Hx. right. auto.
      + intros x. rewrite lookup_assign. simpl. rewrite inv_data0.
        destruct (keq k x); subst; intuition congruence.
      + apply nodup_assign; auto.
    - destruct (split_touched_spec _ _ _ _ Hs) as (Hq & Ha & Hb).
      assert (Hnd' : NoDup (a ++ b)) by (rewrite <- Hq; apply NoDup_rev, I).
      destruct (victim_in _ _ _ _ Hv Hnd') as (Q1 & Q2 & Q3 & Q4).
      assert (Hk : ~ In k q).
      { intros Hin. assert (In k (a ++ b)) by (apply Q3; auto).
        rewrite <- Hq, <- in_rev in H. apply I in H. congruence. }
      assert (L : length (a ++ b) = length (keys c)) by (rewrite <- Hq; apply rev_length).
      constructor; cbn [keys max_size put_back data].
      + apply I.
      + constructor. * rewrite <- in_rev; auto. * apply NoDup_rev; auto.
      + simpl length. rewrite rev_length. lia.
      + intros x. rewrite in_remove_all. intros [Hx Hxa]. right. rewrite <- in_rev.
        assert (Hxk : In x (keys c)) by (apply I; auto).
        apply in_rev in Hxk. rewrite Hq in Hxk. apply Q3 in Hxk as [->|]; auto.
        exfalso. destruct b as [|v0 r0]; simpl in Hv.
        * destruct a; inversion Hv; subst. apply Hxa. left; auto.
        * inversion Hv; subst. apply mem_false in Hb. contradiction.
      + intros x. simpl. rewrite <- in_rev. destruct (keq vic x) as [->|n].
        * rewrite lookup_delete_eq. split; [|congruence]. intros [?|?]; [congruence|contradiction].
        * rewrite lookup_delete_ne by auto. rewrite lookup_assign.
          destruct (keq k x) as [->|n2]; [split; [congruence|auto]|].
          destruct I as [_ _ _ _ D _]. rewrite <- D. rewrite (in_rev (keys c)), Hq, Q3. intuition congruence.
      + apply nodup_delete, nodup_assign, I.
  Qed.

  Lemma touch_inv (c : cache) k : inv c -> lookup (data c) k <> None ->
    inv (mkCache (max_size c) (keys c) (set_add keq k (put_back c)) (data c)).
  Proof.
    intros I H. destruct I. constructor; cbn; auto.
    intros x. rewrite in_set_add. intros [->|]; auto. apply inv_data0; auto.
  Qed.

  Lemma step_inv (c : cache) o r c' evs : inv c ->
    step keq no_raise o c = (r, c', evs) ->
    inv c' /\ (exists x, r = Ret x) /\ max_size c' = max_size c.
  Proof.
    intros I H. destruct o as [k v|k d|k b]; simpl in H.
    - apply set_inv in H as (? & -> & ?); eauto.
    - unfold get in H. destruct (lookup (data c) k) eqn:E; inversion H; subst.
      + split; [apply touch_inv; congruence|eauto].
      + eauto.
    - unfold has in H. destruct (lookup (data c) k) eqn:E; inversion H; subst.
      + destruct b; split; eauto. apply touch_inv; congruence.
      + eauto.
  Qed.

  Lemma run_inv ops : forall (c : cache) rs c' evs, inv c ->
    run keq no_raise ops c = (rs, c', evs) ->
    inv c' /\ Forall (fun r => exists x, r = Ret x) rs /\ max_size c' = max_size c.
  Proof.
    induction ops as [|o ops IH]; simpl; intros c rs c' evs I H.
    - inversion H; subst; auto.
    - destruct (step keq no_raise o c) as [[r1 c1] e1] eqn:E1.
      destruct (run keq no_raise ops c1) as [[rs2 c2] e2] eqn:E2.
      inversion H; subst. apply step_inv in E1 as (I1 & R1 & M1); auto.
      apply IH in E2 as (I2 & R2 & M2); auto. rewrite M2. auto.
  Qed.

  Lemma run_app ops1 : forall ops2 (c : cache),
    run keq no_raise (ops1 ++ ops2) c =
    let '(r1, c1, e1) := run keq no_raise ops1 c in
    let '(r2, c2, e2) := run keq no_raise ops2 c1 in
    (r1 ++ r2, c2, e1 ++ e2).
  Proof.
    induction ops1 as [|o ops1 IH]; intros ops2 c; simpl.
    - destruct (run keq no_raise ops2 c) as [[? ?] ?]. reflexivity.
    - destruct (step keq no_raise o c) as [[r1 c1] e1].
      rewrite IH. destruct (run keq no_raise ops1 c1) as [[r2 c2] e2].
      destruct (run keq no_raise ops2 c2) as [[r3 c3] e3].
      simpl. rewrite app_assoc. reflexivity.
  Qed.

  (** Trace refinement. *)
  Lemma live_from_app (tr1 : list (event K V)) : forall tr2 acc k,
    live_from keq acc (tr1 ++ tr2) k = live_from keq (live_from keq acc tr1 k) tr2 k.
  Proof. induction tr1 as [|[k' v|k' v] tr1 IH]; intros; simpl; auto. Qed.

  Definition evictions_ok (acc : K -> option V) (tr : list (event K V)) : Prop :=
    forall tr1 k v tr2, tr = tr1 ++ Evicted k v :: tr2 ->
      live_from keq (acc k) tr1 k = Some v.

  Lemma step_trace (c : cache) o r c' evs : inv c ->
    step keq no_raise o c = (r, c', evs) ->
    (forall k, lookup (data c') k = live_from keq (lookup (data c) k) evs k) /\
    evictions_ok (lookup (data c)) evs /\
    stores_of evs = sets_of [o].
  Proof.
    intros I H. destruct o as [k v|k d|k b]; simpl in H.
    - destruct (set_cases c k v I) as [(Hl & E)|[(Hl & Hlt & E)|(Hl & Hlen & a & b & vic & val & q & Hs & Hv & Hval & Hne & E)]];
        rewrite E in H; inversion H; subst; clear H; cbn [data].
      + split; [intros x; rewrite lookup_assign; simpl; auto|]. split; auto.
        intros [|? [|? ?]] ? ? ? Ht; simpl in Ht; inversion Ht.
      + split; [intros x; rewrite lookup_assign; simpl; auto|]. split; auto.
        intros [|? [|? ?]] ? ? ? Ht; simpl in Ht; inversion Ht.
      + split; [|split; auto].
        * intros x. simpl. destruct (keq vic x) as [->|n].
          -- apply lookup_delete_eq.
          -- rewrite lookup_delete_ne by auto. apply lookup_assign.
        * intros [|? [|? [|? ?]]] ? ? ? Ht; simpl in Ht; inversion Ht; subst; simpl; auto.
          destruct (keq k k0); [congruence|auto].
    - unfold get in H. destruct (lookup (data c) k) eqn:E; inversion H; subst; cbn;
        (split; [auto|split; auto]); intros [|? ?] ? ? ? Ht; simpl in Ht; inversion Ht.
    - unfold has in H. destruct (lookup (data c) k) eqn:E; inversion H; subst; cbn;
        (split; [intros x; destruct b; auto|split; auto]); intros [|? ?] ? ? ? Ht; simpl in Ht; inversion Ht.
  Qed.

  Lemma app_eq_split {A} (x1 : list A) : forall x2 y1 a y2,
    x1 ++ x2 = y1 ++ a :: y2 ->
    (exists z, x1 = y1 ++ a :: z) \/ (exists z, y1 = x1 ++ z /\ x2 = z ++ a :: y2).
  Proof.
    induction x1 as [|h x1 IH]; simpl; intros x2 y1 a y2 H.
    - right. exists y1. auto.
    - destruct y1 as [|h' y1]; simpl in H; inversion H; subst.
      + left. exists x1. reflexivity.
      + destruct (IH _ _ _ _ H2) as [(z & ->)|(z & -> & ->)].
        * left. exists z. reflexivity.
        * right. exists z. auto.
  Qed.

  Lemma stores_of_app tr1 tr2 : @stores_of K V (tr1 ++ tr2) = stores_of tr1 ++ stores_of tr2.
  Proof. induction tr1 as [|[? ?|? ?] tr1 IH]; simpl; auto. f_equal; auto. Qed.

  Lemma run_trace ops : forall (c : cache) rs c' evs, inv c ->
    run keq no_raise ops c = (rs, c', evs) ->
    (forall k, lookup (data c') k = live_from keq (lookup (data c) k) evs k) /\
    evictions_ok (lookup (data c)) evs /\
    stores_of evs = sets_of ops.
  Proof.
    induction ops as [|o ops IH]; simpl; intros c rs c' evs I H.
    - inversion H; subst. split; auto. split; auto.
      intros [|? ?] ? ? ? Ht; simpl in Ht; inversion Ht.
    - destruct (step keq no_raise o c) as [[r1 c1] e1] eqn:E1.
      destruct (run keq no_raise ops c1) as [[rs2 c2] e2] eqn:E2.
      inversion H; subst. 
      destruct (step_inv _ _ _ _ _ I E1) as (I1 & _).
      destruct (step_trace _ _ _ _ _ I E1) as (T1 & T2 & T3).
      destruct (IH _ _ _ _ I1 E2) as (U1 & U2 & U3).
      split; [|split].
      + intros k. rewrite U1, live_from_app, T1. reflexivity.
      + intros tr1 k v tr2 Heq. apply app_eq_split in Heq as [(z & ->)|(z & -> & ->)].
        * apply (T2 tr1 k v z). reflexivity.
        * rewrite live_from_app, <- T1. apply (U2 z k v tr2). reflexivity.
      + rewrite stores_of_app, T3, U3. destruct o; reflexivity.
  Qed.
End Proofs.

Section Final.
  Context {K V : Type}.
  Variable keq : forall a b : K, {a = b} + {a <> b}.
  Notation no_raise := (fun (_ : K) (_ : V) => false).

  Lemma final_inv m (ops : list (op K V)) : 1 <= m -> inv keq (final keq no_raise m ops).
  Proof.
    intros Hm. unfold final.
    destruct (run keq no_raise ops (new_cache m)) as [[rs c] evs] eqn:E.
    eapply run_inv in E as (I & _); eauto using inv_new.
  Qed.
  Lemma final_max m (ops : list (op K V)) : 1 <= m -> max_size (final keq no_raise m ops) = m.
  Proof.
    intros Hm. unfold final.
    destruct (run keq no_raise ops (new_cache m)) as [[rs c] evs] eqn:E.
    eapply run_inv in E as (_ & _ & E); eauto using inv_new.
  Qed.

  Lemma capacity_lemma m (ops : list (op K V)) : 1 <= m ->
    let c := final keq no_raise m ops in
    Z.of_nat (length (keys c)) <= m /\
    NoDup (keys c) /\
    Z.of_nat (length (data c)) <= m /\
    (forall k, In k (keys c) <-> lookup keq (data c) k <> None) /\
    (forall r, In r (replies keq no_raise m ops) -> exists x, r = Ret x).
  Proof.
    intros Hm c. assert (I : inv keq c) by (apply final_inv; auto).
    assert (M : max_size c = m) by (apply final_max; auto).
    split; [|split; [|split; [|split]]].
    - rewrite <- M. apply I.
    - apply I.
    - rewrite <- M. rewrite <- (map_length fst).
      transitivity (Z.of_nat (length (keys c))); [|apply I].
      apply inj_le. apply NoDup_incl_length; [apply I|].
      intros k. rewrite (in_fst_lookup keq). apply I.
    - apply I.
    - unfold replies.
      destruct (run keq no_raise ops (new_cache m)) as [[rs c'] evs] eqn:E.
      eapply run_inv in E as (_ & F & _); eauto using inv_new.
      rewrite Forall_forall in F. auto.
  Qed.

  Lemma trace_lemma m (ops : list (op K V)) : 1 <= m ->
    let tr := trace keq no_raise m ops in
    stores_of tr = sets_of ops /\
    (forall tr1 k v tr2, tr = tr1 ++ Evicted k v :: tr2 -> live keq tr1 k = Some v) /\
    (forall k d, replies keq no_raise m (ops ++ [OpGet k d]) =
       replies keq no_raise m ops ++
       [Ret (RVal (match live keq tr k with Some v => v | None => d end))]) /\
    (forall k b, replies keq no_raise m (ops ++ [OpHas k b]) =
       replies keq no_raise m ops ++
       [Ret (RBool (match live keq tr k with Some _ => true | None => false end))]).
  Proof.
    intros Hm tr. unfold tr, trace, replies.
    setoid_rewrite run_app.
    destruct (run keq no_raise ops (new_cache m)) as [[rs c] evs] eqn:E.
    destruct (run_trace keq _ _ _ _ _ (inv_new keq m Hm) E) as (T1 & T2 & T3).
    cbn [fst snd]. split; auto. split; auto.
    split; intros k d; simpl; unfold get, has, live; rewrite T1; simpl lookup;
      destruct (live_from keq None evs k); reflexivity.
  Qed.

  (** [final] on one more call. *)
  Lemma second_chance_lemma m (ops : list (op K V)) k v a b :
    1 <= m ->
    let c := final keq no_raise m ops in
    Z.of_nat (length (keys c)) = m ->
    ~ In k (keys c) ->
    split_touched (fun x => mem keq x (put_back c)) (rev (keys c)) = (a, b) ->
    exists vic val q c',
      step keq no_raise (OpSet k v) c = (Ret RNone, c', [Stored k v; Evicted vic val]) /\
      match b with
      | x :: b' => vic = x /\ q = b' ++ a
      | [] => exists a', a = vic :: a' /\ q = a'
      end /\
      rev (keys c') = q ++ [k] /\
      (forall x, In x (put_back c') <-> In x (put_back c) /\ ~ In x a).
  Proof.
    intros Hm c Hfull Hnew Hs.
    assert (I : inv keq c) by (apply final_inv; auto).
    assert (M : max_size c = m) by (apply final_max; auto).
    assert (Hl : lookup keq (data c) k = None).
    { destruct (lookup keq (data c) k) eqn:E; auto. exfalso. apply Hnew. apply (inv_data keq c I). congruence. }
    destruct (set_cases keq c k v I) as [(Hl' & _)|[(_ & Hlt & _)|(_ & _ & a0 & b0 & vic & val & q & Hs0 & Hv & Hval & Hne & E)]].
    - congruence.
    - lia.
    - rewrite Hs in Hs0. inversion Hs0; subst a0 b0.
      eexists vic, val, q, _. split; [exact E|]. cbn [keys put_back].
      split; [|split].
      + destruct b; simpl in Hv.
        * destruct a as [|x0 a]; [discriminate|]. injection Hv as <- <-. eauto.
        * inversion Hv; auto.
      + simpl. rewrite rev_involutive. reflexivity.
      + intros x. apply in_remove_all.
  Qed.
End Final.
