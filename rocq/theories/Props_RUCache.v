(** Property theorems C01, C02, C03 (recently-used cache). *)
From Coq Require Import List ZArith Bool Lia.
From Verif Require Import Model_RUCache Spec_RUCache Proofs_RUCache.
Import ListNotations.
Local Open Scope Z_scope.

(** C01.  For every capacity m >= 1, every history of set/get/has calls and a
    callback that does not raise: at most m entries are tracked and stored,
    the stored keys are exactly the tracked ones, each tracked once, and no
    call raises. *)
Theorem C01_cache_bounded_and_consistent :
  forall (K V : Type) (keq : forall a b : K, {a = b} + {a <> b})
         (m : Z) (ops : list (op K V)),
    1 <= m ->
    let c := final keq (fun _ _ => false) m ops in
    Z.of_nat (length (keys c)) <= m /\
    NoDup (keys c) /\
    Z.of_nat (length (data c)) <= m /\
    (forall k, In k (keys c) <-> lookup keq (data c) k <> None) /\
    (forall r, In r (replies keq (fun _ _ => false) m ops) -> exists x, r = Ret x).
Proof. exact @capacity_lemma. Qed.
Print Assumptions C01_cache_bounded_and_consistent.

(** Outside those hypotheses the claim is false: with max_size = 0 the very
    first set raises IndexError and leaves an untracked entry behind. *)
Theorem C01_zero_capacity_refuted :
  exists ops : list (op nat nat),
    replies Nat.eq_dec (fun _ _ => false) 0 ops = [IndexError] /\
    let c := final Nat.eq_dec (fun _ _ => false) 0 ops in
    keys c = [] /\ lookup Nat.eq_dec (data c) 7%nat = Some 1%nat.
Proof. exists [OpSet 7%nat 1%nat]. vm_compute. auto. Qed.
Print Assumptions C01_zero_capacity_refuted.

(** ... and a raising callback leaves the new key stored but not tracked, so
    that it can never be evicted. *)
Theorem C01_raising_callback_refuted :
  exists (ops : list (op nat nat)) (k : nat),
    let c := final Nat.eq_dec (fun _ _ => true) 1 ops in
    lookup Nat.eq_dec (data c) k <> None /\ ~ In k (keys c).
Proof.
  exists [OpSet 1%nat 1%nat; OpSet 2%nat 2%nat], 2%nat. vm_compute.
  split; [discriminate|tauto].
Qed.
Print Assumptions C01_raising_callback_refuted.

(** C02.  The observable events of a history: every set call is a store, in
    order; whenever the callback is called for (k, v), v was the last value
    stored for k and k had not been evicted since; and get / has answer
    according to what is still live. *)
Theorem C02_cache_refines_event_trace :
  forall (K V : Type) (keq : forall a b : K, {a = b} + {a <> b})
         (m : Z) (ops : list (op K V)),
    1 <= m ->
    let tr := trace keq (fun _ _ => false) m ops in
    stores_of tr = sets_of ops /\
    (forall tr1 k v tr2, tr = tr1 ++ Evicted k v :: tr2 -> live keq tr1 k = Some v) /\
    (forall k d, replies keq (fun _ _ => false) m (ops ++ [OpGet k d]) =
       replies keq (fun _ _ => false) m ops ++
       [Ret (RVal (match live keq tr k with Some v => v | None => d end))]) /\
    (forall k b, replies keq (fun _ _ => false) m (ops ++ [OpHas k b]) =
       replies keq (fun _ _ => false) m ops ++
       [Ret (RBool (match live keq tr k with Some _ => true | None => false end))]).
Proof. exact @trace_lemma. Qed.
Print Assumptions C02_cache_refines_event_trace.

(** C03.  A new key on a full reachable cache evicts exactly one entry.  With
    the queue taken oldest first and split into its longest prefix [a] of
    touched keys and the rest [b]: the victim is the first of [b] (the oldest
    untouched key), or the oldest key if all are touched; the passed-over keys
    go, in order, behind the others and lose their marks; the new key is the
    youngest. *)
Theorem C03_second_chance_eviction :
  forall (K V : Type) (keq : forall a b : K, {a = b} + {a <> b})
         (m : Z) (ops : list (op K V)) (k : K) (v : V) (a b : list K),
    1 <= m ->
    let c := final keq (fun _ _ => false) m ops in
    Z.of_nat (length (keys c)) = m ->
    ~ In k (keys c) ->
    split_touched (fun x => mem keq x (put_back c)) (rev (keys c)) = (a, b) ->
    exists vic val q c',
      step keq (fun _ _ => false) (OpSet k v) c =
        (Ret RNone, c', [Stored k v; Evicted vic val]) /\
      match b with
      | x :: b' => vic = x /\ q = b' ++ a
      | [] => exists a', a = vic :: a' /\ q = a'
      end /\
      rev (keys c') = q ++ [k] /\
      (forall x, In x (put_back c') <-> In x (put_back c) /\ ~ In x a).
Proof. exact @second_chance_lemma. Qed.
Print Assumptions C03_second_chance_eviction.

(** Concrete, non-trivial instances: a full cache of capacity 3 with a touched
    oldest key. *)
Example C03_instance :
  let ops := [OpSet 1 10; OpSet 2 20; OpSet 3 30; OpGet 1 0; OpHas 2 false]%nat in
  let c := final Nat.eq_dec (fun _ _ : nat => false) 3 ops in
  Z.of_nat (length (keys c)) = 3 /\ ~ In 4%nat (keys c) /\
  split_touched (fun x => mem Nat.eq_dec x (put_back c)) (rev (keys c))
    = ([1], [2; 3])%nat /\
  trace Nat.eq_dec (fun _ _ => false) 3 (ops ++ [OpSet 4 40])%nat =
    [Stored 1 10; Stored 2 20; Stored 3 30; Stored 4 40; Evicted 2 20]%nat.
Proof. vm_compute. repeat split; auto. intuition discriminate. Qed.
Example C01_C02_instance :
  let ops := [OpSet 1 10; OpSet 2 20; OpSet 1 11; OpSet 3 30; OpGet 1 0; OpGet 2 0]%nat in
  replies Nat.eq_dec (fun _ _ => false) 2 ops =
    [Ret RNone; Ret RNone; Ret RNone; Ret RNone; Ret (RVal 11); Ret (RVal 0)]%nat
  /\ 1 <= 2.
Proof. vm_compute. split; [reflexivity|discriminate]. Qed.
