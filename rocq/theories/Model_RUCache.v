(** Model of the recently-used cache, /repo/src/convtools/utils.py:10-57.
    Definitions only; no proofs. *)
From Coq Require Import List ZArith Bool.
Import ListNotations.
Local Open Scope Z_scope.

(** Outcome of a Python call: a value, or the exception that leaves it. *)
Inductive outcome (A : Type) : Type :=
| Ret (a : A)
| IndexError          (* pop from an empty deque *)
| KeyError            (* dict.pop / set.remove of a missing key *)
| CallbackRaised.     (* the user's on_evict raised *)
Arguments Ret {A} a.
Arguments IndexError {A}.
Arguments KeyError {A}.
Arguments CallbackRaised {A}.

(** What an observer (the user calling set, the user's on_evict callback)
    sees, in chronological order. *)
Inductive event (K V : Type) : Type :=
| Stored (k : K) (v : V)     (* cache.set(k, v) stored the value *)
| Evicted (k : K) (v : V).   (* on_evict(k, v) was called *)
Arguments Stored {K V} k v.
Arguments Evicted {K V} k v.

(** The public calls: utils.py:22, 28, 38. *)
Inductive op (K V : Type) : Type :=
| OpSet (k : K) (v : V)
| OpGet (k : K) (default : V)
| OpHas (k : K) (bump_up : bool).
Arguments OpSet {K V} k v.
Arguments OpGet {K V} k default.
Arguments OpHas {K V} k bump_up.

Inductive reply (V : Type) : Type :=
| RNone                (* set returns None *)
| RVal (v : V)         (* get *)
| RBool (b : bool).    (* has *)
Arguments RNone {V}.
Arguments RVal {V} v.
Arguments RBool {V} b.

Section RUCache.
  Context {K V : Type}.
  Variable keq : forall a b : K, {a = b} + {a <> b}.
  (** Oracle for the user callback: does on_evict(k, v) raise?
      [fun _ _ => false] is a callback that never raises (or no callback). *)
  Variable cb_raises : K -> V -> bool.

  (** RUCache.__init__, utils.py:13-20.  The deque is a list with its left end
      first; the set and the dict are lists (their order is not observable
      here). *)
  Record cache : Type := mkCache {
    max_size : Z;
    keys : list K;
    put_back : list K;
    data : list (K * V)
  }.

  Definition new_cache (m : Z) : cache := mkCache m [] [] [].

  (** dict lookup / assignment / deletion, set.add / set.remove. *)
  Fixpoint lookup (d : list (K * V)) (k : K) : option V :=
    match d with
    | [] => None
    | (k', v) :: d' => if keq k k' then Some v else lookup d' k
    end.
  Definition delete (d : list (K * V)) (k : K) : list (K * V) :=
    filter (fun kv => if keq k (fst kv) then false else true) d.
  Definition assign (d : list (K * V)) (k : K) (v : V) : list (K * V) :=
    (k, v) :: delete d k.
  Definition mem (k : K) (l : list K) : bool :=
    if in_dec keq k l then true else false.
  Definition set_add (k : K) (l : list K) : list K :=
    if mem k l then l else k :: l.
  Definition set_remove (k : K) (l : list K) : list K :=
    filter (fun k' => if keq k k' then false else true) l.

  (** deque.pop(): the right end. *)
  Definition pop_right (l : list K) : option (list K * K) :=
    match rev l with
    | [] => None
    | x :: r => Some (rev r, x)
    end.

  (** RUCache._evict, utils.py:45-57; [n] is the number of remaining
      iterations of [range(self.max_size + 1)].  The state is returned even
      when an exception leaves the loop. *)
  Fixpoint evict_loop (n : nat) (expected_size : Z) (c : cache)
    : outcome unit * cache * list (event K V) :=
    match n with
    | O => (Ret tt, c, [])
    | S n' =>
        if Z.of_nat (length (keys c)) >? expected_size then
          match pop_right (keys c) with
          | None => (IndexError, c, [])
          | Some (ks, key) =>
              if mem key (put_back c) then
                evict_loop n' expected_size
                  (mkCache (max_size c) (key :: ks)
                     (set_remove key (put_back c)) (data c))
              else
                match lookup (data c) key with
                | None =>
                    (KeyError, mkCache (max_size c) ks (put_back c) (data c), [])
                | Some value =>
                    let c' := mkCache (max_size c) ks (put_back c)
                                (delete (data c) key) in
                    if cb_raises key value then
                      (CallbackRaised, c', [Evicted key value])
                    else
                      let '(r, c'', evs) := evict_loop n' expected_size c' in
                      (r, c'', Evicted key value :: evs)
                end
          end
        else (Ret tt, c, [])
    end.

  Definition evict (expected_size : Z) (c : cache) :=
    evict_loop (Z.to_nat (max_size c + 1)) expected_size c.

  (** RUCache.set, utils.py:28-36. *)
  Definition set (k : K) (v : V) (c : cache)
    : outcome (reply V) * cache * list (event K V) :=
    match lookup (data c) k with
    | Some _ =>
        (Ret RNone,
         mkCache (max_size c) (keys c) (set_add k (put_back c))
           (assign (data c) k v),
         [Stored k v])
    | None =>
        let c1 := mkCache (max_size c) (keys c) (put_back c)
                    (assign (data c) k v) in
        let '(r, c2, evs) :=
          if Z.of_nat (length (keys c1)) >? max_size c1 - 1
          then evict (max_size c1 - 1) c1
          else (Ret tt, c1, []) in
        match r with
        | Ret _ =>
            (Ret RNone,
             mkCache (max_size c2) (k :: keys c2) (put_back c2) (data c2),
             Stored k v :: evs)
        | IndexError => (IndexError, c2, Stored k v :: evs)
        | KeyError => (KeyError, c2, Stored k v :: evs)
        | CallbackRaised => (CallbackRaised, c2, Stored k v :: evs)
        end
    end.

  (** RUCache.get, utils.py:22-26. *)
  Definition get (k : K) (default : V) (c : cache)
    : outcome (reply V) * cache * list (event K V) :=
    match lookup (data c) k with
    | Some v =>
        (Ret (RVal v),
         mkCache (max_size c) (keys c) (set_add k (put_back c)) (data c), [])
    | None => (Ret (RVal default), c, [])
    end.

  (** RUCache.has, utils.py:38-43. *)
  Definition has (k : K) (bump_up : bool) (c : cache)
    : outcome (reply V) * cache * list (event K V) :=
    match lookup (data c) k with
    | Some _ =>
        (Ret (RBool true),
         if bump_up
         then mkCache (max_size c) (keys c) (set_add k (put_back c)) (data c)
         else c,
         [])
    | None => (Ret (RBool false), c, [])
    end.

  Definition step (o : op K V) (c : cache) :=
    match o with
    | OpSet k v => set k v c
    | OpGet k d => get k d c
    | OpHas k b => has k b c
    end.

  (** A history of public calls on one cache object; an exception leaves the
      call, the object stays as it is and may be used again. *)
  Fixpoint run (ops : list (op K V)) (c : cache)
    : list (outcome (reply V)) * cache * list (event K V) :=
    match ops with
    | [] => ([], c, [])
    | o :: ops' =>
        let '(r, c1, ev1) := step o c in
        let '(rs, c2, ev2) := run ops' c1 in
        (r :: rs, c2, ev1 ++ ev2)
    end.

  Definition final (m : Z) (ops : list (op K V)) : cache :=
    snd (fst (run ops (new_cache m))).
  Definition replies (m : Z) (ops : list (op K V)) : list (outcome (reply V)) :=
    fst (fst (run ops (new_cache m))).
  Definition trace (m : Z) (ops : list (op K V)) : list (event K V) :=
    snd (run ops (new_cache m)).
End RUCache.
