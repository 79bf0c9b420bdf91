(** Specification vocabulary for the recently-used cache; independent of the
    cache implementation (only the observable events are used). *)
From Coq Require Import List ZArith Bool.
From Verif Require Import Model_RUCache.
Import ListNotations.

Section Spec.
  Context {K V : Type}.
  Variable keq : forall a b : K, {a = b} + {a <> b}.

  (** The value an observer expects for [k] after the events [tr]: the last
      value stored for it unless it has been reported as evicted since. *)
  Fixpoint live_from (acc : option V) (tr : list (event K V)) (k : K)
    : option V :=
    match tr with
    | [] => acc
    | Stored k' v :: tr' => live_from (if keq k' k then Some v else acc) tr' k
    | Evicted k' _ :: tr' => live_from (if keq k' k then None else acc) tr' k
    end.
  Definition live (tr : list (event K V)) (k : K) : option V :=
    live_from None tr k.

  (** The set calls of a history, in order. *)
  Fixpoint sets_of (ops : list (op K V)) : list (K * V) :=
    match ops with
    | [] => []
    | OpSet k v :: r => (k, v) :: sets_of r
    | _ :: r => sets_of r
    end.
  Fixpoint stores_of (tr : list (event K V)) : list (K * V) :=
    match tr with
    | [] => []
    | Stored k v :: r => (k, v) :: stores_of r
    | Evicted _ _ :: r => stores_of r
    end.

  (** Second-chance choice on a queue given oldest first: the longest prefix
      of touched keys, and what follows it. *)
  Fixpoint split_touched (touched : K -> bool) (q : list K)
    : list K * list K :=
    match q with
    | [] => ([], [])
    | k :: q' =>
        if touched k
        then let '(a, b) := split_touched touched q' in (k :: a, b)
        else ([], q)
    end.
End Spec.
