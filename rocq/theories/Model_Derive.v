(** The methods that make a conversion out of another one, on conversion objects
    as heap cells: which of them work on a clone and which change the object
    they are called on.
    /repo/src/convtools/base.py:278-300 (depends_on, get_dependencies,
    ensure_conversion), 341-360 (clone: Model_Heap.v), 957-1011
    (CachingConversion), 1437-1453 (pass_args), 1486-1517 (filter and sort of a
    comprehension), 1597-1599 (SetComp.sort); aggregations.py:865-874
    (Reduce.filter), 947-951 (Reduce.depends_on), 987-1019 (prepare_reducer,
    GroupBy.aggregate), 1029-1035 (GroupBy.sort).  Definitions only. *)
From Coq Require Import String List ZArith Bool.
From Verif Require Import Model_Code Model_Heap.
Import ListNotations.

(** The attributes of an object, by class.  Conversions held by an object are
    addresses.  [sort_key]: None is False (not sorted), Some None is what sort()
    stores without a key, Some (Some k) is key [k], stored as passed. *)
Inductive attrs : Type :=
| Comprehension (is_set : bool) (items : list nat) (condition : option nat)
                (sort_key : option (option nat)) (reverse : bool)
| Inline (code : text) (args : list nat) (kwargs : list (text * nat))
| Reducer (reduces : nat) (condition : option nat)
| Group (by_ : list nat) (result : option nat) (agg_items : list nat)
        (sort_key : option (option nat)) (reverse : bool)
| Collection (items : list nat)    (* List, Tuple, Set; Dict with its keys and values in turn *)
| Naive                            (* a literal *)
| Argument (x : text)              (* c.input_arg *)
| Input                            (* GetItem without indexes: c.this() *)
| Caching (of_ : nat) (name : option text) (labels : nat)  (* labels: address of a dict *)
| Other.

Notation objects := (heap attrs).
(** [self.labels] is a dict, which [_clone] does not copy (base.py:343): dicts are
    cells too. *)
Definition dict := list (text * nat).
Record state : Type := mkState { objs : objects; dicts : list dict }.

Inductive outcome : Type :=
| Ok (s : state) (i : nat)
| Conversion_exception (s : state)
| Assertion_error (s : state)
| Impossible.                      (* an address that does not exist, or a method the class does not have *)

Definition attributes (s : state) (i : nat) : option attrs := option_map payload (nth_error (objs s) i).
Definition with_objs (s : state) (h : objects) : state := mkState h (dicts s).
(** self.x = ... on the object at [i] *)
Definition set_payload (p : attrs) (o : obj attrs) : obj attrs := mkObj (pred o) (deps o) p.
Definition assign (s : state) (i : nat) (p : attrs) : state := with_objs s (update (objs s) i (set_payload p)).
(** self.ensure_conversion(c), base.py:295-300 *)
Definition ensure (s : state) (i c : nat) : state := with_objs s (depends_on (objs s) i c).
Definition ensure_all (s : state) (i : nat) (l : list nat) : state := fold_left (fun s c => ensure s i c) l s.

(** self_clone = self.clone(), then [k] on it *)
Definition on_clone (m : Z) (s : state) (i : nat) (k : state -> nat -> outcome) : outcome :=
  match clone m (objs s) i with
  | Done h c => k (with_objs s h) c
  | ConversionException h => Conversion_exception (with_objs s h)
  | Dangling => Impossible
  end.

(** comprehension.filter, base.py:1486-1501 *)
Definition comp_filter (m : Z) (s : state) (i cond : nat) : outcome :=
  match attributes s i with
  | Some (Comprehension st items _ k r) =>
      on_clone m s i (fun s c =>
        let s := ensure s c cond in Ok (assign s c (Comprehension st items (Some cond) k r)) c)
  | _ => Impossible
  end.
(** comprehension.sort, base.py:1503-1517 and 1597-1599 *)
Definition comp_sort (m : Z) (s : state) (i : nat) (key : option nat) (reverse : bool) : outcome :=
  match attributes s i with
  | Some (Comprehension true _ _ _ _) => Conversion_exception s
  | Some (Comprehension st items cond _ _) =>
      on_clone m s i (fun s c => Ok (assign s c (Comprehension st items cond (Some key) reverse)) c)
  | _ => Impossible
  end.
(** InlineExpr.pass_args, base.py:1437-1453 *)
Definition pass_args (m : Z) (s : state) (i : nat) (args : list nat) (kwargs : list (text * nat)) : outcome :=
  match attributes s i with
  | Some (Inline code _ _) =>
      on_clone m s i (fun s c =>
        let s := ensure_all s c args in
        let s := ensure_all s c (map snd kwargs) in
        Ok (assign s c (Inline code args kwargs)) c)
  | _ => Impossible
  end.
(** GroupBy.sort, aggregations.py:1029-1035 *)
Definition group_sort (m : Z) (s : state) (i : nat) (key : option nat) (reverse : bool) : outcome :=
  match attributes s i with
  | Some (Group b res ag _ _) =>
      on_clone m s i (fun s c => Ok (assign s c (Group b res ag (Some key) reverse)) c)
  | _ => Impossible
  end.

Definition is_reducer (s : state) (i : nat) : bool :=
  match attributes s i with Some (Reducer _ _) => true | _ => false end.
(** GroupBy.aggregate, aggregations.py:987-1019: prepare_reducer is called on
    [self], the rest on the clone *)
Definition aggregate (m : Z) (s : state) (i reducer : nat) : outcome :=
  match attributes s i with
  | Some (Group b _ _ k r) =>
      on_clone m s i (fun s c =>
        let s := ensure s i reducer in
        match attributes s reducer with
        | None => Impossible
        | Some Naive => Assertion_error s
        | Some a =>
            let items := match a with Collection l => l | _ => [reducer] end in
            let s := ensure s c reducer in
            let found := flat_map (fun j => List.filter (is_reducer s) (get_dependencies (objs s) j)) items in
            Ok (assign s c (Group b (Some reducer) found k r)) c
        end)
  | _ => Impossible
  end.

(** Reduce.filter, aggregations.py:865-874, with Reduce.depends_on 947-951; on
    [self] *)
Definition reduce_filter (s : state) (i cond : nat) : outcome :=
  match attributes s i with
  | Some (Reducer what _) =>
      let s := ensure s i cond in
      match nth_error (objs s) i with
      | None => Impossible
      | Some o =>
          if existsb (is_reducer s) (deps o) then Assertion_error s
          else Ok (assign s i (Reducer what (Some cond))) i
      end
  | _ => Impossible
  end.

Definition has_key (d : dict) (n : text) : bool := existsb (fun e => teqb n (fst e)) d.
Fixpoint put {A : Type} (l : list A) (i : nat) (x : A) : list A :=
  match l, i with
  | [], _ => []
  | _ :: r, O => x :: r
  | y :: r, S j => y :: put r j x
  end.
(** CachingConversion.add_label, base.py:984-1011, on [self].  [conv]: without a
    conversion the code makes GetItem(); here the caller passes an [Input] object. *)
Definition add_label (s : state) (i : nat) (label : text) (conv : nat) : outcome :=
  match attributes s i with
  | Some (Caching of_ name d) =>
      match nth_error (dicts s) d with
      | None => Impossible
      | Some labels =>
          if has_key labels label || match name with Some n => teqb label n | None => false end
          then Conversion_exception s
          else
            let s := ensure s i conv in
            match name, attributes s conv with
            | None, Some Input => Ok (assign s i (Caching of_ (Some label) d)) i
            | _, _ => Ok (mkState (objs s) (put (dicts s) d (labels ++ [(label, conv)]))) i
            end
      end
  | _ => Impossible
  end.
