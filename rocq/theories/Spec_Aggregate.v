(** Vocabulary for the aggregation properties (C27, C32, C33). *)
From Coq Require Import String List ZArith Bool.
From Verif Require Import Model_PyVal Model_Reducers Model_Aggregate.
Import ListNotations.

Section S.
  Context {Row : Type}.

  (** The group a row belongs to: the value of the only key, or the tuple of
      the values of all keys. *)
  Definition key_values (keys : list (Row -> res val)) (r : Row) : list val :=
    map (fun k => match k r with Ok v => v | Err _ => VNone end) keys.
  Definition group_key (keys : list (Row -> res val)) (r : Row) : val :=
    match key_values keys r with [v] => v | vs => VTuple vs end.
  Definition good_key (keys : list (Row -> res val)) (r : Row) : Prop :=
    (forall k, In k keys -> exists v, k r = Ok v) /\ hashable (group_key keys r) = true.

  (** Starting the reduction with a row leaves a value. *)
  Definition sets_a_value (it : item Row) : Prop :=
    forall row c, run_init (obj it) row = Ok c -> c <> None.
  (** Reducers declared unconditional_init do so. *)
  Definition declared_honestly (its : list (item Row)) : Prop :=
    forall it, In it its -> uncond (obj it) = true -> sets_a_value it.

  Variable sem : string -> Row -> res bool.
  (** Reducers whose code is considered identical do the same with every row. *)
  Definition same_code_same_loop (its : list (item Row)) : Prop :=
    forall a b, In a its -> In b its -> hash a = hash b ->
      forall rows, run_alone (whole sem a) None rows = run_alone (whole sem b) None rows.

  (** After the rows [p] the reducer holds a value. *)
  Definition is_set (it : item Row) (p : list Row) : Prop :=
    exists v, run_alone (whole sem it) None p = Ok (Some v).
  Definition is_unset (it : item Row) (p : list Row) : Prop :=
    run_alone (whole sem it) None p = Ok None.

  (** Order in which the loop body treats the reducers: filtered ones first. *)
  Definition rank (it : item Row) : nat :=
    match ccode it, uncond (obj it) with
    | Some _, false => 0
    | Some _, true => 1
    | None, true => 2
    | None, false => 3
    end.
  (** No reducer gets its first value on a later row than a reducer treated
      after it (or possibly after it). *)
  Definition in_step (its : list (item Row)) (rows : list Row) : Prop :=
    forall x y p q, In x its -> In y its -> rows = p ++ q ->
      rank x < rank y \/ (rank x = rank y /\ rank x <> 2) ->
      is_set y p -> ~ is_unset x p.
End S.
