(** What c.reduce may be called with (C62). *)
From Coq Require Import List.
From Verif Require Import Model_Reducers Model_Code Model_Ensure Spec_Ensure Model_ReduceArgs.
Import ListNotations.

(** The reducers that make a dict of key and value *)
Definition keyed : list builtin :=
  [Dict; DictArray; DictArrayDistinct; DictSum; DictSumOrNone; DictMax; DictMin; DictCount;
   DictCountDistinct; DictFirst; DictLast].
(** A list or tuple of two: as it is, c.list / c.tuple, or one that something is piped into *)
Inductive a_pair : pyobj -> Prop :=
| Pair_tuple a b : a_pair (PTupling [a; b])
| Pair_list a b : a_pair (PListing [a; b])
| Pair_ctuple a b : a_pair (PConversion (COp OTuple [a; b]))
| Pair_clist a b : a_pair (PConversion (COp OList [a; b]))
| Pair_piped c d : a_pair (PConversion d) -> a_pair (PConversion (CPipe c d)).
(** a mutation is in something that was passed *)
Definition passes (a : given) (p : pyobj) : Prop :=
  g_expr a = Some p \/ g_initial a = Some p \/ g_default a = Some p \/ In p (g_args a).
(** Nothing passed has a mutation in it, and
    - a dict reducer gets a pair and no additional arguments,
    - any other built-in gets an expression, which may be left out for Count,
    - anything else gets an expression and at least one of initial and default. *)
Definition acceptable (o : operation) (a : given) : Prop :=
  (forall p, passes a p -> ~ inside PMutation p) /\
  match o with
  | OpBuiltin b =>
      (In b keyed -> g_args a = [] /\ exists p, g_expr a = Some p /\ a_pair p) /\
      (~ In b keyed -> b = Count \/ g_expr a <> None)
  | OpExpression => g_expr a <> None /\ (g_initial a <> None \/ g_default a <> None)
  end.
(** The object [g] itself, or c.naive of it (also with something piped into it) *)
Inductive an_object : pyobj -> nat -> Prop :=
| Obj g : an_object (PObject g) g
| Obj_naive g : an_object (PConversion (CGlob g)) g
| Obj_piped c d g : an_object (PConversion d) g -> an_object (PConversion (CPipe c d)) g.
