(** What a plain Python structure with conversions in it stands for (C61). *)
From Coq Require Import String List ZArith NArith Bool Arith.
From Verif Require Import Model_PyVal Model_Code Model_Eval Model_Python Spec_Eval Spec_Reducers Spec_Converter Spec_Coll Model_Ensure.
Import ListNotations.

Section Means.
  Context {W : Type}.
  Variable call : val -> list val -> list (text * val) -> W -> W * out exc val.
  Variable getattr : val -> string -> W -> W * out exc val.
  Variable args : list (text * val).

  (** With input [v] the structure stands for the same structure with the values of
      the conversions in their places: a set has one of each of its elements, a dict
      the last value of each key; set elements and dict keys have to be hashable.
      The empty tuple and the empty set are left out (see C23). *)
  Inductive means (v : val) : pyobj -> val -> Prop :=
  | M_conversion c x : gives call getattr args c v x -> means v (PConversion c) x
  | M_none : means v (PConstant LNone) VNone
  | M_bool b : means v (PConstant (LBool b)) (VBool b)
  | M_int z : means v (PConstant (LInt z)) (VInt z)
  | M_str s : means v (PConstant (LStr s)) (VStr (str_of s))
  | M_object g : means v (PObject g) (VObj g)
  | M_list l xs : Forall2 (means v) l xs -> means v (PListing l) (VList xs)
  | M_tuple l xs : l <> [] -> Forall2 (means v) l xs -> means v (PTupling l) (VTuple xs)
  | M_set l xs : l <> [] -> Forall2 (means v) l xs -> (forall x, In x xs -> hashable x = true) ->
      means v (PSetting l) (VSet (distinct xs))
  | M_dict l ps d :
      Forall2 (fun e p => means v (fst e) (fst p) /\ means v (snd e) (snd p)) l ps ->
      (forall x, In x (map fst ps) -> hashable x = true) -> dict_of ps d ->
      means v (PDictionary l) (VDict d).
End Means.

(** [q] is [p] or occurs in it *)
Inductive inside (q : pyobj) : pyobj -> Prop :=
| In_self : inside q q
| In_list l x : In x l -> inside q x -> inside q (PListing l)
| In_tuple l x : In x l -> inside q x -> inside q (PTupling l)
| In_set l x : In x l -> inside q x -> inside q (PSetting l)
| In_key l k x : In (k, x) l -> inside q k -> inside q (PDictionary l)
| In_value l k x : In (k, x) l -> inside q x -> inside q (PDictionary l)
| In_start a b c : inside q a -> inside q (PSlice a b c)
| In_stop a b c : inside q b -> inside q (PSlice a b c)
| In_step a b c : inside q c -> inside q (PSlice a b c).
