(** What a converter may be called with (C64). *)
From Coq Require Import String List.
From Verif Require Import Model_Code Model_Eval Model_Converter.
Import ListNotations.

(** [args] and [kw] pass the input [d] and a value for each of the names in [wanted] and
    for nothing else; the input is the only positional argument or the keyword data_. *)
Inductive passes {V} (wanted : text -> Prop) : list V -> list (text * V) -> V -> Prop :=
| Positional d kw : (forall x, In x (map fst kw) <-> wanted x) -> passes wanted [d] kw d
| By_name d kw : In (T "data_", d) kw -> (forall x, In x (map fst kw) <-> x = T "data_" \/ wanted x) ->
    passes wanted [] kw d.
(** The name is none of those the generated code uses. *)
Definition free_name (pname tname : text -> text) (y : text) : Prop :=
  y <> [] /\ y <> T "data_" /\ y <> T "self" /\ y <> T "cls" /\ (forall t, pname t <> y) /\ (forall t, tname t <> y).
