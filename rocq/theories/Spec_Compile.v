(** Vocabulary for compiling conversions in several threads. *)
From Coq Require Import List Arith.
From Verif Require Import Model_Heap.
Import ListNotations.

(** The stages of the conversion at [i]: itself, its input, the input of that,
    and so on to the one that reads the data. *)
Inductive stages_are {P} (h : heap P) : nat -> list nat -> Prop :=
| only i o : nth_error h i = Some o -> pred o = None -> stages_are h i [i]
| after i o p l : nth_error h i = Some o -> pred o = Some p -> stages_are h p l -> stages_are h i (i :: l).

(** The same objects, except for the input links of those in [Q]. *)
Definition same_but {P} (Q : nat -> Prop) (h1 h2 : heap P) : Prop :=
  forall j, nth_error h1 j = nth_error h2 j \/
            (Q j /\ option_map (set_pred None) (nth_error h1 j) = option_map (set_pred None) (nth_error h2 j)).

(** Conversions with the stages [idss], compiled at the same time, have no
    stage in common that has an input link (they may have the same first stage) ... *)
Definition apart {P} (h : heap P) (idss : list (list nat)) : Prop :=
  forall a b ids ids' k o, a <> b -> nth_error idss a = Some ids -> nth_error idss b = Some ids' ->
    In k ids -> In k ids' -> nth_error h k = Some o -> pred o = None.
(** ... and the code of each stage does not depend on the input links of the
    stages of the others (those that have one). *)
Definition linked {P} (h : heap P) (j : nat) : Prop := exists o p, nth_error h j = Some o /\ pred o = Some p.
Definition unseen {P} (gen : heap P -> nat -> bool -> String.string -> option String.string) (h : heap P)
    (idss : list (list nat)) : Prop :=
  forall a ids k, nth_error idss a = Some ids -> In k ids ->
  forall h1 h2, same_but (fun j => linked h j /\ exists b ids', b <> a /\ nth_error idss b = Some ids' /\ In j ids') h1 h2 ->
  forall single input, gen h1 k single input = gen h2 k single input.

(** How often thread [k] gets to make a step. *)
Definition turns (schedule : list nat) (k : nat) : nat := count_occ Nat.eq_dec schedule k.
