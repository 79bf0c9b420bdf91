(** What a pipeline is: the chain of objects reached through the input links,
    last stage first. *)
From Coq Require Import List.
From Verif Require Import Model_Heap.
Import ListNotations.

Inductive pipeline {P} (h : heap P) : nat -> list P -> Prop :=
| one_stage i o : nth_error h i = Some o -> pred o = None -> pipeline h i [payload o]
| more_stages i o p l : nth_error h i = Some o -> pred o = Some p -> pipeline h p l ->
    pipeline h i (payload o :: l).

(** Every object that existed in [h] is in [h'] with the same attributes. *)
Definition preserved {P} (h h' : heap P) : Prop :=
  forall i o, nth_error h i = Some o -> nth_error h' i = Some o.
