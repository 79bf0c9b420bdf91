(** Vocabulary for C60: what it means that existing conversions are as they were. *)
From Coq Require Import List ZArith.
From Verif Require Import Model_Code Model_Heap Spec_Heap Model_Derive.
Import ListNotations.

(** Every object and every dict that existed is as it was. *)
Definition unchanged (s s' : state) : Prop :=
  preserved (objs s) (objs s') /\
  forall d x, nth_error (dicts s) d = Some x -> nth_error (dicts s') d = Some x.

(** The conversion at [i] is, or has registered, the object at [d]. *)
Definition has_dependency (s : state) (i d : nat) : Prop :=
  exists o, nth_error (objs s) i = Some o /\ (d = i \/ In d (deps o)).
(** A converter made of the conversion at [i] asks for input argument [x]. *)
Definition asks_for (s : state) (i : nat) (x : text) : Prop :=
  exists d o, has_dependency s i d /\ nth_error (objs s) d = Some o /\ payload o = Argument x.

(** All references are to existing objects. *)
Definition closed (s : state) : Prop :=
  forall j o, nth_error (objs s) j = Some o -> forall d, In d (deps o) -> d < length (objs s).

(** [r] is a new conversion, with attributes [p] on top of the earlier stages [l]. *)
Definition new_conversion (s s' : state) (r : nat) (p : attrs) (l : list attrs) : Prop :=
  length (objs s) <= r /\ pipeline (objs s') r (p :: l).
