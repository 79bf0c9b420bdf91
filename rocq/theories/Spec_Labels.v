(** Vocabulary for C21: which operations concern one given generator, and
    what it answered to them. *)
From Coq Require Import List Arith.
From Verif Require Import Model_Labels.
Import ListNotations.

Section Spec.
  Context {In V E : Type}.

  (** does the operation act on generator number i? *)
  Definition targets (i : nat) (o : op In E) : bool :=
    match o with Call _ => false | Next j | Throw j _ | Close j => Nat.eqb i j end.

  (** outputs of the ops on generator i *)
  Fixpoint project (i : nat) (ops : list (op In E)) (xs : list (out V E)) : list (out V E) :=
    match ops, xs with
    | o :: r, x :: xr => if targets i o then x :: project i r xr else project i r xr
    | _, _ => []
    end.

  (** the same operation, addressed to generator number j *)
  Definition retarget (j : nat) (o : op In E) : op In E :=
    match o with Call x => Call x | Next _ => Next j | Throw _ e => Throw j e | Close _ => Close j end.
End Spec.
