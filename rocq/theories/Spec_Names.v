(** Specification vocabulary for generated names. *)
From Coq Require Import String Ascii ZArith Bool List.
From Verif Require Import Model_Names.
Import ListNotations.
Local Open Scope string_scope.

(** Every one of the [n] candidates built from [name] by appending the random
    pairs of rounds i, i+1, ... is already in use. *)
Fixpoint all_taken (n i : nat) (name : string) (taken : list string) (rnd : picks) : Prop :=
  match n with
  | O => True
  | S n' => In (name ++ pick_str (rnd i)) taken /\
            all_taken n' (S i) (name ++ pick_str (rnd i)) taken rnd
  end.

Section Keys.
  Context {Obj : Type}.
  Variable prefix_of : Obj -> string.
  Variable hash_of : Obj -> Z.

  (** Two objects that the generator cannot tell apart. *)
  Definition same_key (a b : Obj) : bool :=
    if string_dec (prefix_of a) (prefix_of b) then Z.eqb (hash_of a) (hash_of b) else false.

  (** the last object of the list with the same key as [o] (default [o]) *)
  Fixpoint last_same (o : Obj) (l : list (Obj * picks)) (acc : Obj) : Obj :=
    match l with
    | [] => acc
    | (x, _) :: l' => last_same o l' (if same_key o x then x else acc)
    end.

End Keys.
