(** The construction of mutations, /repo/src/convtools/mutations.py:8-24, 53-65, 71-85, and of tap,
    /repo/src/convtools/base.py:777-785, 1884-1890.  Definitions only. *)
From Coq Require Import List.
From Verif Require Import Model_Code Model_Api Model_Ensure.
Import ListNotations.

(** What may be passed to tap: c.Mut.set_item(name, value), set_attr(name, value), del_item(index),
    del_attr(index), custom(conversion), and anything that is no mutation ([GOther PMutation] is not
    meant: mutations are the other five). *)
Inductive given_mutation : Type :=
| GSetItem (name value : pyobj) | GSetAttr (name value : pyobj)
| GDelItem (index : pyobj) | GDelAttr (index : pyobj)
| GCustom (conversion : pyobj)
| GOther (p : pyobj).
(** BaseNameValueMutation.__init__ 8-18, BaseIndexMutation.__init__ 22-24, Custom.__init__ 57-65;
    ensure_conversion(mut, accept_mutations=True), base.py:1887-1890: what is no mutation is made
    a conversion, and its code is a line of the function (base.py:1898-1903) as that of Custom is.
    [None]: raises. *)
Definition make_mutation (g : given_mutation) : option (mkind * list cv) :=
  let two k a b := match ensure_conversion a, ensure_conversion b with
                   | Some a, Some b => Some (k, [a; b]) | _, _ => None end in
  let one k a := option_map (fun a => (k, [a])) (ensure_conversion a) in
  match g with
  | GSetItem n v => two MSetItem n v
  | GSetAttr n v => two MSetAttr n v
  | GDelItem i => one MDelItem i
  | GDelAttr i => one MDelAttr i
  | GCustom c => one MCustom c
  | GOther p => one MCustom p
  end.
Fixpoint make_mutations (l : list given_mutation) : option (list (mkind * list cv)) :=
  match l with
  | [] => Some []
  | g :: r => match make_mutation g, make_mutations r with Some m, Some ms => Some (m :: ms) | _, _ => None end
  end.
(** conversion.tap( *mutations) *)
Definition api_tap (self : cv) (l : list given_mutation) : option cv := option_map (CTap self) (make_mutations l).
