(** ensure_conversion, /repo/src/convtools/base.py:181-223: what any Python object
    passed where a conversion is expected stands for.  Definitions only. *)
From Coq Require Import List.
From Verif Require Import Model_Code Model_Api.
Import ListNotations.

(** The objects it tells apart: conversions, mutations (c.Mut), dicts by their
    items(), lists, tuples, sets (in the order of iteration), slices, and the rest:
    None, bool, int and str, which become constants in the code, and other objects,
    which are embedded by name (NaiveConversion, base.py:894-955). *)
Inductive pyobj : Type :=
| PConversion (c : cv)
| PMutation
| PDictionary (l : list (pyobj * pyobj))
| PListing (l : list pyobj)
| PTupling (l : list pyobj)
| PSetting (l : list pyobj)
| PSlice (start stop step : pyobj)
| PConstant (l : lit)
| PObject (g : nat).

(** With accept_mutations=False, as everywhere but in tap.  [None]: raises.  Dict, List, Tuple and Set run it on their parts
    (base.py:1643-1644, 1826-1829). *)
Fixpoint ensure_conversion (p : pyobj) {struct p} : option cv :=
  let each := fix each (l : list pyobj) : option (list item) :=
    match l with
    | [] => Some []
    | x :: r => match ensure_conversion x, each r with
                | Some c, Some cs => Some (Req c :: cs) | _, _ => None end
    end in
  match p with
  | PConversion c => Some c
  | PMutation => None
  | PDictionary l =>
      option_map dict ((fix each2 (l : list (pyobj * pyobj)) : option (list (item * item)) :=
        match l with
        | [] => Some []
        | (k, x) :: r =>
            match ensure_conversion k, ensure_conversion x, each2 r with
            | Some a, Some b, Some cs => Some ((Req a, Req b) :: cs) | _, _, _ => None end
        end) l)
  | PListing l => option_map (coll KList) (each l)
  | PTupling l => option_map (coll KTuple) (each l)
  | PSetting l => option_map (coll KSet) (each l)
  | PSlice a b c =>
      match ensure_conversion a, ensure_conversion b, ensure_conversion c with
      | Some a, Some b, Some c => Some (COp OSlice [a; b; c]) | _, _, _ => None end
  | PConstant l => Some (CLit l)
  | PObject g => Some (CGlob g)
  end.
