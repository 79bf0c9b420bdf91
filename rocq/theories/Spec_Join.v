(** Vocabulary for the join properties (C37-C42). *)
From Coq Require Import String List ZArith Bool.
From Verif Require Import Model_PyVal Model_Join.
Import ListNotations.
Open Scope string_scope.
Open Scope list_scope.

Section S.
  Variable op : string -> list val -> res val.
  Variable inputs : string -> val.

  (** The condition holds for the pair (x, y): evaluated with c.LEFT = x,
      c.RIGHT = y, it gives a truth value.  [None] is the condition True. *)
  Definition holds (cond : option jx) (x y : robj) : bool :=
    match cond with
    | None => true
    | Some e => match ev op (on_pair inputs x y) e with Ok v => truthy v | Err _ => false end
    end.

  Definition matching (cond : option jx) (x : robj) (right : list robj) : list robj :=
    filter (holds cond x) right.

  Definition spec_inner (cond : option jx) (left right : list robj) : list (robj * robj) :=
    flat_map (fun x => map (fun y => (x, y)) (matching cond x right)) left.
  Definition spec_left (cond : option jx) (left right : list robj) : list (robj * robj) :=
    flat_map (fun x => match matching cond x right with
                       | [] => [(x, none_obj)]
                       | ys => map (fun y => (x, y)) ys
                       end) left.
  Definition spec_right (cond : option jx) (left right : list robj) : list (robj * robj) :=
    flat_map (fun y => match filter (fun x => holds cond x y) left with
                       | [] => [(none_obj, y)]
                       | xs => map (fun x => (x, y)) xs
                       end) right.
  Definition spec_outer (cond : option jx) (left right : list robj) : list (robj * robj) :=
    spec_left cond left right ++
    map (fun y => (none_obj, y)) (filter (fun y => negb (existsb (fun x => holds cond x y) left)) right).
End S.

(** c.LEFT / c.RIGHT do not occur in the second part of a pipe. *)
Fixpoint no_names (e : jx) : bool :=
  match e with
  | JLeft | JRight => false
  | JArg _ | JConst _ | JThis => true
  | JItem o k => no_names o && no_names k
  | JEq l | JAnd l | JOr l | JOp _ l => forallb no_names l
  | JPipe a b => no_names a && no_names b
  end.
(** [closed]: no c.this() outside the second part of a pipe, and no
    c.LEFT / c.RIGHT inside one. *)
Fixpoint closed (e : jx) : bool :=
  match e with
  | JLeft | JRight | JArg _ | JConst _ => true
  | JThis => false
  | JItem o k => closed o && closed k
  | JEq l | JAnd l | JOr l | JOp _ l => forallb closed l
  | JPipe a b => closed a && no_names b
  end.
(** The and/eq structure the join looks at is not the second part of a pipe. *)
Fixpoint unpiped (e : jx) : bool :=
  match e with
  | JAnd l => forallb unpiped l
  | JPipe _ b => (fix plain b := match b with JEq _ | JAnd _ => false | JPipe _ b' => plain b' | _ => true end) b
  | _ => true
  end.
Definition proper (cond : option jx) : Prop :=
  match cond with None => True | Some e => closed e = true /\ unpiped e = true end.

(** The condition has a part "f(left) == g(right)" (among its and-parts). *)
Definition two_sided (a b : jx) : bool :=
  (dep_left a && negb (dep_right a) && dep_right b && negb (dep_left b)) ||
  (dep_right a && negb (dep_left a) && dep_left b && negb (dep_right b)).
Fixpoint parts (e : jx) : list jx := match e with JAnd l => flat_map parts l | _ => [e] end.
Definition cond_parts (cond : option jx) : list jx := match cond with None => [] | Some e => parts e end.
Definition is_key (e : jx) : bool := match e with JEq [a; b] => two_sided a b | _ => false end.
Definition only_right (e : jx) : bool := dep_right e && negb (dep_left e).
Definition only_left (e : jx) : bool := dep_left e && negb (dep_right e).
Definition input_only (e : jx) : bool := negb (dep_left e) && negb (dep_right e).
Definition has_key (cond : option jx) : bool := existsb is_key (cond_parts cond).

(** All parts of the condition can be evaluated wherever they are needed, and
    key values are hashable. *)
Definition evaluable (op : string -> list val -> res val) (inputs : string -> val)
    (cond : option jx) (left right : list robj) : Prop :=
  forall p, In p (cond_parts cond) ->
  match p with
  | JEq [a; b] =>
      if two_sided a b then
        forall q x y, q = a \/ q = b -> (dep_left q = true -> In x left) -> (dep_right q = true -> In y right) ->
          exists v, ev op (on_pair inputs x y) q = Ok v /\ hashable v = true
      else
        forall x y, (dep_left p = true -> In x left) -> (dep_right p = true -> In y right) ->
          exists v, ev op (on_pair inputs x y) p = Ok v
  | _ => forall x y, (dep_left p = true -> In x left) -> (dep_right p = true -> In y right) ->
          exists v, ev op (on_pair inputs x y) p = Ok v
  end.

(** The parts of the condition that mention neither row are true. *)
Definition input_parts_hold (op : string -> list val -> res val) (inputs : string -> val) (cond : option jx) : Prop :=
  forall p, In p (cond_parts cond) -> input_only p = true -> forall x y, holds op inputs (Some p) x y = true.
(** The other collection can be compared with every row of [rows]: it is a
    list, or it is indexed by a key, or there is one row only. *)
Definition rescans (cond : option jx) (k : kind) (filtered : jx -> bool) (rows : list robj) : Prop :=
  has_key cond = true \/
  (k = Reiterable /\ forall p, In p (cond_parts cond) -> filtered p = false) \/
  length rows <= 1.
(** Both sides of every key are the same expression of their row. *)
Definition mirrored (op : string -> list val -> res val) (inputs : string -> val) (cond : option jx) : Prop :=
  forall a b, In (JEq [a; b]) (cond_parts cond) -> two_sided a b = true ->
    forall r, ev op (on_row inputs r) a = ev op (on_row inputs r) b.

(** Objects: same identity, same object; None is one object. *)
Definition objects (l : list robj) : Prop :=
  (forall x y, In x l -> In y l -> rid x = rid y -> x = y) /\
  (forall x, In x l -> (rval x = VNone <-> rid x = 0)).

(** The same condition with every two-sided equality written in a form the join
    cannot look into: the function "opaque_eq" applied to both sides. *)
Fixpoint opaque (e : jx) : jx :=
  match e with
  | JAnd l => JAnd (map opaque l)
  | JEq [a; b] => JOp "opaque_eq" [a; b]
  | _ => e
  end.
