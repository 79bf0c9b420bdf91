(** What aggregations and joins register when they are built.
    /repo/src/convtools/aggregations.py:791-874 (Reduce.__init__, filter),
    947-951 (Reduce.depends_on), 969-1040 (GroupBy.__init__, aggregate, sort),
    /repo/src/convtools/joins.py:139-167, 365-383 (join).
    Definitions only. *)
From Coq Require Import String List ZArith NArith Bool Arith.
From Verif Require Import Model_Code Model_Heap Model_Args.
Import ListNotations.

(** Conversions with aggregations and joins inside.
    [GPlain]: a conversion without any (Model_Code.cv).
    [GParts]: a dict, list, call, operator ... conversion made of these parts.
    [GReduce id parts]: c.reduce(f, expr, ...).filter(condition); [parts] are expr,
    additional_args, initial, default and condition, those that were given.
    [GGroup by out sort]: c.group_by(by...).aggregate(out), then .sort(...) with the
    given key and reverse; c.aggregate(out) is the case [by = []]
    (aggregations.py:1280-1282).
    [GJoin l r condition]: c.join(l, r, condition), the condition without aggregations;
    [GPipe a b]: a.pipe(b). *)
Inductive gv : Type :=
| GPlain (c : cv)
| GParts (l : list gv)
| GReduce (id : nat) (parts : list gv)
| GGroup (by_ : list gv) (out : gv) (sort : option (list gv))
| GJoin (l r : gv) (condition : cv)
| GPipe (a b : gv).

Inductive outcome (A : Type) : Type :=
| Built (h : oheap) (a : A)
| Nested                       (* AssertionError("nested aggregation") *)
| Stopped.                     (* any other exception *)
Arguments Built {A}.
Arguments Nested {A}.
Arguments Stopped {A}.
Definition lift {A : Type} (r : res node A) : outcome A :=
  match r with Done h a => Built h a | _ => Stopped end.
Definition obind {A B : Type} (r : outcome A) (k : oheap -> A -> outcome B) : outcome B :=
  match r with Built h a => k h a | Nested => Nested | Stopped => Stopped end.
Definition oeach {X Y : Type} (f : X -> oheap -> outcome Y) :=
  fix oeach (l : list X) (h : oheap) : outcome (list Y) :=
    match l with
    | [] => Built h []
    | x :: r => obind (f x h) (fun h y => obind (oeach r h) (fun h ys => Built h (y :: ys)))
    end.

Definition is_reduce (h : oheap) (d : nat) : bool :=
  match nth_error h d with
  | Some o => match payload o with NReduce _ => true | _ => false end
  | None => false
  end.
(** Reduce.depends_on, aggregations.py:947-951, raises as soon as a Reduce depends
    on a Reduce.  Here: after a step that may have added dependencies to a Reduce,
    is there such an object?  (There was none before the step.) *)
Definition nested (h : oheap) : bool :=
  existsb (fun o => match payload o with
                    | NReduce _ => existsb (is_reduce h) (deps o)
                    | _ => false end) h.
Definition checked {A : Type} (h : oheap) (a : A) : outcome A := if nested h then Nested else Built h a.

(** condition.get_args(), base.py:404-413 without exclude_types: a dict from
    arg_name to the object, so the last object with a name stays; labels are
    InputArg objects too, with the label name as arg_name.  The order is left out. *)
Definition arg_key (h : oheap) (d : nat) : option (text + lname) :=
  match nth_error h d with
  | Some o => match payload o with
              | NArg x => Some (inl x)
              | NLabel (U x) => Some (inl x)
              | NLabel n => Some (inr n)
              | _ => None end
  | None => None
  end.
Definition key_eq_dec (a b : option (text + lname)) : {a = b} + {a <> b}.
Proof. decide equality. decide equality; [apply text_eq_dec|apply lname_eq_dec]. Defined.
Fixpoint arg_objects (h : oheap) (l : list nat) : list nat :=
  match l with
  | [] => []
  | d :: r =>
      match arg_key h d with
      | None => arg_objects h r
      | Some k =>
          if existsb (fun e => if key_eq_dec (arg_key h e) (Some k) then true else false) r
          then arg_objects h r else d :: arg_objects h r
      end
  end.

(** Simplifications: the condition given to Reduce.filter is built before the
    Reduce (filter only adds it to the same object); the objects without
    dependencies that join passes to CallFunc (the compiled function, the names
    of the arguments) are left out; prepare_reducer's refusal of a literal as
    output is not modelled. *)
Fixpoint gbuild (m : Z) (g : gv) (h : oheap) {struct g} : outcome nat :=
  match g with
  | GPlain c => lift (build m c h)
  | GParts l => obind (oeach (gbuild m) l h) (fun h is => lift (done h NOther is))
  | GReduce id parts =>
      obind (oeach (gbuild m) parts h) (fun h is =>
      obind (lift (done h (NReduce id) is)) (fun h i => checked h i))
  | GGroup by_ out sort =>
      obind (oeach (gbuild m) by_ h) (fun h is =>
      obind (lift (done h NOther is)) (fun h g =>
      obind (gbuild m out h) (fun h o =>
      obind (lift (clone m h g)) (fun h g' =>
      let h := ensure h g' [o] in
      match sort with
      | None => Built h g'
      | Some ks => obind (oeach (gbuild m) ks h) (fun h _ => lift (clone m h g'))
      end))))
  | GJoin l r condition =>
      obind (gbuild m l h) (fun h i =>
      obind (gbuild m r h) (fun h j =>
      obind (lift (build m condition h)) (fun h k =>
      let args := arg_objects h (get_dependencies h k) in
      obind (lift (done h NOther [i; j])) (fun h n => Built (ensure h n args) n))))
  | GPipe a b =>
      obind (gbuild m a h) (fun h i => obind (gbuild m b h) (fun h j =>
      obind (lift (pipe lname (fun _ _ => NOther) m h i j None None)) (fun h r => checked h r)))
  end.

(** self.agg_items of aggregate(out), aggregations.py:1004-1020: the Reduce objects
    among the dependencies of the output conversion *)
Definition agg_items (h : oheap) (out : nat) : list nat :=
  flat_map (fun j => match nth_error h j with
                     | Some o => match payload o with NReduce r => [r] | _ => [] end
                     | None => [] end) (get_dependencies h out).
