(** Model of the life cycle of labelled values in one compiled converter:
    /repo/src/convtools/base.py:70-87 (_ConverterCallable.__call__), 89-99
    (wrap_generator_clean_labels_on_exit), 501-513 (one label dict per
    gen_converter call, captured by add_label_ / get_by_label_).
    Definitions only.

    The compiled function and its inner generators are arbitrary: they are
    given by what they do to the label dict and what they produce
    ([call], [resume], [close]).  Line-cache population (base.py:80, 93) is modelled
    in Model_LineCache.v. *)
From Coq Require Import String List Bool Arith.
Import ListNotations.

(** The label dict; only emptiness and lookups are observable. *)
Definition labels (V : Type) := list (string * V).

(** What the compiled function does: base.py:73-77. *)
Inductive call_out (V E S : Type) : Type :=
| CValue (v : V)        (* returns something that is not a generator *)
| CGenerator (s : S)    (* returns a generator in state s *)
| CRaise (e : E).
Arguments CValue {V E S}.
Arguments CGenerator {V E S}.
Arguments CRaise {V E S}.

(** What resuming a generator once does. *)
Inductive gen_out (V E S : Type) : Type :=
| GYield (v : V) (s : S)
| GStop
| GRaise (e : E).
Arguments GYield {V E S}.
Arguments GStop {V E S}.
Arguments GRaise {V E S}.

(** next(g) / g.send(..), or g.throw(e). *)
Inductive how (E : Type) : Type := HNext | HThrow (e : E).
Arguments HNext {E}.
Arguments HThrow {E}.

Section Labels.
  Context {In V E S : Type}.
  Variable call : In -> labels V -> labels V * call_out V E S.
  Variable resume : how E -> S -> labels V -> labels V * gen_out V E S.
  (** closing a suspended inner generator (GeneratorExit) *)
  Variable close : S -> labels V -> labels V.

  (** State of the generator object handed to the user
      (wrap_generator_clean_labels_on_exit). *)
  Inductive wrapped : Type :=
  | Unstarted (s : S)
  | Suspended (s : S)
  | Finished           (* exhausted, raised, or closed after its first next() *)
  | Abandoned.         (* closed / thrown into before its first next(): its body never ran *)

  Record world : Type := mkW { store : labels V; gens : list wrapped }.
  Definition world0 : world := mkW [] [].

  Inductive op : Type :=
  | Call (x : In)
  | Next (i : nat)
  | Throw (i : nat) (e : E)
  | Close (i : nat).       (* g.close(), or g is garbage collected *)

  Inductive out : Type :=
  | OValue (v : V)
  | OGenerator             (* a new generator, numbered in order of creation *)
  | ORaise (e : E)
  | OYield (v : V)
  | OStop
  | ODone.                 (* close() returned *)

  (** base.py:82-87 / 95-99: for key in list(labels_): del labels_[key]. *)
  Definition clear_labels (l : labels V) : labels V := [].

  Fixpoint set_nth (i : nat) (g : wrapped) (l : list wrapped) : list wrapped :=
    match l, i with
    | [], _ => []
    | _ :: r, O => g :: r
    | x :: r, Datatypes.S j => x :: set_nth j g r
    end.

  (** Resuming the wrapper: yield from, except, finally, base.py:89-99. *)
  Definition resume_wrapped (h : how E) (i : nat) (s : S) (w : world) : world * out :=
    let '(l, o) := resume h s (store w) in
    match o with
    | GYield v s' => (mkW l (set_nth i (Suspended s') (gens w)), OYield v)
    | GStop => (mkW (clear_labels l) (set_nth i Finished (gens w)), OStop)
    | GRaise e => (mkW (clear_labels l) (set_nth i Finished (gens w)), ORaise e)
    end.

  Definition step (w : world) (o : op) : world * out :=
    match o with
    | Call x =>                                        (* base.py:70-87 *)
        let '(l, r) := call x (store w) in
        match r with
        | CGenerator s => (mkW l (gens w ++ [Unstarted s]), OGenerator)
        | CValue v => (mkW (clear_labels l) (gens w), OValue v)
        | CRaise e => (mkW (clear_labels l) (gens w), ORaise e)
        end
    | Next i =>
        match nth_error (gens w) i with
        | Some (Unstarted s) | Some (Suspended s) => resume_wrapped HNext i s w
        | _ => (w, OStop)
        end
    | Throw i e =>
        match nth_error (gens w) i with
        | Some (Suspended s) => resume_wrapped (HThrow e) i s w
        | Some (Unstarted s) => (mkW (store w) (set_nth i Abandoned (gens w)), ORaise e)
        | _ => (w, ORaise e)
        end
    | Close i =>
        match nth_error (gens w) i with
        | Some (Suspended s) =>
            (mkW (clear_labels (close s (store w))) (set_nth i Finished (gens w)), ODone)
        | Some (Unstarted s) => (mkW (store w) (set_nth i Abandoned (gens w)), ODone)
        | _ => (w, ODone)
        end
    end.

  Fixpoint run (w : world) (ops : list op) : world * list out :=
    match ops with
    | [] => (w, [])
    | o :: r => let '(w1, x) := step w o in
                let '(w2, xs) := run w1 r in (w2, x :: xs)
    end.
End Labels.
Arguments op : clear implicits.
Arguments out : clear implicits.
Arguments wrapped : clear implicits.
Arguments world : clear implicits.
