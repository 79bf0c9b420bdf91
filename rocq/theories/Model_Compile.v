(** gen_converter as a sequence of atomic steps, so that several threads can
    compile at the same time: /repo/src/convtools/base.py:554-579.  Reads and
    writes of the attribute _predefined_input are single steps; everything else
    in the loop is local to the thread (ctx, labels_, the lines).  Definitions
    only.

    Simplification: generating the code of one stage ([gen]) looks at the
    objects at one moment. *)
From Coq Require Import String List Bool Arith.
From Verif Require Import Model_Heap.
Import ListNotations.

Section Compile.
  Context {P : Type}.
  Variable gen : heap P -> nat -> bool -> string -> option string.   (* as in Model_Heap.v *)
  Variable pipe_name : string -> string.

  (** Where a thread is in gen_converter. *)
  Inductive thread : Type :=
  | Collecting (conv : nat) (pipes : list nat)      (* :554-558; [pipes] without [conv], last first *)
  | Reading (single : bool) (todo : list nat) (input : string) (lines : list string)      (* before :565 *)
  | Clearing (saved : option nat) (single : bool) (stage : nat) (todo : list nat) (input : string) (lines : list string)
                                                                                          (* before :566 *)
  | Generating (saved : option nat) (single : bool) (stage : nat) (todo : list nat) (input : string) (lines : list string)
                                                                                          (* before :567 *)
  | Restoring (saved : option nat) (single : bool) (stage : nat) (todo : list nat) (input : string) (lines : list string)
                                                                                          (* before :573 *)
  | Compiled (lines : list string)
  | Raised.

  Definition input_of (h : heap P) (i : nat) : option nat :=
    match nth_error h i with Some o => pred o | None => None end.

  Definition step (h : heap P) (t : thread) : heap P * thread :=
    match t with
    | Collecting conv pipes =>
        (h, match input_of h conv with
            | Some p => Collecting p (conv :: pipes)
            | None => Reading (Nat.eqb (length (conv :: pipes)) 1) (conv :: pipes) "data_" []
            end)
    | Reading _ [] _ lines => (h, Compiled lines)
    | Reading single (i :: todo) input lines => (h, Clearing (input_of h i) single i todo input lines)
    | Clearing saved single i todo input lines =>
        (update h i (set_pred None), Generating saved single i todo input lines)
    | Generating saved single i todo input lines =>
        (h, match gen h i single input with
            | None => Raised
            | Some code => Restoring saved single i todo (pipe_name input) (lines ++ [code])
            end)
    | Restoring saved single i todo input lines =>
        (update h i (set_pred saved), Reading single todo input lines)
    | Compiled _ | Raised => (h, t)
    end.

  (** conversion.gen_converter() is called *)
  Definition called (i : nat) : thread := Collecting i [].

  (** One thread, alone, until it is done. *)
  Fixpoint alone (n : nat) (h : heap P) (t : thread) : heap P * thread :=
    match n with
    | O => (h, t)
    | S m => let '(h', t') := step h t in alone m h' t'
    end.

  (** Several threads; the schedule says which one makes the next step. *)
  Fixpoint put (l : list thread) (k : nat) (t : thread) : list thread :=
    match l, k with
    | [], _ => []
    | _ :: r, O => t :: r
    | x :: r, S j => x :: put r j t
    end.
  Fixpoint interleave (schedule : list nat) (h : heap P) (ts : list thread) : heap P * list thread :=
    match schedule with
    | [] => (h, ts)
    | k :: r =>
        match nth_error ts k with
        | None => interleave r h ts
        | Some t => let '(h', t') := step h t in interleave r h' (put ts k t')
        end
    end.
End Compile.
