(** The function gen_converter compiles, /repo/src/convtools/base.py:554-592:
    the pipe chain of the conversion, one statement per stage.  The names of the
    parameters and the check of an explicit signature are in Model_Heap.v and
    Model_Args.v; clearing the labels after the call is in Model_Labels.v.
    Definitions only. *)
From Coq Require Import String List ZArith NArith Bool Arith.
From Verif Require Import Model_Code Model_Eval.
Import ListNotations.

(** base.py:554-558 and the reversed() of 564: the innermost input first. *)
Fixpoint stages (c : cv) : list cv :=
  match c with
  | CPipe a b => stages a ++ [b]
  | _ => [c]
  end.

Section Converter.
  Variable wordch : N -> bool.
  Variable srepr : text -> text.
  Variable gname : nat -> text.
  Variable pnum : list nat -> nat.
  Variable pname : text -> text.
  Variable hname : list nat -> text.
  Variable tname : text -> text.     (* gen_name("pipe", ctx, code_input) *)

  (** base.py:560-579: [name = code] for every stage but the last, and the
      expression returned.  While a stage is generated it has no predefined input
      (565-573). *)
  Fixpoint body (i : nat) (x : text) (l : list cv) : list (text * px) * px :=
    match l with
    | [] => ([], PName x)        (* the list of stages is never empty *)
    | c :: r =>
        let code := gen wordch srepr gname pnum pname hname false [i] c (PName x) in
        match r with
        | [] => ([], code)
        | _ => let '(ls, last) := body (S i) (tname x) r in ((tname x, code) :: ls, last)
        end
    end.
  (** the compiled function, base.py:581-592 *)
  Definition converter (c : cv) : list (text * px) * px := body 0 (T "data_") (stages c).

  Section Run.
    Context {V W X : Type}.
    Variable pr : prims V W X.
    Fixpoint run (E : @env V) (ls : list (text * px)) (last : px) : @M V W X V :=
      match ls with
      | [] => eval pr E last
      | (x, e) :: r => bind (eval pr E e) (fun v => run ((x, v) :: E) r last)
      end.
    (** converter(v, **args) *)
    Definition call_converter (c : cv) (args : list (text * V)) (v : V) : @M V W X V :=
      run ((T "data_", v) :: args) (fst (converter c)) (snd (converter c)).
  End Run.
End Converter.
