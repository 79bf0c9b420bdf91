(** Model of conversion objects as heap cells and of the operations that link
    them into pipelines: /repo/src/convtools/base.py:255-263 (__init__),
    278-281 (depends_on), 283-293 (get_dependencies), 341-345 (_clone),
    347-360 (clone), 474-592 (gen_converter: the stage loop), 735-750
    (set_predefined_input), 787-856 (pipe).  Definitions only. *)
From Coq Require Import String List ZArith Bool.
Import ListNotations.
Local Open Scope Z_scope.

Section Heap.
  (** Everything in a conversion object except the two attributes below: its
      class and constructor arguments. *)
  Context {P : Type}.

  (** A conversion object; objects are referred to by their address in the heap. *)
  Record obj : Type := mkObj {
    pred : option nat;      (* _predefined_input *)
    deps : list nat;        (* _depends_on *)
    payload : P
  }.
  Definition heap := list obj.

  Fixpoint update (h : heap) (i : nat) (f : obj -> obj) : heap :=
    match h, i with
    | [], _ => []
    | o :: r, O => f o :: r
    | o :: r, S j => o :: update r j f
    end.
  Definition set_pred (p : option nat) (o : obj) : obj := mkObj p (deps o) (payload o).
  Definition add_deps (d : list nat) (o : obj) : obj := mkObj (pred o) (deps o ++ d) (payload o).

  (** Outcome of an operation; the heap is part of the outcome in both cases. *)
  Inductive res (A : Type) : Type :=
  | Done (h : heap) (a : A)
  | ConversionException (h : heap)
  | Dangling.              (* an address that does not exist: impossible in Python *)
  Arguments Done {A}.
  Arguments ConversionException {A}.
  Arguments Dangling {A}.

  (** list(conv.get_dependencies()), base.py:283-293 *)
  Definition get_dependencies (h : heap) (i : nat) : list nat :=
    match nth_error h i with Some o => deps o ++ [i] | None => [] end.
  (** base.py:278-281 *)
  Definition depends_on (h : heap) (i arg : nat) : heap :=
    update h i (add_deps (get_dependencies h arg)).

  (** _clone, base.py:341-345: a new object with the same attributes
      (_number is not modelled). *)
  Definition clone1 (h : heap) (i : nat) : option (heap * nat) :=
    match nth_error h i with
    | Some o => Some (h ++ [o], length h)
    | None => None
    end.

  (** the loop of clone, base.py:350-359; [n] iterations left, for-else raises *)
  Fixpoint clone_loop (n : nat) (h : heap) (conv : nat) : res unit :=
    match n with
    | O => ConversionException h
    | S n' =>
        match nth_error h conv with
        | None => Dangling
        | Some o =>
            match pred o with
            | None => Done h tt
            | Some p =>
                match clone1 h p with
                | None => Dangling
                | Some (h1, p') => clone_loop n' (update h1 conv (set_pred (Some p'))) p'
                end
            end
        end
    end.
  (** range(k) iterates max(k, 0) times: Z.to_nat. *)
  Definition clone (max_pipe_length : Z) (h : heap) (i : nat) : res nat :=
    match clone1 h i with
    | None => Dangling
    | Some (h1, i') =>
        match clone_loop (Z.to_nat max_pipe_length) h1 i' with
        | Done h2 _ => Done h2 i'
        | ConversionException h2 => ConversionException h2
        | Dangling => Dangling
        end
    end.

  (** the loop of set_predefined_input, base.py:738-749 *)
  Fixpoint set_input_loop (n : nat) (h : heap) (conv input : nat) : res unit :=
    match n with
    | O => ConversionException h
    | S n' =>
        match nth_error h conv with
        | None => Dangling
        | Some o =>
            match pred o with
            | None => Done (update (depends_on h conv input) conv (set_pred (Some input))) tt
            | Some p => set_input_loop n' (depends_on h conv input) p input
            end
        end
    end.
  Definition set_predefined_input (max_pipe_length : Z) (h : heap) (i input : nat) : res nat :=
    match set_input_loop (Z.to_nat (max_pipe_length - 1)) h i input with
    | Done h' _ => Done h' i
    | ConversionException h' => ConversionException h'
    | Dangling => Dangling
    end.

  (** CachingConversion(conv) followed by add_label for each label,
      base.py:972-1011: a new object that refers to [conv].
      [caching conv labels] is its payload; each label's conversion is an
      existing object. *)
  Variable Label : Type.
  Variable caching : nat -> list (Label * nat) -> P.
  Definition wrap_labels (h : heap) (conv : nat) (labels : list (Label * nat)) : heap * nat :=
    (h ++ [mkObj None (get_dependencies h conv ++ flat_map (fun l => get_dependencies h (snd l)) labels)
                 (caching conv labels)], length h).

  (** pipe to a conversion that is not a Python callable, base.py:824-856.
      [None]: no label_input / label_output given. *)
  Definition pipe (max_pipe_length : Z) (h : heap) (self next : nat)
             (label_input label_output : option (list (Label * nat))) : res nat :=
    match clone max_pipe_length h self with
    | ConversionException h1 => ConversionException h1
    | Dangling => Dangling
    | Done h1 s =>
        let '(h2, s2) := match label_input with
                         | None => (h1, s) | Some ls => wrap_labels h1 s ls end in
        match clone max_pipe_length h2 next with
        | ConversionException h3 => ConversionException h3
        | Dangling => Dangling
        | Done h3 n =>
            let '(h4, n2) := match label_output with
                             | None => (h3, n) | Some ls => wrap_labels h3 n ls end in
            set_predefined_input max_pipe_length h4 n2 s2
        end
    end.

  (** gen_converter, base.py:548-578: collecting the stages ... *)
  Fixpoint stages (fuel : nat) (h : heap) (i : nat) : list nat :=
    match fuel with
    | O => []
    | S n => match nth_error h i with
             | None => []
             | Some o => i :: match pred o with None => [] | Some p => stages n h p end
             end
    end.

  (** ... and generating code for each, first stage first.  [gen] stands for
      gen_code_and_update_ctx of one stage (it may look at any object of the
      heap; None: it raises); it is told whether the whole conversion is a single
      stage (options.expressions_only) and gets the code of its input. *)
  Variable gen : heap -> nat -> bool -> string -> option string.
  Variable pipe_name : string -> string.   (* self.gen_name("pipe", ctx, code_input) *)

  Inductive compiled : Type :=
  | Code (h : heap) (lines : list string)
  | GenError (h : heap).

  Fixpoint gen_stages (h : heap) (todo : list nat) (single : bool) (code_input : string)
           (lines : list string) : compiled :=
    match todo with
    | [] => Code h lines
    | i :: rest =>
        let saved := match nth_error h i with Some o => pred o | None => None end in
        let h1 := update h i (set_pred None) in
        match gen h1 i single code_input with
        | None => GenError h1
        | Some code =>
            let h2 := update h1 i (set_pred saved) in
            gen_stages h2 rest single (pipe_name code_input) (lines ++ [code])
        end
    end.
  Definition gen_converter (h : heap) (i : nat) : compiled :=
    let ids := stages (length h) h i in
    gen_stages h (rev ids) (Nat.eqb (length ids) 1) "data_" [].
End Heap.
Arguments obj : clear implicits.
Arguments heap : clear implicits.
Arguments res : clear implicits.
Arguments Done {P A}.
Arguments ConversionException {P A}.
Arguments Dangling {P A}.
Arguments compiled : clear implicits.
