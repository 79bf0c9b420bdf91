(** Calls of a compiled converter, /repo/src/convtools/base.py:537-548 (its parameters), and
    execute, 594-596.  Definitions only. *)
From Coq Require Import String List ZArith NArith Bool.
From Verif Require Import Model_Code Model_Eval Model_Converter Model_Heap Model_Args Model_Method.
Import ListNotations.

Section Execute.
  Context {V W X : Type}.
  Variable pr : prims V W X.
  Variable type_error : X.
  Variables (wordch : N -> bool) (srepr : text -> text) (gname : nat -> text) (pnum : list nat -> nat)
            (pname : text -> text) (hname : list nat -> text) (tname : text -> text).

  (** The keyword-only parameters, base.py:542-546 and 415-435 (the text of the signature
      is signature_code of Model_Args.v, C13). *)
  Definition keyword_parameters (h : oheap) (i : nat) : list text :=
    filter (fun a => negb (teqb a (T "self") || teqb a (T "cls"))) (get_args h i).
  (** gen_converter() without method, class_method and signature, for the conversion [c] that
      is the object [i] of [h]: def converter(data_, *, ...), called by Python. *)
  Definition gen_converter (h : oheap) (i : nat) (c : cv) : @callable V W X :=
    fun args kw =>
      match bind_args [T "data_"] (keyword_parameters h i) args kw with
      | Some E => let code := converter wordch srepr gname pnum pname hname tname c in run pr E (fst code) (snd code)
      | None => raise type_error
      end.
  (** execute( *args, debug=False, **kwargs), base.py:594-596: debug is taken by execute itself.
      Simplified: debug output is left out. *)
  Definition execute (h : oheap) (i : nat) (c : cv) : @callable V W X :=
    fun args kw => gen_converter h i c args (filter (fun k => negb (teqb (fst k) (T "debug"))) kw).
End Execute.
