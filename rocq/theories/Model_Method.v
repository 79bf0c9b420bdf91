(** Converters as methods, /repo/src/convtools/base.py:67-76 and 115-123, and the
    construction of calls, 255-263, 607-618, 863-877, 1365-1390.  Definitions only. *)
From Coq Require Import String List ZArith NArith Bool Arith.
From Verif Require Import Model_Code Model_Eval Model_Converter.
Import ListNotations.

(** *** methods *)
Section Method.
  Context {V W X : Type}.
  Variable pr : prims V W X.
  Notation M := (@M V W X).

  (** A Python callable: positional and keyword arguments. *)
  Definition callable : Type := list V -> list (text * V) -> M V.

  (** _ConverterCallable.__get__ and _ConverterCallableMethod.__init__,
      base.py:67-68, 118-120: [self.instance_or_cls = instance or cls] *)
  Definition get (instance cls : V) : M V :=
    bind (prim (truth pr instance)) (fun b => ret (if b then instance else cls)).
  (** _ConverterCallableMethod.__call__, base.py:122-123 *)
  Definition method_call (converter : callable) (r : V) (args : list V) (kw : list (text * V)) : M V :=
    converter (r :: args) kw.

  (** Python's attribute lookup for [o.f] and [C.f], f found in the class C:
      type(f).__get__(f, o, C) and type(f).__get__(f, None, C) *)
  Definition call_on_instance (converter : callable) (o cls : V) (args : list V) (kw : list (text * V)) : M V :=
    bind (get o cls) (fun r => method_call converter r args kw).
  Definition call_on_class (converter : callable) (cls : V) (args : list V) (kw : list (text * V)) : M V :=
    bind (get (litv pr LNone) cls) (fun r => method_call converter r args kw).

  (** A call of [def f(p1, ..., pm, *, k1, ..., kn)]: None is a TypeError. *)
  Definition mem (x : text) (l : list text) : bool := existsb (teqb x) l.
  Definition bind_args (pos kwonly : list text) (args : list V) (kw : list (text * V)) : option (@env V) :=
    if Nat.ltb (length pos) (length args) then None
    else if negb (forallb (fun k => mem (fst k) (skipn (length args) pos ++ kwonly)) kw) then None
    else if negb (forallb (fun p => mem p (firstn (length args) pos ++ map fst kw)) (pos ++ kwonly)) then None
    else Some (combine pos args ++ kw).

  Variable type_error : X.
  (** The function gen_converter(method=True) or (class_method=True) compiles: the
      parameters [first], data_ and the input arguments [kwonly] other than self
      and cls (base.py:530-539), the body of Model_Converter.v. *)
  Definition compiled (code : list (text * px) * px) (first : text) (kwonly : list text) : callable :=
    fun args kw =>
      match bind_args [first; T "data_"] kwonly args kw with
      | Some E => run pr E (fst code) (snd code)
      | None => raise type_error
      end.
End Method.

(** *** calls *)
(** What Python's constructors make of keyword arguments: a conversion, or the
    TypeError "got multiple values for argument". *)
Inductive built : Type := Built (c : cv) | MultipleValues.

Definition has (n : string) (kw : list (text * cv)) : bool := existsb (fun k => teqb (fst k) (T n)) kw.
Definition value (n : string) (kw : list (text * cv)) : option cv :=
  option_map snd (find (fun k => teqb (fst k) (T n)) kw).
(** dict.pop *)
Definition drop (n : string) (kw : list (text * cv)) : list (text * cv) :=
  filter (fun k => negb (teqb (fst k) (T n))) kw.

(** Call.__init__ through the constructors it inherits, base.py:255-263, 869-877,
    1367-1372: "debug" and "_predefined_input" are options of the conversion and
    leave the keyword arguments.  [self]: the conversion that is called. *)
Definition call_init (self : option cv) (args : list cv) (kw : list (text * cv)) : cv :=
  let c := ccall self args (drop "_predefined_input" (drop "debug" kw)) in
  match value "_predefined_input" kw with
  | Some i => cpipe i c
  | None => c
  end.
(** conversion.call( *args, **kw), base.py:607-611 *)
Definition api_call (self : option cv) (args : list cv) (kw : list (text * cv)) : built :=
  if has "self" kw || has "_predefined_self" kw then MultipleValues
  else Built (call_init self args kw).
(** c.call_func(f, *args, **kw), base.py:1386-1389 *)
Definition api_call_func (f : nat) (args : list cv) (kw : list (text * cv)) : built :=
  if has "func" kw then MultipleValues else api_call (Some (CGlob f)) args kw.
(** conversion.call_method(name, *args, **kw), base.py:613-618 *)
Definition api_call_method (self : option cv) (name : text) (args : list cv) (kw : list (text * cv)) : built :=
  if has "self" kw || has "method_name" kw then MultipleValues
  else api_call (Some (cattr self [CLit (LStr name)])) args kw.
(** conversion.as_type(callable), base.py:620-621; [callable]: what ensure_conversion makes of it *)
Definition api_as_type (self callable : cv) : built := api_call (Some callable) [self] [].
