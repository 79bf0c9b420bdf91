(** Model of name generation and of embedding Python objects into the globals
    of the generated code: /repo/src/convtools/base.py:329-339 (_hash_item),
    362-388 (gen_name), 939-954 (NaiveConversion).  Definitions only. *)
From Coq Require Import String Ascii ZArith Bool List.
From Coq Require Import DecimalString.
Import ListNotations.
Local Open Scope string_scope.

(** str(hash): decimal notation of an int. *)
Definition str_of_Z (z : Z) : string := NilZero.string_of_int (Z.to_int z).

(** "{}_{}".format(prefix, str(hash)), base.py:372-374. *)
Definition prefixed_hash (prefix : string) (h : Z) : string :=
  prefix ++ "_" ++ str_of_Z h.

(** The two name tables kept in the compilation context, base.py:367-371. *)
Record names : Type := mkNames {
  hash_to_name : list (string * string);
  generated : list string
}.
Definition names0 : names := mkNames [] [].

Fixpoint sassoc {A} (d : list (string * A)) (k : string) : option A :=
  match d with
  | [] => None
  | (k', v) :: d' => if string_dec k k' then Some v else sassoc d' k
  end.
Definition smem (k : string) (l : list string) : bool :=
  if in_dec string_dec k l then true else false.

(** What [choice] returned in each of the rounds of one request: two symbols
    per round.  Quantified over everywhere. *)
Definition picks := nat -> ascii * ascii.
Definition pick_str (p : ascii * ascii) : string :=
  String "_" (String (fst p) (String (snd p) EmptyString)).

(** The loop base.py:378-388; [n] rounds left, [i] is the next round. *)
Fixpoint gen_rounds (n i : nat) (name : string) (taken : list string) (rnd : picks)
  : option string :=
  match n with
  | O => None                      (* AssertionError *)
  | S n' =>
      let name' := name ++ pick_str (rnd i) in
      if smem name' taken then gen_rounds n' (S i) name' taken rnd
      else Some name'
  end.

(** gen_name, base.py:364-388.  [None]: AssertionError (state unchanged). *)
Definition gen_name (st : names) (prefix : string) (h : Z) (rnd : picks)
  : names * option string :=
  let ph := prefixed_hash prefix h in
  match sassoc (hash_to_name st) ph with
  | Some name => (st, Some name)
  | None =>
      match gen_rounds 10 0 prefix (generated st) rnd with
      | Some name =>
          (mkNames ((ph, name) :: hash_to_name st) (name :: generated st), Some name)
      | None => (st, None)
      end
  end.

(** A history of name requests within one compilation. *)
Record request : Type := mkReq { r_prefix : string; r_hash : Z; r_rnd : picks }.

Fixpoint gen_names (reqs : list request) (st : names) : names * list (option string) :=
  match reqs with
  | [] => (st, [])
  | r :: rs =>
      let '(st1, n) := gen_name st (r_prefix r) (r_hash r) (r_rnd r) in
      let '(st2, ns) := gen_names rs st1 in
      (st2, n :: ns)
  end.

(** NaiveConversion._gen_code_and_update_ctx for a value that is not emitted
    literally (base.py:950-954): ask for a name, then ctx[name] = value. *)
Section Embed.
  Context {Obj : Type}.
  Variable prefix_of : Obj -> string.   (* name_prefix, base.py:918, 935-937 *)
  Variable hash_of : Obj -> Z.          (* _hash_item, base.py:329-339 *)

  Fixpoint embed (objs : list (Obj * picks)) (st : names) (globals : list (string * Obj))
    : list (string * Obj) * list (option string) :=
    match objs with
    | [] => (globals, [])
    | (o, rnd) :: r =>
        let '(st1, n) := gen_name st (prefix_of o) (hash_of o) rnd in
        let globals1 := match n with Some nm => (nm, o) :: globals | None => globals end in
        let '(g, ns) := embed r st1 globals1 in
        (g, n :: ns)
    end.
End Embed.

(** A few concrete Python objects, to exhibit real hashes.
    CPython: hash(int) is n reduced modulo 2^61-1 with the sign of n, and -1 is
    mapped to -2; a float with an integral value hashes like the int; a
    function hashes (in _hash_item) like its code object, which all closures
    made by one def share. *)
Inductive pyobj : Type :=
| PyFloat (integral : Z)
| PyClosure (name : string) (code : Z) (captured : Z).

Definition int_hash (z : Z) : Z :=
  let m := (Z.sgn z * (Z.abs z mod (2 ^ 61 - 1)))%Z in
  if Z.eqb m (-1) then (-2)%Z else m.

Definition pyobj_hash (o : pyobj) : Z :=
  match o with
  | PyFloat z => int_hash z
  | PyClosure _ code _ => code       (* hash(dis.Bytecode(item).codeobj) *)
  end.
Definition pyobj_prefix (o : pyobj) : string :=
  match o with
  | PyFloat _ => "v"
  | PyClosure name _ _ => name
  end.
