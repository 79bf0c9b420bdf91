(** The part of Python's object model the reducers and joins rely on.
    This is not code of convtools: it states what the generated
    code's `==`, `+`, `<`, truth test, dict/set operations do on built-in
    values (language reference, sections 3.1, 3.2 and 6.10).
    Left out: floats, bytes, user-defined __eq__/__hash__/__add__/__lt__
    (an [VObj] is an object with identity equality and no arithmetic). *)
From Coq Require Import String List ZArith Bool Ascii.
Import ListNotations.

Inductive exc : Type :=
| TypeError | KeyError | IndexError | AttributeError | NameError | ZeroDivisionError
| ValueError | UserError (n : nat).

Inductive res (A : Type) : Type := Ok (a : A) | Err (e : exc).
Arguments Ok {A}.
Arguments Err {A}.
Definition bind {A B} (x : res A) (f : A -> res B) : res B :=
  match x with Ok a => f a | Err e => Err e end.
Notation "'do' x <- a ; b" := (bind a (fun x => b)) (at level 200, x name, a at level 100, b at level 200).

Inductive val : Type :=
| VNone
| VBool (b : bool)
| VInt (z : Z)
| VStr (s : string)
| VTuple (l : list val)
| VList (l : list val)
| VSet (l : list val)              (* elements pairwise different *)
| VDict (l : list (val * val))     (* insertion order, keys pairwise different *)
| VObj (id : nat).                 (* any other object; equal only to itself *)

Definition is_none (v : val) : bool := match v with VNone => true | _ => false end.

(** bool is a subclass of int. *)
Definition as_int (v : val) : option Z :=
  match v with
  | VBool b => Some (if b then 1%Z else 0%Z)
  | VInt z => Some z
  | _ => None
  end.

(** a == b *)
Fixpoint py_eq (a b : val) {struct a} : bool :=
  match a, b with
  | VNone, VNone => true
  | VBool _, VBool _ | VBool _, VInt _ | VInt _, VBool _ | VInt _, VInt _ =>
      match as_int a, as_int b with Some x, Some y => Z.eqb x y | _, _ => false end
  | VStr s, VStr t => String.eqb s t
  | VTuple l, VTuple m | VList l, VList m =>
      (fix eql (l m : list val) : bool :=
         match l, m with
         | [], [] => true
         | x :: l', y :: m' => py_eq x y && eql l' m'
         | _, _ => false
         end) l m
  | VSet l, VSet m =>
      Nat.eqb (length l) (length m) && forallb (fun x => existsb (py_eq x) m) l
  | VDict l, VDict m =>
      Nat.eqb (length l) (length m) &&
      forallb (fun kv => existsb (fun kv' => py_eq (fst kv) (fst kv') && py_eq (snd kv) (snd kv')) m) l
  | VObj i, VObj j => Nat.eqb i j
  | _, _ => false
  end.

(** Can it be a dict key / set element? *)
Fixpoint hashable (v : val) : bool :=
  match v with
  | VTuple l => forallb hashable l
  | VList _ | VSet _ | VDict _ => false
  | _ => true
  end.

Definition truthy (v : val) : bool :=
  match v with
  | VNone => false
  | VBool b => b
  | VInt z => negb (Z.eqb z 0)
  | VStr s => negb (String.eqb s "")
  | VTuple l | VList l | VSet l => match l with [] => false | _ => true end
  | VDict l => match l with [] => false | _ => true end
  | VObj _ => true
  end.

(** a or b *)
Definition py_or (a b : val) : val := if truthy a then a else b.

(** a + b *)
Definition py_add (a b : val) : res val :=
  match as_int a, as_int b with
  | Some x, Some y => Ok (VInt (x + y))
  | _, _ =>
      match a, b with
      | VStr s, VStr t => Ok (VStr (s ++ t))
      | VTuple l, VTuple m => Ok (VTuple (l ++ m))
      | VList l, VList m => Ok (VList (l ++ m))
      | _, _ => Err TypeError
      end
  end.

(** a < b  (b > a is the same question) *)
Fixpoint str_lt (s t : string) : bool :=
  match s, t with
  | _, EmptyString => false
  | EmptyString, String _ _ => true
  | String c s', String d t' =>
      if Ascii.eqb c d then str_lt s' t' else N.ltb (N_of_ascii c) (N_of_ascii d)
  end.
Fixpoint py_lt (a b : val) {struct a} : res bool :=
  match a, b with
  | VBool _, VBool _ | VBool _, VInt _ | VInt _, VBool _ | VInt _, VInt _ =>
      match as_int a, as_int b with Some x, Some y => Ok (Z.ltb x y) | _, _ => Err TypeError end
  | VStr s, VStr t => Ok (str_lt s t)
  | VTuple l, VTuple m | VList l, VList m =>
      (fix ltl (l m : list val) : res bool :=
         match l, m with
         | _, [] => Ok false
         | [], _ :: _ => Ok true
         | x :: l', y :: m' => if py_eq x y then ltl l' m' else py_lt x y
         end) l m
  | _, _ => Err TypeError
  end.

(** Dicts: insertion-ordered; assignment to a present key keeps the old key
    object.  [V] is the type of the values stored. *)
Section Dict.
  Context {V : Type}.
  Fixpoint dfind (d : list (val * V)) (k : val) : option V :=
    match d with
    | [] => None
    | (k', v) :: r => if py_eq k' k then Some v else dfind r k
    end.
  Fixpoint dput (d : list (val * V)) (k : val) (v : V) : list (val * V) :=
    match d with
    | [] => [(k, v)]
    | (k', v') :: r => if py_eq k' k then (k', v) :: r else (k', v') :: dput r k v
    end.
End Dict.
Definition vmem (l : list val) (x : val) : bool := existsb (fun y => py_eq y x) l.
Definition vadd (l : list val) (x : val) : list val := if vmem l x then l else l ++ [x].

(** TypeError: unhashable type *)
Definition need_hash (v : val) : res val := if hashable v then Ok v else Err TypeError.

(** l[i], negative indices count from the end *)
Definition nth_item {B} (l : list B) (i : Z) : res B :=
  let j := if Z.ltb i 0 then (i + Z.of_nat (length l))%Z else i in
  if Z.ltb j 0 then Err IndexError
  else match nth_error l (Z.to_nat j) with Some v => Ok v | None => Err IndexError end.
(** v[k], slices left out *)
Definition py_getitem (v k : val) : res val :=
  match v with
  | VDict d => do k' <- need_hash k; match dfind d k' with Some x => Ok x | None => Err KeyError end
  | VTuple l | VList l => match as_int k with Some i => nth_item l i | None => Err TypeError end
  | VStr s =>
      match as_int k with
      | Some i => do c <- nth_item (list_ascii_of_string s) i; Ok (VStr (String c EmptyString))
      | None => Err TypeError
      end
  | _ => Err TypeError
  end.
(** k in v *)
Definition py_in (k v : val) : res bool :=
  match v with
  | VDict d => do k' <- need_hash k; Ok (match dfind d k' with Some _ => true | None => false end)
  | VSet l => do k' <- need_hash k; Ok (vmem l k')
  | VTuple l | VList l => Ok (vmem l k)
  | VStr s => match k with
              | VStr t => Ok (match String.index 0 t s with Some _ => true | None => false end)
              | _ => Err TypeError
              end
  | _ => Err TypeError
  end.
