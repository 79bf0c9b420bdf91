(** What Python makes of the source text of a class with slots and a constructor: reading
    it, and making an instance.  Lines, indentation and simple statements as in
    Spec_FuncText.v.  Independent of the model of convtools.

    Accepts less than Python does. *)
From Coq Require Import String Ascii List NArith ZArith Bool Arith.
From Verif Require Import Model_PyVal Model_Code Spec_Syntax Spec_Stmt Spec_FuncText Spec_FuncRun.
Import ListNotations.

(** [class cls:], [__slots__ = [...]], [def __init__(self):] and the lines of its body, at
    least one *)
Definition defines_class (t : text) (cls : text) (slots : list text) (body : list simple_stmt) : Prop :=
  exists l1 e l2 rest,
    lines t = (T "class " ++ cls ++ T ":") :: l1 :: l2 :: rest /\ ident cls = true /\
    indented 1 l1 (T "__slots__ = " ++ e) /\ reads e (AList (map AStr slots)) /\
    indented 1 l2 (T "def __init__(self):") /\
    Forall2 (fun l s => exists u, indented 2 l u /\ simple_line u s) rest body /\ body <> [].

Section Construct.
  (** the objects of the module of the class *)
  Variable globals : text -> option rv.
  Variable slots : list text.
  Definition has_slot (x : text) : bool := existsb (same_text x) slots.
  Fixpoint put (fields : list (text * rv)) (x : text) (v : rv) : list (text * rv) :=
    match fields with
    | [] => [(x, v)]
    | (y, w) :: r => if same_text x y then (y, v) :: r else (y, w) :: put r x v
    end.
  (** the attributes of [self] after the statements [self.x = y]; an attribute that is not
      among the slots cannot be set *)
  Fixpoint construct (body : list simple_stmt) (fields : list (text * rv)) : res (list (text * rv)) :=
    match body with
    | [] => Ok fields
    | SAssign [AAttr (AName o) x] (AName y) :: r =>
        if same_text o (T "self") && negb (same_text y (T "self")) then
          match globals y with
          | None => Err NameError
          | Some v => if has_slot x then construct r (put fields x v) else Err AttributeError
          end
        else unsupported
    | _ => unsupported
    end.
End Construct.
