(** Python's operators applied to conversions, /repo/src/convtools/base.py:601-602,
    620-730: what an expression that a user writes with them evaluates to, before
    anything is compiled.  Definitions only. *)
From Coq Require Import String List ZArith NArith Bool.
From Verif Require Import Model_Code.
Import ListNotations.

(** The two-argument methods, base.py:601-602, 623-730.  or_, and_ and eq are modelled with one argument. *)
Inductive meth : Type :=
| MAdd | MMul | MSub | MDiv | MMod | MFloorDiv | MEq | MNotEq | MGt | MGte | MLt | MLte
| MIs | MIsNot | MIn | MNotIn | MOr | MAnd | MGetItem.
(** InlineExpr with a template of two places is COp (OBin ...) (Model_Inline.v, C58_operators);
    Or, And and Eq are base.py:1133-1171. *)
Definition call_method (m : meth) (self arg : cv) : cv :=
  match m with
  | MAdd => COp (OBin (T "+")) [self; arg]          (* 695-696 *)
  | MMul => COp (OBin (T "*")) [self; arg]          (* 701-702 *)
  | MSub => COp (OBin (T "-")) [self; arg]          (* 707-708 *)
  | MDiv => COp (OBin (T "/")) [self; arg]          (* 713-714 *)
  | MMod => COp (OBin (T "%")) [self; arg]          (* 719-720 *)
  | MFloorDiv => COp (OBin (T "//")) [self; arg]    (* 725-726 *)
  | MEq => CEqs [self; arg]                         (* 653-654 *)
  | MNotEq => COp (OBin (T "!=")) [self; arg]       (* 659-660 *)
  | MGt => COp (OBin (T ">")) [self; arg]           (* 665-666 *)
  | MGte => COp (OBin (T ">=")) [self; arg]         (* 671-672 *)
  | MLt => COp (OBin (T "<")) [self; arg]           (* 677-678 *)
  | MLte => COp (OBin (T "<=")) [self; arg]         (* 683-684 *)
  | MIs => COp (OBin (T "is")) [self; arg]          (* 641-642 *)
  | MIsNot => COp (OBin (T "is not")) [self; arg]   (* 644-645 *)
  | MIn => COp (OBin (T "in")) [self; arg]          (* 647-648 *)
  | MNotIn => COp (OBin (T "not in")) [self; arg]   (* 650-651 *)
  | MOr => CBool true [self; arg]                   (* 623-624 *)
  | MAnd => CBool false [self; arg]                 (* 629-630 *)
  | MGetItem => COp OItem [self; arg]               (* 601-602; the parentheses are left out *)
  end.

(** Python's binary operators that can be overloaded, and the method each one of
    BaseConversion calls: __add__ 698-699, __mul__ 704-705, __sub__ 710-711,
    __truediv__ 716-717, __mod__ 722-723, __floordiv__ 728-729, __and__ 632-633, __or__ 626-627. *)
Inductive bop : Type := Add | Mul | Sub | TrueDiv | Mod | FloorDiv | BitAnd | BitOr.
Definition binary_method (o : bop) : meth :=
  match o with
  | Add => MAdd | Mul => MMul | Sub => MSub | TrueDiv => MDiv | Mod => MMod | FloorDiv => MFloorDiv
  | BitAnd => MAnd | BitOr => MOr
  end.
(** Comparisons: __eq__ 656-657, __ne__ 662-663, __gt__ 668-669, __ge__ 674-675, __lt__ 680-681, __le__ 686-687. *)
Inductive cop : Type := Eq_ | Ne | Gt_ | Ge | Lt_ | Le.
Definition compare_method (o : cop) : meth :=
  match o with Eq_ => MEq | Ne => MNotEq | Gt_ => MGt | Ge => MGte | Lt_ => MLt | Le => MLte end.
(** Python (reference manual, 3.3.1): when the left operand does not know the right one, it asks the
    right one for the mirrored comparison. *)
Definition mirrored (o : cop) : cop :=
  match o with Eq_ => Eq_ | Ne => Ne | Gt_ => Lt_ | Ge => Le | Lt_ => Gt_ | Le => Ge end.

(** A value during the evaluation of the user's expression: a conversion, or None, a bool,
    an int or a str (ensure_conversion makes a constant of these, base.py:181-223).
    Other plain objects are left out. *)
Inductive operand : Type := Conversion (c : cv) | Plain (l : lit).
Definition ensured (x : operand) : cv := match x with Conversion c => c | Plain l => CLit l end.
(** [Outside]: what Python computes from plain values alone, and str % conversion (formatting) *)
Inductive result : Type := Made (x : operand) | TypeError | Outside.
Definition andthen (r : result) (k : operand -> result) : result :=
  match r with Made x => k x | _ => r end.

(** a <o> b: BaseConversion has no reflected methods (__radd__ ...), so with a plain left operand Python raises *)
Definition binary (o : bop) (a b : operand) : result :=
  match a, b with
  | Conversion c, _ => Made (Conversion (call_method (binary_method o) c (ensured b)))
  | Plain (LStr _), Conversion _ => match o with Mod => Outside | _ => TypeError end
  | Plain _, Conversion _ => TypeError
  | Plain _, Plain _ => Outside
  end.
Definition comparison (o : cop) (a b : operand) : result :=
  match a, b with
  | Conversion c, _ => Made (Conversion (call_method (compare_method o) c (ensured b)))
  | Plain l, Conversion c => Made (Conversion (call_method (compare_method (mirrored o)) c (CLit l)))
  | Plain _, Plain _ => Outside
  end.
(** ~a: __invert__ 638-639; -a: __neg__ 692-693 *)
Definition inverted (a : operand) : result :=
  match a with Conversion c => Made (Conversion (COp ONot [c])) | Plain _ => Outside end.
Definition negated (a : operand) : result :=
  match a with Conversion c => Made (Conversion (COp ONeg [c])) | Plain _ => Outside end.
(** a[b]: __getitem__; a.m(b) *)
Definition method_call (m : meth) (a b : operand) : result :=
  match a with Conversion c => Made (Conversion (call_method m c (ensured b))) | Plain _ => Outside end.
(** bool(a): BaseConversion has neither __bool__ nor __len__, so conversions are true *)
Definition truth_of (a : operand) : bool :=
  match a with
  | Conversion _ => true
  | Plain LNone => false
  | Plain (LBool b) => b
  | Plain (LInt z) => negb (Z.eqb z 0)
  | Plain (LStr s) => match s with [] => false | _ => true end
  end.
(** a in b: BaseConversion has neither __contains__ nor __iter__, but __getitem__, so Python asks
    b[0] == a, which is a conversion, hence true. *)
Definition contained (a b : operand) : result :=
  match b with Conversion _ => Made (Plain (LBool true)) | Plain _ => Outside end.
(** a is b, for a constant and a conversion: two objects *)
Definition identical (a b : operand) : result :=
  match a, b with
  | Conversion _, Plain _ | Plain _, Conversion _ => Made (Plain (LBool false))
  | _, _ => Outside
  end.

(** What the user writes. *)
Inductive expr : Type :=
| Conv (c : cv)                            (* c.item("a"), ... *)
| Const (l : lit)
| Bin (o : bop) (a b : expr)               (* a + b *)
| Cmp (o : cop) (a b : expr)               (* a < b *)
| Chain (a : expr) (o : cop) (b : expr) (o' : cop) (c : expr)   (* a < b < c *)
| Invert (a : expr) | Negate (a : expr)    (* ~a, -a *)
| Index (a b : expr)                       (* a[b] *)
| Method (m : meth) (a b : expr)           (* a.add(b) *)
| Not_ (a : expr)                          (* a.not_() *)
| In_ (a b : expr) | Is_ (a b : expr)      (* a in b, a is b *)
| KwNot (a : expr) | KwAnd (a b : expr) | KwOr (a b : expr).    (* not a, a and b, a or b *)
(** Python's evaluation of it: operands from left to right. *)
Fixpoint python_value (e : expr) : result :=
  match e with
  | Conv c => Made (Conversion c)
  | Const l => Made (Plain l)
  | Bin o a b => andthen (python_value a) (fun x => andthen (python_value b) (fun y => binary o x y))
  | Cmp o a b => andthen (python_value a) (fun x => andthen (python_value b) (fun y => comparison o x y))
  | Chain a o b o' c =>
      andthen (python_value a) (fun x => andthen (python_value b) (fun y => andthen (comparison o x y) (fun r =>
        if truth_of r then andthen (python_value c) (fun z => comparison o' y z) else Made r)))
  | Invert a | Not_ a => andthen (python_value a) inverted
  | Negate a => andthen (python_value a) negated
  | Index a b => andthen (python_value a) (fun x => andthen (python_value b) (fun y => method_call MGetItem x y))
  | Method m a b => andthen (python_value a) (fun x => andthen (python_value b) (fun y => method_call m x y))
  | In_ a b => andthen (python_value a) (fun x => andthen (python_value b) (fun y => contained x y))
  | Is_ a b => andthen (python_value a) (fun x => andthen (python_value b) (fun y => identical x y))
  | KwNot a => andthen (python_value a) (fun x => Made (Plain (LBool (negb (truth_of x)))))
  | KwAnd a b => andthen (python_value a) (fun x => if truth_of x then python_value b else Made x)
  | KwOr a b => andthen (python_value a) (fun x => if truth_of x then Made x else python_value b)
  end.

(** a.or_(b, ...), a.and_(b, ...), a.eq(b, ...), base.py:623-624, 629-630, 653-654, and
    Or.__init__, 1140-1145: TypeError without an argument.  Keyword arguments are left out. *)
Inductive many : Type := OrMany | AndMany | EqMany.
Definition call_many (m : many) (self : cv) (args : list operand) : result :=
  match args with
  | [] => TypeError
  | _ :: _ =>
      let l := self :: map ensured args in
      Made (Conversion (match m with OrMany => CBool true l | AndMany => CBool false l | EqMany => CEqs l end))
  end.
