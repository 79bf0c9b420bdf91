(** The program an aggregation is meant to be, as Python's syntax tree: the
    statements of each reducer (documented in aggregations.py), blocks that start
    with the first row, the loops.  What the generated text is compared with. *)
From Coq Require Import String Ascii List NArith ZArith Bool Arith.
From Verif Require Import Model_PyVal Model_Reducers Model_Aggregate Model_Code Model_AggText Spec_Syntax Spec_Stmt Spec_FuncText.
Import ListNotations.

Definition none : ast := AConst (T "None").
Definition name (x : string) : ast := AName (T x).
Definition cmp (o : string) (a b : ast) : ast := ACompare a [(T o, b)].
Definition both (a b : ast) : ast := ABool false [a; b].
Definition either (a b : ast) : ast := ABool true [a; b].
Definition set_to (t e : ast) : stmt := Simple (SAssign [t] e).
Definition method (a : ast) (m : string) (x : ast) : stmt := Simple (SExpr (ACall (AAttr a (T m)) [x] [])).
Definition if_ (c : ast) (b other : list stmt) : stmt := If [(c, b)] other.

Section Reducers.
  (** the accumulator *)
  Variable V : ast.
  Definition fresh (factory : string) : stmt :=
    Simple (SAssign [V; name "_d"] (ACall (name "defaultdict") [name factory] [])).
  (** the first row: [E] the expression, [X] the additional argument *)
  Definition first_stmts (b : builtin) (E X : ast) : list stmt :=
    match b with
    | Sum => [set_to V (either E (ANum 0))]
    | SumOrNone | First | Last => [set_to V E]
    | Max | Min => [if_ (cmp "is not" E none) [set_to V E] []]
    | Count => [set_to V (ANum 1)]
    | CountDistinct => [set_to V (ASet [E])]
    | MaxRow | MinRow => [if_ (cmp "is not" E none) [set_to V (ATuple [E; X])] []]
    | Array => [set_to V (AList [E])]
    | ArrayDistinct => [set_to V (ADict [(E, none)])]
    | Dict | DictFirst | DictLast => [set_to V (ADict [(E, X)])]
    | DictArray => [fresh "list"; method (ASub (name "_d") E) "append" X]
    | DictArrayDistinct => [fresh "dict"; set_to (ASub (ASub (name "_d") E) X) none]
    | DictSum => [fresh "int"; Simple (SAdd (ASub (name "_d") E) (either X (ANum 0)))]
    | DictSumOrNone => [fresh "int"; set_to (ASub (name "_d") E) X]
    | DictMax | DictMin => [if_ (cmp "is not" X none) [set_to V (ADict [(E, X)])] []]
    | DictCount => [set_to V (ADict [(E, ANum 1)])]
    | DictCountDistinct => [set_to V (ADict [(E, ASet [X])])]
    end.
  (** a further row; [Z]: the accumulator, or initial= for the first row *)
  Definition next_stmts (b : builtin) (Z E X : ast) : list stmt :=
    match b with
    | Sum => [Simple (SAdd V (either E (ANum 0)))]
    | SumOrNone => [If [(cmp "is" E none, [set_to V none]);
                        (cmp "is not" Z none, [set_to V (ABin (T "+") Z E)])] []]
    | Max => [if_ (both (cmp "is not" E none) (cmp ">" E Z)) [set_to V E] []]
    | Min => [if_ (both (cmp "is not" E none) (cmp "<" E Z)) [set_to V E] []]
    | Count => [Simple (SAdd V (ANum 1))]
    | CountDistinct => [method V "add" E]
    | First => [Simple SPass]
    | Last => [set_to V E]
    | MaxRow => [if_ (both (cmp "is not" E none) (cmp "<" (ASub Z (ANum 0)) E)) [set_to V (ATuple [E; X])] []]
    | MinRow => [if_ (both (cmp "is not" E none) (cmp ">" (ASub Z (ANum 0)) E)) [set_to V (ATuple [E; X])] []]
    | Array => [method V "append" E]
    | ArrayDistinct => [set_to (ASub V E) none]
    | Dict | DictLast => [set_to (ASub V E) X]
    | DictArray => [method (ASub V E) "append" X]
    | DictArrayDistinct => [set_to (ASub (ASub V E) X) none]
    | DictSum => [Simple (SAdd (ASub V E) (either X (ANum 0)))]
    | DictSumOrNone => [If [(cmp "is" X none, [set_to (ASub V E) none]);
                            (cmp "is not" (ASub Z E) none, [Simple (SAdd (ASub V E) X)])] []]
    | DictMax => [if_ (both (cmp "is not" X none) (either (cmp "not in" E Z) (cmp ">" X (ASub Z E)))) [set_to (ASub V E) X] []]
    | DictMin => [if_ (both (cmp "is not" X none) (either (cmp "not in" E Z) (cmp "<" X (ASub Z E)))) [set_to (ASub V E) X] []]
    | DictCount => [if_ (cmp "not in" E Z) [set_to (ASub V E) (ANum 1)] [Simple (SAdd (ASub V E) (ANum 1))]]
    | DictCountDistinct => [if_ (cmp "not in" E Z) [set_to (ASub V E) (ASet [X])] [method (ASub V E) "add" X]]
    | DictFirst => [if_ (cmp "not in" E Z) [set_to (ASub V E) X] []]
    end.
End Reducers.

(** reducers with an additional argument *)
Definition needs_extra (b : builtin) : bool :=
  match b with
  | MaxRow | MinRow | Dict | DictFirst | DictLast | DictArray | DictArrayDistinct | DictSum | DictSumOrNone
  | DictMax | DictMin | DictCountDistinct => true
  | _ => false
  end.
(** reducers that index the accumulator *)
Definition needs_primary (b : builtin) : bool :=
  match b with MaxRow | MinRow | DictSumOrNone | DictMax | DictMin => true | _ => false end.


(** *** a reduce with the expressions of its parts *)
Inductive aop : Type := ABuiltin (b : builtin) | AFunc (f : text).
Record ared : Type := mkARed {
  p_op : aop;
  p_cond : option ast;
  p_initial : option ast;
  p_expr : ast;
  p_extras : list ast
}.
Definition extra_of (r : ared) : ast := nth 0 (p_extras r) (AConst []).
Definition first_of (V : ast) (r : ared) : list stmt :=
  match p_op r, p_initial r with
  | ABuiltin b, None => first_stmts V b (p_expr r) (extra_of r)
  | ABuiltin b, Some i => next_stmts V b i (p_expr r) (extra_of r)
  | AFunc f, None => [set_to V (match p_extras r with [] => p_expr r | l => ATuple (p_expr r :: l) end)]
  | AFunc f, Some i => [set_to V (ACall (AName f) (i :: p_expr r :: p_extras r) [])]
  end.
Definition next_of (V : ast) (r : ared) : list stmt :=
  match p_op r with
  | ABuiltin b => next_stmts V b V (p_expr r) (extra_of r)
  | AFunc f => [set_to V (ACall (AName f) (V :: p_expr r :: p_extras r) [])]
  end.

(** *** the loop bodies *)
(** the accumulator number [i]: a variable, or an attribute of the object of the group *)
Definition slot (mode : bool) (i : nat) : ast :=
  if mode then AName (agg_var true i) else AAttr (name "agg_data_") (T "v" ++ ndec (N.of_nat i)).
Section Body.
  Context {Row : Type}.
  Variable mode : bool.
  (** the reduces by their position *)
  Variable reds : nat -> ared.
  Notation member := (@member Row).
  Notation block := (@block Row).
  Definition slot_of (m : member) : ast := slot mode (m_var m).
  Definition firsts (l : list member) : list stmt := flat_map (fun m => first_of (slot_of m) (reds (m_bit m))) l.
  Definition nexts (l : list member) : list stmt := flat_map (fun m => next_of (slot_of m) (reds (m_bit m))) l.
  (** the members of a block share the condition of the first one *)
  Definition guarded (b : block) (body : list stmt) : list stmt :=
    match p_cond (reds (m_bit (bhead b))) with None => body | Some c => [if_ c body []] end.
  Definition checksum_stmts (b : block) : list stmt :=
    if mode then
      [if_ (cmp "is not" (slot_of (bhead b)) (name "_none"))
         [Simple (SOr (name "checksum_") (ANum (flag b)));
          if_ (cmp "==" (name "checksum_") (name "expected_checksum_")) [Simple SBreak] []] []]
    else [].
  Definition block_stmts (b : block) : list stmt :=
    guarded b [if_ (cmp "is" (slot_of (bhead b)) (name "_none"))
                 (firsts (members b) ++ checksum_stmts b) (nexts (members b))].
  Definition later_stmts (b : block) : list stmt := guarded b (nexts (members b)).
  Definition body_stmts (bs : list block) : list stmt := flat_map block_stmts bs.
  Definition later_body (bs : list block) : list stmt := flat_map later_stmts bs.
End Body.

(** *** the functions *)
Definition start_of (none_name : text) : list fstmt :=
  [FGlobal [T "add_label_"; T "get_by_label_"]; FSimple (SAssign [name "_none"] (AName none_name))].
(** result_.sort(key=f, reverse=r), without a key function key=None *)
Definition sort_call (key : option text) (reverse : bool) : ast :=
  ACall (AAttr (name "result_") (T "sort")) []
    [ (T "key", match key with None => AConst (T "None") | Some f => AName f end);
      (T "reverse", AConst (if reverse then T "True" else T "False")) ].
(** result_.sort(...), when there is one *)
Definition end_of (sorting : option ast) : list fstmt :=
  match sorting with None => [] | Some a => [FSimple (SExpr a)] end ++ [FReturn (name "result_")].
Definition group_program (none_name cls : text) (signature : ast) (body : list stmt) (elt : ast) (sorting : option ast) : list fstmt :=
  start_of none_name ++
  [ FSimple (SAssign [name "signature_to_agg_data_"] (ACall (name "defaultdict") [AName cls] []));
    FFor (T "row_") (name "data_")
      (set_to (name "agg_data_") (ASub (name "signature_to_agg_data_") signature) :: body);
    FCollect (T "result_") elt (T "signature_") (T "agg_data_")
      (ACall (AAttr (name "signature_to_agg_data_") (T "items")) [] []) ] ++
  end_of sorting.
Definition aggregate_program (none_name : text) (n : nat) (expected : N) (body later : list stmt) (result : ast) (sorting : option ast) : list fstmt :=
  start_of none_name ++
  [ FSimple (SAssign (map (slot true) (seq 0 n)) (name "_none"));
    FSimple (SAssign [name "expected_checksum_"] (ANum expected));
    FSimple (SAssign [name "checksum_"] (ANum 0));
    FSimple (SAssign [name "it_"] (ACall (name "iter") [name "data_"] []));
    FFor (T "row_") (name "it_") body;
    FFor (T "row_") (name "it_") later;
    FSimple (SAssign [name "result_"] result) ] ++
  end_of sorting.
