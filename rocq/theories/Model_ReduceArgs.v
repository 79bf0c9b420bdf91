(** c.reduce(reducer, expr, initial=, default=, additional_args=, unconditional_init=):
    what the reduce is made of.  /repo/src/convtools/aggregations.py:71-92
    (configure_parent_reduce_obj), 273-282 (that of the dict reducers), 791-863
    (Reduce.__init__), 929-937 (a callable default is called).  Definitions only. *)
From Coq Require Import List Bool ZArith.
From Verif Require Import Model_Reducers Model_Code Model_Api Model_Ensure.
Import ListNotations.

(** to_call_with_2_args: a built-in reducer, or anything else, which is wrapped in
    _ReducerExpression (:838-841).  Whether that can be called is found out when the
    code is generated (:23-41). *)
Inductive operation : Type := OpBuiltin (b : builtin) | OpExpression.
(** The arguments; [None]: not passed.  [g_args]: additional_args, [] when not passed. *)
Record given : Type := mkGiven {
  g_expr : option pyobj; g_initial : option pyobj; g_default : option pyobj;
  g_args : list pyobj; g_uncond : bool }.
(** self.expr, additional_args, initial, default (with the call of :933-937), unconditional_init *)
Record made : Type := mkMade {
  m_expr : cv; m_args : list cv; m_initial : option cv; m_default : option cv; m_uncond : bool }.
Inductive refusal : Type :=
| BadPart          (* ensure_conversion raises *)
| DictArguments    (* AssertionError("dict agg doesn't support additional_args"), :276-277 *)
| DictExpr         (* AssertionError("expr should be tuple/list"), :278-279 *)
| DictItems        (* ValueError of k, v = reduce_obj.expr.items, :280 *)
| NoExpr           (* AssertionError("expr should be instance of BaseConversion"), :850-851 *)
| NoStart.         (* AssertionError("either 'initial' or 'default' is to be provided"), :852-855 *)
Inductive result : Type := Refused (r : refusal) | Reduces (m : made).

(** What the built-in reducers bring along, :285-483.  Those of _ReducerExpression(f): nothing. *)
Definition is_dict (o : operation) : bool :=                                     (* _DictReducerStatements *)
  match o with
  | OpBuiltin (Dict | DictArray | DictArrayDistinct | DictSum | DictSumOrNone | DictMax | DictMin
              | DictCount | DictCountDistinct | DictFirst | DictLast) => true
  | _ => false
  end.
Definition own_expr (o : operation) : option cv :=
  match o with OpBuiltin Count => Some (CLit (LInt 0)) | _ => None end.          (* :316 *)
Definition own_default (o : operation) : option pyobj :=
  match o with
  | OpBuiltin (Sum | Count | CountDistinct) => Some (PConstant (LInt 0))
  | OpBuiltin _ => Some (PConstant LNone)
  | OpExpression => None
  end.
Definition own_args (o : operation) : list cv :=
  match o with OpBuiltin (MaxRow | MinRow) => [CThis] | _ => [] end.             (* :346, :356 *)
Definition own_uncond (o : operation) : bool :=
  match o with OpBuiltin b => builtin_uncond b | OpExpression => false end.

Fixpoint ensure_args (l : list pyobj) : option (list cv) :=                      (* :845-847 *)
  match l with
  | [] => Some []
  | p :: r => match ensure_conversion p, ensure_args r with Some c, Some cs => Some (c :: cs) | _, _ => None end
  end.
(** reduce_obj.expr.items of a Tuple or List; piping into one sets its predefined input
    (base.py:850-855), it is a Tuple or List as before.  Simplified: collections with
    optional items are left out (they raise when the code is generated). *)
Fixpoint items_of_expr (c : cv) : option (list cv) :=
  match c with
  | COp OTuple l | COp OList l => Some l
  | CPipe _ c => items_of_expr c
  | _ => None
  end.
(** :273-282 *)
Definition split_pair (e : option cv) (xs : list cv) : (cv * list cv) + refusal :=
  match xs with
  | _ :: _ => inr DictArguments
  | [] => match e with
          | None => inr DictExpr
          | Some e => match items_of_expr e with
                      | None => inr DictExpr
                      | Some [k; v] => inl (k, [v])
                      | Some _ => inr DictItems
                      end
          end
  end.

Section Make.
  (** callable(object), for the objects that are embedded by name *)
  Variable callable : nat -> bool.
  (** NaiveConversion(g).call() *)
  Definition call_of (c : cv) : cv := COp (OCall 0 []) [c].
  (** :856-861; conversions themselves are not callable *)
  Definition initial_of (p : pyobj) : option cv :=
    option_map (match p with PObject g => if callable g then call_of else fun c => c | _ => fun c => c end)
               (ensure_conversion p).
  (** isinstance(self.default, NaiveConversion) and callable(self.default.value), :933-937 *)
  Fixpoint naive_value (c : cv) : option nat :=
    match c with CGlob g => Some g | CPipe _ c => naive_value c | _ => None end.
  Definition default_of (p : pyobj) : option cv :=
    option_map (fun c => match naive_value c with Some g => if callable g then call_of c else c | None => c end)
               (ensure_conversion p).
  Definition each_opt {A} (f : pyobj -> option A) (p : option pyobj) : option (option A) :=
    match p with None => Some None | Some p => option_map Some (f p) end.

  (** Reduce.__init__, :826-863 *)
  Definition make (o : operation) (a : given) : result :=
    match each_opt ensure_conversion (g_expr a), ensure_args (g_args a) with
    | Some e, Some xs =>
        let e := match e with Some _ => e | None => own_expr o end in
        let d := match g_default a with Some _ => g_default a | None => own_default o end in
        let xs := match xs with [] => own_args o | _ => xs end in
        match (if is_dict o then split_pair e xs
               else match e with Some e => inl (e, xs) | None => inr NoExpr end) with
        | inr r => Refused r
        | inl (e, xs) =>
            match g_initial a, d with
            | None, None => Refused NoStart
            | _, _ =>
                match each_opt initial_of (g_initial a), each_opt default_of d with
                | Some i, Some d => Reduces (mkMade e xs i d (g_uncond a || own_uncond o))
                | _, _ => Refused BadPart
                end
            end
        end
    | _, _ => Refused BadPart
    end.
End Make.
(** var_default = default.gen_code_and_update_ctx("", ctx), :938: the code of the default
    for the empty input code *)
Definition default_text wordch srepr gname pnum pname hname (q : list nat) (c : cv) : text :=
  print srepr gname pnum (gen wordch srepr gname pnum pname hname false q c (PName [])).
