(** Model of the reducers: /repo/src/convtools/aggregations.py:48-113
    (_BaseReducer), 116-176 (_ReducerExpression), 179-270 (_ReducerStatements),
    273-282 (_DictReducerStatements), 285-483 (the built-in reducers),
    788-951 (Reduce).  Definitions only.

    Simplifications: [expr] and [additional_args] are pure, possibly failing
    functions of the row (the generated statements may evaluate their code
    several times); the `+=` of two lists builds a new list (aliasing of the first
    row's list is not modelled); evaluation order only matters for which
    exception is raised first. *)
From Coq Require Import String List ZArith Bool.
From Verif Require Import Model_PyVal.
Import ListNotations.

(** The variable that holds the reduction; [None] is the sentinel `_none`
    (base.py:248), a plain object(). *)
Definition cell := option val.

(** Statements acting on that variable. *)
Definition iadd (c : cell) (v : val) : res cell :=            (* %(result)s += v *)
  match c with None => Err TypeError | Some a => do s <- py_add a v; Ok (Some s) end.
Definition set_item (c : cell) (k v : val) : res cell :=      (* %(result)s[k] = v *)
  match c with
  | Some (VDict d) => do k' <- need_hash k; Ok (Some (VDict (dput d k' v)))
  | _ => Err TypeError
  end.
Definition method_add (c : cell) (x : val) : res cell :=      (* %(result)s.add(x) *)
  match c with
  | Some (VSet l) => do x' <- need_hash x; Ok (Some (VSet (vadd l x')))
  | _ => Err AttributeError
  end.
Definition method_append (c : cell) (x : val) : res cell :=   (* %(result)s.append(x) *)
  match c with
  | Some (VList l) => Ok (Some (VList (l ++ [x])))
  | _ => Err AttributeError
  end.
Definition item0 (v : val) : res val := py_getitem v (VInt 0).   (* v[0] *)
Definition item1 (v : val) : res val := py_getitem v (VInt 1).   (* v[1] *)
Definition contains (d k : val) : res bool := py_in k d.         (* k in d *)
Definition lookup (d k : val) : res val := py_getitem d k.       (* d[k] *)
(** %(result)s[k] *)
Definition cell_item (c : cell) (k : val) : res val :=
  match c with Some d => lookup d k | None => Err TypeError end.
(** d[k] of a defaultdict with the given factory value (also stores it; every
    use below then stores a value under k anyway) *)
Definition lookup_default (d : cell) (k dflt : val) : res val :=
  match d with
  | Some (VDict l) => do k' <- need_hash k; Ok (match dfind l k' with Some v => v | None => dflt end)
  | _ => Err TypeError
  end.

Inductive builtin : Type :=
| Sum | SumOrNone | Max | Min | Count | CountDistinct | First | Last
| MaxRow | MinRow | Array | ArrayDistinct
| Dict | DictArray | DictArrayDistinct | DictSum | DictSumOrNone | DictMax | DictMin
| DictCount | DictCountDistinct | DictFirst | DictLast.

(** initial_from_first; {0} = E is the expression, {1} = X the additional
    argument (MaxRow/MinRow: the row; Dict*: the value, E being the key). *)
Definition init_stmt (b : builtin) (E X : res val) : res cell :=
  match b with
  | Sum => do e <- E; Ok (Some (py_or e (VInt 0)))                        (* :287 *)
  | SumOrNone => do e <- E; Ok (Some e)                                   (* :298 *)
  | Max | Min => do e <- E; Ok (if is_none e then None else Some e)       (* :304, :309 *)
  | Count => Ok (Some (VInt 1))                                           (* :314 *)
  | CountDistinct => do e <- E; do e' <- need_hash e; Ok (Some (VSet [e']))   (* :321 *)
  | First | Last => do e <- E; Ok (Some e)                                (* :330, :336 *)
  | MaxRow | MinRow =>                                                    (* :345, :355 *)
      do e <- E; if is_none e then Ok None else do x <- X; Ok (Some (VTuple [e; x]))
  | Array => do e <- E; Ok (Some (VList [e]))                             (* :362 *)
  | ArrayDistinct => do e <- E; do e' <- need_hash e; Ok (Some (VDict [(e', VNone)]))  (* :368 *)
  | Dict | DictFirst | DictLast =>                                        (* :377, :474, :480 *)
      do k <- E; do v <- X; do k' <- need_hash k; Ok (Some (VDict [(k', v)]))
  | DictArray =>                                                          (* :383-386 *)
      do k <- E; do k' <- need_hash k; do v <- X; Ok (Some (VDict [(k', VList [v])]))
  | DictArrayDistinct =>                                                  (* :393-396 *)
      do k <- E; do k' <- need_hash k; do v <- X; do v' <- need_hash v;
      Ok (Some (VDict [(k', VDict [(v', VNone)])]))
  | DictSum =>                                                            (* :405-408 *)
      do k <- E; do k' <- need_hash k; do v <- X; do s <- py_add (VInt 0) (py_or v (VInt 0));
      Ok (Some (VDict [(k', s)]))
  | DictSumOrNone =>                                                      (* :420 *)
      do v <- X; do k <- E; do k' <- need_hash k; Ok (Some (VDict [(k', v)]))
  | DictMax | DictMin =>                                                  (* :430-433, :441-444 *)
      do v <- X; if is_none v then Ok None
                 else do k <- E; do k' <- need_hash k; Ok (Some (VDict [(k', v)]))
  | DictCount => do k <- E; do k' <- need_hash k; Ok (Some (VDict [(k', VInt 1)]))    (* :454 *)
  | DictCountDistinct =>                                                  (* :465 *)
      do k <- E; do v <- X; do v' <- need_hash v; do k' <- need_hash k;
      Ok (Some (VDict [(k', VSet [v'])]))
  end.

(** reduce; {0} = Z (the result variable, or `initial` for the first row when
    one was given), {1} = E, {2} = X; R is the variable %(result)s. *)
Definition reduce_stmt (b : builtin) (Z : res val) (R : cell) (E X : res val) : res cell :=
  match b with
  | Sum => do e <- E; iadd R (py_or e (VInt 0))                           (* :286 *)
  | SumOrNone =>                                                          (* :292-297 *)
      do e <- E;
      if is_none e then Ok (Some VNone)
      else do z <- Z; if is_none z then Ok R else do s <- py_add z e; Ok (Some s)
  | Max =>                                                                (* :303 *)
      do e <- E; if is_none e then Ok R
                 else do z <- Z; do b <- py_lt z e; Ok (if (b : bool) then Some e else R)
  | Min =>                                                                (* :308 *)
      do e <- E; if is_none e then Ok R
                 else do z <- Z; do b <- py_lt e z; Ok (if (b : bool) then Some e else R)
  | Count => iadd R (VInt 1)                                              (* :313 *)
  | CountDistinct =>                                                      (* :320 *)
      match R with Some (VSet _) => do e <- E; method_add R e | _ => Err AttributeError end
  | First => Ok R                                                         (* :329: pass *)
  | Last => do e <- E; Ok (Some e)                                        (* :335 *)
  | MaxRow =>                                                             (* :341-344 *)
      do e <- E; if is_none e then Ok R
                 else do z <- Z; do z0 <- item0 z; do b <- py_lt z0 e;
                      if (b : bool) then do x <- X; Ok (Some (VTuple [e; x])) else Ok R
  | MinRow =>                                                             (* :351-354 *)
      do e <- E; if is_none e then Ok R
                 else do z <- Z; do z0 <- item0 z; do b <- py_lt e z0;
                      if (b : bool) then do x <- X; Ok (Some (VTuple [e; x])) else Ok R
  | Array =>                                                              (* :361 *)
      match R with Some (VList _) => do e <- E; method_append R e | _ => Err AttributeError end
  | ArrayDistinct => do e <- E; set_item R e VNone                        (* :367 *)
  | Dict | DictLast => do v <- X; do k <- E; set_item R k v               (* :376, :479 *)
  | DictArray =>                                                          (* :382 *)
      do k <- E; do old <- lookup_default R k (VList []);
      match old with
      | VList l => do v <- X; set_item R k (VList (l ++ [v]))
      | _ => Err AttributeError
      end
  | DictArrayDistinct =>                                                  (* :392 *)
      do k <- E; do old <- lookup_default R k (VDict []);   (* X is evaluated even if this is no dict *)
      match old with
      | VDict l => do v <- X; do v' <- need_hash v; set_item R k (VDict (dput l v' VNone))
      | _ => do _ <- X; Err TypeError
      end
  | DictSum =>                                                            (* :404 *)
      do k <- E; do old <- lookup_default R k (VInt 0);
      do v <- X; do s <- py_add old (py_or v (VInt 0)); set_item R k s
  | DictSumOrNone =>                                                      (* :414-419 *)
      do v <- X;
      if is_none v then do k <- E; set_item R k VNone
      else do old <- match R with
                     | Some _ => do k <- E; lookup_default R k (VInt 0)
                     | None => do z <- Z; do k <- E; lookup z k
                     end;
           if is_none old then Ok R
           else do k <- E; do old' <- lookup_default R k (VInt 0); do s <- py_add old' v; set_item R k s
  | DictMax =>                                                            (* :426-429 *)
      do v <- X; if is_none v then Ok R
      else do k <- E; do z <- Z; do has <- contains z k;
           if (has : bool) then do old <- lookup z k; do b <- py_lt old v; if (b : bool) then set_item R k v else Ok R
           else set_item R k v
  | DictMin =>                                                            (* :437-440 *)
      do v <- X; if is_none v then Ok R
      else do k <- E; do z <- Z; do has <- contains z k;
           if (has : bool) then do old <- lookup z k; do b <- py_lt v old; if (b : bool) then set_item R k v else Ok R
           else set_item R k v
  | DictCount =>                                                          (* :448-453 *)
      do k <- E; do z <- Z; do has <- contains z k;
      if (has : bool) then do old <- cell_item R k; do s <- py_add old (VInt 1); set_item R k s
      else set_item R k (VInt 1)
  | DictCountDistinct =>                                                  (* :459-464 *)
      do k <- E; do z <- Z; do has <- contains z k;
      if (has : bool) then
        do old <- cell_item R k;
        match old with
        | VSet l => do v <- X; do v' <- need_hash v; set_item R k (VSet (vadd l v'))
        | _ => Err AttributeError
        end
      else do v <- X; do v' <- need_hash v; set_item R k (VSet [v'])
  | DictFirst =>                                                          (* :473 *)
      do k <- E; do z <- Z; do has <- contains z k;
      if (has : bool) then Ok R else do v <- X; set_item R k v
  end.

(** default=... of each built-in reducer, :285-483 *)
Definition builtin_default (b : builtin) : val :=
  match b with Sum | Count | CountDistinct => VInt 0 | _ => VNone end.

(** post_conversion *)
Definition post_of (b : builtin) (v : val) : res val :=
  match b with
  | CountDistinct =>                          (* {set_} and len({set_}) or 0, :322 *)
      match v with
      | VSet l => Ok (py_or (if truthy v then VInt (Z.of_nat (length l)) else v) (VInt 0))
      | _ => Err TypeError
      end
  | MaxRow | MinRow => item1 v                                            (* :347, :357 *)
  | ArrayDistinct =>                                                      (* :369 *)
      match v with VDict d => Ok (VList (map fst d)) | _ => Err AttributeError end
  | DictArray | DictSum | DictSumOrNone =>                                (* dict({}) *)
      match v with VDict d => Ok (VDict d) | _ => Err TypeError end
  | DictArrayDistinct =>                                                  (* :397-399 *)
      match v with
      | VDict d =>
          do d' <- fold_right (fun kv r => do r' <- r;
                     match snd kv with VDict inner => Ok ((fst kv, VList (map fst inner)) :: r')
                                     | _ => Err AttributeError end) (Ok []) d;
          Ok (VDict d')
      | _ => Err AttributeError
      end
  | DictCountDistinct =>                                                  (* :466-468 *)
      match v with
      | VDict d =>
          do d' <- fold_right (fun kv r => do r' <- r;
                     match snd kv with VSet inner => Ok ((fst kv, VInt (Z.of_nat (length inner))) :: r')
                                     | _ => Err TypeError end) (Ok []) d;
          Ok (VDict d')
      | _ => Err AttributeError
      end
  | _ => Ok v
  end.

(** unconditional_init of each built-in reducer *)
Definition builtin_uncond (b : builtin) : bool :=
  match b with Max | Min | MaxRow | MinRow | DictMax | DictMin => false | _ => true end.

(** What c.reduce accepts: a built-in, or a Python callable / inline
    expression of the accumulator, the expression and the additional arguments
    (wrapped in _ReducerExpression, :838-841). *)
Inductive reducer : Type :=
| Builtin (b : builtin)
| Fun (f : val -> val -> list val -> res val).

Section Reduce.
  Context {Row : Type}.

  (** c.reduce(...) [.filter(...)], :793-874. *)
  Record reduce_obj : Type := mkReduce {
    red : reducer;
    expr : Row -> res val;
    extras : list (Row -> res val);            (* additional_args *)
    condition : option (Row -> res bool);      (* .filter(...) *)
    initial : option (res val);                (* initial=..., evaluated (or called) afresh per group *)
    default : option (res val);                (* default=..., or the reducer's own *)
    user_uncond : bool                         (* unconditional_init=... *)
  }.

  Definition extra (o : reduce_obj) (row : Row) : res val :=
    match extras o with x :: _ => x row | [] => Err IndexError end.
  Fixpoint eval_all (l : list (Row -> res val)) (row : Row) : res (list val) :=
    match l with [] => Ok [] | f :: r => do v <- f row; do vs <- eval_all r row; Ok (v :: vs) end.

  (** gen_reduce_initial, :124-158 and :207-249 *)
  Definition run_init (o : reduce_obj) (row : Row) : res cell :=
    match red o, initial o with
    | Builtin b, None => init_stmt b (expr o row) (extra o row)
    | Builtin b, Some i => reduce_stmt b i None (expr o row) (extra o row)
    | Fun f, None =>
        match extras o with
        | [] => do e <- expr o row; Ok (Some e)
        | l => do e <- expr o row; do xs <- eval_all l row; Ok (Some (VTuple (e :: xs)))
        end
    | Fun f, Some i =>
        do i' <- i; do e <- expr o row; do xs <- eval_all (extras o) row;
        do v <- f i' e xs; Ok (Some v)
    end.
  (** gen_reduce_two, :160-176 and :251-270; only run when the variable is set *)
  Definition run_two (o : reduce_obj) (c : val) (row : Row) : res cell :=
    match red o with
    | Builtin b => reduce_stmt b (Ok c) (Some c) (expr o row) (extra o row)
    | Fun f =>
        do e <- expr o row; do xs <- eval_all (extras o) row; do v <- f c e xs; Ok (Some v)
    end.

  Definition uncond (o : reduce_obj) : bool :=                            (* :90-92 *)
    user_uncond o || match red o with Builtin b => builtin_uncond b | Fun _ => false end.

  (** Reduce._gen_code_and_update_ctx, :916-945: the value in the result.
      [None]: the sentinel object itself is returned. *)
  Definition finish (o : reduce_obj) (c : cell) : res (option val) :=
    match c, default o with
    | None, Some d => do v <- d; Ok (Some v)
    | None, None => Ok None
    | Some v, _ =>
        do r <- match red o with Builtin b => post_of b v | Fun _ => Ok v end; Ok (Some r)
    end.

  (** What a single unfiltered/filtered reduce does with one row, and with a
      sequence of rows: the code of ReduceBlock / ReduceConditionalBlock with a
      single member, :594-641, :662-693. *)
  Definition step_alone (o : reduce_obj) (c : cell) (row : Row) : res cell :=
    do go <- match condition o with None => Ok true | Some p => p row end;
    if (go : bool) then match c with None => run_init o row | Some v => run_two o v row end
    else Ok c.
  Fixpoint run_alone (o : reduce_obj) (c : cell) (rows : list Row) : res cell :=
    match rows with
    | [] => Ok c
    | row :: r => do c' <- step_alone o c row; run_alone o c' r
    end.
  Definition reduce_rows (o : reduce_obj) (rows : list Row) : res (option val) :=
    do c <- run_alone o None rows; finish o c.
End Reduce.
Arguments reduce_obj : clear implicits.
