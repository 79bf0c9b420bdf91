(** Model of /repo/src/convtools/joins.py: splitting of the join condition
    (:31-144) and the join itself (:147-391).  Definitions only. *)
From Coq Require Import String List ZArith Bool.
From Verif Require Import Model_PyVal.
Import ListNotations.

(** o[k] on built-in values (language, not convtools). *)
Definition nth_Z {A} (l : list A) (z : Z) : option A :=
  let n := Z.of_nat (length l) in
  let i := if Z.ltb z 0 then Z.add z n else z in
  if Z.ltb i 0 then None else nth_error l (Z.to_nat i).
Definition py_getitem (o k : val) : res val :=
  match o with
  | VTuple l | VList l =>
      match as_int k with
      | Some z => match nth_Z l z with Some v => Ok v | None => Err IndexError end
      | None => Err TypeError
      end
  | VStr s =>
      match as_int k with
      | Some z => match nth_Z (list_ascii_of_string s) z with
                  | Some a => Ok (VStr (String a EmptyString)) | None => Err IndexError end
      | None => Err TypeError
      end
  | VDict d => do h <- need_hash k; match dfind d h with Some v => Ok v | None => Err KeyError end
  | _ => Err TypeError
  end.

(** Join conditions: the conversions a condition is built of.
    [JOp]: any other conversion that evaluates its parts in order and then
    applies an operation to them (InlineExpr operators such as `>`, not_, calls of
    functions); the operations are arbitrary.
    Left out: conditions containing comprehensions, labels, if_, and the bare
    c.this() outside a pipe (its code would name an internal variable). *)
Inductive jx : Type :=
| JLeft                                (* c.LEFT,  :34 *)
| JRight                               (* c.RIGHT, :35 *)
| JArg (name : string)                 (* c.input_arg *)
| JConst (v : val)                     (* c.naive *)
| JThis                                (* c.this() *)
| JItem (o k : jx)                     (* o.item(k), base.py:598-599, 1299-1306 *)
| JEq (l : list jx)                    (* Eq, base.py:1166-1171 *)
| JAnd (l : list jx)                   (* And, base.py:1158-1163 *)
| JOr (l : list jx)                    (* Or, base.py:1133-1155 *)
| JOp (name : string) (l : list jx)
| JPipe (a b : jx).                    (* a.pipe(b) *)

(** get_dependencies(types=NamedConversion), :86-92: does the name occur? *)
Fixpoint dep_left (e : jx) : bool :=
  match e with
  | JLeft => true
  | JRight | JArg _ | JConst _ | JThis => false
  | JItem o k => dep_left o || dep_left k
  | JEq l | JAnd l | JOr l | JOp _ l => existsb dep_left l
  | JPipe a b => dep_left a || dep_left b
  end.
Fixpoint dep_right (e : jx) : bool :=
  match e with
  | JRight => true
  | JLeft | JArg _ | JConst _ | JThis => false
  | JItem o k => dep_right o || dep_right k
  | JEq l | JAnd l | JOr l | JOp _ l => existsb dep_right l
  | JPipe a b => dep_right a || dep_right b
  end.

(** ** _JoinConditions *)
Record conds : Type := mkConds {
  inner_loop : list jx;
  left_collection : list jx;
  left_row : list jx;
  left_hash : list jx;
  right_collection : list jx;
  right_row : list jx;
  right_hash : list jx;
  pre : list jx }.
Definition no_conds : conds := mkConds [] [] [] [] [] [] [] [].

Inductive how : Type := Inner | Left | Right | Outer.   (* "full" is "outer", :49-50 *)
(** :52-57; "right" never gets here (:168-171) but is a legal argument. *)
Definition left_join (h : how) : bool := match h with Left | Outer => true | _ => false end.
Definition right_join (h : how) : bool := match h with Right | Outer => true | _ => false end.

Definition add_inner (c : conds) e := mkConds (inner_loop c ++ [e]) (left_collection c) (left_row c) (left_hash c) (right_collection c) (right_row c) (right_hash c) (pre c).
Definition add_pre (c : conds) e := mkConds (inner_loop c) (left_collection c) (left_row c) (left_hash c) (right_collection c) (right_row c) (right_hash c) (pre c ++ [e]).
Definition add_hash (c : conds) a b := mkConds (inner_loop c) (left_collection c) (left_row c) (left_hash c ++ [a]) (right_collection c) (right_row c) (right_hash c ++ [b]) (pre c).
(** _add_left_filter, :59-63 *)
Definition add_left (h : how) (c : conds) e :=
  if left_join h
  then mkConds (inner_loop c) (left_collection c) (left_row c ++ [e]) (left_hash c) (right_collection c) (right_row c) (right_hash c) (pre c)
  else mkConds (inner_loop c) (left_collection c ++ [e]) (left_row c) (left_hash c) (right_collection c) (right_row c) (right_hash c) (pre c).
(** _add_right_filter, :65-69 *)
Definition add_right (h : how) (c : conds) e :=
  if right_join h
  then mkConds (inner_loop c) (left_collection c) (left_row c) (left_hash c) (right_collection c) (right_row c ++ [e]) (right_hash c) (pre c)
  else mkConds (inner_loop c) (left_collection c) (left_row c) (left_hash c) (right_collection c ++ [e]) (right_row c) (right_hash c) (pre c).

(** consume_other, :121-132 *)
Definition consume_other (h : how) (c : conds) (e : jx) : conds :=
  match dep_left e, dep_right e with
  | true, true => add_inner c e
  | true, false => add_left h c e
  | false, true => add_right h c e
  | false, false => add_pre c e
  end.
(** consume_eq, :94-119; [args] are e.args *)
Definition consume_eq (h : how) (c : conds) (e : jx) (args : list jx) : conds :=
  match args with
  | [a; b] =>
      if (dep_left a && dep_right a) || (dep_left b && dep_right b) then add_inner c e
      else if (dep_left a || dep_left b) && (dep_right a || dep_right b) then
        if dep_left a then add_hash c a b else add_hash c b a
      else if dep_left a || dep_left b then add_left h c e
      else if dep_right a || dep_right b then add_right h c e
      else add_pre c e
  | _ => add_inner c e
  end.
(** consume_and, :134-144, and from_condition, :77-82: both treat a condition
    the same way.  [JPipe]: a.pipe(b) is a clone of b with a predefined input
    (base.py:827-856), so it is an And/Eq iff b is. *)
Fixpoint consume (h : how) (c : conds) (whole e : jx) {struct e} : conds :=
  match e with
  | JEq l => consume_eq h c whole l
  | JAnd l =>
      (fix go (c : conds) (l : list jx) : conds :=
         match l with [] => c | a :: r => go (consume h c a a) r end) c l
  | JPipe _ b => consume h c whole b
  | _ => consume_other h c whole
  end.
(** from_condition, :71-84; [None]: condition is True *)
Definition from_condition (h : how) (cond : option jx) : conds :=
  match cond with None => no_conds | Some e => consume h no_conds e e end.

(** ** Evaluation of the generated code of a condition *)
Section Eval.
  Variable op : string -> list val -> res val.

  (** What the names in scope stand for.
      [names]: code for LEFT/RIGHT set by ConversionWrapper (base.py:1079-1115), as in
      the inner loop (:235-248); without it LEFT and RIGHT are the code input
      (base.py:1118-1130).  [cur]: the code input; code is substituted textually, hence
      a computation rather than a value. *)
  Record env : Type := mkEnv {
    names : option (val * val);
    cur : res val;
    args : string -> val }.

  (** Is the code input part of the generated code of [e]? *)
  Fixpoint uses_input (named : bool) (e : jx) : bool :=
    match e with
    | JLeft | JRight => negb named
    | JThis => true
    | JArg _ | JConst _ => false
    | JItem o k => uses_input named o || uses_input named k
    | JEq l | JAnd l | JOr l | JOp _ l => existsb (uses_input named) l
    | JPipe a b => uses_input named a
    end.
  Definition is_named (E : env) : bool := match names E with Some _ => true | None => false end.

  Fixpoint ev (E : env) (e : jx) {struct e} : res val :=
    match e with
    | JLeft => match names E with Some (l, _) => Ok l | None => cur E end
    | JRight => match names E with Some (_, r) => Ok r | None => cur E end
    | JArg a => Ok (args E a)
    | JConst v => Ok v
    | JThis => cur E
    | JItem o k => do x <- ev E o; do y <- ev E k; py_getitem x y
    (* a == b == c: every operand evaluated once, stops at the first difference *)
    | JEq l =>
        (fix chain (prev : option val) (l : list jx) : res val :=
           match l with
           | [] => Ok (VBool true)
           | a :: r =>
               do x <- ev E a;
               match prev with
               | Some p => if py_eq p x then chain (Some x) r else Ok (VBool false)
               | None => chain (Some x) r
               end
           end) None l
    | JAnd l =>
        (fix all (last : val) (l : list jx) : res val :=
           match l with
           | [] => Ok last
           | a :: r => do x <- ev E a; if truthy x then all x r else Ok x
           end) (VBool true) l
    | JOr l =>
        (fix any (last : val) (l : list jx) : res val :=
           match l with
           | [] => Ok last
           | a :: r => do x <- ev E a; if truthy x then Ok x else any x r
           end) (VBool false) l
    | JOp o l =>
        do vs <- (fix evs (l : list jx) : res (list val) :=
           match l with [] => Ok [] | a :: r => do x <- ev E a; do xs <- evs r; Ok (x :: xs) end) l;
        op o vs
    (* b with the code of a as its input; code of a which b does not use is
       still run first (base.py:302-324) *)
    | JPipe a b =>
        let E' := mkEnv (names E) (ev E a) (args E) in
        if uses_input (is_named E) b then ev E' b else do _ <- ev E a; ev E' b
    end.

  Definition ev_bool (E : env) (e : jx) : res bool := do v <- ev E e; Ok (truthy v).
  (** "a and b and ..." of a non-empty list of conditions; [] means no condition *)
  Fixpoint ev_all (E : env) (l : list jx) : res bool :=
    match l with
    | [] => Ok true
    | a :: r => do x <- ev_bool E a; if (x : bool) then ev_all E r else Ok false
    end.
  (** A hash key: the single key, or a tuple of them, :251-260. *)
  Fixpoint ev_list (E : env) (l : list jx) : res (list val) :=
    match l with
    | [] => Ok []
    | a :: r => do x <- ev E a; do xs <- ev_list E r; Ok (x :: xs)
    end.
  Definition ev_key (E : env) (l : list jx) : res val :=
    match l with
    | [a] => ev E a
    | _ => do xs <- ev_list E l; Ok (VTuple xs)
    end.

  (** ** The join.  A row is an object: identity and value (outer joins look
      at id()).  Every collection is given by the rows it yields. *)
  Record robj : Type := mkObj { rid : nat; rval : val }.
  Definition none_obj : robj := mkObj 0 VNone.             (* the object None *)

  Variable inputs : string -> val.                          (* input args of the condition *)
  Definition on_row (r : robj) : env := mkEnv None (Ok (rval r)) inputs.   (* code input = row *)
  Definition on_pair (l r : robj) : env := mkEnv (Some (rval l, rval r)) (Err NameError) inputs.
  Definition on_nothing : env := mkEnv None (Err NameError) inputs.         (* pre_filter: no row *)

  Fixpoint filter_rows (p : robj -> res bool) (l : list robj) : res (list robj) :=
    match l with
    | [] => Ok []
    | x :: r => do b <- p x; do rest <- filter_rows p r; Ok (if (b : bool) then x :: rest else rest)
    end.

  (** Aggregate(Reduce(DictArray, (key, row), default={})), :262-271; the
      reducer: aggregations.py:379-390, Model_Reducers.v. *)
  Fixpoint index_rows (key : robj -> res val) (l : list robj) (d : list (val * list robj)) : res (list (val * list robj)) :=
    match l with
    | [] => Ok d
    | r :: rest =>
        do k0 <- key r;
        do k <- need_hash k0;
        index_rows key rest (dput d k (match dfind d k with Some rs => rs | None => [] end ++ [r]))
    end.

  (** Can the right collection be iterated again, or is it an iterator? *)
  Inductive kind : Type := Reiterable | OneShot.

  (** The right rows each left row is compared with, :272-283: the bucket of
      its key, or the labelled right collection (which an iterator gives only once). *)
  Inductive source : Type :=
  | Buckets (d : list (val * list robj))
  | Again (l : list robj)
  | Once (l : res (list robj)).          (* filtered lazily, while it is read *)
  Definition take (key : robj -> res val) (s : source) (x : robj) : res (list robj * source) :=
    match s with
    | Buckets d =>
        do k0 <- key x;
        do k <- need_hash k0;
        Ok (match dfind d k with Some rs => rs | None => [] end, s)
    | Again l => Ok (l, s)
    | Once l => do rows <- l; Ok (rows, Once (Ok []))
    end.

  (** for left_item in left: for right_item in right_items if condition, :286-300
      and the per-row generator of :330-343 *)
  Fixpoint matches (key : robj -> res val) (test : robj -> robj -> res bool)
           (s : source) (ls : list robj) : res (list (robj * list robj)) :=
    match ls with
    | [] => Ok []
    | x :: rest =>
        do cs <- take key s x;
        do ms <- filter_rows (test x) (fst cs);
        do others <- matches key test (snd cs) rest;
        Ok ((x, ms) :: others)
    end.
  Definition inner_pairs (m : list (robj * list robj)) : list (robj * robj) :=
    flat_map (fun xm => map (fun y => (fst xm, y)) (snd xm)) m.
  (** _left_joiner, :318-327 *)
  Definition left_pairs (m : list (robj * list robj)) : list (robj * robj) :=
    flat_map (fun xm => match snd xm with
                        | [] => [(fst xm, none_obj)]
                        | ys => map (fun y => (fst xm, y)) ys
                        end) m.
  (** _add_right_part, :347-357 *)
  Definition add_right_part (pairs : list (robj * robj)) (right : list robj) : list (robj * robj) :=
    let ids := map (fun p => rid (snd p)) pairs in
    pairs ++ map (fun y => (none_obj, y)) (filter (fun y => negb (existsb (Nat.eqb (rid y)) ids)) right).

  Definition swap_pair (p : robj * robj) : robj * robj := (snd p, fst p).

  (** join(...), :147-391, and list() of what it returns.
      With how="right" the collections are swapped (:168-171), filters are taken
      from the other side (:178-182, :200-204), LEFT/RIGHT are swapped back in the
      inner loop (:235-248), the hash keys are not swapped (:250-260), and
      _left_joiner_swapped (:304-313) yields the pairs swapped back.
      [kl], [kr]: is the left / right collection an iterator.
      Simplified: which of several failing evaluations is the first one (the
      stages are lazy); pairs yielded before a failure. *)
  Definition join (h : how) (cond : option jx) (kl kr : kind) (left right : list robj) : res (list (robj * robj)) :=
    let swapped := match h with Right => true | _ => false end in
    let h' := match h with Right => Left | _ => h end in
    let c := from_condition h' cond in
    let ls := if swapped then right else left in
    let rs := if swapped then left else right in
    let k := if swapped then kl else kr in
    let rfilters := if swapped then left_collection c else right_collection c in
    let lfilters := if swapped then right_collection c else left_collection c in
    let loop := left_row c ++ right_row c ++ inner_loop c in
    let test (x y : robj) : res bool :=
      match loop with
      | [] => Ok true
      | _ => ev_all (if swapped then on_pair y x else on_pair x y) loop
      end in
    (* :363-376 *)
    do go <- ev_all on_nothing (pre c);
    if negb go then Ok [] else
    (* the right collection, :177-197; list() of it in an outer join, where
       rfilters is always empty *)
    let rs' := filter_rows (fun y => ev_all (on_row y) rfilters) rs in
    let again := match h', k, rfilters with Outer, _, _ => true | _, Reiterable, [] => true | _, _, _ => false end in
    do src <- match left_hash c with
              | [] => Ok (if again then Again rs else Once rs')
              | _ => do rows <- rs'; do d <- index_rows (fun y => ev_key (on_row y) (right_hash c)) rows []; Ok (Buckets d)
              end;
    do ls' <- filter_rows (fun x => ev_all (on_row x) lfilters) ls;
    do m <- matches (fun x => ev_key (on_row x) (left_hash c)) test src ls';
    match h' with
    | Inner => Ok (inner_pairs m)
    | Outer => Ok (add_right_part (left_pairs m) rs)
    | _ => Ok (if swapped then map swap_pair (left_pairs m) else left_pairs m)
    end.
End Eval.
