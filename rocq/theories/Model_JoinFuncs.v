(** The functions of joins.py that the code of a join calls, statement by statement, and
    what the function of its index does with a row.  Definitions only. *)
From Coq Require Import String List ZArith NArith Bool.
From Verif Require Import Model_PyVal Model_Join Model_Code Spec_Syntax Spec_GenRun.
Import ListNotations.

Definition nm (x : string) : ast := AName (T x).
Definition fn (f : string) (l : list ast) : ast := ACall (nm f) l [].
Definition none_ast : ast := AConst (T "None").

(** _left_joiner and _left_joiner_swapped, joins.py:304-327 *)
Definition left_joiner (swapped : bool) : gfun :=
  let pair a b := ATuple (if swapped then [b; a] else [a; b]) in
  mkGfun [T "left_to_right_ones_gen"] [T "none_"; T "left_item"; T "right_ones"; T "right_item"]
    [GAssign (T "none_") (fn "object" []);
     GFor [T "left_item"; T "right_ones"] (nm "left_to_right_ones_gen")
       [GAssign (T "right_item") (fn "next" [nm "right_ones"; nm "none_"]);
        GIf (ACompare (nm "right_item") [(T "is", nm "none_")])
          [GYield (pair (nm "left_item") none_ast)]
          [GYield (pair (nm "left_item") (nm "right_item"));
           GFor [T "right_item"] (nm "right_ones") [GYield (pair (nm "left_item") (nm "right_item"))]]]].

(** _add_right_part, joins.py:347-357 *)
Definition right_part : ast :=
  AComp GGen [ATuple [none_ast; nm "right"]] (T "right") (fn "get_by_label_" [AStr (T "right_collection")])
    (Some (ACompare (fn "id" [nm "right"]) [(T "not in", nm "yielded_right_ids")])).
Definition add_right : gfun :=
  mkGfun [T "left_join_gen"; T "get_by_label_"] [T "yielded_right_ids"; T "left_right"]
    [GAssign (T "yielded_right_ids") (fn "set" []);
     GFor [T "left_right"] (nm "left_join_gen")
       [GExpr (ACall (AAttr (nm "yielded_right_ids") (T "add")) [fn "id" [ASub (nm "left_right") (ANum 1)]] []);
        GYield (nm "left_right")];
     GFrom right_part].

(** not_ (base.py:1253-1262); the other operations are arbitrary, the names of the
    operators are their signs *)
Definition jop (opr : text -> list val -> res val) (o : string) (vs : list val) : res val :=
  if String.eqb o "not" then match vs with [v] => Ok (VBool (negb (truthy v))) | _ => Err TypeError end
  else opr (T o) vs.

(** Aggregate(Reduce(DictArray, (key, row), default={})), joins.py:262-271, as a function of
    the rows and of the input arguments of the keys: what it does with one row
    (aggregations.py:379-390; Model_Join.index_rows). *)
Fixpoint named_values (params : list text) (vs : list val) (a : string) : val :=
  match params, vs with
  | p :: ps, v :: vs => if teqb (T a) p then v else named_values ps vs a
  | _, _ => VNone
  end.
Definition index_row (op : string -> list val -> res val) (keys : list jx) (params : list text)
    (vs : list val) (d : list (val * list robj)) (r : robj) : res (list (val * list robj)) :=
  do k0 <- ev_key op (on_row (named_values params vs) r) keys;
  do k <- need_hash k0;
  Ok (dput d k (match dfind d k with Some rs => rs | None => [] end ++ [r])).
