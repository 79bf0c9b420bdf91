(** The source text of the function a join compiles: /repo/src/convtools/joins.py:147-391,
    with the code of pipes (base.py:302-324, 549-592), cached values (base.py:951-1011),
    if_ (base.py:1217-1250), comprehensions (base.py:1536-1567) and calls
    (base.py:1365-1389) that it is made of.  Definitions only.

    Conditions: those of Model_Join.v except bare c.this() and pipes.  Left out: black,
    which only lays the text out in another way (base.py:455-462). *)
From Coq Require Import String Ascii List ZArith NArith Bool Arith.
From Verif Require Import Model_PyVal Model_Join Model_Labels Model_JoinLazy Model_Code Model_Source.
Import ListNotations.

(** The names the code generator picks: of the function itself (base.py:560), the
    variables of the two comprehensions (base.py:1526-1530), the variables of the stages of
    a pipe (base.py:575-579), the number of the cached key (base.py:979-982), the global
    that holds (), the function of the index (aggregations.py:1126-1141), and the global
    names of _left_joiner and _add_right_part (base.py:939-949). *)
Record jnames : Type := mkNames {
  n_fn : text; n_right : text; n_left : text; n_pipe : nat -> text; n_cached : nat;
  n_empty : text; n_agg : text; n_joiner : text; n_adder : text }.

(** the operators with a sign, base.py:599-730 *)
Definition operators : list string :=
  ["is"; "is not"; "in"; "not in"; "!="; ">"; ">="; "<"; "<="; "+"; "*"; "-"; "/"; "%"; "//"]%string.
Definition is_operator (o : string) : bool := existsb (String.eqb o) operators.

Definition lit_of (v : val) : lit :=
  match v with VBool b => LBool b | VInt z => LInt z | VStr s => LStr (T s) | _ => LNone end.

Section JoinText.
  Variable wordch : N -> bool.
  Variable srepr : text -> text.
  Variable N : jnames.
  Variable h : Model_Join.how.
  Variable cond : option jx.

  (** The code of a condition.  [named]: the code of LEFT and RIGHT (ConversionWrapper,
      base.py:1079-1130); [inp]: code_input.
      c.input_arg base.py:1037-1055; naive 939-949; item 1296-1306; Eq, And, Or 1133-1171;
      operators 599-730; not_ 1253-1262; calls 1365-1389. *)
  Fixpoint jtext (named : option (text * text)) (inp : text) (e : jx) : text :=
    match e with
    | JLeft => match named with Some (l, _) => l | None => inp end
    | JRight => match named with Some (_, r) => r | None => inp end
    | JArg a => T a
    | JConst v => lit_text srepr (lit_of v)
    | JItem o k => jtext named inp o ++ T "[" ++ jtext named inp k ++ T "]"
    | JEq l => T "(" ++ intersperse (T " == ") (map (jtext named inp) l) ++ T ")"
    | JAnd l => T "(" ++ intersperse (T " and ") (map (jtext named inp) l) ++ T ")"
    | JOr l => T "(" ++ intersperse (T " or ") (map (jtext named inp) l) ++ T ")"
    | JOp o l =>
        if is_operator o then op_text (OBin (T o)) (map (jtext named inp) l)
        else if String.eqb o "not" then op_text ONot (map (jtext named inp) l)
        else T o ++ T "(" ++ intersperse (T ",") (map (jtext named inp) l) ++ T ")"
    | JThis | JPipe _ _ => inp
    end.
  (** one condition, or And of them: :186-192, :227-234, :365-373 *)
  Definition all_text (named : option (text * text)) (inp : text) (l : list jx) : text :=
    match l with
    | [e] => jtext named inp e
    | _ => T "(" ++ intersperse (T " and ") (map (jtext named inp) l) ++ T ")"
    end.
  (** :251-260 *)
  Definition key_text (inp : text) (l : list jx) : text :=
    match l with
    | [e] => jtext None inp e
    | _ => T "(" ++ intersperse (T ",") (map (jtext None inp) l) ++ T ",)"
    end.

  (** gen_code_and_update_ctx, base.py:312-324 *)
  Definition tattach (a r : text) : text :=
    if negb (simple wordch a) && negb (contains a r) then T "(" ++ a ++ T " and None or " ++ r ++ T ")" else r.
  (** CachingConversion, base.py:984-1011, and LabelConversion, base.py:1014-1034 *)
  Definition add_text (k : text) (e : text) : text := T "add_label_('" ++ k ++ T "', " ++ e ++ T ")".
  Definition get_text (k : text) : text := T "get_by_label_('" ++ k ++ T "')".
  Definition cache_text (k : text) (e : text) : text := T "(" ++ add_text k e ++ T " or " ++ get_text k ++ T ")".
  (** GeneratorComp(GetItem()).filter(...) *)
  Definition filter_text (x inp : text) (l : list jx) : text :=
    match l with
    | [] => inp
    | _ => T "(" ++ x ++ T " for " ++ x ++ T " in " ++ inp ++ T " if " ++ all_text None x l ++ T ")"
    end.

  Notation how' := (how' h).
  Notation cs := (cs_of h cond).
  Notation rfilters := (rfilters h cond).
  Notation lfilters := (lfilters h cond).
  Notation loop_conds := (loop_conds h cond).

  (** get_args_as_func_args, base.py:415-446: every name once, sorted *)
  Fixpoint jargs (e : jx) : list text :=
    match e with
    | JArg a => [T a]
    | JLeft | JRight | JConst _ | JThis => []
    | JItem o k => jargs o ++ jargs k
    | JEq l | JAnd l | JOr l | JOp _ l => flat_map jargs l
    | JPipe a b => jargs a ++ jargs b
    end.
  Definition sorted_args (l : list jx) : list text := sort_names (nodup text_eq_dec (flat_map jargs l)).
  Definition cond_args : list text := match cond with Some e => sorted_args [e] | None => [] end.
  Definition index_args : list text := sorted_args (right_hash cs).

  (** the right collection, :177-197 *)
  Definition right_text : text :=
    let r := filter_text (n_right N) (T "right") rfilters in
    match how' with Outer => T "list(" ++ r ++ T ")" | _ => r end.
  (** the stages of the pipe before the last one, from the code of the stage before:
      the right collection and its label :197 (add_label pipes it into a GetItem()), the
      index :262-271 with the arguments of aggregations.py:1270-1279, the left collection
      :199-216 *)
  Definition stages : list (text -> text) :=
    [fun _ => cache_text (T "right_collection") right_text; fun inp => inp] ++
    match left_hash cs with
    | [] => []
    | _ => [fun inp => cache_text (T "hash_to_items") (n_agg N ++ T "(" ++ intersperse (T ",") (inp :: index_args) ++ T ")")]
    end ++
    [fun _ => T "left"] ++
    match lfilters with [] => [] | _ => [fun inp => filter_text (n_left N) inp lfilters] end.

  (** {right_items}, :272-283; If with a cached input, base.py:1227-1250 *)
  Definition row_key : text := key_text (T "(left_item)") (left_hash cs).
  Definition cached : text := T "cached_val_" ++ ndec (N.of_nat (n_cached N)).
  Definition index_text : text := get_text (T "hash_to_items").
  Definition right_items_text : text :=
    match left_hash cs with
    | [] => get_text (T "right_collection")
    | _ =>
        let k := row_key in
        let '(kc, kv, kn) :=
          if simple wordch k then (k, k, n_empty N)
          else (cache_text cached k, get_text cached, tattach (get_text cached) (n_empty N)) in
        T "(" ++ index_text ++ T "[" ++ kv ++ T "] if (" ++ kc ++ T " in " ++ index_text ++ T ") else " ++ kn ++ T ")"
    end.
  (** " if {condition}", :226-248 *)
  Definition if_text : text :=
    match loop_conds with
    | [] => []
    | l => T " if " ++ all_text (Some (if swapped h then (T "right_item", T "left_item") else (T "left_item", T "right_item"))) [] l
    end.
  (** the last stage, :285-300 and :330-343; InlineExpr puts parentheses around it
      (base.py:1455-1466) *)
  Definition last_stage (left_items : text) : text :=
    match how' with
    | Inner =>
        T "(((left_item, right_item) for left_item in " ++ left_items ++
        T " for right_item in " ++ right_items_text ++ if_text ++ T "))"
    | _ =>
        T "((left_item, (right_item for right_item in " ++ right_items_text ++ if_text ++
        T ")) for left_item in " ++ left_items ++ T ")"
    end.

  (** the code of the pipe as one expression (base.py:302-324); the first stage has no
      predefined input *)
  Fixpoint nest (inp : text) (l : list (text -> text)) : text :=
    match l with [] => inp | s :: r => nest (tattach inp (s inp)) r end.
  Definition left_text : text := match stages with s :: r => nest (s []) r | [] => [] end.
  Definition pipe_text : text := nest left_text [last_stage].
  (** piped into a function: a call, base.py:835-841; :329-343, :345-362 *)
  Definition joined_text : text :=
    match how' with Inner => pipe_text | _ => n_joiner N ++ T "(" ++ pipe_text ++ T ")" end.
  Definition full_text : text :=
    match how' with
    | Outer => n_adder N ++ T "(" ++ joined_text ++ T ",get_by_label_=(get_by_label_))"
    | _ => joined_text
    end.

  (** gen_converter, base.py:549-592: the stages of a pipe become statements; the result
      of an if_ (:363-376) is one expression, and so is a call *)
  Fixpoint assigns (i : nat) (inp : text) (l : list (text -> text)) : list (text * text) * text :=
    match l with
    | [] => ([], inp)
    | s :: r => let '(ls, last) := assigns (S i) (n_pipe N i) r in ((n_pipe N i, s inp) :: ls, last)
    end.
  Definition body : list (text * text) * text :=
    match pre cs, how' with
    | [], Inner => let '(ls, last) := assigns 0 [] stages in (ls, last_stage last)
    | [], _ => ([], full_text)
    | l, _ => ([], T "(" ++ full_text ++ T " if " ++ all_text None (T "data_") l ++ T " else [])")
    end.

  (** CONVERTER_TEMPLATE, base.py:164-168, with the signature of :379-381 *)
  Definition join_text : text :=
    nl ++ def_line (n_fn N) (T "left" :: T "right" :: cond_args) ++ nl ++
    global_line ++ nl ++
    intersperse nl (map (fun l => ind ++ fst l ++ T " = " ++ snd l) (fst body) ++ [T "    return " ++ snd body]) ++ nl.
End JoinText.
