(** The source text of the functions gen_converter compiles: the converter itself
    and the helper functions its code calls.
    /repo/src/convtools/base.py:164-178 (templates), 448-468 (_code_to_converter),
    521-592 (gen_converter), 1308-1339 (get_or_default), 1648-1677
    (optional_items_generator), 1893-1918 (tap); mutations.py:27-68.
    The expressions inside are those of Model_Code.v.  Definitions only. *)
From Coq Require Import String Ascii List ZArith NArith Bool Arith.
From Verif Require Import Model_Code Model_Converter.
Import ListNotations.

(** What a helper function is made of. *)
Inductive helper : Type :=
| HDefault (over : bool) (body : px)                          (* over: self_is_overwritten *)
| HItems (params : list text) (lines : list (option px * px))
| HTap (params : list text) (stmts : list (mkind * list px)).

(** The helper functions code calls, with their names, in the order
    _code_to_converter compiles them (a function that is compiled again is listed
    again).  base.py:1314-1331, 1653-1674, 1899-1915.  The functions a default
    value needs are compiled after get_or_default in the code and before it here;
    the order only matters when two functions have the same name. *)
Fixpoint defs (e : px) : list (text * helper) :=
  let opt (o : option px) := match o with Some c => defs c | None => [] end in
  match e with
  | PName _ | PLit _ | PGlob _ | PGet _ => []
  | POp _ l | PBool _ l | PEqs l => flat_map defs l
  | PIf c t f => defs c ++ defs t ++ defs f
  | PAttach a b => defs a ++ defs b
  | PAdd _ e => defs e
  | PComp _ elts _ it cond => defs it ++ flat_map defs elts ++ opt cond
  | PDefault f args body =>
      flat_map defs args ++ defs body ++ [(f, HDefault (Nat.eqb (length args) 3) body)]
  | PItems f _ args params lines =>
      flat_map defs args ++ flat_map (fun l => defs (snd l) ++ opt (fst l)) lines ++ [(f, HItems params lines)]
  | PTap f args params stmts =>
      flat_map defs args ++ flat_map (fun s => flat_map defs (snd s)) stmts ++ [(f, HTap params stmts)]
  end.

Definition nl : text := [10%N].
Definition ind : text := T "    ".

Section Source.
  Variable srepr : text -> text.
  Variable gname : nat -> text.
  Variable pnum : list nat -> nat.
  Notation print := (print srepr gname pnum).

  (** the line of a def statement *)
  Definition def_line (f : text) (params : list text) : text :=
    T "def " ++ f ++ T "(" ++ intersperse (T ", ") params ++ T "):".
  Definition global_line : text := T "    global add_label_, get_by_label_".

  (** base.py:1655-1663 *)
  Definition item_lines (l : option px * px) : list text :=
    match fst l with
    | Some c => [T "    if " ++ print c ++ T ":"; T "        yield " ++ print (snd l)]
    | None => [T "    yield " ++ print (snd l)]
    end.
  (** mutations.py:27-68, indented by base.py:389-402 (the code of a custom
      mutation is one line unless it contains a line boundary) *)
  Definition stmt_line (s : mkind * list px) : text :=
    let arg i := print (nth i (snd s) (PLit LNone)) in
    ind ++ match fst s with
           | MSetItem => T "data_[" ++ arg 0 ++ T "] = " ++ arg 1
           | MSetAttr => T "setattr(data_, " ++ arg 0 ++ T ", " ++ arg 1 ++ T ")"
           | MDelItem => T "data_.pop(" ++ arg 0 ++ T ")"
           | MDelAttr => T "delattr(data_, " ++ arg 0 ++ T ")"
           | MCustom => arg 0
           end.

  (** GET_OR_DEFAULT_TEMPLATE, base.py:171-178 and 1308-1327 *)
  Definition default_params (over : bool) : list text :=
    if over then [T "self_"; T "obj_"; T "default_"] else [T "obj_"; T "default_"].
  Definition helper_text (f : text) (h : helper) : text :=
    match h with
    | HDefault over body =>
        nl ++ def_line f (default_params over) ++ nl ++
        global_line ++ nl ++
        T "    try:" ++ nl ++
        T "        return " ++ print body ++ nl ++
        T "    except (TypeError, KeyError, IndexError, AttributeError):" ++ nl ++
        T "        return default_" ++ nl
    | HItems params lines =>                                  (* base.py:1664-1669 *)
        nl ++ def_line f (T "data_" :: params) ++ nl ++
        intersperse nl (flat_map item_lines lines) ++ nl ++ T "        "
    | HTap params stmts =>                                    (* base.py:1893-1897 *)
        nl ++ def_line f (T "data_" :: params) ++ nl ++
        intersperse nl (map stmt_line stmts) ++ nl ++ T "    return data_" ++ nl
    end.

  (** CONVERTER_TEMPLATE, base.py:164-168, with the lines of 575-579 and the
      default signature of 537-548 *)
  Definition signature_params (args : list text) : list text :=
    T "data_" :: match args with [] => [] | _ => T "*" :: args end.
  Definition converter_source (name : text) (args : list text) (ls : list (text * px)) (last : px) : text :=
    nl ++ def_line name (signature_params args) ++ nl ++
    global_line ++ nl ++
    intersperse nl (map (fun l => ind ++ fst l ++ T " = " ++ print (snd l)) ls ++ [T "    return " ++ print last]) ++ nl.
End Source.

Section Converter.
  Variable wordch : N -> bool.
  Variable srepr : text -> text.
  Variable gname : nat -> text.
  Variable pnum : list nat -> nat.
  Variable pname : text -> text.
  Variable hname : list nat -> text.
  Variable tname : text -> text.
  Notation converter := (converter wordch srepr gname pnum pname hname tname).

  (** get_args_def_code(as_kwargs=True, exclude_cls_self=True), base.py:415-435;
      Model_Args.v has the same over the objects of the conversion. *)
  Definition kwargs_of (c : cv) : list text :=
    filter (fun a => negb (teqb a (T "self") || teqb a (T "cls"))) (params_of c).

  (** the text of the converter *)
  Definition converter_text (name : text) (c : cv) : text :=
    converter_source srepr gname pnum name (kwargs_of c) (fst (converter c)) (snd (converter c)).
  (** the helper functions of all its statements *)
  Definition converter_defs (c : cv) : list (text * helper) :=
    flat_map (fun l => defs (snd l)) (fst (converter c)) ++ defs (snd (converter c)).
  Definition helper_texts (c : cv) : list text :=
    map (fun d => helper_text srepr gname pnum (fst d) (snd d)) (converter_defs c).
  (** All texts, in the order they are executed, with one dict of globals (the ctx
      that gen_converter makes): the helper functions while the code of the
      conversion is generated, the converter last.  base.py:448-468, 549-592 *)
  Definition module_texts (name : text) (c : cv) : list text := helper_texts c ++ [converter_text name c].
End Converter.
