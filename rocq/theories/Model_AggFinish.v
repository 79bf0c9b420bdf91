(** The text of a reduce inside the result of an aggregation.
    /repo/src/convtools/aggregations.py:916-945 (Reduce._gen_code_and_update_ctx) and the
    post conversions of the reducers, :312-480.  Definitions only. *)
From Coq Require Import String Ascii List NArith ZArith Bool.
From Verif Require Import Model_Reducers Model_Code Model_AggText Model_AggSource.
Import ListNotations.

(** self.post_conversion.gen_code_and_update_ctx(agg_data_item, ctx): InlineExpr puts
    parentheses around its code (base.py:1455-1466), GetItem(1) indexes (base.py:1296-1306) *)
Definition post_text (b : builtin) (V : text) : text :=
  match b with
  | CountDistinct => T "(" ++ V ++ T " and len(" ++ V ++ T ") or 0)"                     (* :322-324 *)
  | MaxRow | MinRow => V ++ T "[1]"                                                      (* :347, :357 *)
  | ArrayDistinct => T "(list(" ++ V ++ T ".keys()))"                                    (* :369 *)
  | DictArray | DictSum | DictSumOrNone => T "(dict(" ++ V ++ T "))"                     (* :387, :409, :421 *)
  | DictArrayDistinct => T "({k_: list(v_.keys()) for k_, v_ in " ++ V ++ T ".items()})" (* :397-399 *)
  | DictCountDistinct => T "({ k_: len(v_) for k_, v_ in " ++ V ++ T ".items() })"       (* :466-468 *)
  | _ => V
  end.
Definition op_post (o : opcode) (V : text) : text :=
  match o with Stmts b => post_text b V | Func _ | Inline _ => V end.
(** :929-945; [default]: the code of default=, of the call of it when it is callable *)
Definition reduce_text (o : opcode) (V : text) (default : option text) : text :=
  match default with
  | None => op_post o V
  | Some d => T "(" ++ d ++ T " if " ++ V ++ T " is _none else " ++ op_post o V ++ T ")"
  end.

(** code_sorting, :1223-1231: EscapedString("result_").call_method("sort", key=..., reverse=...)
    (call_method: base.py:613-618; Call: base.py:1372-1384).  [key]: the name of the key function
    in the module, nothing for key=None; a constant is its repr (base.py:902-955) *)
Definition sort_text (key : option text) (reverse : bool) : text :=
  op_text (OCall 0 [T "key"; T "reverse"])
    [ op_text (OAttr (T "sort")) [T "result_"]; match key with None => T "None" | Some f => f end;
      if reverse then T "True" else T "False" ].

(** sort(), :1029-1035: a clone with key and reverse *)
Definition sorted_frame (f : frame) (key : option text) (reverse : bool) : frame :=
  mkFrame (a_name f) (a_params f) (a_none f) (a_result f) (sort_text key reverse).

(** A place of the output: a key (the only one, or one of several), or the reduce at
    a position. *)
Inductive column : Type := Key (i : option nat) | Red (p : nat).
(** What an output is made with: Tuple, List, Set (base.py:1770-1811), Dict (base.py:1815-1860;
    keys and values in turn), CallFunc with positional arguments (base.py:1365-1389; [f]: the
    name of the function in the module), the operators of BaseConversion (base.py:635-748:
    InlineExpr, which puts parentheses around its code, :1455-1466), item (GetItem,
    base.py:1296-1306), Or, And (base.py:1133-1171), If whose input is a name (base.py:1227-1253;
    condition, if_true, if_false) *)
Inductive maker : Type := STuple | SList | SSet | SDict | SCall (f : text)
| SBin (o : text) | SNot | SNeg | SItem | SBool (isor : bool) | SIf.
(** An output: places, expressions that mention neither the row nor reduces, and what is
    made of outputs. *)
Inductive output : Type :=
| Place (c : column)
| Fixed (e : px)
| Made (s : maker) (l : list output).

(** The text of a key is found and replaced by that of the signature (:1046-1057,
    Model_AggResult.v); that of a reduce is the one above with the variable
    reduce_id_to_var gives (:920-927).  [ops], [defaults], [vs]: of the reduces, in order. *)
Definition column_text (mode : bool) (ops : list opcode) (defaults : list (option text)) (vs : list nat) (c : column) : text :=
  match c with
  | Key None => T "signature_"
  | Key (Some i) => T "signature_" ++ T "[" ++ ndec (N.of_nat i) ++ T "]"
  | Red p => reduce_text (nth p ops (Inline [])) (agg_var mode (nth p vs 0)) (nth p defaults None)
  end.
Definition maker_text (s : maker) (l : list text) : text :=
  match s with
  | STuple => op_text OTuple l
  | SList => op_text OList l
  | SSet => op_text OSet l
  | SDict => op_text ODict l
  | SCall f => op_text (OCall (length l) []) (f :: l)
  | SBin o => op_text (OBin o) l
  | SNot => op_text ONot l
  | SNeg => op_text ONeg l
  | SItem => op_text OItem l
  | SBool isor => T "(" ++ intersperse (if isor then T " or " else T " and ") l ++ T ")"
  | SIf => T "(" ++ nth_t l 1 ++ T " if " ++ nth_t l 0 ++ T " else " ++ nth_t l 2 ++ T ")"
  end.
(** _rebuild_reducer_result, :1066-1113: the output is put together again from the texts of
    its parts.  [show]: Model_Code.print *)
Fixpoint output_text (show : px -> text) (mode : bool) (ops : list opcode) (defaults : list (option text)) (vs : list nat) (o : output) : text :=
  match o with
  | Place c => column_text mode ops defaults vs c
  | Fixed e => show e
  | Made s l => maker_text s (map (output_text show mode ops defaults vs) l)
  end.
