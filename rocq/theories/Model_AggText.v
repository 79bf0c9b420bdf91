(** The text of the loop bodies of aggregations and the test by which reducers
    are recognised as identical: /repo/src/convtools/aggregations.py:116-282
    (gen_reduce_initial, gen_reduce_two), 285-483 (the statements of the built-in
    reducers), 552-648 (ReduceBlock), 651-693 (ReduceConditionalBlock), 876-914
    (gen_reduce_code_block), 1162-1204 (GroupBy, numbering).  Definitions only.

    Simplifications: a text of several statements is the list of its lines (the
    codes put into it have no line breaks); a line is formatted in one pass
    (the code first applies % and then .format; the variable contains neither
    braces nor percent signs).  Reducers written as strings (InlineExpr) are
    in [Inline]. *)
From Coq Require Import String Ascii List ZArith NArith Bool Arith.
From Verif Require Import Model_Code Model_Reducers.
Import ListNotations.

(** *** str.replace *)
Fixpoint replace_in (fuel : nat) (old new t : text) : text :=
  match fuel with
  | O => t
  | S f =>
      match t with
      | [] => []
      | c :: r => if starts old t then new ++ replace_in f old new (skipn (length old) t)
                  else c :: replace_in f old new r
      end
  end.
(** t.replace(old, new), [old] not empty *)
Definition replace (old new t : text) : text := replace_in (length t) old new t.

(** *** format strings *)
Inductive piece : Type :=
| Ch (c : N)          (* a character *)
| Res                 (* %(result)s *)
| Arg (n : nat).      (* {n} *)
Definition fill1 (result : text) (args : nat -> text) (p : piece) : text :=
  match p with Ch c => [c] | Res => result | Arg n => args n end.
Definition fill (result : text) (args : nat -> text) (l : list piece) : text :=
  flat_map (fill1 result args) l.
(** The replacement fields of a statement: %(result)s, {0}, {1}, {2}, {{ and }}. *)
Fixpoint fields (fuel : nat) (t : text) : list piece :=
  match fuel with
  | O => []
  | S f =>
      if starts (T "%(result)s") t then Res :: fields f (skipn 10 t)
      else if starts (T "{{") t then Ch 123 :: fields f (skipn 2 t)
      else if starts (T "}}") t then Ch 125 :: fields f (skipn 2 t)
      else match t with
           | 123%N :: d :: 125%N :: r => Arg (N.to_nat (d - 48)) :: fields f r
           | c :: r => Ch c :: fields f r
           | [] => []
           end
  end.
Definition statement (s : string) : list piece := fields (S (length (T s))) (T s).

(** *** the built-in reducers *)
(** initial_from_first=[...] *)
Definition initial_from_first (b : builtin) : list (list piece) :=
  map statement match b with
  | Sum => ["%(result)s = ({0} or 0)"]                                       (* :287 *)
  | SumOrNone => ["%(result)s = {0}"]                                        (* :298 *)
  | Max | Min => ["if {0} is not None:"; "    %(result)s = {0}"]              (* :304, :309 *)
  | Count => ["%(result)s = 1"]                                              (* :314 *)
  | CountDistinct => ["%(result)s = {{ {0} }}"]                              (* :321 *)
  | First | Last => ["%(result)s = {0}"]                                     (* :330, :336 *)
  | MaxRow | MinRow => ["if {0} is not None:"; "    %(result)s = ({0}, {1})"] (* :345, :355 *)
  | Array => ["%(result)s = [{0}]"]                                          (* :362 *)
  | ArrayDistinct => ["%(result)s = {{ {0}: None }}"]                        (* :368 *)
  | Dict | DictFirst | DictLast => ["%(result)s = {{ {0}: {1} }}"]           (* :377, :474, :480 *)
  | DictArray => ["%(result)s = _d = defaultdict(list)"; "_d[{0}].append({1})"]     (* :383-386 *)
  | DictArrayDistinct => ["%(result)s = _d = defaultdict(dict)"; "_d[{0}][{1}] = None"]  (* :393-396 *)
  | DictSum => ["%(result)s = _d = defaultdict(int)"; "_d[{0}] += {1} or 0"]  (* :405-408 *)
  | DictSumOrNone => ["%(result)s = _d = defaultdict(int)"; "_d[{0}] = {1}"]  (* :420 *)
  | DictMax | DictMin => ["if {1} is not None:"; "    %(result)s = {{ {0}: {1} }}"]  (* :430-433, :441-444 *)
  | DictCount => ["%(result)s = {{ {0}: 1 }}"]                               (* :454 *)
  | DictCountDistinct => ["%(result)s = {{ {0}: {{ {1} }} }}"]               (* :465 *)
  end%string.
(** reduce=[...]; no statement at all becomes "pass", :195-196 *)
Definition reduce_statements (b : builtin) : list (list piece) :=
  map statement match b with
  | Sum => ["%(result)s += ({1} or 0)"]                                      (* :286 *)
  | SumOrNone => ["if {1} is None:"; "    %(result)s = None";
                  "elif {0} is not None:"; "    %(result)s = {0} + {1}"]      (* :292-297 *)
  | Max => ["if {1} is not None and {1} > {0}:"; "    %(result)s = {1}"]      (* :303 *)
  | Min => ["if {1} is not None and {1} < {0}:"; "    %(result)s = {1}"]      (* :308 *)
  | Count => ["%(result)s += 1"]                                             (* :313 *)
  | CountDistinct => ["%(result)s.add({1})"]                                 (* :320 *)
  | First => ["pass"]                                                        (* :329 *)
  | Last => ["%(result)s = {1}"]                                             (* :335 *)
  | MaxRow => ["if {1} is not None and {0}[0] < {1}:"; "    %(result)s = ({1}, {2})"]  (* :341-344 *)
  | MinRow => ["if {1} is not None and {0}[0] > {1}:"; "    %(result)s = ({1}, {2})"]  (* :351-354 *)
  | Array => ["%(result)s.append({1})"]                                      (* :361 *)
  | ArrayDistinct => ["%(result)s[{1}] = None"]                              (* :367 *)
  | Dict | DictLast => ["%(result)s[{1}] = {2}"]                             (* :376, :479 *)
  | DictArray => ["%(result)s[{1}].append({2})"]                             (* :382 *)
  | DictArrayDistinct => ["%(result)s[{1}][{2}] = None"]                     (* :392 *)
  | DictSum => ["%(result)s[{1}] += {2} or 0"]                               (* :404 *)
  | DictSumOrNone => ["if {2} is None:"; "    %(result)s[{1}] = None";
                      "elif {0}[{1}] is not None:"; "    %(result)s[{1}] += {2}"]    (* :414-419 *)
  | DictMax => ["if {2} is not None and ({1} not in {0} or {2} > {0}[{1}]):"; "    %(result)s[{1}] = {2}"]  (* :426-429 *)
  | DictMin => ["if {2} is not None and ({1} not in {0} or {2} < {0}[{1}]):"; "    %(result)s[{1}] = {2}"]  (* :437-440 *)
  | DictCount => ["if {1} not in {0}:"; "    %(result)s[{1}] = 1"; "else:"; "    %(result)s[{1}] += 1"]     (* :448-453 *)
  | DictCountDistinct => ["if {1} not in {0}:"; "    %(result)s[{1}] = {{ {2} }}";
                          "else:"; "    %(result)s[{1}].add({2})"]            (* :459-464 *)
  | DictFirst => ["if {1} not in {0}:"; "    %(result)s[{1}] = {2}"]          (* :473 *)
  end%string.

(** *** a reduce with the codes of its parts *)
(** The operation: a built-in, a callable (its name), or a string: the inline
    expression, where {0} is the accumulator, {1} the expression, :116-176. *)
Inductive opcode : Type := Stmts (b : builtin) | Func (f : text) | Inline (s : list piece).
Record rcode : Type := mkCode {
  r_op : opcode;
  r_cond : option text;                 (* .filter(...) *)
  r_initial : option text;
  r_expr : text;
  r_extras : list text                  (* additional_args *)
}.

Section Block.
  Variable q : rcode.
  Definition at_pos (l : list text) (n : nat) : text := nth n l [].
  (** CallFunc(f, a, ...), InlineExpr(s).pass_args(a, ...), :23-41 *)
  Definition applied (args : list text) : text :=
    match r_op q with
    | Func f => f ++ T "(" ++ intersperse (T ",") args ++ T ")"
    | Inline s => fill [] (at_pos args) s
    | Stmts _ => []
    end.
  (** gen_reduce_initial, :124-158 and :207-249 *)
  Definition reduce_initial (var : text) : list text :=
    match r_op q, r_initial q with
    | Stmts b, None => map (fill var (at_pos (r_expr q :: r_extras q))) (initial_from_first b)
    | Stmts b, Some i => map (fill var (at_pos (i :: r_expr q :: r_extras q))) (reduce_statements b)
    | _, None =>
        [var ++ T " = " ++ match r_extras q with
                           | [] => r_expr q
                           | l => T "(" ++ intersperse (T ",") (r_expr q :: l) ++ T ",)"
                           end]
    | _, Some i => [var ++ T " = " ++ applied (i :: r_expr q :: r_extras q)]
    end.
  (** gen_reduce_two, :160-176 and :251-270 *)
  Definition reduce_two (var : text) : list text :=
    match r_op q with
    | Stmts b => map (fill var (at_pos (var :: r_expr q :: r_extras q))) (reduce_statements b)
    | _ => [var ++ T " = " ++ applied (var :: r_expr q :: r_extras q)]
    end.

  (** indent_statements, base.py:390-402 *)
  Definition indent (n : nat) (ls : list text) : list text := map (fun l => repeat 32%N (4 * n) ++ l) ls.
  (** get_template and get_template_kwargs, :594-641, :662-693: the lines of
      to_code.  [checksum]: the flag; None when it is 0. *)
  Definition checksum_lines (n : nat) (var : text) (checksum : option text) : list text :=
    match checksum with
    | None => [[]]
    | Some flag =>
        [[]] ++ indent n [T "if " ++ var ++ T " is not _none:";
                          T "    checksum_ |= " ++ flag;
                          T "    if checksum_ == expected_checksum_:";
                          T "        break"] ++ [[]]
    end.
  Definition block_lines (var : text) (checksum : option text) : list text :=
    match r_cond q with
    | None =>
        [[]] ++ indent 2 [T "if " ++ var ++ T " is _none:"] ++
        indent 3 (reduce_initial var) ++ checksum_lines 3 var checksum ++
        indent 2 [T "else:"] ++ indent 3 (reduce_two var) ++ [[]]
    | Some c =>
        [[]] ++ indent 2 [T "if " ++ c ++ T ":"] ++ indent 3 [T "if " ++ var ++ T " is _none:"] ++
        indent 4 (reduce_initial var) ++ checksum_lines 4 var checksum ++
        indent 3 [T "else:"] ++ indent 4 (reduce_two var) ++ [[]]
    end.
  (** to_no_init_code, :616-618, :671-675: the lines of the second loop of an aggregate *)
  Definition no_init_lines (var : text) : list text :=
    match r_cond q with
    | None => [[]] ++ indent 2 (reduce_two var) ++ [[]]
    | Some c => [[]] ++ indent 2 [T "if " ++ c ++ T ":"] ++ indent 3 (reduce_two var) ++ [[]; []]
    end.
  Definition nl : text := [10%N].
  Definition to_code (var : text) (checksum : option text) : text :=
    intersperse nl (block_lines var checksum).
  (** code_hash, :643-648 *)
  Definition code_hash (var : text) (checksum : option text) : text :=
    let h := replace var [] (to_code var checksum) in
    match checksum with None => h | Some flag => replace flag [] h end.
  (** update_var_agg_data_value, :585-592 *)
  Definition renamed (var new : text) (ls : list text) : list text := map (replace var new) ls.
End Block.

(** gen_agg_data_value, :1166-1176 *)
Definition agg_var (aggregate_mode : bool) (i : nat) : text :=
  if aggregate_mode then T "agg_data_v" ++ ndec (N.of_nat i) ++ T "_"
  else T "agg_data_.v" ++ ndec (N.of_nat i).
(** checksum_flag = 1 << agg_index if self.aggregate_mode else 0, :1180 *)
Definition agg_flag (aggregate_mode : bool) (i : nat) : option text :=
  if aggregate_mode then Some (ndec (N.shiftl 1 (N.of_nat i))) else None.
(** code_hash of the reduce at position [i] of the aggregation, :1178-1187 *)
Definition hash_at (aggregate_mode : bool) (i : nat) (q : rcode) : text :=
  code_hash q (agg_var aggregate_mode i) (agg_flag aggregate_mode i).
