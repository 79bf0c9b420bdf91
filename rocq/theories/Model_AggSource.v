(** The whole source text generated for c.group_by(...).aggregate(...) and
    c.aggregate(...): /repo/src/convtools/aggregations.py:552-648 (ReduceBlock),
    651-693 (ReduceConditionalBlock), 696-752 (ReduceBlocks), 755-767
    (GROUPER_TEMPLATE), 768-785 (AGGREGATE_TEMPLATE), 1143-1277
    (GroupBy._gen_code_and_update_ctx); base.py:415-435 (get_args_def_code).
    Definitions only.

    Simplifications: texts of several lines are lists of lines, as in
    Model_AggText.v; the codes of the keys, of the reduces, of the result and of the
    sorting are given (they are generated by Model_Code.v and Model_AggResult.v). *)
From Coq Require Import String Ascii List ZArith NArith Bool Arith.
From Verif Require Import Model_Reducers Model_Code Model_AggText.
Import ListNotations.

(** *** ReduceBlock, ReduceConditionalBlock *)
Record tblock : Type := mkTBlock {
  k_cond : option text;            (* condition_code *)
  k_var : text;                    (* var_agg_data_value *)
  k_init : list text;              (* reduce_initial *)
  k_two : list text;               (* reduce_two *)
  k_flag : N;                      (* checksum_flag *)
  k_uncond : bool                  (* unconditional_init *)
}.
(** union, :575-583 *)
Definition union (b b' : tblock) : tblock :=
  mkTBlock (k_cond b) (k_var b) (k_init b ++ k_init b') (k_two b ++ k_two b')
           (N.lor (k_flag b) (k_flag b')) (k_uncond b).
(** update_var_agg_data_value, :585-592 *)
Definition update_var (new : text) (b : tblock) : tblock :=
  mkTBlock (k_cond b) new (renamed (k_var b) new (k_init b)) (renamed (k_var b) new (k_two b))
           (k_flag b) (k_uncond b).
(** the checksum as it is formatted: left out when it is 0, :629-641 *)
Definition flag_text (n : N) : option text := if N.eqb n 0 then None else Some (ndec n).
(** to_code, :608-618, :662-675 *)
Definition tblock_lines (b : tblock) : list text :=
  match k_cond b with
  | None =>
      [[]] ++ indent 2 [T "if " ++ k_var b ++ T " is _none:"] ++
      indent 3 (k_init b) ++ checksum_lines 3 (k_var b) (flag_text (k_flag b)) ++
      indent 2 [T "else:"] ++ indent 3 (k_two b) ++ [[]]
  | Some c =>
      [[]] ++ indent 2 [T "if " ++ c ++ T ":"] ++ indent 3 [T "if " ++ k_var b ++ T " is _none:"] ++
      indent 4 (k_init b) ++ checksum_lines 4 (k_var b) (flag_text (k_flag b)) ++
      indent 3 [T "else:"] ++ indent 4 (k_two b) ++ [[]]
  end.
(** to_no_init_code, :616-618, :671-675 *)
Definition tblock_no_init_lines (b : tblock) : list text :=
  match k_cond b with
  | None => [[]] ++ indent 2 (k_two b) ++ [[]]
  | Some c => [[]] ++ indent 2 [T "if " ++ c ++ T ":"] ++ indent 3 (k_two b) ++ [[]; []]
  end.

(** *** the reduces of an aggregation *)
(** the codes of a reduce, and its unconditional_init *)
Record tred : Type := mkTRed { t_code : rcode; t_uncond : bool }.
(** gen_reduce_code_block at position [pos], :876-914, :1178-1187 *)
Definition gen_block (mode : bool) (pos : nat) (r : tred) : tblock :=
  let var := agg_var mode pos in
  mkTBlock (r_cond (t_code r)) var (reduce_initial (t_code r) var) (reduce_two (t_code r) var)
           (if mode then N.shiftl 1 (N.of_nat pos) else 0%N) (t_uncond r).
(** code_signature_to_agg_index, :1178-1204: the number of the variable of each
    reduce, the blocks, and expected_checksum *)
Fixpoint number (mode : bool) (l : list tred) (pos next : nat) (seen : list (text * nat)) : list nat * list tblock * N :=
  match l with
  | [] => ([], [], 0%N)
  | r :: rest =>
      let h := hash_at mode pos (t_code r) in
      match find (fun p => teqb (fst p) h) seen with
      | Some (_, v) =>
          let '(vars, bs, e) := number mode rest (S pos) next seen in (v :: vars, bs, e)
      | None =>
          let b := gen_block mode pos r in
          let new := agg_var mode next in
          let b := if teqb (k_var b) new then b else update_var new b in
          let '(vars, bs, e) := number mode rest (S pos) (S next) (seen ++ [(h, next)]) in
          (next :: vars, b :: bs, N.lor (k_flag b) e)
      end
  end.

(** *** ReduceBlocks, :696-752 *)
(** defaultdict(list) keyed by the code of the condition *)
Fixpoint add_to (d : list (text * list tblock)) (c : text) (b : tblock) : list (text * list tblock) :=
  match d with
  | [] => [(c, [b])]
  | (c', l) :: r => if teqb c' c then (c', l ++ [b]) :: r else (c', l) :: add_to r c b
  end.
Record blocks : Type := mkBlocks {
  conditional : list (text * list tblock);              (* condition_to_blocks *)
  uncond_conditional : list (text * list tblock);       (* unconditional_init_condition_to_blocks *)
  uncond_plain : list tblock;                           (* unconditional_init_blocks *)
  others : list tblock                                  (* other_blocks *)
}.
Definition add_block (s : blocks) (b : tblock) : blocks :=            (* :706-720 *)
  match k_cond b, k_uncond b with
  | Some c, true => mkBlocks (conditional s) (add_to (uncond_conditional s) c b) (uncond_plain s) (others s)
  | Some c, false => mkBlocks (add_to (conditional s) c b) (uncond_conditional s) (uncond_plain s) (others s)
  | None, true => mkBlocks (conditional s) (uncond_conditional s) (uncond_plain s ++ [b]) (others s)
  | None, false => mkBlocks (conditional s) (uncond_conditional s) (uncond_plain s) (others s ++ [b])
  end.
(** _reduce_blocks, :722-728 *)
Definition union_all (l : list tblock) : list tblock :=
  match l with [] => [] | b :: r => [fold_left union r b] end.
Definition reduce_blocks (s : blocks) : list tblock :=                (* :730-744 *)
  flat_map snd (conditional s) ++ flat_map (fun p => union_all (snd p)) (uncond_conditional s) ++
  union_all (uncond_plain s) ++ others s.
Definition arrange (bs : list tblock) : list tblock :=
  reduce_blocks (fold_left add_block bs (mkBlocks [] [] [] [])).
(** "\n\n".join(...), :746-752 *)
Fixpoint join_blocks (l : list (list text)) : list text :=
  match l with
  | [] => [[]]
  | [b] => b
  | b :: r => b ++ [[]] ++ join_blocks r
  end.
Definition blocks_code (bs : list tblock) : list text := join_blocks (map tblock_lines bs).
Definition blocks_no_init_code (bs : list tblock) : list text := join_blocks (map tblock_no_init_lines bs).

(** *** the templates *)
(** get_args_def_code(as_kwargs=False), base.py:415-435 *)
Definition args_def (params : list text) : text :=
  match params with [] => [] | _ => T ", " ++ intersperse (T ", ") params end.
(** code_signature, :1152-1158 *)
Definition signature_text (keys : list text) : text :=
  match keys with
  | [k] => k
  | _ => T "(" ++ intersperse (T ",") keys ++ T ",)"
  end.
(** what an aggregation is made of, besides the reduces *)
Record frame : Type := mkFrame {
  a_name : text;               (* converter_name *)
  a_params : list text;        (* the names of the input args *)
  a_none : text;               (* var_none: the name of the sentinel *)
  a_result : text;             (* code_reducer_result, :1064-1114 *)
  a_sorting : text             (* code_sorting, empty when there is none *)
}.
Definition opening (f : frame) : list text :=
  [ []; T "def " ++ a_name f ++ T "(data_" ++ args_def (a_params f) ++ T "):";
    T "    global add_label_, get_by_label_";
    T "    _none = " ++ a_none f ].
Definition closing (f : frame) (result : text) : list text :=
  [ []; T "    result_ = " ++ result; T "    " ++ a_sorting f; T "    return result_"; [] ].
(** the result of a group_by, :1115-1124 *)
Definition group_result (f : frame) : text :=
  T "[" ++ a_result f ++ T " for signature_, agg_data_ in signature_to_agg_data_.items()]".
(** GROUPER_TEMPLATE, :755-767; [cls]: the name of the class of the accumulators *)
Definition group_text (f : frame) (cls : text) (keys : list text) (bs : list tblock) : text :=
  intersperse nl (opening f ++
    [ T "    signature_to_agg_data_ = defaultdict(" ++ cls ++ T ")";
      T "    for row_ in data_:";
      T "        agg_data_ = signature_to_agg_data_[" ++ signature_text keys ++ T "]" ] ++
    blocks_code bs ++ closing f (group_result f)).
(** AGGREGATE_TEMPLATE, :768-785; [n]: the number of variables *)
Definition init_vars (n : nat) : text :=                              (* :1207-1210 *)
  intersperse (T " = ") (map (agg_var true) (seq 0 n)) ++ T " = _none".
Definition aggregate_text (f : frame) (n : nat) (expected : N) (bs : list tblock) : text :=
  intersperse nl (opening f ++
    [ T "    " ++ init_vars n;
      T "    expected_checksum_ = " ++ ndec expected;
      T "    checksum_ = 0";
      T "    it_ = iter(data_)";
      T "    for row_ in it_:" ] ++
    blocks_code bs ++
    [ []; T "    for row_ in it_:" ] ++
    blocks_no_init_code bs ++ closing f (a_result f)).

(** The source of a group_by ([keys] not empty) and of an aggregate (:1143-1262);
    [None]: there is no reduce, the generated code is not Python (:1126-1141, :1207-1210). *)
Definition group_source (f : frame) (cls : text) (keys : list text) (reds : list tred) : option text :=
  match reds with
  | [] => None
  | _ => let '(_, bs, _) := number false reds 0 0 [] in Some (group_text f cls keys (arrange bs))
  end.
Definition aggregate_source (f : frame) (reds : list tred) : option text :=
  match reds with
  | [] => None
  | _ => let '(_, bs, e) := number true reds 0 0 [] in Some (aggregate_text f (length bs) e (arrange bs))
  end.
