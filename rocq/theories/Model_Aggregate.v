(** Model of c.group_by(...).aggregate(...) and c.aggregate(...):
    /repo/src/convtools/aggregations.py:552-648 (ReduceBlock), 651-693
    (ReduceConditionalBlock), 696-752 (ReduceBlocks), 755-767 (GROUPER_TEMPLATE),
    768-785 (AGGREGATE_TEMPLATE), 1143-1277 (GroupBy._gen_code_and_update_ctx).
    Definitions only.

    Simplifications: the generated loops are given as functions on states
    instead of text (the text of the condition and of the block hash is kept,
    because the code compares those texts); conditions, keys and expressions are
    pure, possibly failing functions of the row; the output conversion
    collects the reducers' results (it is applied per group afterwards). *)
From Coq Require Import String List ZArith NArith Bool.
From Verif Require Import Model_PyVal Model_Reducers.
Import ListNotations.

Section Aggregate.
  Context {Row : Type}.
  (** What the generated text of a condition evaluates to. *)
  Variable sem : string -> Row -> res bool.

  (** A c.reduce(...) occurring in the output, :1178-1204.  [ccode]: text of
      its .filter condition; [hash]: code_hash of its block, :643-648. *)
  Record item : Type := mkItem { obj : reduce_obj Row; ccode : option string; hash : string }.

  (** The same reduce with its condition filled in. *)
  Definition whole (it : item) : reduce_obj Row :=
    mkReduce (red (obj it)) (expr (obj it)) (extras (obj it))
             (match ccode it with None => None | Some t => Some (sem t) end)
             (initial (obj it)) (default (obj it)) (user_uncond (obj it)).

  (** One reducer of the loop: its variable (agg_data_.v<n> / agg_data_v<n>_),
      the exponent of its checksum flag, :1180. *)
  Record member : Type := mkMember { m_var : nat; m_bit : nat; m_item : item }.

  (** code_signature_to_agg_index, :1189-1204: the variable of every reduce,
      and the reduces that get a block of their own. *)
  Fixpoint index_items (l : list item) (pos next : nat) (seen : list (string * nat)) : list (item * nat) * list member :=
    match l with
    | [] => ([], [])
    | it :: r =>
        match find (fun p => String.eqb (fst p) (hash it)) seen with
        | Some (_, v) =>
            let '(vars, ms) := index_items r (S pos) next seen in ((it, v) :: vars, ms)
        | None =>
            let '(vars, ms) := index_items r (S pos) (S next) (seen ++ [(hash it, next)]) in
            ((it, next) :: vars, mkMember next pos it :: ms)
        end
    end.

  (** A block of the loop body: several reducers when merged by union, :575-583. *)
  Record block : Type := mkBlock { bcond : option string; bhead : member; btail : list member }.
  Definition members (b : block) : list member := bhead b :: btail b.
  Definition bit_of (m : member) : N := N.shiftl 1 (N.of_nat (m_bit m)).
  (** checksum_flag of a merged block, :582 *)
  Definition flag (b : block) : N := fold_left N.lor (map bit_of (btail b)) (bit_of (bhead b)).

  Definition union_all (c : option string) (l : list member) : list block :=      (* :722-728 *)
    match l with [] => [] | m :: r => [mkBlock c m r] end.

  (** defaultdict(list) keyed by condition code *)
  Fixpoint dd_add (d : list (string * list member)) (k : string) (m : member) :=
    match d with
    | [] => [(k, [m])]
    | (k', l) :: r => if String.eqb k' k then (k', l ++ [m]) :: r else (k', l) :: dd_add r k m
    end.

  Record sorted : Type := mkSorted {
    conditional : list (string * list member);
    uncond_conditional : list (string * list member);
    uncond_plain : list member;
    others : list member
  }.
  Definition add_block (s : sorted) (m : member) : sorted :=                      (* :706-720 *)
    match ccode (m_item m), uncond (obj (m_item m)) with
    | Some t, true => mkSorted (conditional s) (dd_add (uncond_conditional s) t m) (uncond_plain s) (others s)
    | Some t, false => mkSorted (dd_add (conditional s) t m) (uncond_conditional s) (uncond_plain s) (others s)
    | None, true => mkSorted (conditional s) (uncond_conditional s) (uncond_plain s ++ [m]) (others s)
    | None, false => mkSorted (conditional s) (uncond_conditional s) (uncond_plain s) (others s ++ [m])
    end.
  Definition reduce_blocks (s : sorted) : list block :=                           (* :730-744 *)
    flat_map (fun kl => map (fun m => mkBlock (Some (fst kl)) m []) (snd kl)) (conditional s) ++
    flat_map (fun kl => union_all (Some (fst kl)) (snd kl)) (uncond_conditional s) ++
    union_all None (uncond_plain s) ++
    map (fun m => mkBlock None m []) (others s).
  Definition build (ms : list member) : list block :=
    reduce_blocks (fold_left add_block ms (mkSorted [] [] [] [])).

  (** *** The loop body *)
  Definition state := nat -> cell.
  Definition init_state : state := fun _ => None.
  Definition upd (st : state) (v : nat) (c : cell) : state := fun w => if Nat.eqb w v then c else st w.

  (** reduce_two also runs, in a merged block, on a variable that still holds
      the sentinel: an object that supports no operation. *)
  Definition sentinel : val := VObj 0.
  Definition run_two_cell (o : reduce_obj Row) (c : cell) (row : Row) : res cell :=
    match c with
    | Some v => run_two o v row
    | None =>
        match red o with
        | Builtin b => reduce_stmt b (Ok sentinel) None (expr o row) (extra o row)
        | Fun _ => run_two o sentinel row
        end
    end.
  (** reduce_initial also runs, in a merged block, on a variable that is set
      already (when the first member of the block is not): a statement that
      assigns nothing leaves it as it is. *)
  Definition run_init_cell (o : reduce_obj Row) (c : cell) (row : Row) : res cell :=
    match red o, initial o with
    | Builtin b, None =>
        do c' <- init_stmt b (expr o row) (extra o row); Ok (match c' with None => c | Some _ => c' end)
    | Builtin b, Some i => reduce_stmt b i c (expr o row) (extra o row)
    | Fun _, _ => run_init o row
    end.
  Fixpoint exec_inits (l : list member) (st : state) (row : Row) : res state :=
    match l with
    | [] => Ok st
    | m :: r => do c <- run_init_cell (obj (m_item m)) (st (m_var m)) row; exec_inits r (upd st (m_var m) c) row
    end.
  Fixpoint exec_twos (l : list member) (st : state) (row : Row) : res state :=
    match l with
    | [] => Ok st
    | m :: r => do c <- run_two_cell (obj (m_item m)) (st (m_var m)) row; exec_twos r (upd st (m_var m) c) row
    end.
  Definition test (b : block) (row : Row) : res bool :=
    match bcond b with None => Ok true | Some t => sem t row end.

  (** to_code without checksum: :608-641, :662-693; the merged block tests the
      variable of its first member *)
  Definition exec_block (b : block) (st : state) (row : Row) : res state :=
    do go <- test b row;
    if (go : bool) then
      match st (m_var (bhead b)) with
      | None => exec_inits (members b) st row
      | Some _ => exec_twos (members b) st row
      end
    else Ok st.
  Fixpoint exec_blocks (bs : list block) (st : state) (row : Row) : res state :=
    match bs with [] => Ok st | b :: r => do st' <- exec_block b st row; exec_blocks r st' row end.

  (** *** group_by, :755-767 *)
  Variable keys : list (Row -> res val).
  Fixpoint eval_keys (l : list (Row -> res val)) (row : Row) : res (list val) :=
    match l with [] => Ok [] | k :: r => do v <- k row; do vs <- eval_keys r row; Ok (v :: vs) end.
  Definition signature (row : Row) : res val :=                                   (* :1152-1158 *)
    match keys with
    | [k] => k row
    | _ => do vs <- eval_keys keys row; Ok (VTuple vs)
    end.
  Fixpoint group_loop (bs : list block) (rows : list Row) (d : list (val * state)) : res (list (val * state)) :=
    match rows with
    | [] => Ok d
    | row :: r =>
        do s <- signature row; do s' <- need_hash s;
        do st <- exec_blocks bs (match dfind d s' with Some st => st | None => init_state end) row;
        group_loop bs r (dput d s' st)
    end.
  Fixpoint results (vars : list (item * nat)) (st : state) : res (list (option val)) :=
    match vars with
    | [] => Ok []
    | (it, v) :: r => do x <- finish (obj it) (st v); do xs <- results r st; Ok (x :: xs)
    end.
  Fixpoint all_results (vars : list (item * nat)) (d : list (val * state)) : res (list (val * list (option val))) :=
    match d with
    | [] => Ok []
    | (k, st) :: r => do x <- results vars st; do xs <- all_results vars r; Ok ((k, x) :: xs)
    end.
  (** [None]: the code does not compile.  With no reduce at all the generated
      class has an empty __init__ (:1126-1141) and exec raises IndentationError. *)
  Definition group_by (its : list item) (rows : list Row) : option (res (list (val * list (option val)))) :=
    match its with
    | [] => None
    | _ =>
        let '(vars, ms) := index_items its 0 0 [] in
        Some (do d <- group_loop (build ms) rows []; all_results vars d)
    end.

  (** *** aggregate, :768-785 *)
  (** with the checksum code; the boolean tells whether the loop was left by break *)
  Fixpoint exec_agg (bs : list block) (expected : N) (st : state) (chk : N) (row : Row) : res (state * N * bool) :=
    match bs with
    | [] => Ok (st, chk, false)
    | b :: r =>
        do go <- test b row;
        if (go : bool) then
          match st (m_var (bhead b)) with
          | None =>
              do st' <- exec_inits (members b) st row;
              match st' (m_var (bhead b)) with
              | None => exec_agg r expected st' chk row
              | Some _ =>
                  let chk' := N.lor chk (flag b) in
                  if N.eqb chk' expected then Ok (st', chk', true) else exec_agg r expected st' chk' row
              end
          | Some _ => do st' <- exec_twos (members b) st row; exec_agg r expected st' chk row
          end
        else exec_agg r expected st chk row
    end.
  (** to_no_init_code, :616, :671-675 *)
  Fixpoint exec_no_init (bs : list block) (st : state) (row : Row) : res state :=
    match bs with
    | [] => Ok st
    | b :: r =>
        do go <- test b row;
        do st' <- (if (go : bool) then exec_twos (members b) st row else Ok st);
        exec_no_init r st' row
    end.
  Fixpoint phase2 (bs : list block) (rows : list Row) (st : state) : res state :=
    match rows with [] => Ok st | row :: r => do st' <- exec_no_init bs st row; phase2 bs r st' end.
  Fixpoint phase1 (bs : list block) (expected : N) (rows : list Row) (st : state) (chk : N) : res state :=
    match rows with
    | [] => Ok st
    | row :: r =>
        do x <- exec_agg bs expected st chk row;
        match x with
        | (st', chk', true) => phase2 bs r st'
        | (st', chk', false) => phase1 bs expected r st' chk'
        end
    end.
  Definition expected_checksum (ms : list member) : N :=                          (* :1200 *)
    fold_left N.lor (map bit_of ms) 0%N.
  (** [None]: with no reduce, `" = ".join([])` gives ` = _none`, a SyntaxError (:1208-1211). *)
  Definition aggregate (its : list item) (rows : list Row) : option (res (list (option val))) :=
    match its with
    | [] => None
    | _ =>
        let '(vars, ms) := index_items its 0 0 [] in
        Some (do st <- phase1 (build ms) (expected_checksum ms) rows init_state 0%N; results vars st)
    end.
End Aggregate.
Arguments item : clear implicits.
