(** What running the text of a loop body over rows means.  The codes of the parts of a
    reduce appear in the text as the names e_ (the expression), x_ (the additional
    argument), z_ (initial) and c_ (the filter), flag_ is the number of the
    checksum flag; evaluating such a name evaluates the code. *)
From Coq Require Import String Ascii List NArith ZArith Bool Arith.
From Verif Require Import Model_PyVal Model_Reducers Model_Code Model_AggText Spec_Syntax Spec_Stmt.
Import ListNotations.

(** the value a defaultdict of this reducer gives to a missing key *)
Definition missing_of (b : builtin) : option val :=
  match b with
  | DictArray => Some (VList [])
  | DictArrayDistinct => Some (VDict [])
  | DictSum | DictSumOrNone => Some (VInt 0)
  | _ => None
  end.
Definition obj_of (b : builtin) (c : cell) : object :=
  match c with None => Sentinel | Some v => Obj v (missing_of b) end.
(** reducers whose variable holds a dict *)
Definition shape (b : builtin) (v : val) : Prop :=
  match b with
  | Dict | DictArray | DictArrayDistinct | DictSum | DictSumOrNone | DictMax | DictMin
  | DictCount | DictCountDistinct | DictFirst | DictLast | ArrayDistinct => exists d, v = VDict d
  | _ => True
  end.

Definition code (b : builtin) (cond init : option text) : rcode := mkCode (Stmts b) cond init (T "e_") [T "x_"].
Definition var : text := T "result_".

Section Loop.
  Context {Row : Type}.
  (** for row in rows: body -- with what the variables refer to, and the rows left
      after a break *)
  Fixpoint run_loop (names : list text) (depth : nat) (codes : Row -> list (text * res val)) (body : list text)
      (vars : list object) (rows : list Row) : res (list object * list Row) :=
    match rows with
    | [] => Ok (vars, [])
    | row :: r =>
        do p <- run_lines (codes row) (combine names vars) depth body;
        if (snd p : bool) then Ok (fst p, r) else run_loop names depth codes body (fst p) r
    end.

  (** the codes of the parts of a reduce, for a row *)
  Definition codes (o : reduce_obj Row) (flag : Z) (row : Row) : list (text * res val) :=
    [(T "e_", expr o row);
     (T "x_", extra o row);
     (T "z_", match initial o with Some z => z | None => Err NameError end);
     (T "c_", match condition o with Some p => do t <- p row; Ok (VBool t) | None => Err NameError end);
     (T "flag_", Ok (VInt flag))].
  (** their names, in the text *)
  Definition parts_of (b : builtin) (o : reduce_obj Row) : rcode :=
    code b (option_map (fun _ => T "c_") (condition o)) (option_map (fun _ => T "z_") (initial o)).
  Definition var_names : list text := [var; T "_none"; T "checksum_"; T "expected_checksum_"].
  Definition objects_of (b : builtin) (c : cell) (checksum expected : Z) : list object :=
    [obj_of b c; Sentinel; Obj (VInt checksum) None; Obj (VInt expected) None].
End Loop.
