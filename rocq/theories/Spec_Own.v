(** What it means that an aggregation leaves the data alone: the loops of the
    generated functions run in a memory that already holds the objects of the data.
    The text of a block refers to the user's expressions by the names of Spec_Loop.v
    (e_, x_, c_, flag_) and to the group key by key_. *)
From Coq Require Import String Ascii List NArith ZArith Bool Arith.
From Verif Require Import Model_Code Spec_Syntax Spec_Stmt Spec_PyHeap.
Import ListNotations.

(** what the expressions of the user give for a row *)
Record inputs : Type := mkInputs {
  in_expr : heap -> outcome;
  in_extra : heap -> outcome;        (* the second argument, or the value of a dict reducer *)
  in_filter : heap -> outcome;
  in_key : heap -> outcome }.
Definition flag_value (h : heap) : outcome := Some ([], HInt 1).
Definition row_codes (i : inputs) : row := fun n =>
  if same_text n (T "e_") then Some (in_expr i)
  else if same_text n (T "x_") then Some (in_extra i)
  else if same_text n (T "c_") then Some (in_filter i)
  else if same_text n (T "key_") then Some (in_key i)
  else if same_text n (T "flag_") then Some flag_value
  else None.
(** an expression that gives None, numbers, strings, ..., but no lists, tuples or other
    containers *)
Definition gives_scalars (c : heap -> outcome) : Prop := forall h new v, c h = Some (new, v) -> scalar v.
(** adding anything to such a value gives such a value, if it can be added at all *)
Definition adds_scalars (ops : pyops) : Prop :=
  forall h v w new x, scalar v -> op_add ops h v w = Some (new, x) -> scalar x.

(** the variables of the function of an aggregate, one reducer *)
Definition aggregate_vars (var : text) (expected : Z) : env :=
  [(var, HSent); (T "_none", HSent); (T "checksum_", HInt 0); (T "expected_checksum_", HInt expected)].
(** ... of a group_by, with signature_to_agg_data_ = defaultdict(AggData) at address [a] *)
Definition group_vars (a : nat) : env := [(T "signature_to_agg_data_", HRef a); (T "_none", HSent)].
Definition groups_object : hobj := ODict [] (Some (FInst [T "v0"])).
