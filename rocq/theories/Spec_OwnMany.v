(** What it means that an aggregation with any number of reducers leaves the data alone
    (C53): the loop bodies of Spec_AggProgram.v, with the expressions of the user standing
    for themselves as names, run in the memory of Spec_PyHeap.v. *)
From Coq Require Import String Ascii List NArith ZArith Bool Arith.
From Verif Require Import Model_PyVal Model_Reducers Model_Aggregate Model_Code Model_AggText
  Spec_Syntax Spec_Stmt Spec_AggProgram Spec_PyHeap Spec_Own.
Import ListNotations.

(** a reducer, its .filter(...), its expression, its second argument and its initial=, as names *)
Record named : Type := mkNamed {
  n_op : builtin; n_filter : option text; n_expr : text; n_extra : option text; n_initial : option text }.
Definition named_tree (r : named) : ared :=
  mkARed (ABuiltin (n_op r)) (option_map AName (n_filter r)) (option_map AName (n_initial r)) (AName (n_expr r))
    (match n_extra r with Some x => [AName x] | None => [] end).
(** the reducers by their position *)
Definition named_trees (reds : list named) (p : nat) : ared :=
  match nth_error reds p with Some r => named_tree r | None => mkARed (ABuiltin Count) None None none [] end.

(** the names that stand for expressions of the user; [rows]: what they give *)
Record names_ok (names : text -> bool) (reds : list named) (rows : list row) : Prop := {
  (** every row has a value for these names, and for no others *)
  names_rows : forall r, In r rows -> forall n, (exists c, r n = Some c) <-> names n = true;
  names_reds : forall r, In r reds ->
    names (n_expr r) = true /\ (forall x, n_extra r = Some x -> names x = true) /\
    (forall c, n_filter r = Some c -> names c = true) /\ (forall i, n_initial r = Some i -> names i = true) /\
    (needs_extra (n_op r) = true -> n_extra r <> None);
  (** not covered: initial= of a reducer that indexes it (Python adds a key to an indexed defaultdict) *)
  names_initial : forall r, In r reds -> n_initial r <> None -> needs_primary (n_op r) = false;
  (** the variables of the generated function are not among them *)
  names_vars : forall v, In v (map T ["_none"; "_d"; "checksum_"; "expected_checksum_"; "signature_to_agg_data_"; "agg_data_"]%string) -> names v = false;
  names_slots : forall i, names (agg_var true i) = false }.
(** Sum and DictSumOrNone add values that are no containers *)
Definition sums_scalars (reds : list named) (rows : list row) : Prop :=
  forall r q c, In r reds -> In q rows ->
  (n_op r = Sum -> q (n_expr r) = Some c -> gives_scalars c) /\
  (forall x, n_op r = DictSumOrNone -> n_extra r = Some x -> q x = Some c -> gives_scalars c).

(** the variables of the function of an aggregate with [n] accumulators *)
Definition aggregate_env (n : nat) (expected : Z) : env :=
  map (fun i => (agg_var true i, HSent)) (seq 0 n) ++
  [(T "_none", HSent); (T "checksum_", HInt 0); (T "expected_checksum_", HInt expected)].
(** signature_to_agg_data_ = defaultdict(AggData) of a group_by with [n] accumulators *)
Definition attr (i : nat) : text := T "v" ++ ndec (N.of_nat i).
Definition groups_of (n : nat) : hobj := ODict [] (Some (FInst (map attr (seq 0 n)))).
(** the first statement of the loop of a group_by; [key]: the name of the key *)
Definition find_group (key : text) : stmt :=
  set_to (name "agg_data_") (ASub (name "signature_to_agg_data_") (AName key)).

(** accumulators numbered from 0, each for a reducer of the list *)
Definition numbered {Row} (reds : list named) (ms : list (@Model_Aggregate.member Row)) : Prop :=
  map m_var ms = seq 0 (length ms) /\ forall m, In m ms -> m_bit m < length reds.
