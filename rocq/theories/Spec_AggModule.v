(** What is assumed of the module in which the function of an aggregation is run, and of
    what is passed to it. *)
From Coq Require Import String Ascii List NArith ZArith Bool Arith.
From Verif Require Import Model_PyVal Model_Reducers Model_Aggregate Model_Code Model_AggText Spec_Syntax Spec_FuncText Spec_AggProgram Spec_FuncRun Spec_AggRun Spec_AggFinish.
Import ListNotations.

Section Module.
  Variable globals : text -> option rv.
  Variable call : text -> list val -> res val.
  Variable classes : text -> option (list text).
  Variable outside : ast -> (ast -> option val) -> res val.
  Variable none_name : text.
  Variable params : list text.
  (** what the results are made with, besides [python_names] *)
  Definition result_functions : list text := map T ["len"; "list"; "dict"]%string.
  (** the variables of comprehensions there *)
  Definition bound_names : list text := map T ["k_"; "v_"; "k_, v_"]%string.

  (** Expressions that are not modelled depend on the variables they mention only.  The
      module has values under its names, and the sentinel under [none_name]; no input
      argument is called like a variable of the generated function or like a name the
      function takes from the module. *)
  Record module_ok : Prop := mkModuleOk {
    mo_outside : forall a g g', (forall u, In u (uses a) -> g u = g' u) -> outside a g = outside a g';
    mo_values : forall x, x <> none_name -> match globals x with None | Some (RVal _) => True | _ => False end;
    mo_none : globals none_name = Some RSent;
    mo_params : forall x, In x (T "row_" :: none_name :: python_names ++ result_functions) -> ~ In x params;
    mo_own : forall x, In x params -> ~ own x;
    mo_none_name : ~ own none_name /\ none_name <> T "row_" /\ ~ In none_name (result_functions ++ bound_names) }.
  (** [cls] is the class of the groups: an instance has [n] attributes v0, v1, ..., all
      set to the sentinel (aggregations.py:1126-1141) *)
  Record class_ok (cls : text) (n : nat) : Prop := mkClassOk {
    co_params : ~ In cls params;
    co_name : ~ own cls /\ cls <> T "row_" /\ ~ In cls python_names;
    co_fields : classes cls = Some (map attribute (seq 0 n)) }.
  (** a variable or an attribute of one *)
  Definition is_var (V : ast) : Prop := match V with AName _ | AAttr (AName _) _ => True | _ => False end.
  (** the functions of Python the results are made with *)
  Record python_ok : Prop := mkPythonOk {
    pf_len : forall l, call (T "len") [VSet l] = Ok (VInt (Z.of_nat (length l)));
    pf_list : forall l, call (T "list") [VList l] = Ok (VList l);
    pf_dict : forall d, call (T "dict") [VDict d] = Ok (VDict d);
    pf_keys : forall V g d, is_var V -> g V = Some (VDict d) ->
      outside (ACall (AAttr V (T "keys")) [] []) g = Ok (VList (map fst d));
    pf_keys_each : forall V g d, is_var V -> g (name "list") = None ->
      g V = Some (VDict (map (fun kv => (fst kv, VDict (snd kv))) d)) ->
      outside (post_tree (ABuiltin DictArrayDistinct) V) g = Ok (VDict (map (fun kv => (fst kv, VList (map fst (snd kv)))) d));
    pf_len_each : forall V g d, is_var V -> g (name "len") = None ->
      g V = Some (VDict (map (fun kv => (fst kv, VSet (snd kv))) d)) ->
      outside (post_tree (ABuiltin DictCountDistinct) V) g = Ok (VDict (map (fun kv => (fst kv, VInt (Z.of_nat (length (snd kv))))) d)) }.
End Module.
