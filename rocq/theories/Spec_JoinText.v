(** Vocabulary for C57: the conditions whose code is meant, the module the function of a
    join is compiled in, its arguments, and what its pairs are. *)
From Coq Require Import String Ascii List ZArith NArith Bool Arith.
From Verif Require Import Model_PyVal Model_Join Model_Labels Model_JoinLazy Model_Code Model_JoinText Model_JoinFuncs Spec_Syntax Spec_Source Spec_GenRun.
Import ListNotations.

Definition literal (v : val) : bool :=
  match v with VNone | VBool _ | VInt _ | VStr _ => true | _ => false end.
Definition is_num (e : jx) : bool := match e with JConst (VInt _) => true | _ => false end.
(** c.LEFT, c.RIGHT, input arguments whose names are identifiers, constants that have a
    literal, items (not of a number: 1[0] is no Python), ==, and, or of two or more,
    operators, functions called by their names *)
Fixpoint textual (e : jx) : bool :=
  match e with
  | JLeft | JRight => true
  | JArg a => ident (T a)
  | JConst v => literal v
  | JItem o k => negb (is_num o) && textual o && textual k
  | JEq l | JAnd l | JOr l => Nat.leb 2 (length l) && forallb textual l
  | JOp o l =>
      (if is_operator o then Nat.eqb (length l) 2
       else if String.eqb o "not" then Nat.eqb (length l) 1
       else ident (T o)) && forallb textual l
  | JThis | JPipe _ _ => false
  end.
(** the functions it calls *)
Fixpoint functions (e : jx) : list text :=
  match e with
  | JLeft | JRight | JArg _ | JConst _ | JThis => []
  | JItem o k => functions o ++ functions k
  | JEq l | JAnd l | JOr l => flat_map functions l
  | JOp o l => (if is_operator o || String.eqb o "not" then [] else [T o]) ++ flat_map functions l
  | JPipe a b => functions a ++ functions b
  end.

Section Module.
  Variable N : jnames.
  Variable h : Model_Join.how.
  Variable cond : option jx.
  Variable opr : text -> list val -> res val.

  (** The names that mean something in the module. *)
  Definition stage_names : list text := map (n_pipe N) (seq 0 5).
  Definition reserved : list text :=
    map T ["left"; "right"; "left_item"; "right_item"; "add_label_"; "get_by_label_"; "list"; "next"; "id"; "set"; "object";
           "none_"; "right_ones"; "left_to_right_ones_gen"; "left_join_gen"; "yielded_right_ids"; "left_right"]%string ++
    [n_fn N; n_right N; n_left N; n_empty N; n_agg N; n_joiner N; n_adder N] ++ stage_names.
  Definition all_args : list text := match cond with Some e => jargs e | None => [] end.
  Definition all_functions : list text := match cond with Some e => functions e | None => [] end.
  (** The names the code generator picks differ from each other and from the names above;
      so do the names of the arguments and of the functions of the condition. *)
  Definition clean : Prop :=
    NoDup reserved /\ Forall (fun x => ident x = true) reserved /\
    (forall x, In x all_args -> ~ In x reserved /\ ~ In x all_functions) /\
    (forall x, In x all_functions -> ~ In x reserved).

  (** The objects and functions of the module: (), the generator functions, the function of
      the index. *)
  Definition module_globals (x : text) : option pv := if teqb x (n_empty N) then Some (Coll []) else None.
  Definition module_gfuns (x : text) : option gfun :=
    if teqb x (n_joiner N) then Some (left_joiner (swapped h))
    else if teqb x (n_adder N) then Some add_right else None.
  Definition module_indexers (x : text) : option (list val -> list (val * list robj) -> robj -> res (list (val * list robj))) :=
    if teqb x (n_agg N) then Some (index_row (jop opr) (right_hash (cs_of h cond)) (index_args h cond)) else None.
End Module.

(** An argument that gives [u]: an iterator, or a list. *)
Definition an_iterator (m : mem) (v : pv) (u : list (res robj)) : Prop :=
  exists i, v = Iter i /\ i < niters m /\ iters m i = u.
Definition gives_rows (m : mem) (v : pv) (u : list (res robj)) : Prop :=
  an_iterator m v u \/ exists l, v = Coll l /\ u = map Ok l.
(** The arguments of a call. *)
Definition call_args (cond : option jx) (x : jcall) (m : mem) (args : list pv) : Prop :=
  exists left right,
    args = left :: right :: map (fun a => Val (c_inputs x (string_of_list_ascii (map ascii_of_N a)))) (cond_args cond) /\
    gives_rows m left (c_left x) /\
    (if c_once x then an_iterator m right (map Ok (c_right x)) else right = Coll (c_right x)) /\
    match left, right with Iter i, Iter j => i <> j | _, _ => True end.

(** What next() gives, as an output of the model of generators and labels. *)
Definition as_out (o : out lab exc) : option gout :=
  match o with
  | OYield (LPair (a, b)) => Some (GItem (Tup [Obj a; Obj b]))
  | OStop => Some GEnd
  | ORaise e => Some (GFail e)
  | _ => None
  end.
(** A pair, as what next() gives. *)
Definition as_item (p : robj * robj) : gout := GItem (Tup [Obj (fst p); Obj (snd p)]).
