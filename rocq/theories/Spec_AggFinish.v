(** The output an aggregation is meant to give: keys and reduces, in tuples, lists, sets,
    dicts, calls, operators, items and conditions; the expression each of them is meant to be. *)
From Coq Require Import String Ascii List NArith ZArith Bool Arith.
From Verif Require Import Model_PyVal Model_Reducers Model_Code Model_AggText Model_AggFinish Spec_Syntax Spec_AggProgram Spec_FuncRun Spec_AggRun.
Import ListNotations.

(** {k_: e for k_, v_ in V.items()} *)
Definition per_key (e V : ast) : ast := AComp GDict [name "k_"; e] (T "k_, v_") (ACall (AAttr V (T "items")) [] []) None.
(** what a reduce does to its accumulator [V] before giving it out *)
Definition post_tree (o : aop) (V : ast) : ast :=
  match o with
  | ABuiltin CountDistinct => either (both V (ACall (name "len") [V] [])) (ANum 0)
  | ABuiltin (MaxRow | MinRow) => ASub V (ANum 1)
  | ABuiltin ArrayDistinct => ACall (name "list") [ACall (AAttr V (T "keys")) [] []] []
  | ABuiltin DictArrayDistinct => per_key (ACall (name "list") [ACall (AAttr (name "v_") (T "keys")) [] []] []) V
  | ABuiltin DictCountDistinct => per_key (ACall (name "len") [name "v_"] []) V
  | ABuiltin (DictArray | DictSum | DictSumOrNone) => ACall (name "dict") [V] []
  | _ => V
  end.
(** the accumulator, or default= when nothing was reduced *)
Definition reduce_tree (o : aop) (V : ast) (default : option ast) : ast :=
  match default with
  | None => post_tree o V
  | Some d => AIf (cmp "is" V (name "_none")) d (post_tree o V)
  end.

Definition key_tree (i : option nat) : ast :=
  match i with None => name "signature_" | Some i => ASub (name "signature_") (ANum (N.of_nat i)) end.
(** The output row of a group: its key and what its reduces gave. *)
Definition column_value (k : val) (xs : list (option val)) (c : column) : option val :=
  match c with
  | Key None => Some k
  | Key (Some i) => match k with VTuple l => nth_error l i | _ => None end
  | Red p => match nth_error xs p with Some x => x | None => None end
  end.
Fixpoint all_some {A} (l : list (option A)) : option (list A) :=
  match l with
  | [] => Some []
  | Some x :: r => option_map (cons x) (all_some r)
  | None :: _ => None
  end.
Definition hashable (v : val) : bool := match need_hash v with Ok _ => true | Err _ => false end.
Fixpoint in_twos {A} (l : list A) : list (A * A) :=
  match l with a :: b :: r => (a, b) :: in_twos r | _ => [] end.
Definition success {A} (r : res A) : option A := match r with Ok x => Some x | Err _ => None end.
Section Output.
  (** the value of an expression that does not mention the row; of a call *)
  Variable fixed : px -> option val.
  Variable call : text -> list val -> option val.
  (** an operator of Python; [call]: those on other values *)
  Definition binary (o : text) (x y : val) : option val :=
    if same_text o (T "+") then success (py_add x y)
    else if same_text o (T "==") then Some (VBool (py_eq x y))
    else if same_text o (T "!=") then Some (VBool (negb (py_eq x y)))
    else if same_text o (T "<") then option_map VBool (success (py_lt x y))
    else if same_text o (T ">") then option_map VBool (success (py_lt y x))
    else if same_text o (T "in") then option_map VBool (success (py_in x y))
    else if same_text o (T "not in") then option_map (fun b => VBool (negb b)) (success (py_in x y))
    else call o [x; y].
  Definition made (s : maker) (l : list val) : option val :=
    match s with
    | STuple => Some (VTuple l)
    | SList => Some (VList l)
    | SSet => if forallb hashable l then Some (VSet (fold_left vadd l [])) else None
    | SDict =>
        let kvs := in_twos l in
        if forallb hashable (map fst kvs)
        then Some (VDict (fold_left (fun d kv => dput d (fst kv) (snd kv)) kvs [])) else None
    | SCall f => call f l
    | SBin o => match l with [x; y] => binary o x y | _ => None end
    | SNot => match l with [x] => Some (VBool (negb (truthy x))) | _ => None end
    | SNeg => match l with [x] => match as_int x with Some z => Some (VInt (- z)) | None => call (T "-") [x] end | _ => None end
    | SItem => match l with [x; y] => success (py_getitem x y) | _ => None end
    | SBool _ | SIf => None
    end.
  Fixpoint output_value (k : val) (xs : list (option val)) (o : output) : option val :=
    match o with
    | Place c => column_value k xs c
    | Fixed e => fixed e
    | Made SIf [c; t; f] =>
        match output_value k xs c with
        | Some x => if truthy x then output_value k xs t else output_value k xs f
        | None => None
        end
    | Made (SBool isor) l =>
        (fix go (l : list output) : option val :=
           match l with
           | [] => None
           | o :: r =>
               match r, output_value k xs o with
               | [], x => x
               | _, Some x => if Bool.eqb (truthy x) isor then Some x else go r
               | _, None => None
               end
           end) l
    | Made s l => match all_some (map (output_value k xs) l) with Some vs => made s vs | None => None end
    end.
End Output.

(** *** outputs that can be written *)
Section Ok.
  Variable read : px -> bool.                (* Python reads the expression *)
  Variable tree : px -> ast.                 (* ... as this *)
  Variable none_name : text.
  Variable params : list text.
  Variable mode : bool.
  Variable n : nat.                          (* their number *)
  (** keys only where there are groups *)
  Definition column_ok (c : column) : Prop :=
    match c with
    | Key _ => mode = false
    | Red p => p < n
    end.
  (** no empty tuple or set (C23); keys and values in turn; a function of the module; as many
      operands as the operator has, no items of a number *)
  Definition maker_ok (s : maker) (l : list output) : Prop :=
    match s with
    | STuple | SSet => l <> []
    | SList => True
    | SDict => Nat.even (length l) = true
    | SBin o => In o (map T ["+"; "*"; "-"; "/"; "%"; "//"; "in"; "not in"; "!="; ">"; ">="; "<"; "<="; "=="]%string) /\ length l = 2
    | SNot | SNeg => length l = 1
    | SItem => length l = 2 /\ match l with Fixed (PLit (LInt _)) :: _ => False | _ => True end
    | SBool _ => 2 <= length l
    | SIf => length l = 3
    | SCall f => ident f = true /\ ~ own f /\ f <> T "row_" /\ f <> none_name /\ f <> T "defaultdict" /\ f <> T "iter" /\ ~ In f params
    end.
  Inductive output_ok : output -> Prop :=
  | ok_place c : column_ok c -> output_ok (Place c)
  | ok_fixed e : read e = true -> plain_names none_name false (tree e) -> output_ok (Fixed e)
  | ok_made s l : maker_ok s l -> (forall o, In o l -> output_ok o) -> output_ok (Made s l).
End Ok.

(** The key function of a sort is a function of the module, under a name that no variable of
    the generated function has. *)
Definition sort_key_ok (params : list text) (key : option text) : Prop :=
  match key with None => True | Some f => ident f = true /\ ~ own f /\ f <> T "row_" /\ ~ In f params end.
(** [k] gives the sort keys of [l] *)
Definition sort_keys (call : text -> list val -> res val) (key : option text) (k : val -> val) (l : list val) : Prop :=
  forall x, In x l -> match key with None => k x = x | Some f => call f [x] = Ok (k x) end.
