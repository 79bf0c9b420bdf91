(** Vocabulary for statements about running the functions of aggregations: what an
    expression mentions, its value on a row, on a group. *)
From Coq Require Import String Ascii List NArith ZArith Bool Arith.
From Verif Require Import Model_PyVal Model_Reducers Model_Aggregate Model_Code Model_AggText Spec_Syntax Spec_FuncText Spec_AggProgram Spec_FuncRun.
From Verif Require Spec_Loop.
Import ListNotations.

(** the variables and attributes an expression mentions *)
Fixpoint uses (a : ast) : list ast :=
  match a with
  | AName _ => [a]
  | ANum _ | AStr _ | AConst _ => []
  | AUnary _ b | ANot b => uses b
  | ABin _ b c => uses b ++ uses c
  | ACompare b l => uses b ++ flat_map (fun p => uses (snd p)) l
  | ABool _ l | ATuple l | AList l | ASet l => flat_map uses l
  | AIf b c d => uses b ++ uses c ++ uses d
  | ASub b c => uses b ++ uses c
  | AAttr b _ => match b with AName _ => [a; b] | _ => uses b end
  | ACall f l kws => uses f ++ flat_map uses l ++ flat_map (fun p => uses (snd p)) kws
  | ADict l => flat_map (fun p => uses (fst p) ++ uses (snd p)) l
  | AComp _ elts x it cond => AName x :: flat_map uses elts ++ uses it ++ match cond with Some c => uses c | None => [] end
  | AComp2 e x it y it2 cond => AName x :: AName y :: uses e ++ uses it ++ uses it2 ++ match cond with Some c => uses c | None => [] end
  end.
(** ... and those it takes items of *)
Fixpoint indexed (a : ast) : list ast :=
  match a with
  | AName _ | ANum _ | AStr _ | AConst _ => []
  | AUnary _ b | ANot b | AAttr b _ => indexed b
  | ABin _ b c => indexed b ++ indexed c
  | ACompare b l => indexed b ++ flat_map (fun p => indexed (snd p)) l
  | ABool _ l | ATuple l | AList l | ASet l => flat_map indexed l
  | AIf b c d => indexed b ++ indexed c ++ indexed d
  | ASub b c => b :: indexed b ++ indexed c
  | ACall f l kws => indexed f ++ flat_map indexed l ++ flat_map (fun p => indexed (snd p)) kws
  | ADict l => flat_map (fun p => indexed (fst p) ++ indexed (snd p)) l
  | AComp _ elts x it cond => flat_map indexed elts ++ indexed it ++ match cond with Some c => indexed c | None => [] end
  | AComp2 e x it y it2 cond => indexed e ++ indexed it ++ indexed it2 ++ match cond with Some c => indexed c | None => [] end
  end.

(** *** names *)
(** the variables of the generated functions *)
Definition function_names : list text :=
  map T ["data_"; "_none"; "signature_to_agg_data_"; "agg_data_"; "_d"; "signature_"; "result_";
         "checksum_"; "expected_checksum_"; "it_"]%string.
Definition own (x : text) : Prop := In x function_names \/ exists j, x = agg_var true j.
(** what they take from Python *)
Definition python_names : list text := map T ["defaultdict"; "list"; "dict"; "int"; "iter"]%string.

Section Values.
  Variable globals : text -> option rv.
  Variable call : text -> list val -> res val.
  Variable outside : ast -> (ast -> option val) -> res val.
  (** the name of the sentinel in the module *)
  Variable none_name : text.
  (** the parameters of the converter, and its arguments *)
  Variable params : list text.
  Variable args : list val.

  (** an expression of a conversion: it does not mention the variables of the
      generated function; the row only where there is one *)
  Definition plain_names (with_row : bool) (a : ast) : Prop :=
    forall x, In (AName x) (uses a) ->
      ~ own x /\ x <> none_name /\ x <> T "defaultdict" /\ x <> T "iter" /\ (x = T "row_" -> with_row = true).
  (** ... of the result: it mentions the accumulators, the key of the group and the
      sentinel; items are not taken of accumulators that make missing keys *)
  Definition result_names (mode : bool) (no_index : list ast) (a : ast) : Prop :=
    (forall x, In (AName x) (uses a) ->
      (~ own x /\ x <> none_name /\ x <> T "defaultdict" /\ x <> T "iter" /\ x <> T "row_") \/
      x = T "_none" \/
      (if mode then exists j, x = agg_var true j else x = T "agg_data_" \/ x = T "signature_")) /\
    (forall u, In u (indexed a) -> ~ In u no_index).

  (** the value of an expression *)
  Definition value_in (a : ast) (s : state) : res val :=
    do p <- ev globals call outside a s; match fst p with RVal v => Ok v | _ => unsupported end.
  Definition given : state := bind_args params args (mkState [] [] 0 []).
  Definition value (a : ast) (row : val) : res val := value_in a (bind_new given (T "row_") (OVal row None)).
  Definition constant (a : ast) : res val := value_in a given.

  (** [it], a reduce of the model of the loops, is the reduce with these expressions *)
  Record denotes (sem : string -> val -> res bool) (it : Model_Aggregate.item val) (r : ared) : Prop := mkDenotes {
    de_red : match red (obj it), p_op r with
             | Builtin b, ABuiltin b' => b = b'
             | Fun f, AFunc g => forall c e xs, f c e xs = call g (c :: e :: xs)
             | _, _ => False
             end;
    de_expr : forall row, expr (obj it) row = value (p_expr r) row;
    de_extras : Forall2 (fun f a => forall row, f row = value a row) (extras (obj it)) (p_extras r);
    de_initial : match initial (obj it), p_initial r with
                 | Some v, Some a => v = constant a
                 | None, None => True
                 | _, _ => False
                 end;
    de_cond : match ccode it, p_cond r with
              | Some t, Some a => forall row, sem t row = (do v <- value a row; Ok (truthy v))
              | None, None => True
              | _, _ => False
              end }.
  (** its expressions; the additional argument is there when the reducer uses one; the
      function is one of the module *)
  Record usable (r : ared) : Prop := mkUsable {
    us_expr : plain_names true (p_expr r);
    us_extras : Forall (plain_names true) (p_extras r);
    us_initial : match p_initial r with Some a => plain_names false a | None => True end;
    us_cond : match p_cond r with Some a => plain_names true a | None => True end;
    us_op : match p_op r with
            | ABuiltin b => needs_extra b = true -> p_extras r <> []
            | AFunc f => ~ own f /\ f <> T "row_" /\ ~ In f params
            end }.

  (** *** the result *)
  (** what an accumulator refers to *)
  Definition accumulator (r : ared) (c : cell) : object :=
    match c with
    | None => OSent
    | Some v => OVal v (match p_op r with ABuiltin b => Spec_Loop.missing_of b | AFunc _ => None end)
    end.
  Definition makes_keys (r : ared) : bool :=
    match p_op r with ABuiltin b => match Spec_Loop.missing_of b with Some _ => true | None => false end | AFunc _ => false end.
  Definition attribute (j : nat) : text := T "v" ++ ndec (N.of_nat j).
  Fixpoint with_attrs (l : list (text * object)) (s : state) : state :=
    match l with
    | [] => s
    | (x, o) :: r => with_attrs r (let '(a, s) := new s o in set_attr s 0 x a)
    end.
  Fixpoint with_names (l : list (text * object)) (s : state) : state :=
    match l with [] => s | (x, o) :: r => with_names r (bind_new s x o) end.
  Section Result.
    Variable reds : nat -> ared.
    Variable ms : list (@member val).
    (** the state in which the result of a group is made, and that of an aggregation *)
    Definition group_state (key : val) (st : Model_Aggregate.state) : state :=
      let s := bind_new (bind_new (bind_new given (T "_none") OSent) (T "signature_") (OVal key None)) (T "agg_data_") (OInst 0) in
      with_attrs (map (fun m => (attribute (m_var m), accumulator (reds (m_bit m)) (st (m_var m)))) ms)
        (mkState (names s) (attrs s) 1 (objects s)).
    Definition total_state (st : Model_Aggregate.state) : state :=
      with_names (map (fun m => (agg_var true (m_var m), accumulator (reds (m_bit m)) (st (m_var m)))) ms)
        (bind_new given (T "_none") OSent).
    Fixpoint group_results (elt : ast) (d : list (val * Model_Aggregate.state)) : res (list val) :=
      match d with
      | [] => Ok []
      | (k, st) :: r => do x <- value_in elt (group_state k st); do xs <- group_results elt r; Ok (x :: xs)
      end.
    (** accumulators that make missing keys *)
    Definition key_makers (mode : bool) : list ast :=
      flat_map (fun m => if makes_keys (reds (m_bit m)) then [slot mode (m_var m)] else []) ms.
  End Result.
End Values.
