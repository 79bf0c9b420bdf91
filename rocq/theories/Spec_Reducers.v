(** Independent vocabulary for the reducer properties (C28-C31). *)
From Coq Require Import String List ZArith Bool.
From Verif Require Import Model_PyVal Model_Reducers.
Import ListNotations.

(** An unfiltered built-in reduce of [f row] (with second argument [g row]),
    nothing overridden. *)
Definition plain {Row} (b : builtin) (f g : Row -> val) : reduce_obj Row :=
  mkReduce (Builtin b) (fun r => Ok (f r)) [fun r => Ok (g r)] None None (Some (Ok (builtin_default b))) false.
(** Its result over some rows. *)
Definition outcome {Row} (b : builtin) (f g : Row -> val) (rows : list Row) : res (option val) :=
  reduce_rows (plain b f g) rows.

(** Different values (by ==), each represented by its first occurrence. *)
Fixpoint distinct (l : list val) : list val :=
  match l with
  | [] => []
  | x :: r => x :: filter (fun y => negb (py_eq x y)) (distinct r)
  end.

(** Numbers, with None counting as 0. *)
Definition number (v : val) : option Z :=
  match v with VNone => Some 0%Z | VInt z => Some z | VBool b => Some (if b then 1%Z else 0%Z) | _ => None end.
Definition total (l : list val) : Z :=
  fold_right Z.add 0%Z (map (fun v => match number v with Some z => z | None => 0%Z end) l).

(** `<` is defined on all pairs of [l] and is a total preorder there. *)
Definition ordered (l : list val) : Prop :=
  forall x y, In x l -> In y l ->
    (exists b, py_lt x y = Ok b) /\
    (py_lt x y = Ok true -> py_lt y x = Ok false) /\
    (forall z, In z l -> py_lt x y = Ok false -> py_lt y z = Ok false -> py_lt x z = Ok false).

(** [x] is the first row whose value is not None and is greatest:
    greater than every (non-None) value before, at least as great as every one after. *)
Definition first_max {Row} (f : Row -> val) (rows : list Row) (x : Row) : Prop :=
  exists before after, rows = before ++ x :: after /\ f x <> VNone /\
    (forall y, In y before -> f y <> VNone -> py_lt (f y) (f x) = Ok true) /\
    (forall y, In y after -> f y <> VNone -> py_lt (f x) (f y) = Ok false).
Definition first_min {Row} (f : Row -> val) (rows : list Row) (x : Row) : Prop :=
  exists before after, rows = before ++ x :: after /\ f x <> VNone /\
    (forall y, In y before -> f y <> VNone -> py_lt (f x) (f y) = Ok true) /\
    (forall y, In y after -> f y <> VNone -> py_lt (f y) (f x) = Ok false).

(** The rows that have key [k]. *)
Definition rows_of {Row} (key : Row -> val) (k : val) (rows : list Row) : list Row :=
  filter (fun r => py_eq k (key r)) rows.

(** The plain reducer a dict reducer stands for, per key. *)
Definition plain_of (D : builtin) : option builtin :=
  match D with
  | Dict => Some Last                       (* a later value replaces an earlier one *)
  | DictArray => Some Array
  | DictArrayDistinct => Some ArrayDistinct
  | DictSum => Some Sum
  | DictSumOrNone => Some SumOrNone
  | DictMax => Some Max
  | DictMin => Some Min
  | DictCount => Some Count
  | DictCountDistinct => Some CountDistinct
  | DictFirst => Some First
  | DictLast => Some Last
  | _ => None
  end.

(** Rows that give their key an entry: DictMax/DictMin ignore None values. *)
Definition relevant {Row} (D : builtin) (value : Row -> val) (rows : list Row) : list Row :=
  match D with
  | DictMax | DictMin => filter (fun r => negb (is_none (value r))) rows
  | _ => rows
  end.

(** Values the reducer can work with at all. *)
Definition values_ok (D : builtin) (vs : list val) : Prop :=
  match D with
  | DictSum => forall v, In v vs -> number v <> None \/ truthy v = false
  | DictSumOrNone => forall v, In v vs -> number v <> None
  | DictArrayDistinct | DictCountDistinct => forall v, In v vs -> hashable v = true
  | DictMax | DictMin =>
      forall x y, In x vs -> In y vs -> x <> VNone -> y <> VNone -> exists b, py_lt x y = Ok b
  | _ => True
  end.

(** The same value, or numbers that are equal (True and 1). *)
Definition same_value (v w : val) : Prop :=
  v = w \/ exists z, as_int v = Some z /\ as_int w = Some z.

(** f(...f(f(i, e1), e2)..., en), where applying f (or computing an argument)
    may raise. *)
Fixpoint seeded {Row} (f : val -> val -> list val -> res val) (e : Row -> res val)
                (xs : Row -> res (list val)) (acc : val) (rows : list Row) : res val :=
  match rows with
  | [] => Ok acc
  | r :: rest =>
      match e r, xs r with
      | Ok v, Ok vs =>
          match f acc v vs with Ok acc' => seeded f e xs acc' rest | Err x => Err x end
      | Err x, _ => Err x
      | _, Err x => Err x
      end
  end.
