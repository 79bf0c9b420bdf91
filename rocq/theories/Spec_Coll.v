(** What collections, optional items, comprehensions and sorting promise
    (C22-C25), on Python's built-in values. *)
From Coq Require Import String List ZArith NArith Bool Arith Sorted Permutation.
From Verif Require Import Model_PyVal Model_Code Model_Eval Model_Python Model_Api Spec_Frag Spec_Eval
  Spec_Reducers Spec_Converter.
Import ListNotations.

Section Coll.
  Context {W : Type}.
  Variable call : val -> list val -> list (text * val) -> W -> W * out exc val.
  Variable getattr : val -> string -> W -> W * out exc val.
  Variable args : list (text * val).

  (** [c] applied to [v] returns [x], without effects, whatever happened before. *)
  Definition gives (c : cv) (v x : val) : Prop :=
    forall s, den (python call getattr) args c v s = (s, Val x).

  (** What a user puts into a collection. *)
  Inductive entry : Type :=
  | Plain (c : cv)                    (* c *)
  | UnlessNone (c : cv)               (* c.optional(c) *)
  | Unless (c : cv) (l : lit)         (* c.optional(c, skip_value=l) *)
  | SkipIf (c s : cv)                 (* c.optional(c, skip_if=s) *)
  | KeepIf (c k : cv).                (* c.optional(c, keep_if=k) *)
  Definition conv_of (e : entry) : cv :=
    match e with Plain c | UnlessNone c | Unless c _ | SkipIf c _ | KeepIf c _ => c end.
  Definition litval (l : lit) : val := litv (python call getattr) l.
  (** Whether the entry is there, for input [v].  Nothing is required of a
      conversion that is not there. *)
  Inductive kept (v : val) : entry -> bool -> Prop :=
  | K_plain c : kept v (Plain c) true
  | K_none c x : gives c v x -> kept v (UnlessNone c) (negb (is_none x))
  | K_value c l x : l <> LNone -> gives c v x -> kept v (Unless c l) (negb (py_eq x (litval l)))
  | K_skip c s b : gives s v b -> kept v (SkipIf c s) (negb (truthy b))
  | K_keep c k b : gives k v b -> kept v (KeepIf c k) (truthy b).
  Inductive contributes (v : val) (e : entry) : list val -> Prop :=
  | There x : kept v e true -> gives (conv_of e) v x -> contributes v e [x]
  | Absent : kept v e false -> contributes v e [].
  (** A dict entry is there when both its key and its value are. *)
  Inductive contributes2 (v : val) (p : entry * entry) : list (val * val) -> Prop :=
  | There2 x y : kept v (fst p) true -> kept v (snd p) true ->
      gives (conv_of (fst p)) v x -> gives (conv_of (snd p)) v y -> contributes2 v p [(x, y)]
  | NoKey2 : kept v (fst p) false -> contributes2 v p []
  | NoValue2 : kept v (fst p) true -> kept v (snd p) false -> contributes2 v p [].

  (** What a comprehension with element [e] and filter [co] yields for the item [x]. *)
  Inductive passes (x : val) : option cv -> bool -> Prop :=
  | P_all : passes x None true
  | P_cond c b : gives c x b -> passes x (Some c) (truthy b).
  Inductive yields (co : option cv) (e : cv) (x : val) : list val -> Prop :=
  | Yields y : passes x co true -> gives e x y -> yields co e x [y]
  | YieldsNot : passes x co false -> yields co e x [].
  Inductive yields2 (co : option cv) (ek ev : cv) (x : val) : list (val * val) -> Prop :=
  | Yields2 a b : passes x co true -> gives ek x a -> gives ev x b -> yields2 co ek ev x [(a, b)]
  | YieldsNot2 : passes x co false -> yields2 co ek ev x [].
  (** the sort key of [x]; a key function is called without effects *)
  Definition keyfun (k : ckey) (key : val -> val) (xs : list val) : Prop :=
    match k with
    | NoKey => forall x, In x xs -> key x = x
    | Key g => forall x w, In x xs -> call (VObj g) [x] [] w = (w, Val (key x))
    end.

  (** the library's object for an entry; [None]: the constructor raises *)
  Definition make (e : entry) : option item :=
    match e with
    | Plain c => Some (Req c)
    | UnlessNone c => optional c LNone None None
    | Unless c l => optional c l None None
    | SkipIf c s => optional c LNone (Some s) None
    | KeepIf c k => optional c LNone None (Some k)
    end.
  Fixpoint make_all (l : list entry) : option (list item) :=
    match l with
    | [] => Some []
    | e :: r => match make e, make_all r with Some i, Some is => Some (i :: is) | _, _ => None end
    end.
  Fixpoint make_pairs (l : list (entry * entry)) : option (list (item * item)) :=
    match l with
    | [] => Some []
    | (a, b) :: r => match make a, make b, make_pairs r with
                     | Some i, Some j, Some is => Some ((i, j) :: is) | _, _, _ => None end
    end.
End Coll.

(** The collection of kind [k] of some values; a set keeps one of each. *)
Definition holding (k : ckind) (xs : list val) : val :=
  match k with KTuple => VTuple xs | KSet => VSet (distinct xs) | _ => VList xs end.
Definition fits (k : ckind) (xs : list val) : Prop :=
  match k with
  | KList | KTuple => True
  | KSet => forall x, In x xs -> hashable x = true
  | _ => False
  end.
(** The value of the last pair with key [k]. *)
Fixpoint last_value (l : list (val * val)) (k : val) : option val :=
  match l with
  | [] => None
  | (k', v) :: r => match last_value r k with
                    | Some w => Some w
                    | None => if py_eq k' k then Some v else None
                    end
  end.
(** The dict of some pairs: keys in order of first appearance, last values. *)
Definition dict_of (l d : list (val * val)) : Prop :=
  map fst d = distinct (map fst l) /\
  forall k, hashable k = true -> dfind d k = last_value l k.

(** The same result as a call that returns [x] and has no effects. *)
Definition just {W X V} (r : @st V W * out X V) (s : @st V W) (x : V) : Prop := same r (s, Val x).

(** [ys] is [xs] sorted by [key], ties in input order. *)
Definition tie (key : val -> val) (a b : val) : bool :=
  match py_lt (key a) (key b), py_lt (key b) (key a) with
  | Ok false, Ok false => true
  | _, _ => false
  end.
Definition sorted_by (key : val -> val) (rv : bool) (xs ys : list val) : Prop :=
  Permutation xs ys /\
  StronglySorted (fun a b => (if rv then py_lt (key a) (key b) else py_lt (key b) (key a)) = Ok false) ys /\
  forall a, In a xs -> filter (tie key a) ys = filter (tie key a) xs.
