(** An instance of the primitives of Model_Eval.v: Python's built-in values
    (Model_PyVal.v) with user functions and attributes given by [call] and
    [getattr].  Not code of convtools; it states what the built-in operations do
    (language reference 6.3, 6.10, 6.12; sorted() is stable).  Used to state
    results about values rather than about effects, and for concrete instances.

    Left out (TypeError here): slices, operators other than those listed,
    str/dict iteration by characters and views, mutation (values are immutable
    here; Model_Obj.v has a heap).  [is] is only faithful for None, True, False and
    functions/objects.  Code points above 255 are reduced modulo 256 in [str_of].
    Definitions only. *)
From Coq Require Import String Ascii List ZArith NArith Bool Arith.
From Verif Require Import Model_PyVal Model_Code Model_Eval.
Import ListNotations.

Definition str_of (t : text) : string := string_of_list_ascii (map ascii_of_N t).
Definition of_res {B} (r : res B) : out exc B := match r with Ok b => Val b | Err e => Exc e end.

Section Python.
  Context {W : Type}.
  Variable call : val -> list val -> list (text * val) -> W -> W * out exc val.
  Variable getattr : val -> string -> W -> W * out exc val.

  Definition py_is (a b : val) : bool :=
    match a, b with
    | VNone, VNone => true
    | VBool x, VBool y => Bool.eqb x y
    | VObj i, VObj j => Nat.eqb i j
    | _, _ => false
    end.

  (** l[i], negative indices count from the end *)
  Definition seq_item (l : list val) (i : Z) : res val :=
    let n := Z.of_nat (length l) in
    let j := if Z.ltb i 0 then (i + n)%Z else i in
    if Z.ltb j 0 then Err IndexError
    else match nth_error l (Z.to_nat j) with Some v => Ok v | None => Err IndexError end.
  Definition py_item (a b : val) : res val :=
    match a with
    | VList l | VTuple l => match as_int b with Some i => seq_item l i | None => Err TypeError end
    | VDict d => if hashable b then match dfind d b with Some v => Ok v | None => Err KeyError end
                 else Err TypeError
    | _ => Err TypeError
    end.

  Fixpoint build_set (l acc : list val) : res (list val) :=
    match l with
    | [] => Ok acc
    | x :: r => if hashable x then build_set r (vadd acc x) else Err TypeError
    end.
  Fixpoint build_dict (l : list val) (acc : list (val * val)) : res (list (val * val)) :=
    match l with
    | k :: v :: r => if hashable k then build_dict r (dput acc k v) else Err TypeError
    | _ => Ok acc
    end.

  Definition items_of (v : val) : res (list val) :=
    match v with
    | VList l | VTuple l | VSet l => Ok l
    | VDict d => Ok (map fst d)
    | _ => Err TypeError
    end.

  (** A stable insertion sort of (key, item) pairs: [x] goes before the first pair
      whose key is greater. *)
  Fixpoint insert (x : val * val) (l : list (val * val)) : res (list (val * val)) :=
    match l with
    | [] => Ok [x]
    | y :: r =>
        do b <- py_lt (fst y) (fst x);
        if b then (do r' <- insert x r; Ok (y :: r')) else Ok (x :: y :: r)
    end.
  Fixpoint isort (l : list (val * val)) : res (list (val * val)) :=
    match l with
    | [] => Ok []
    | x :: r => do r' <- isort r; insert x r'
    end.
  (** sorted() with reverse=True reverses, sorts, reverses (so that ties keep their order) *)
  Definition sort_pairs (rv : bool) (l : list (val * val)) : res (list val) :=
    if rv then (do s <- isort (rev l); Ok (map snd (rev s)))
    else (do s <- isort l; Ok (map snd s)).
  Fixpoint keys_of (f : val) (l : list val) (w : W) : W * out exc (list (val * val)) :=
    match l with
    | [] => (w, Val [])
    | x :: r =>
        match (match f with VNone => (w, Val x) | _ => call f [x] [] w end) with
        | (w', Val k) => match keys_of f r w' with
                         | (w'', Val ks) => (w'', Val ((k, x) :: ks))
                         | (w'', Exc e) => (w'', Exc e)
                         end
        | (w', Exc e) => (w', Exc e)
        end
    end.
  Definition py_sorted (a key rv : val) (w : W) : W * out exc (list val) :=
    match items_of a with
    | Err e => (w, Exc e)
    | Ok l => match keys_of key l w with
              | (w', Val ps) => (w', of_res (sort_pairs (truthy rv) ps))
              | (w', Exc e) => (w', Exc e)
              end
    end.
  Definition pair_list (l : list val) : res (list val) :=
    fold_right (fun p acc => do r <- acc; match p with VTuple [k; v] => Ok (k :: v :: r) | _ => Err TypeError end)
      (Ok []) l.

  Definition bin (o : text) (a b : val) : res val :=
    if teqb o (T "+") then py_add a b
    else if teqb o (T "==") then Ok (VBool (py_eq a b))
    else if teqb o (T "!=") then Ok (VBool (negb (py_eq a b)))
    else if teqb o (T "is") then Ok (VBool (py_is a b))
    else if teqb o (T "is not") then Ok (VBool (negb (py_is a b)))
    else if teqb o (T "<") then (do r <- py_lt a b; Ok (VBool r))
    else if teqb o (T ">") then (do r <- py_lt b a; Ok (VBool r))
    else if teqb o (T "in") then (do l <- items_of b; Ok (VBool (vmem l a)))
    else Err TypeError.

  Definition py_op (o : opn) (vs : list val) (w : W) : W * out exc val :=
    match o, vs with
    | OItem, [a; b] => (w, of_res (py_item a b))
    | OAttr n, [a] => getattr a (str_of n) w
    | OGetattr, [a; VStr n] => getattr a n w
    | OCall np kws, f :: r => call f (firstn np r) (combine kws (skipn np r)) w
    | OBin o, [a; b] => (w, of_res (bin o a b))
    | ONot, [a] => (w, Val (VBool (negb (truthy a))))
    | ONeg, [a] => (w, match as_int a with Some z => Val (VInt (- z)) | None => Exc TypeError end)
    | OTuple, _ => (w, Val (VTuple vs))
    | OList, _ => (w, Val (VList vs))
    | OSet, _ => (w, of_res (do s <- build_set vs []; Ok (VSet s)))
    | ODict, _ => (w, of_res (do d <- build_dict vs []; Ok (VDict d)))
    | OSortedList, [a; k; rv] =>
        let '(w', r) := py_sorted a k rv w in
        (w', match r with Val l => Val (VList l) | Exc e => Exc e end)
    | OSortedTuple, [a; k; rv] =>
        let '(w', r) := py_sorted a k rv w in
        (w', match r with Val l => Val (VTuple l) | Exc e => Exc e end)
    | OSortedDict, [a; k; rv] =>
        let '(w', r) := py_sorted a k rv w in
        (w', match r with
             | Val l => of_res (do l2 <- pair_list l; do d <- build_dict l2 []; Ok (VDict d))
             | Exc e => Exc e end)
    | _, _ => (w, Exc TypeError)
    end.

  Fixpoint list_iter (l : list val) : iterator val W exc :=
    It (fun w => (w, match l with [] => IStop | x :: r => IYield x (list_iter r) end)).

  Definition py_push (k : ckind) (acc : val) (vs : list val) : res val :=
    match k, acc, vs with
    | KList, VList l, [x] | KSrc, VList l, [x] => Ok (VList (l ++ [x]))
    | KTuple, VTuple l, [x] => Ok (VTuple (l ++ [x]))
    | KSet, VSet l, [x] => if hashable x then Ok (VSet (vadd l x)) else Err TypeError
    | KDict, VDict d, [a; b] | KDict, VDict d, [VTuple [a; b]] =>
        if hashable a then Ok (VDict (dput d a b)) else Err TypeError
    | KSrcPair, VList l, [a; b] => Ok (VList (l ++ [VTuple [a; b]]))
    | _, _, _ => Err TypeError
    end.

  Definition python : prims val W exc := {|
    litv l := match l with
              | LNone => VNone | LBool b => VBool b | LInt z => VInt z | LStr s => VStr (str_of s)
              end;
    globv g := VObj g;
    op := py_op;
    truth v w := (w, Val (truthy v));
    iter v w := (w, match items_of v with Ok l => Val (list_iter l) | Err e => Exc e end);
    start k w := (w, match k with
                     | KList | KSrc | KSrcPair => VList [] | KTuple => VTuple []
                     | KSet => VSet [] | KDict => VDict [] end);
    push k acc vs w := (w, of_res (py_push k acc vs));
    finish k acc w := (w, acc);
    mut _ _ w := (w, Exc TypeError);
    name_error _ := NameError;
    label_error _ := KeyError;
    caught x := match x with
                | TypeError | KeyError | IndexError | AttributeError => true | _ => false end
  |}.
End Python.
