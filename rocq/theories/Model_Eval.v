(** Meaning of the generated expressions of Model_Code.v: a big-step evaluator
    for the Python subset the generator of /repo/src/convtools/base.py emits.

    Python objects are an abstract type [V] and everything outside the generated
    code (the heap, user functions, __getitem__, __bool__, iterators, ...) is an
    abstract world [W], changed only by the primitives below.  So a theorem over
    all [V], [W] and primitives holds whatever the user's objects and functions do,
    with two exceptions: a user function may not call the same converter again
    (labels belong to one call), and an iterator is finite.  Definitions only. *)
From Coq Require Import String List ZArith NArith Bool Arith.
From Verif Require Import Model_Code.
Import ListNotations.

Inductive out (X B : Type) : Type := Val (b : B) | Exc (x : X).
Arguments Val {X B}. Arguments Exc {X B}.

Section Eval.
  Context {V W X : Type}.

  (** An iterator: each call of __next__ may change the world and depends on it. *)
  Inductive iterator : Type := It (next : W -> W * istep)
  with istep : Type := IStop | IFail (x : X) | IYield (v : V) (rest : iterator).

  (** What Python and the user's objects do. *)
  Record prims : Type := {
    litv : lit -> V;                                  (* constants *)
    globv : nat -> V;                                 (* objects put into the globals *)
    op : opn -> list V -> W -> W * out X V;           (* a[b], f(a), a + b, [a, b] ... *)
    truth : V -> W -> W * out X bool;                 (* bool(a) *)
    iter : V -> W -> W * out X iterator;              (* iter(a) *)
    start : ckind -> W -> W * V;                      (* an empty collection *)
    push : ckind -> V -> list V -> W -> W * out X V;  (* add one item *)
    finish : ckind -> V -> W -> W * V;
    mut : mkind -> list V -> W -> W * out X V;        (* statements of a tap function *)
    name_error : text -> X;
    label_error : lname -> X;                         (* KeyError of get_by_label_ *)
    caught : X -> bool                                (* base.py:176: except (TypeError,
                                                         KeyError, IndexError, AttributeError) *)
  }.
  Variable pr : prims.

  (** The state: the world and the labels of the current call (base.py:503-513). *)
  Definition labels := lname -> option V.
  Definition st : Type := W * labels.
  Definition M (B : Type) : Type := st -> st * out X B.
  Definition ret {B} (b : B) : M B := fun s => (s, Val b).
  Definition raise {B} (x : X) : M B := fun s => (s, Exc x).
  Definition bind {B C} (m : M B) (k : B -> M C) : M C :=
    fun s => match m s with
             | (s', Val b) => k b s'
             | (s', Exc x) => (s', Exc x)
             end.
  Definition prim {B} (f : W -> W * out X B) : M B :=
    fun s => let '(w, r) := f (fst s) in ((w, snd s), r).
  Definition prim1 {B} (f : W -> W * B) : M B :=
    fun s => let '(w, r) := f (fst s) in ((w, snd s), Val r).
  Definition upd (L : labels) (n : lname) (v : V) : labels :=
    fun m => if lname_eq_dec n m then Some v else L m.
  Definition set_label (n : lname) (v : V) : M unit :=
    fun s => ((fst s, upd (snd s) n v), Val tt).
  Definition get_label (n : lname) : M V :=
    fun s => match snd s n with Some v => (s, Val v) | None => (s, Exc (label_error pr n)) end.
  (** try: m except (TypeError, KeyError, IndexError, AttributeError): return d *)
  Definition or_default {B} (m : M B) (d : B) : M B :=
    fun s => match m s with
             | (s', Exc x) => if caught pr x then (s', Val d) else (s', Exc x)
             | r => r
             end.

  Definition env := list (text * V).
  Fixpoint lookup (E : env) (x : text) : option V :=
    match E with
    | [] => None
    | (y, v) :: r => if text_eq_dec x y then Some v else lookup r x
    end.

  (** for ... in <iterator>, with a body that may add to the accumulator *)
  Fixpoint iterate (body : V -> V -> M V) (i : iterator) (acc : V) {struct i} : M V :=
    match i with
    | It next => fun s =>
        let '(w, r) := next (fst s) in
        match r with
        | IStop => ((w, snd s), Val acc)
        | IFail x => ((w, snd s), Exc x)
        | IYield v rest =>
            match body v acc (w, snd s) with
            | (s', Val acc') => iterate body rest acc' s'
            | (s', Exc x) => (s', Exc x)
            end
        end
    end.

  (** [k]-collection of what [body] adds for the items of [v]. *)
  Definition comprehend (k : ckind) (v : V) (body : V -> V -> M V) : M V :=
    bind (prim (iter pr v)) (fun i =>
    bind (prim1 (start pr k)) (fun acc =>
    bind (iterate body i acc) (fun acc =>
    prim1 (finish pr k acc)))).

  (** Python's evaluation order, for operands evaluated by [f]. *)
  Section Order.
    Context {B : Type}.
    Variable f : B -> M V.

    Fixpoint mapM (l : list B) : M (list V) :=
      match l with
      | [] => ret []
      | e :: r => bind (f e) (fun v => bind (mapM r) (fun vs => ret (v :: vs)))
      end.
    (** a or b or ..., a and b and ... *)
    Fixpoint boolM (isor : bool) (l : list B) : M V :=
      match l with
      | [] => ret (litv pr LNone)
      | e :: r =>
          match r with
          | [] => f e
          | _ => bind (f e) (fun v => bind (prim (truth pr v)) (fun b =>
                   if Bool.eqb b isor then ret v else boolM isor r))
          end
      end.
    (** a == b == ...: each operand once, stopping at the first falsy comparison *)
    Fixpoint chainM (v : V) (l : list B) : M V :=
      match l with
      | [] => ret v
      | e :: r =>
          bind (f e) (fun w =>
          bind (prim (op pr (OBin (T "==")) [v; w])) (fun c =>
          match r with
          | [] => ret c
          | _ => bind (prim (truth pr c)) (fun b => if b then chainM w r else ret c)
          end))
      end.
    Definition eqsM (l : list B) : M V :=
      match l with
      | [] => ret (litv pr LNone)
      | e :: r => bind (f e) (fun v => chainM v r)
      end.
    (** [m] if the optional condition holds, else [other] *)
    Definition whenM {C} (co : option B) (m other : M C) : M C :=
      match co with
      | None => m
      | Some c => bind (f c) (fun cv => bind (prim (truth pr cv)) (fun b =>
                    if b then m else other))
      end.
    (** if c1: yield e1; ..., each yielded value added to the collection *)
    Fixpoint linesM (k : ckind) (ls : list (option B * B)) (acc : V) : M V :=
      match ls with
      | [] => ret acc
      | l :: r =>
          whenM (fst l)
            (bind (f (snd l)) (fun v => bind (prim (push pr k acc [v])) (fun acc' => linesM k r acc')))
            (linesM k r acc)
      end.
    Definition mutM (k : mkind) (vs : list V) : M V :=
      match k with MCustom => ret (litv pr LNone) | _ => prim (mut pr k vs) end.
    (** the statements of a tap function; [data_[n] = v] evaluates [v] first *)
    Fixpoint stmtsM (data : V) (ls : list (mkind * list B)) : M unit :=
      match ls with
      | [] => ret tt
      | (k, l) :: r =>
          bind (match k, l with
                | MSetItem, [n; v] =>
                    bind (f v) (fun vv => bind (f n) (fun vn => mutM k [data; vn; vv]))
                | _, _ => bind (mapM l) (fun vs => mutM k (data :: vs))
                end) (fun _ => stmtsM data r)
      end.
  End Order.

  Definition default_env (vs : list V) : env :=
    match vs with
    | [s; o; d] => [(T "self_", s); (T "obj_", o); (T "default_", d)]
    | [o; d] => [(T "obj_", o); (T "default_", d)]
    | _ => []
    end.
  Definition default_of (vs : list V) : V :=
    match vs with [_; _; d] => d | [_; d] => d | _ => litv pr LNone end.
  Definition helper_env (params : list text) (vs : list V) : env :=
    combine (T "data_" :: params) vs.

  Fixpoint eval (E : env) (e : px) {struct e} : M V :=
    match e with
    | PName x => match lookup E x with Some v => ret v | None => raise (name_error pr x) end
    | PLit l => ret (litv pr l)
    | PGlob g => ret (globv pr g)
    | POp o l => bind (mapM (eval E) l) (fun vs => prim (op pr o vs))
    | PBool isor l => boolM (eval E) isor l
    | PEqs l => eqsM (eval E) l
    | PIf c t f =>
        bind (eval E c) (fun v => bind (prim (truth pr v)) (fun b =>
          if b then eval E t else eval E f))
    | PAttach a b =>      (* CPython tests the truth of [a] once *)
        bind (eval E a) (fun v => bind (prim (truth pr v)) (fun _ => eval E b))
    | PAdd n e =>         (* labels_.__setitem__ returns None *)
        bind (eval E e) (fun v => bind (set_label n v) (fun _ => ret (litv pr LNone)))
    | PGet n => get_label n
    | PComp k elts x it cond =>
        bind (eval E it) (fun v => comprehend k v (fun item acc =>
          whenM (eval ((x, item) :: E)) cond
            (bind (mapM (eval ((x, item) :: E)) elts) (fun vs => prim (push pr k acc vs)))
            (ret acc)))
    | PDefault _ args body =>
        bind (mapM (eval E) args) (fun vs =>
          or_default (eval (default_env vs) body) (default_of vs))
    | PItems _ k args params lines =>
        bind (mapM (eval E) args) (fun vs =>
          bind (prim1 (start pr k)) (fun acc =>
          bind (linesM (eval (helper_env params vs)) k lines acc) (fun acc =>
          prim1 (finish pr k acc))))
    | PTap _ args params stmts =>
        bind (mapM (eval E) args) (fun vs =>
          let data := hd (litv pr LNone) vs in
          bind (stmtsM (eval (helper_env params vs)) data stmts) (fun _ => ret data))
    end.
End Eval.
Arguments prims : clear implicits.
Arguments iterator : clear implicits.
