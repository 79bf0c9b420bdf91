(** What running functions with generator expressions and generator functions does,
    next() by next() (language reference 4.2, 6.2.8, 6.2.9, 6.3, 6.10-6.13, 7.1, 7.2,
    7.7, 8.1, 8.3).  The expressions are those Spec_Syntax.v reads, the statements of the
    called function those Spec_Source.v reads.  Independent of the model of convtools:
    only the operations on values of Model_PyVal.v are shared, and the names of the two
    functions every generated module has for its labels (base.py:501-513).

    It gives less than Python does: [None] means that it says nothing about the
    program. *)
From Coq Require Import String Ascii List NArith ZArith Bool Arith.
From Verif Require Import Model_PyVal Model_Join Model_Code Spec_Syntax Spec_Source.
Import ListNotations.

(** *** values *)
(** an object ([robj]: identity and value), a value whose identity does not matter, a
    list or tuple of objects, a dict of lists of objects, a tuple, an iterator, a
    generator, a function, a set of identities, the result of id(), a new object() *)
Inductive pv : Type :=
| Obj (o : robj)
| Val (v : val)
| Coll (l : list robj)
| Index (d : list (val * list robj))
| Tup (l : list pv)
| Iter (i : nat)
| Gen (g : nat)
| Func (f : text)
| IdSet (i : nat)
| Id (n : nat)
| New (n : nat).

Fixpoint as_val (x : pv) : option val :=
  match x with
  | Obj o => Some (rval o)
  | Val v => Some v
  | Tup l =>
      match (fix go (l : list pv) : option (list val) :=
               match l with
               | [] => Some []
               | a :: r => match as_val a, go r with Some v, Some vs => Some (v :: vs) | _, _ => None end
               end) l with
      | Some vs => Some (VTuple vs)
      | None => None
      end
  | _ => None
  end.
Fixpoint as_vals (l : list pv) : option (list val) :=
  match l with
  | [] => Some []
  | a :: r => match as_val a, as_vals r with Some v, Some vs => Some (v :: vs) | _, _ => None end
  end.
(** a str of characters below 256 *)
Definition str_of (s : text) : option string :=
  if forallb (fun c => N.ltb c 256) s then Some (string_of_list_ascii (map ascii_of_N s)) else None.

(** *** code of generators *)
Inductive gstmt : Type :=
| GAssign (x : text) (a : ast)                        (* x = a *)
| GExpr (a : ast)
| GIf (c : ast) (t f : list gstmt)                    (* if c: t else: f *)
| GFor (xs : list text) (it : ast) (b : list gstmt)   (* for x, y in it: b *)
| GYield (a : ast)
| GFrom (a : ast).                                    (* yield from a *)
(** what is left to do: a statement, a loop that is running, yield from that is running *)
Inductive kont : Type :=
| KDo (s : gstmt)
| KLoop (xs : list text) (it : pv) (b : list gstmt)
| KFrom (it : pv).
(** a generator function: parameters, other local variables, body *)
Record gfun : Type := mkGfun { g_params : list text; g_locals : list text; g_body : list gstmt }.

(** *** memory *)
(** the variables of a call or of a generator (a local variable that has no value yet has
    [None]); the frames around it; what is left of its code: [None] while it runs *)
Record frame : Type := mkFrame {
  vars : list (text * option pv);
  around : list nat;
  todo : option (list kont) }.
Record mem : Type := mkMem {
  frames : nat -> frame; nframes : nat;
  iters : nat -> list (res robj); niters : nat;        (* what an iterator is still to give *)
  labels : list (string * pv);
  sets : nat -> list nat; nsets : nat;
  news : nat }.
Definition at_ {A} (f : nat -> A) (i : nat) (x : A) : nat -> A := fun j => if Nat.eqb j i then x else f j.
Definition set_frame (m : mem) (g : nat) (f : frame) : mem :=
  mkMem (at_ (frames m) g f) (nframes m) (iters m) (niters m) (labels m) (sets m) (nsets m) (news m).
Definition set_todo (m : mem) (g : nat) (c : option (list kont)) : mem :=
  set_frame m g (mkFrame (vars (frames m g)) (around (frames m g)) c).
Definition new_frame (m : mem) (f : frame) : nat * mem :=
  (nframes m, mkMem (at_ (frames m) (nframes m) f) (S (nframes m)) (iters m) (niters m) (labels m) (sets m) (nsets m) (news m)).
Definition set_iter (m : mem) (i : nat) (l : list (res robj)) : mem :=
  mkMem (frames m) (nframes m) (at_ (iters m) i l) (niters m) (labels m) (sets m) (nsets m) (news m).
Definition new_iter (m : mem) (l : list (res robj)) : nat * mem :=
  (niters m, mkMem (frames m) (nframes m) (at_ (iters m) (niters m) l) (S (niters m)) (labels m) (sets m) (nsets m) (news m)).
Definition set_labels (m : mem) (l : list (string * pv)) : mem :=
  mkMem (frames m) (nframes m) (iters m) (niters m) l (sets m) (nsets m) (news m).
Definition set_set (m : mem) (i : nat) (l : list nat) : mem :=
  mkMem (frames m) (nframes m) (iters m) (niters m) (labels m) (at_ (sets m) i l) (nsets m) (news m).
Definition new_set (m : mem) : nat * mem :=
  (nsets m, mkMem (frames m) (nframes m) (iters m) (niters m) (labels m) (at_ (sets m) (nsets m) []) (S (nsets m)) (news m)).
Definition new_object (m : mem) : nat * mem :=
  (news m, mkMem (frames m) (nframes m) (iters m) (niters m) (labels m) (sets m) (nsets m) (S (news m))).

Fixpoint var_at (l : list (text * option pv)) (x : text) : option (option pv) :=
  match l with [] => None | (y, v) :: r => if teqb x y then Some v else var_at r x end.
Fixpoint put_var (l : list (text * option pv)) (x : text) (v : pv) : list (text * option pv) :=
  match l with
  | [] => [(x, Some v)]
  | (y, w) :: r => if teqb x y then (y, Some v) :: r else (y, w) :: put_var r x v
  end.
Definition set_var (m : mem) (f : nat) (x : text) (v : pv) : mem :=
  set_frame m f (mkFrame (put_var (vars (frames m f)) x v) (around (frames m f)) (todo (frames m f))).
(** the innermost frame that has the variable *)
Fixpoint look (m : mem) (sc : list nat) (x : text) : option (option pv) :=
  match sc with
  | [] => None
  | f :: r => match var_at (vars (frames m f)) x with Some v => Some v | None => look m r x end
  end.
Fixpoint label_of (l : list (string * pv)) (k : string) : option pv :=
  match l with [] => None | (k', v) :: r => if String.eqb k' k then Some v else label_of r k end.

(** a, b = v *)
Definition assign (m : mem) (f : nat) (xs : list text) (v : pv) : option mem :=
  match xs, v with
  | [x], _ => Some (set_var m f x v)
  | [x; y], Tup [a; b] => Some (set_var (set_var m f x a) f y b)
  | _, _ => None
  end.
(** iter(v) *)
Definition iter_of (m : mem) (v : pv) : option (pv * mem) :=
  match v with
  | Coll l => let '(i, m) := new_iter m (map Ok l) in Some (Iter i, m)
  | Iter _ | Gen _ => Some (v, m)
  | _ => None
  end.
(** bool(v); the iterators are taken to be true *)
Definition truth (m : mem) (v : pv) : bool :=
  match v with
  | Obj o => truthy (rval o)
  | Val v => truthy v
  | Coll l => match l with [] => false | _ => true end
  | Index d => match d with [] => false | _ => true end
  | Tup l => match l with [] => false | _ => true end
  | IdSet i => match sets m i with [] => false | _ => true end
  | Id n => negb (Nat.eqb n 0)
  | Iter _ | Gen _ | Func _ | New _ => true
  end.

(** what next() of an iterator gives *)
Inductive gout : Type := GItem (v : pv) | GEnd | GFail (e : exc).

Definition result (A : Type) : Type := option (mem * res A).
Definition after {A B} (r : result A) (k : A -> mem -> result B) : result B :=
  match r with
  | Some (m, Ok a) => k a m
  | Some (m, Err e) => Some (m, Err e)
  | None => None
  end.
Definition give {A} (a : A) (m : mem) : result A := Some (m, Ok a).
Definition fails {A} (e : exc) (m : mem) : result A := Some (m, Err e).
Definition pure {A B} (r : res A) (k : A -> B) (m : mem) : result B :=
  match r with Ok a => give (k a) m | Err e => fails e m end.

Section Run.
  (** the objects of the module; its functions and operators on values, under their
      names or signs; its generator functions; its functions that make an index: what
      they do with one row, given the values of the other arguments *)
  Variable globals : text -> option pv.
  Variable opr : text -> list val -> res val.
  Variable gfuns : text -> option gfun.
  Variable indexers : text -> option (list val -> list (val * list robj) -> robj -> res (list (val * list robj))).

  (** comparisons; [Some None]: not defined here *)
  Definition compare (o : text) (x y : pv) (m : mem) : result pv :=
    match x, y with
    | _, Index d =>
        match as_val x with
        | Some k => if teqb o (T "in") then pure (need_hash k) (fun k => Val (VBool match dfind d k with Some _ => true | None => false end)) m else None
        | None => None
        end
    | Id n, IdSet i => if teqb o (T "not in") then give (Val (VBool (negb (existsb (Nat.eqb n) (sets m i))))) m else None
    | New a, New b => if teqb o (T "is") then give (Val (VBool (Nat.eqb a b))) m else None
    | Obj _, New _ => if teqb o (T "is") then give (Val (VBool false)) m else None
    | _, _ =>
        match as_val x, as_val y with
        | Some v, Some w => if teqb o (T "==") then give (Val (VBool (py_eq v w))) m else pure (opr o [v; w]) Val m
        | _, _ => None
        end
    end.
  Definition subscript (x i : pv) (m : mem) : result pv :=
    match x, as_val i with
    | Index d, Some k =>
        pure (do k <- need_hash k; match dfind d k with Some l => Ok l | None => Err KeyError end) Coll m
    | Tup l, Some (VInt z) =>
        if Z.leb 0 z then match nth_error l (Z.to_nat z) with Some v => give v m | None => None end else None
    | _, Some k => match as_val x with Some v => pure (py_getitem v k) Val m | None => None end
    | _, None => None
    end.

  Section Eval.
    (** next() of an iterator; the rows an iterator is still to give, one by one *)
    Variable nx : pv -> mem -> option (mem * gout).
    Variable each : forall A : Type, (A -> robj -> res A) -> pv -> A -> mem -> result A.

    (** the function a name stands for *)
    Definition callee (m : mem) (sc : list nat) (f : text) : option text :=
      match look m sc f with
      | Some (Some (Func g)) => Some g
      | Some _ => None
      | None => match globals f with Some (Func g) => Some g | Some _ => None | None => Some f end
      end.
    Definition apply (f : text) (args : list pv) (kws : list (text * pv)) (m : mem) : result pv :=
      match gfuns f with
      | Some g =>
          if Nat.eqb (length args + length kws) (length (g_params g)) &&
             forallb (fun x => existsb (teqb x) (map fst kws)) (skipn (length args) (g_params g))
          then let vs := combine (g_params g) (map Some args) ++ map (fun k => (fst k, Some (snd k))) kws in
               let '(i, m) := new_frame m (mkFrame (vs ++ map (fun x => (x, None)) (g_locals g)) [] (Some (map KDo (g_body g)))) in
               give (Gen i) m
          else None
      | None =>
      match indexers f, args, kws with
      | Some h, rows :: others, [] =>
          match as_vals others, iter_of m rows with
          | Some vs, Some (it, m) => after (each _ (h vs) it [] m) (fun d m => give (Index d) m)
          | _, _ => None
          end
      | Some _, _, _ => None
      | None, _, _ =>
      match kws with
      | _ :: _ => None
      | [] =>
          if teqb f (T "add_label_") then
            match args with
            | [Val (VStr k); v] => give (Obj none_obj) (set_labels m ((k, v) :: labels m))
            | _ => None
            end
          else if teqb f (T "get_by_label_") then
            match args with
            | [Val (VStr k)] => match label_of (labels m) k with Some v => give v m | None => fails KeyError m end
            | _ => None
            end
          else if teqb f (T "list") then
            match args with
            | [v] =>
                match iter_of m v with
                | Some (it, m) => after (each _ (fun l o => Ok (l ++ [o])) it [] m) (fun l m => give (Coll l) m)
                | None => None
                end
            | _ => None
            end
          else if teqb f (T "next") then
            match args with
            | [it; d] =>
                match nx it m with
                | Some (m, GItem v) => give v m
                | Some (m, GEnd) => give d m
                | Some (m, GFail e) => fails e m
                | None => None
                end
            | _ => None
            end
          else if teqb f (T "id") then match args with [Obj o] => give (Id (rid o)) m | _ => None end
          else if teqb f (T "set") then match args with [] => let '(i, m) := new_set m in give (IdSet i) m | _ => None end
          else if teqb f (T "object") then match args with [] => let '(n, m) := new_object m in give (New n) m | _ => None end
          else match as_vals args with Some vs => pure (opr f vs) Val m | None => None end
      end end end.

    (** an expression in the scope [sc]: the running frame and those around it *)
    Fixpoint eval (sc : list nat) (a : ast) (m : mem) {struct a} : result pv :=
      let evals := fix evals (l : list ast) (m : mem) : result (list pv) :=
        match l with
        | [] => give [] m
        | a :: r => after (eval sc a m) (fun v m => after (evals r m) (fun vs m => give (v :: vs) m))
        end in
      match a with
      | AName x =>
          match look m sc x with
          | Some (Some v) => give v m
          | Some None => fails NameError m
          | None =>
              match globals x with
              | Some v => give v m
              | None => if teqb x (T "get_by_label_") then give (Func x) m else None
              end
          end
      | ANum n => give (Val (VInt (Z.of_N n))) m
      | AStr s => match str_of s with Some s => give (Val (VStr s)) m | None => None end
      | AConst c =>
          if teqb c (T "None") then give (Obj none_obj) m
          else if teqb c (T "True") then give (Val (VBool true)) m
          else if teqb c (T "False") then give (Val (VBool false)) m
          else None
      | AUnary o a =>
          after (eval sc a m) (fun v m =>
          match as_val v with
          | Some (VInt z) => if teqb o (T "-") then give (Val (VInt (- z))) m else None
          | _ => None
          end)
      | ABin o a b =>
          after (eval sc a m) (fun v m => after (eval sc b m) (fun w m =>
          match as_val v, as_val w with Some v, Some w => pure (opr o [v; w]) Val m | _, _ => None end))
      | ANot a => after (eval sc a m) (fun v m => give (Val (VBool (negb (truth m v)))) m)
      | ACompare a l =>
          after (eval sc a m) (fun v m =>
          (fix chain (v : pv) (l : list (text * ast)) (m : mem) : result pv :=
             match l with
             | [] => None
             | (o, b) :: r =>
                 after (eval sc b m) (fun w m => after (compare o v w m) (fun c m =>
                 match r with
                 | [] => give c m
                 | _ => if truth m c then chain w r m else give c m
                 end))
             end) v l m)
      | ABool isor l =>
          (fix go (l : list ast) (m : mem) : result pv :=
             match l with
             | [] => None
             | a :: r =>
                 match r with
                 | [] => eval sc a m
                 | _ => after (eval sc a m) (fun v m => if Bool.eqb (truth m v) isor then give v m else go r m)
                 end
             end) l m
      | AIf c a b => after (eval sc c m) (fun v m => if truth m v then eval sc a m else eval sc b m)
      | ASub a i => after (eval sc a m) (fun v m => after (eval sc i m) (fun k m => subscript v k m))
      | ATuple l => after (evals l m) (fun vs m => give (Tup vs) m)
      | AList [] => give (Coll []) m
      | ACall (AName f) l kws =>
          match callee m sc f with
          | Some g =>
              after (evals l m) (fun vs m =>
              after ((fix kwvals (k : list (text * ast)) (m : mem) : result (list (text * pv)) :=
                        match k with
                        | [] => give [] m
                        | (x, a) :: r => after (eval sc a m) (fun v m => after (kwvals r m) (fun vs m => give ((x, v) :: vs) m))
                        end) kws m) (fun kvs m =>
              apply g vs kvs m))
          | None => None
          end
      | ACall (AAttr o x) l [] =>
          after (eval sc o m) (fun v m => after (evals l m) (fun vs m =>
          match v, vs with
          | IdSet i, [Id n] => if teqb x (T "add") then give (Obj none_obj) (set_set m i (n :: sets m i)) else None
          | _, _ => None
          end))
      (* (e for x in it if cond): [it] and iter() of it are evaluated now *)
      | AComp GGen [e] x it cond =>
          after (eval sc it m) (fun v m =>
          match iter_of m v with
          | Some (i, m) =>
              let body := match cond with Some c => [GIf c [GYield e] []] | None => [GYield e] end in
              let '(g, m) := new_frame m (mkFrame [(x, None)] sc (Some [KLoop [x] i body])) in
              give (Gen g) m
          | None => None
          end)
      | AComp2 e x it y it2 cond =>
          after (eval sc it m) (fun v m =>
          match iter_of m v with
          | Some (i, m) =>
              let body := match cond with Some c => [GIf c [GYield e] []] | None => [GYield e] end in
              let '(g, m) := new_frame m (mkFrame [(x, None); (y, None)] sc (Some [KLoop [x] i [GFor [y] it2 body]])) in
              give (Gen g) m
          | None => None
          end)
      | _ => None
      end.
  End Eval.

  (** next(): of an iterator, of a generator ([run]: its code in its frame) *)
  Definition next_of (run : nat -> list kont -> mem -> option (mem * gout)) (it : pv) (m : mem) : option (mem * gout) :=
    match it with
    | Iter i =>
        match iters m i with
        | [] => Some (m, GEnd)
        | Ok o :: l => Some (set_iter m i l, GItem (Obj o))
        | Err e :: l => Some (set_iter m i l, GFail e)
        end
    | Gen g => match todo (frames m g) with Some c => run g c (set_todo m g None) | None => None end
    | _ => None
    end.
  Fixpoint each_of (nx : pv -> mem -> option (mem * gout)) (k : nat) (A : Type) (f : A -> robj -> res A) (it : pv) (a : A) (m : mem) : result A :=
    match k with
    | O => None
    | S k =>
        match nx it m with
        | Some (m, GItem (Obj o)) =>
            match f a o with Ok a => each_of nx k A f it a m | Err e => fails e m end
        | Some (m, GItem _) => None
        | Some (m, GEnd) => give a m
        | Some (m, GFail e) => fails e m
        | None => None
        end
    end.

  (** [code] run in the frame [f] until it yields, ends or fails; [n] bounds the number of
      steps, no result beyond *)
  Fixpoint run (n : nat) (f : nat) (code : list kont) (m : mem) {struct n} : option (mem * gout) :=
    match n with
    | O => None
    | S n =>
        let nx := next_of (run n) in
        let ev a m := eval nx (each_of nx n) (f :: around (frames m f)) a m in
        let stop m o : option (mem * gout) := Some (set_todo m f (Some []), o) in
        let on {A} (r : result A) (k : A -> mem -> option (mem * gout)) : option (mem * gout) :=
          match r with
          | Some (m, Ok a) => k a m
          | Some (m, Err e) => stop m (GFail e)
          | None => None
          end in
        match code with
        | [] => stop m GEnd
        | KDo s :: k =>
            match s with
            | GAssign x a => on (ev a m) (fun v m => run n f k (set_var m f x v))
            | GExpr a => on (ev a m) (fun _ m => run n f k m)
            | GIf c t e => on (ev c m) (fun v m => run n f (map KDo (if truth m v then t else e) ++ k) m)
            | GFor xs a b =>
                on (ev a m) (fun v m =>
                match iter_of m v with Some (it, m) => run n f (KLoop xs it b :: k) m | None => None end)
            | GYield a => on (ev a m) (fun v m => Some (set_todo m f (Some k), GItem v))
            | GFrom a =>
                on (ev a m) (fun v m =>
                match iter_of m v with Some (it, m) => run n f (KFrom it :: k) m | None => None end)
            end
        | KLoop xs it b :: k =>
            match nx it m with
            | Some (m, GItem v) =>
                match assign m f xs v with
                | Some m => run n f (map KDo b ++ KLoop xs it b :: k) m
                | None => None
                end
            | Some (m, GEnd) => run n f k m
            | Some (m, GFail e) => stop m (GFail e)
            | None => None
            end
        | KFrom it :: k =>
            match nx it m with
            | Some (m, GItem v) => Some (set_todo m f (Some (KFrom it :: k)), GItem v)
            | Some (m, GEnd) => run n f k m
            | Some (m, GFail e) => stop m (GFail e)
            | None => None
            end
        end
    end.
  Definition next (n : nat) : pv -> mem -> option (mem * gout) := next_of (run n).

  (** calling a function of the module (no generator function): its body *)
  Fixpoint exec (n : nat) (f : nat) (b : list stmt) (m : mem) : result pv :=
    match b with
    | [] => give (Obj none_obj) m
    | SGlobal _ :: r => exec n f r m
    | SAssign x a :: r => after (eval (next n) (each_of (next n) n) [f] a m) (fun v m => exec n f r (set_var m f x v))
    | SReturn a :: _ => eval (next n) (each_of (next n) n) [f] a m
    | _ => None
    end.
  Definition call_of (n : nat) (fd : func) (args : list pv) (m : mem) : result pv :=
    if Nat.eqb (length args) (length (f_params fd)) && match f_kwonly fd with [] => true | _ => false end && negb (is_generator fd)
    then let '(f, m) := new_frame m (mkFrame (combine (f_params fd) (map Some args) ++ map (fun x => (x, None)) (assigned (f_body fd))) [] None) in
         exec n f (f_body fd) m
    else None.

  (** *** with as many steps as it takes *)
  Definition calls (fd : func) (args : list pv) (m : mem) (m' : mem) (r : res pv) : Prop :=
    exists N, forall n, N <= n -> call_of n fd args m = Some (m', r).
  Definition nexts (it : pv) (m m' : mem) (o : gout) : Prop :=
    exists N, forall n, N <= n -> next n it m = Some (m', o).
  (** what calling next() again and again gives; after the end or an exception there is
      nothing more *)
  Fixpoint takes (k : nat) (it : pv) (m : mem) (l : list gout) : Prop :=
    match k, l with
    | O, [] => True
    | S k, o :: r => exists m', nexts it m m' o /\ takes k it m' r
    | _, _ => False
    end.
End Run.
