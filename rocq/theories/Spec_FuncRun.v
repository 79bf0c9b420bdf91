(** What running a function with loops does (language reference 4.2, 6.2, 6.10, 7.1,
    7.2, 7.9, 8.1, 8.3): the functions Spec_FuncText.v reads.  Independent of the model
    of convtools.

    Variables and attributes refer to objects, several may refer to the same one; what
    a list, dict, ... holds are values (as in Spec_Stmt.v). *)
From Coq Require Import String Ascii List NArith ZArith Bool Arith.
From Verif Require Import Model_PyVal Model_Code Spec_Syntax Spec_FuncText.
From Verif Require Spec_Stmt Model_Python.
Import ListNotations.
Notation assoc := Spec_Stmt.assoc.
Notation same_text := Spec_Stmt.same_text.
Notation set_nth := Spec_Stmt.set_nth.
Notation hash_all := Spec_Stmt.hash_all.
Notation unsupported := Spec_Stmt.unsupported.
Notation simple_stmt := Spec_Stmt.simple_stmt.
Notation stmt := Spec_Stmt.stmt.

(** what an expression gives: the sentinel object(), a value, an instance of a class *)
Inductive rv : Type := RSent | RVal (v : val) | RInst (i : nat).
(** what a variable refers to; a defaultdict with the value it gives to missing keys;
    an iterable and the rows it holds, an iterator and the rows to come; a defaultdict
    of instances of a class *)
Inductive object : Type :=
| OSent
| OVal (v : val) (missing : option val)
| OInst (i : nat)
| ORows (l : list val)
| OIter (l : list val)
| OGroups (cls : text) (d : list (val * nat)).
(** variables; attributes of the instances; number of instances; objects *)
Record state : Type := mkState {
  names : list (text * nat);
  attrs : list (nat * text * nat);
  instances : nat;
  objects : list object }.
Definition obj_at (s : state) (l : nat) : object := nth l (objects s) OSent.
Definition store (s : state) (l : nat) (o : object) : state :=
  mkState (names s) (attrs s) (instances s) (set_nth (objects s) l o).
Definition new (s : state) (o : object) : nat * state :=
  (length (objects s), mkState (names s) (attrs s) (instances s) (objects s ++ [o])).
Definition name_it (s : state) (n : text) (l : nat) : state := mkState ((n, l) :: names s) (attrs s) (instances s) (objects s).
Definition set_attr (s : state) (i : nat) (x : text) (l : nat) : state :=
  mkState (names s) ((i, x, l) :: attrs s) (instances s) (objects s).
Fixpoint attr_at (l : list (nat * text * nat)) (i : nat) (x : text) : option nat :=
  match l with
  | [] => None
  | (j, y, a) :: r => if Nat.eqb i j && same_text x y then Some a else attr_at r i x
  end.
(** x = o, a new object *)
Definition bind_new (s : state) (n : text) (o : object) : state := let '(l, s) := new s o in name_it s n l.

(** the value an argument has for a function; the sentinel is an object of its own *)
Definition arg_of (x : rv) : res val :=
  match x with RSent => Ok (VObj 0) | RVal v => Ok v | RInst _ => unsupported end.
Definition rv_of (o : object) : res rv :=
  match o with OSent => Ok RSent | OVal v _ => Ok (RVal v) | OInst i => Ok (RInst i) | _ => unsupported end.
Definition is_true (x : rv) : bool := match x with RVal v => truthy v | _ => true end.

Section Run.
  (** the objects of the module; its functions, and the operators of Python under their
      signs; its classes, with the attributes their constructor sets to the sentinel;
      expressions of other kinds, given the values of the variables and attributes *)
  Variable globals : text -> option rv.
  Variable call : text -> list val -> res val.
  Variable classes : text -> option (list text).
  Variable outside : ast -> (ast -> option val) -> res val.

  (** operations that need a value: the sentinel and instances support none *)
  Definition needs {B} (x : rv) (k : val -> res B) : res B := match x with RVal v => k v | _ => Err TypeError end.
  Definition item_of {B} (x : rv) (k : val -> res B) : res B := match x with RVal v => k v | _ => unsupported end.
  (** the object a variable or an attribute refers to *)
  Definition variable (a : ast) (s : state) : option nat :=
    match a with
    | AName n => assoc (names s) n
    | AAttr (AName n) x =>
        match assoc (names s) n with
        | Some l => match obj_at s l with OInst i => attr_at (attrs s) i x | _ => None end
        | None => None
        end
    | _ => None
    end.
  Definition values (s : state) (a : ast) : option val :=
    match variable a s with
    | Some l => match obj_at s l with OVal v _ => Some v | _ => None end
    | None => None
    end.
  (** the function or class of the module, not a variable *)
  Definition is_global (n : text) (s : state) : bool := match assoc (names s) n with Some _ => false | None => true end.
  (** v[k], [v] being the value of [a]: a defaultdict adds the missing key *)
  Definition item (a : ast) (v k : val) (s : state) : res (val * state) :=
    match variable a s with
    | Some l =>
        match obj_at s l, v with
        | OVal _ (Some m), VDict d =>
            do k' <- need_hash k;
            match dfind d k' with
            | Some x => Ok (x, s)
            | None => Ok (m, store s l (OVal (VDict (dput d k' m)) (Some m)))
            end
        | _, _ => do x <- py_getitem v k; Ok (x, s)
        end
    | None => do x <- py_getitem v k; Ok (x, s)
    end.
  (** x is y, one of them None or the sentinel *)
  Definition identical (x y : rv) : res bool :=
    match x, y with
    | RSent, RSent => Ok true
    | RSent, RVal _ | RVal _, RSent => Ok false
    | RVal v, RVal w => if is_none v || is_none w then Ok (is_none v && is_none w) else unsupported
    | _, _ => unsupported
    end.
  Definition compare (o : text) (x y : rv) : res bool :=
    if same_text o (T "is") then identical x y
    else if same_text o (T "is not") then (do b <- identical x y; Ok (negb b))
    else needs x (fun x => needs y (fun y =>
      if same_text o (T "<") then py_lt x y
      else if same_text o (T ">") then py_lt y x
      else if same_text o (T "==") then Ok (py_eq x y)
      else if same_text o (T "!=") then Ok (negb (py_eq x y))
      else if same_text o (T "in") then py_in x y
      else if same_text o (T "not in") then (do b <- py_in x y; Ok (negb b))
      else unsupported)).
  Definition comparison (o : text) (x y : rv) : res val :=
    if same_text o (T "<=") || same_text o (T ">=") then needs x (fun x => needs y (fun y => call o [x; y]))
    else do b <- compare o x y; Ok (VBool b).
  (** sums and the negation of a number; the other operators are oracles *)
  Definition unary (o : text) (x : val) : res val :=
    match as_int x with
    | Some z => if same_text o (T "-") then Ok (VInt (- z)) else call o [x]
    | None => call o [x]
    end.
  Definition arithmetic (o : text) (x y : val) : res val := if same_text o (T "+") then py_add x y else call o [x; y].
  Fixpoint args_of (l : list rv) : res (list val) :=
    match l with [] => Ok [] | x :: r => do v <- arg_of x; do vs <- args_of r; Ok (v :: vs) end.

  Fixpoint ev (a : ast) (s : state) {struct a} : res (rv * state) :=
    let evs := fix evs (l : list ast) (s : state) : res (list rv * state) :=
      match l with
      | [] => Ok ([], s)
      | a :: r => do p <- ev a s; do q <- evs r (snd p); Ok (fst p :: fst q, snd q)
      end in
    let items := fix items (l : list ast) (s : state) : res (list val * state) :=
      match l with
      | [] => Ok ([], s)
      | a :: r => do p <- ev a s; item_of (fst p) (fun v => do q <- items r (snd p); Ok (v :: fst q, snd q))
      end in
    let pairs := fix pairs (l : list (ast * ast)) (s : state) : res (list (val * val) * state) :=
      match l with
      | [] => Ok ([], s)
      | (a, b) :: r =>
          do p <- ev a s; item_of (fst p) (fun k => do p <- ev b (snd p); item_of (fst p) (fun v =>
          do q <- pairs r (snd p); Ok ((k, v) :: fst q, snd q)))
      end in
    let other := do v <- outside a (values s); Ok (RVal v, s) in
    match a with
    | AName n =>
        match assoc (names s) n with
        | Some l => do x <- rv_of (obj_at s l); Ok (x, s)
        | None => match globals n with Some x => Ok (x, s) | None => Err NameError end
        end
    | AAttr (AName n) x =>
        match variable a s with
        | Some l => do y <- rv_of (obj_at s l); Ok (y, s)
        | None => other
        end
    | ANum n => Ok (RVal (VInt (Z.of_N n)), s)
    | AConst c =>
        if same_text c (T "None") then Ok (RVal VNone, s)
        else if same_text c (T "True") then Ok (RVal (VBool true), s)
        else if same_text c (T "False") then Ok (RVal (VBool false), s)
        else other
    | ABin o a b =>
        do p <- ev a s; do q <- ev b (snd p);
        needs (fst p) (fun x => needs (fst q) (fun y => do z <- arithmetic o x y; Ok (RVal z, snd q)))
    | AUnary o a => do p <- ev a s; needs (fst p) (fun x => do z <- unary o x; Ok (RVal z, snd p))
    | ANot a => do p <- ev a s; Ok (RVal (VBool (negb (is_true (fst p)))), snd p)
    | ACompare a [(o, b)] =>
        do p <- ev a s; do q <- ev b (snd p); do z <- comparison o (fst p) (fst q); Ok (RVal z, snd q)
    | ABool isor l =>
        (fix go (l : list ast) (s : state) : res (rv * state) :=
           match l with
           | [] => unsupported
           | a :: r =>
               match r with
               | [] => ev a s
               | _ => do p <- ev a s; if Bool.eqb (is_true (fst p)) isor then Ok p else go r (snd p)
               end
           end) l s
    | AIf c a b => do p <- ev c s; if is_true (fst p) then ev a (snd p) else ev b (snd p)
    | ASub a i =>
        do p <- ev a s; do q <- ev i (snd p);
        needs (fst p) (fun v => needs (fst q) (fun k => do r <- item a v k (snd q); Ok (RVal (fst r), snd r)))
    | ATuple l => do p <- items l s; Ok (RVal (VTuple (fst p)), snd p)
    | AList l => do p <- items l s; Ok (RVal (VList (fst p)), snd p)
    | ASet l => do p <- items l s; do _ <- hash_all (fst p); Ok (RVal (VSet (fold_left vadd (fst p) [])), snd p)
    | ADict l =>
        do p <- pairs l s; do _ <- hash_all (map fst (fst p));
        Ok (RVal (VDict (fold_left (fun d kv => dput d (fst kv) (snd kv)) (fst p) [])), snd p)
    | ACall (AName f) l [] =>
        if is_global f s then do p <- evs l s; do vs <- args_of (fst p); do v <- call f vs; Ok (RVal v, snd p)
        else unsupported
    | _ => other
    end.

  (** a new instance: its attributes all refer to the sentinel *)
  Definition instance (fields : list text) (s : state) : nat * state :=
    let '(l, s) := new s OSent in
    let i := instances s in
    (i, mkState (names s) (map (fun x => (i, x, l)) fields ++ attrs s) (S i) (objects s)).
  (** groups[k], the group is made when it is missing *)
  Definition group_at (l : nat) (cls : text) (d : list (val * nat)) (k : val) (s : state) : res (nat * state) :=
    do k' <- need_hash k;
    match dfind d k' with
    | Some i => Ok (i, s)
    | None =>
        match classes cls with
        | Some fields => let '(i, s) := instance fields s in Ok (i, store s l (OGroups cls (dput d k' i)))
        | None => unsupported
        end
    end.
  (** the object an assignment stores: defaultdict(f), iter(x), a group, or what an
      expression gives *)
  Definition object_of (x : rv) : object := match x with RSent => OSent | RVal v => OVal v None | RInst i => OInst i end.
  Definition right_side (e : ast) (s : state) : res (object * state) :=
    let plain := do p <- ev e s; Ok (object_of (fst p), snd p) in
    match e with
    | ACall (AName f) [AName g] [] =>
        if same_text f (T "defaultdict") && is_global f s && is_global g s then
          if same_text g (T "list") then Ok (OVal (VDict []) (Some (VList [])), s)
          else if same_text g (T "dict") then Ok (OVal (VDict []) (Some (VDict [])), s)
          else if same_text g (T "int") then Ok (OVal (VDict []) (Some (VInt 0)), s)
          else match classes g with Some _ => Ok (OGroups g [], s) | None => unsupported end
        else if same_text f (T "iter") && is_global f s then
          match variable (AName g) s with
          | Some l => match obj_at s l with ORows rows => Ok (OIter rows, s) | _ => unsupported end
          | None => unsupported
          end
        else plain
    | ASub a i =>
        match variable a s with
        | Some l =>
            match obj_at s l with
            | OGroups cls d =>
                do q <- ev i s; needs (fst q) (fun k =>
                do r <- group_at l cls d k (snd q); Ok (OInst (fst r), snd r))
            | _ => plain
            end
        | None => plain
        end
    | _ => plain
    end.
  (** [f] applied to what [a] refers to, in place: a variable, an attribute, or an item
      of such *)
  Fixpoint change (a : ast) (f : rv -> state -> res (val * state)) (s : state) : res state :=
    match a with
    | ASub b i =>
        change b (fun v s =>
          do q <- ev i s;
          needs v (fun v => needs (fst q) (fun k =>
          do r <- item b v k (snd q);
          do p <- f (RVal (fst r)) (snd r);
          match v with
          | VDict d => Ok (VDict (dput d k (fst p)), snd p)
          | _ => Err TypeError
          end))) s
    | _ =>
        match variable a s with
        | Some l =>
            match obj_at s l with
            | OVal v m => do p <- f (RVal v) s; Ok (store (snd p) l (OVal (fst p) m))
            | OSent => do p <- f RSent s; Ok (snd p)
            | _ => unsupported
            end
        | None => unsupported
        end
    end.
  (** a[i] = x *)
  Definition assign_item (a i : ast) (x : val) (s : state) : res state :=
    change a (fun v s =>
      do q <- ev i s;
      needs (fst q) (fun k =>
      match v with
      | RVal (VDict d) => do k' <- need_hash k; Ok (VDict (dput d k' x), snd q)
      | _ => Err TypeError
      end)) s.
  Fixpoint assign (targets : list ast) (l : nat) (s : state) : res state :=
    match targets with
    | [] => Ok s
    | AName n :: r => assign r l (name_it s n l)
    | AAttr a x :: r =>
        do p <- ev a s;
        match fst p with RInst i => assign r l (set_attr (snd p) i x l) | _ => unsupported end
    | _ => unsupported
    end.
  (** x.sort(key=f, reverse=r): f is None or a function of the module; the keys are computed
      first, in order; ties keep their order, in a reversed list too *)
  Definition sort_key (a : ast) (s : state) : option (val -> res val) :=
    match a with
    | AConst c => if same_text c (T "None") then Some (fun x => Ok x) else None
    | AName f => if is_global f s then Some (fun x => call f [x]) else None
    | _ => None
    end.
  Fixpoint with_keys (f : val -> res val) (l : list val) : res (list (val * val)) :=
    match l with
    | [] => Ok []
    | x :: r => do k <- f x; do ks <- with_keys f r; Ok ((k, x) :: ks)
    end.
  Definition sort_list (key r : ast) (v : rv) (s : state) : res (val * state) :=
    match v, sort_key key s with
    | RVal (VList l), Some f =>
        do p <- ev r s; do ks <- with_keys f l; do l' <- Model_Python.sort_pairs (is_true (fst p)) ks; Ok (VList l', snd p)
    | RVal (VList _), None => unsupported
    | _, _ => Err AttributeError
    end.
  (** ... and whether a break was met *)
  Definition on (r : res state) : res (state * bool) := do s <- r; Ok (s, false).
  Definition run_simple (st : simple_stmt) (s : state) : res (state * bool) :=
    match st with
    | Spec_Stmt.SPass => Ok (s, false)
    | Spec_Stmt.SBreak => Ok (s, true)
    | Spec_Stmt.SAssign [ASub a i] e => on (do p <- ev e s; item_of (fst p) (fun x => assign_item a i x (snd p)))
    | Spec_Stmt.SAssign ts e => on (do p <- right_side e s; let '(l, s) := new (snd p) (fst p) in assign ts l s)
    | Spec_Stmt.SAdd t e =>
        on (change t (fun v s => do q <- ev e s; needs v (fun v => needs (fst q) (fun x =>
          do z <- py_add v x; Ok (z, snd q)))) s)
    | Spec_Stmt.SOr t e =>
        on (change t (fun v s => do q <- ev e s; needs v (fun v => needs (fst q) (fun x =>
          do z <- Spec_Stmt.bit_or v x; Ok (z, snd q)))) s)
    | Spec_Stmt.SExpr (ACall (AAttr a m) [x] []) =>
        on (change a (fun v s =>
          match v with
          | RVal (VSet l) =>
              if same_text m (T "add") then
                do q <- ev x s; item_of (fst q) (fun y => do y' <- need_hash y; Ok (VSet (vadd l y'), snd q))
              else Err AttributeError
          | RVal (VList l) =>
              if same_text m (T "append") then do q <- ev x s; item_of (fst q) (fun y => Ok (VList (l ++ [y]), snd q))
              else Err AttributeError
          | _ => Err AttributeError
          end) s)
    | Spec_Stmt.SExpr (ACall (AAttr a m) [] [(k1, key); (k2, r)]) =>
        if same_text m (T "sort") && same_text k1 (T "key") && same_text k2 (T "reverse") then on (change a (sort_list key r) s)
        else unsupported
    | Spec_Stmt.SExpr _ => unsupported
    end.
  Fixpoint run_stmt (st : stmt) (s : state) {struct st} : res (state * bool) :=
    let run_all := fix run_all (l : list stmt) (s : state) : res (state * bool) :=
      match l with
      | [] => Ok (s, false)
      | st :: r => do p <- run_stmt st s; if snd p then Ok p else run_all r (fst p)
      end in
    match st with
    | Spec_Stmt.Simple st => run_simple st s
    | Spec_Stmt.If l other =>
        (fix go (l : list (ast * list stmt)) (s : state) : res (state * bool) :=
           match l with
           | [] => run_all other s
           | (c, b) :: r => do p <- ev c s; if is_true (fst p) then run_all b (snd p) else go r (snd p)
           end) l s
    end.
  Fixpoint run_stmts (l : list stmt) (s : state) : res (state * bool) :=
    match l with
    | [] => Ok (s, false)
    | st :: r => do p <- run_stmt st s; if snd p then Ok p else run_stmts r (fst p)
    end.

  (** *** functions *)
  (** for x in rows: body; the rows left after a break *)
  Fixpoint run_for (x : text) (body : list stmt) (rows : list val) (s : state) : res (state * list val) :=
    match rows with
    | [] => Ok (s, [])
    | row :: r =>
        do p <- run_stmts body (bind_new s x (OVal row None));
        if (snd p : bool) then Ok (fst p, r) else run_for x body r (fst p)
    end.
  (** [elt for k, v in groups.items()]; k and v are variables of the comprehension *)
  Fixpoint run_collect (elt : ast) (k v : text) (d : list (val * nat)) (s : state) : res (list val * state) :=
    match d with
    | [] => Ok ([], s)
    | (key, i) :: r =>
        do p <- ev elt (bind_new (bind_new s k (OVal key None)) v (OInst i));
        item_of (fst p) (fun x =>
        do q <- run_collect elt k v r (mkState (names s) (attrs (snd p)) (instances (snd p)) (objects (snd p)));
        Ok (x :: fst q, snd q))
    end.
  (** the value returned, if the statements return one *)
  Fixpoint run_body (b : list fstmt) (s : state) : res (option rv) :=
    match b with
    | [] => Ok None
    | FGlobal _ :: r => run_body r s
    | FSimple st :: r => do p <- run_simple st s; if (snd p : bool) then unsupported else run_body r (fst p)
    | FFor x (AName n) body :: r =>
        match assoc (names s) n with
        | Some l =>
            match obj_at s l with
            | ORows rows => do p <- run_for x body rows s; run_body r (fst p)
            | OIter rows => do p <- run_for x body rows s; run_body r (store (fst p) l (OIter (snd p)))
            | _ => unsupported
            end
        | None => unsupported
        end
    | FFor _ _ _ :: _ => unsupported
    | FCollect x elt k v (ACall (AAttr (AName g) m) [] []) :: r =>
        if same_text m (T "items") then
          match assoc (names s) g with
          | Some l =>
              match obj_at s l with
              | OGroups _ d => do p <- run_collect elt k v d s; run_body r (bind_new (snd p) x (OVal (VList (fst p)) None))
              | _ => unsupported
              end
          | None => unsupported
          end
        else unsupported
    | FCollect _ _ _ _ _ :: _ => unsupported
    | FReturn a :: _ => do p <- ev a s; Ok (Some (fst p))
    end.
  (** a call with rows as its first argument, then values *)
  Fixpoint bind_args (params : list text) (args : list val) (s : state) : state :=
    match params, args with
    | x :: ps, v :: vs => bind_args ps vs (bind_new s x (OVal v None))
    | _, _ => s
    end.
  Definition run_function (params : list text) (body : list fstmt) (rows : list val) (args : list val) : res (option rv) :=
    match params with
    | d :: ps =>
        if Nat.eqb (length ps) (length args)
        then run_body body (bind_args ps args (bind_new (mkState [] [] 0 []) d (ORows rows)))
        else Err TypeError
    | [] => Err TypeError
    end.
End Run.
