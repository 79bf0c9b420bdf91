(** Python's simple statements and if statements, as far as the loop bodies of
    aggregations need them: how the lines are read (expressions with the parser of
    Spec_Syntax.v) and what they do (language reference 7.1, 7.2, 7.2.1, 7.9, 8.1).
    Independent of the model of convtools.

    Accepted: pass, break, targets = e, target += e, target |= e, calls of .add and
    .append, if / elif / else, indentation by four blanks.  A line is split at
    " += ", " |= " and " = ", so it may not have these inside brackets or strings. *)
From Coq Require Import String Ascii List NArith ZArith Bool Arith.
From Verif Require Import Model_PyVal Model_Code Spec_Syntax.
Import ListNotations.

(** *** reading *)
Inductive simple_stmt : Type :=
| SPass
| SBreak
| SAssign (targets : list ast) (e : ast)      (* t1 = t2 = e *)
| SAdd (t e : ast)                            (* t += e *)
| SOr (t e : ast)                             (* t |= e *)
| SExpr (e : ast).
Inductive line : Type :=
| LSimple (s : simple_stmt) | LIf (c : ast) | LElif (c : ast) | LElse.
(** an if statement: conditions with their bodies, and the else body *)
Inductive stmt : Type :=
| Simple (s : simple_stmt)
| If (branches : list (ast * list stmt)) (other : list stmt).

Definition read_expr (t : text) : option ast :=
  match tokenize t with
  | Some ts => match parse 60 0 ts with Some (a, []) => Some a | _ => None end
  | None => None
  end.
(** t.split(sep) *)
Fixpoint split_at (fuel : nat) (sep cur t : text) : list text :=
  match fuel with
  | O => [cur ++ t]
  | S f =>
      match t with
      | [] => [cur]
      | c :: r => if starts sep t then cur :: split_at f sep [] (skipn (length sep) t)
                  else split_at f sep (cur ++ [c]) r
      end
  end.
Definition split (sep : string) (t : text) : list text := split_at (S (length t)) (T sep) [] t.
Definition read_simple (t : text) : option simple_stmt :=
  if teqb t (T "pass") then Some SPass
  else if teqb t (T "break") then Some SBreak
  else match split " += " t, split " |= " t with
       | [a; b], _ => match read_expr a, read_expr b with Some a, Some b => Some (SAdd a b) | _, _ => None end
       | _, [a; b] => match read_expr a, read_expr b with Some a, Some b => Some (SOr a b) | _, _ => None end
       | _, _ =>
           match rev (map read_expr (split " = " t)) with
           | [Some e] => Some (SExpr e)
           | Some e :: ts =>
               option_map (fun l => SAssign (rev l) e)
                 (fold_right (fun o acc => match o, acc with Some a, Some l => Some (a :: l) | _, _ => None end) (Some []) ts)
           | _ => None
           end
       end.
(** "head<expression>:" *)
Definition header (head : string) (t : text) : option ast :=
  if starts (T head) t then
    match rev (skipn (length (T head)) t) with
    | 58%N :: r => read_expr (rev r)
    | _ => None
    end
  else None.
Definition read_line (t : text) : option line :=
  if teqb t (T "else:") then Some LElse
  else if starts (T "if ") t then option_map LIf (header "if " t)
  else if starts (T "elif ") t then option_map LElif (header "elif " t)
  else option_map LSimple (read_simple t).

(** the indented lines that follow, and the rest *)
Fixpoint body_lines (ls : list text) : list text * list text :=
  match ls with
  | l :: r => if starts (T "    ") l then let '(b, r') := body_lines r in (skipn 4 l :: b, r') else ([], ls)
  | [] => ([], [])
  end.
(** What follows the first branch of an if statement: elif ..., else ...; the
    bodies are still lines. *)
Fixpoint read_chain (fuel : nat) (ls : list text) : list (ast * list text) * option (list text) * list text :=
  match fuel, ls with
  | S f, l :: r =>
      match read_line l with
      | Some (LElif c) =>
          let '(b, r) := body_lines r in
          let '(br, other, r) := read_chain f r in ((c, b) :: br, other, r)
      | Some LElse => let '(b, r) := body_lines r in ([], Some b, r)
      | _ => ([], None, ls)
      end
  | _, _ => ([], None, ls)
  end.
Definition option_all {A B} (f : A -> option B) : list A -> option (list B) :=
  fix all l := match l with
               | [] => Some []
               | a :: r => match f a, all r with Some b, Some bs => Some (b :: bs) | _, _ => None end
               end.
Fixpoint read_block (fuel : nat) (ls : list text) : option (list stmt) :=
  match fuel with
  | O => None
  | S f =>
      match ls with
      | [] => Some []
      | l :: r =>
          match read_line l with
          | Some (LSimple s) => option_map (cons (Simple s)) (read_block f r)
          | Some (LIf c) =>
              let '(b, r) := body_lines r in
              let '(br, other, r) := read_chain f r in
              (* a body has at least one statement *)
              if forallb (fun b => match b with [] => false | _ => true end)
                   (b :: map snd br ++ match other with Some b => [b] | None => [] end) then
                match option_all (fun p => option_map (pair (fst p)) (read_block f (snd p))) ((c, b) :: br),
                      read_block f (match other with Some b => b | None => [] end), read_block f r with
                | Some br, Some other, Some rest => Some (If br other :: rest)
                | _, _, _ => None
                end
              else None
          | _ => None
          end
      end
  end.
(** Blank lines are left out; the lines are indented [depth] times. *)
Definition blank (t : text) : bool := forallb (N.eqb 32) t.
Definition read_text (depth : nat) (ls : list text) : option (list stmt) :=
  let ls := filter (fun l => negb (blank l)) ls in
  if forallb (starts (repeat 32%N (4 * depth))) ls then
    read_block (S (length ls)) (map (skipn (4 * depth)) ls)
  else None.

(** *** running *)
(** An object a variable refers to: the sentinel object(), or a value; a
    defaultdict is a dict with the value its factory makes. *)
Inductive object : Type := Sentinel | Obj (v : val) (missing : option val).
(** variables refer to objects, several may refer to the same *)
Record state : Type := mkState { names : list (text * nat); objects : list object }.

Fixpoint same_text (s t : text) : bool :=
  match s, t with
  | [], [] => true
  | a :: s, b :: t => N.eqb a b && same_text s t
  | _, _ => false
  end.
Fixpoint assoc {B} (l : list (text * B)) (n : text) : option B :=
  match l with [] => None | (m, b) :: r => if same_text n m then Some b else assoc r n end.
Definition obj_at (s : state) (l : nat) : object := nth l (objects s) Sentinel.
Fixpoint set_nth {B} (l : list B) (n : nat) (b : B) : list B :=
  match l, n with
  | _ :: r, O => b :: r
  | x :: r, S n => x :: set_nth r n b
  | [], _ => []
  end.
Definition store (s : state) (l : nat) (o : object) : state := mkState (names s) (set_nth (objects s) l o).
Definition new (s : state) (o : object) : nat * state :=
  (length (objects s), mkState (names s) (objects s ++ [o])).
Definition name_it (s : state) (n : text) (l : nat) : state := mkState ((n, l) :: names s) (objects s).

Fixpoint hash_all (l : list val) : res unit :=
  match l with [] => Ok tt | v :: r => do _ <- need_hash v; hash_all r end.

(** what the text asks for is not covered here *)
Definition unsupported {B} : res B := Err (UserError 404).

Section Run.
  (** names that stand for the code of an expression, with what evaluating it gives *)
  Variable codes : list (text * res val).

  (** [None]: the sentinel *)
  Definition needs {B} (o : option val) (k : val -> res B) : res B :=
    match o with Some v => k v | None => Err TypeError end.
  Definition item_of {B} (o : option val) (k : val -> res B) : res B :=
    match o with Some v => k v | None => unsupported end.
  (** the object a variable refers to, when [a] is a variable *)
  Definition variable (a : ast) (s : state) : option nat :=
    match a with
    | AName n => match assoc codes n with Some _ => None | None => assoc (names s) n end
    | _ => None
    end.
  (** v[k], [v] being the value of [a]: a defaultdict adds the missing key *)
  Definition item (a : ast) (v k : val) (s : state) : res (val * state) :=
    match variable a s with
    | Some l =>
        match obj_at s l, v with
        | Obj _ (Some m), VDict d =>
            do k' <- need_hash k;
            match dfind d k' with
            | Some x => Ok (x, s)
            | None => Ok (m, store s l (Obj (VDict (dput d k' m)) (Some m)))
            end
        | _, _ => do x <- py_getitem v k; Ok (x, s)
        end
    | None => do x <- py_getitem v k; Ok (x, s)
    end.

  (** x is y, one of them None or the sentinel *)
  Definition identical (x y : option val) : res bool :=
    match x, y with
    | None, None => Ok true
    | None, Some _ | Some _, None => Ok false
    | Some v, Some w => if is_none v || is_none w then Ok (is_none v && is_none w) else unsupported
    end.
  Definition compare (o : text) (x y : option val) : res bool :=
    if same_text o (T "is") then identical x y
    else if same_text o (T "is not") then (do b <- identical x y; Ok (negb b))
    else needs x (fun x => needs y (fun y =>
      if same_text o (T "<") then py_lt x y
      else if same_text o (T ">") then py_lt y x
      else if same_text o (T "==") then Ok (py_eq x y)
      else if same_text o (T "in") then py_in x y
      else if same_text o (T "not in") then (do b <- py_in x y; Ok (negb b))
      else unsupported)).

  Fixpoint ev (a : ast) (s : state) {struct a} : res (option val * state) :=
    let evs := fix evs (l : list ast) (s : state) : res (list val * state) :=
      match l with
      | [] => Ok ([], s)
      | a :: r => do p <- ev a s; item_of (fst p) (fun v => do q <- evs r (snd p); Ok (v :: fst q, snd q))
      end in
    let evps := fix evps (l : list (ast * ast)) (s : state) : res (list (val * val) * state) :=
      match l with
      | [] => Ok ([], s)
      | (a, b) :: r =>
          do p <- ev a s; item_of (fst p) (fun k => do p <- ev b (snd p); item_of (fst p) (fun v =>
          do q <- evps r (snd p); Ok ((k, v) :: fst q, snd q)))
      end in
    match a with
    | AName n =>
        match assoc codes n with
        | Some r => do v <- r; Ok (Some v, s)
        | None => match assoc (names s) n with
                  | Some l => Ok (match obj_at s l with Sentinel => None | Obj v _ => Some v end, s)
                  | None => Err NameError
                  end
        end
    | ANum n => Ok (Some (VInt (Z.of_N n)), s)
    | AConst c => if same_text c (T "None") then Ok (Some VNone, s) else unsupported
    | ABin o a b =>
        if same_text o (T "+") then
          do p <- ev a s; do q <- ev b (snd p);
          needs (fst p) (fun x => needs (fst q) (fun y => do z <- py_add x y; Ok (Some z, snd q)))
        else unsupported
    | ACompare a [(o, b)] =>
        do p <- ev a s; do q <- ev b (snd p); do r <- compare o (fst p) (fst q); Ok (Some (VBool r), snd q)
    | ABool isor l =>
        (fix go (l : list ast) (s : state) : res (option val * state) :=
           match l with
           | [] => unsupported
           | a :: r =>
               match r with
               | [] => ev a s
               | _ => do p <- ev a s;
                      if Bool.eqb (match fst p with Some v => truthy v | None => true end) isor then Ok p else go r (snd p)
               end
           end) l s
    | ASub a i =>
        do p <- ev a s; do q <- ev i (snd p);
        needs (fst p) (fun v => needs (fst q) (fun k => do r <- item a v k (snd q); Ok (Some (fst r), snd r)))
    | ATuple l => do p <- evs l s; Ok (Some (VTuple (fst p)), snd p)
    | AList l => do p <- evs l s; Ok (Some (VList (fst p)), snd p)
    | ASet l => do p <- evs l s; do _ <- hash_all (fst p); Ok (Some (VSet (fold_left vadd (fst p) [])), snd p)
    | ADict l =>
        do p <- evps l s; do _ <- hash_all (map fst (fst p));
        Ok (Some (VDict (fold_left (fun d kv => dput d (fst kv) (snd kv)) (fst p) [])), snd p)
    | _ => unsupported
    end.

  (** the object an assignment stores: defaultdict(f), or a value *)
  Definition right_side (e : ast) (s : state) : res (object * state) :=
    match e with
    | ACall (AName f) [AName g] [] =>
        if same_text f (T "defaultdict") then
          if same_text g (T "list") then Ok (Obj (VDict []) (Some (VList [])), s)
          else if same_text g (T "dict") then Ok (Obj (VDict []) (Some (VDict [])), s)
          else if same_text g (T "int") then Ok (Obj (VDict []) (Some (VInt 0)), s)
          else unsupported
        else unsupported
    | _ => do p <- ev e s; Ok (match fst p with Some v => Obj v None | None => Sentinel end, snd p)
    end.
  (** [f] applied to what [a] refers to, in place: a variable, or an item of such *)
  Fixpoint change (a : ast) (f : option val -> state -> res (val * state)) (s : state) : res state :=
    match a with
    | AName n =>
        match variable a s with
        | Some l =>
            match obj_at s l with
            | Sentinel => do p <- f None s; Ok (snd p)
            | Obj v m => do p <- f (Some v) s; Ok (store (snd p) l (Obj (fst p) m))
            end
        | None => unsupported
        end
    | ASub b i =>
        change b (fun v s =>
          do q <- ev i s;
          needs v (fun v => needs (fst q) (fun k =>
          do r <- item b v k (snd q);
          do p <- f (Some (fst r)) (snd r);
          match v with
          | VDict d => Ok (VDict (dput d k (fst p)), snd p)
          | _ => Err TypeError
          end))) s
    | _ => unsupported
    end.
  (** a[i] = x *)
  Definition assign_item (a i : ast) (x : val) (s : state) : res state :=
    change a (fun v s =>
      do q <- ev i s;
      needs (fst q) (fun k =>
      match v with
      | Some (VDict d) => do k' <- need_hash k; Ok (VDict (dput d k' x), snd q)
      | _ => Err TypeError
      end)) s.
  Fixpoint assign (targets : list ast) (l : nat) (s : state) : res state :=
    match targets with
    | [] => Ok s
    | AName n :: r => assign r l (name_it s n l)
    | _ => unsupported
    end.

  (** ... and whether a break was met *)
  Definition on (r : res state) : res (state * bool) := do s <- r; Ok (s, false).
  (** a |= b of ints *)
  Definition bit_or (a b : val) : res val :=
    match a, b with VInt x, VInt y => Ok (VInt (Z.lor x y)) | _, _ => unsupported end.
  Definition run_simple (st : simple_stmt) (s : state) : res (state * bool) :=
    match st with
    | SPass => Ok (s, false)
    | SBreak => Ok (s, true)
    | SAssign [ASub a i] e => on (do p <- ev e s; item_of (fst p) (fun x => assign_item a i x (snd p)))
    | SAssign ts e => on (do p <- right_side e s; let '(l, s) := new (snd p) (fst p) in assign ts l s)
    | SAdd t e =>
        on (change t (fun v s => do q <- ev e s; needs v (fun v => needs (fst q) (fun x =>
          do z <- py_add v x; Ok (z, snd q)))) s)
    | SOr t e =>
        on (change t (fun v s => do q <- ev e s; needs v (fun v => needs (fst q) (fun x =>
          do z <- bit_or v x; Ok (z, snd q)))) s)
    | SExpr (ACall (AAttr a m) [x] []) =>
        on (change a (fun v s =>
          match v with
          | Some (VSet l) =>
              if same_text m (T "add") then
                do q <- ev x s; item_of (fst q) (fun y => do y' <- need_hash y; Ok (VSet (vadd l y'), snd q))
              else Err AttributeError
          | Some (VList l) =>
              if same_text m (T "append") then do q <- ev x s; item_of (fst q) (fun y => Ok (VList (l ++ [y]), snd q))
              else Err AttributeError
          | _ => Err AttributeError
          end) s)
    | SExpr _ => unsupported
    end.
  Fixpoint run_stmt (st : stmt) (s : state) {struct st} : res (state * bool) :=
    let run_all := fix run_all (l : list stmt) (s : state) : res (state * bool) :=
      match l with
      | [] => Ok (s, false)
      | st :: r => do p <- run_stmt st s; if snd p then Ok p else run_all r (fst p)
      end in
    match st with
    | Simple st => run_simple st s
    | If l other =>
        (fix go (l : list (ast * list stmt)) (s : state) : res (state * bool) :=
           match l with
           | [] => run_all other s
           | (c, b) :: r =>
               do p <- ev c s;
               if match fst p with Some v => truthy v | None => true end then run_all b (snd p)
               else go r (snd p)
           end) l s
    end.
  Fixpoint run_stmts (l : list stmt) (s : state) : res (state * bool) :=
    match l with
    | [] => Ok (s, false)
    | st :: r => do p <- run_stmt st s; if snd p then Ok p else run_stmts r (fst p)
    end.
End Run.

(** The lines [ls], indented [depth] times, run when each variable of [vars] refers
    to the object given with it; what the variables refer to afterwards, and
    whether a break was met. *)
Definition start (vars : list (text * object)) : state :=
  mkState (combine (map fst vars) (seq 0 (length vars))) (map snd vars).
Definition run_lines (codes : list (text * res val)) (vars : list (text * object)) (depth : nat) (ls : list text)
    : res (list object * bool) :=
  match read_text depth ls with
  | None => unsupported
  | Some l =>
      do p <- run_stmts codes l (start vars);
      Ok (map (fun x => match assoc (names (fst p)) (fst x) with
                        | Some l => obj_at (fst p) l
                        | None => Sentinel end) vars, snd p)
  end.
