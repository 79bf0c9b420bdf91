(** Objects in memory: what the statements of Spec_Stmt.v do when values are
    references to objects that other references may share (language reference 3.1,
    6.2, 6.3, 7.1, 7.2, 7.2.1, 7.9, 8.1, 8.3).  Independent of the model of
    convtools.

    A list, set, dict or instance is an object with an address; assignments copy
    references; .append, .add, x[i] = v, x.f = v and += on a list change the object in
    place, and reading a missing key of a defaultdict adds it.  Comparisons, truth,
    hashing, + and the expressions of the user are parameters: they look at the
    objects and may make new ones, but change none (the shape of their results says
    so).  Where a statement asks for something not covered the run stops, as with an
    exception. *)
From Coq Require Import String Ascii List NArith ZArith Bool Arith.
From Verif Require Import Model_Code Spec_Syntax Spec_Stmt.
Import ListNotations.

Inductive hval : Type :=
| HNone | HBool (b : bool) | HInt (z : Z) | HStr (t : text)
| HScalar (n : nat)            (* other immutable values: floats, dates, ... *)
| HTup (l : list hval)
| HSent                        (* the object() that marks an accumulator not set yet *)
| HRef (a : nat).              (* a reference to the object at [a] *)
(** default_factory of a defaultdict: list, dict, int, or a class whose instances
    start with these attributes, all of them the sentinel *)
Inductive factory : Type := FList | FDict | FInt | FInst (attributes : list text).
Inductive hobj : Type :=
| OList (l : list hval)
| OSet (l : list hval)
| ODict (d : list (hval * hval)) (f : option factory)
| OInst (attributes : list (text * hval))
| OOther (n : nat).            (* any other object *)
Definition heap : Type := list hobj.
(** new objects and a value; [None]: an exception *)
Definition outcome : Type := option (list hobj * hval).

(** comparisons, truth, hash, addition and subscripts of other objects *)
Record pyops : Type := mkOps {
  op_eq : heap -> hval -> hval -> option bool;
  op_lt : heap -> hval -> hval -> option bool;
  op_true : heap -> hval -> option bool;
  op_hash : heap -> hval -> bool;
  op_add : heap -> hval -> hval -> outcome;
  op_item : heap -> hval -> hval -> outcome }.

(** a computation that may raise, and the objects after it in either case *)
Definition act (A : Type) : Type := option A * heap.
Definition done {A} (a : A) (h : heap) : act A := (Some a, h).
Definition raise {A} (h : heap) : act A := (None, h).
Definition andthen {A B} (m : act A) (k : A -> heap -> act B) : act B :=
  match fst m with Some a => k a (snd m) | None => (None, snd m) end.

Definition env : Type := list (text * hval).

Section Run.
  Variable ops : pyops.
  (** names that stand for the code of an expression of the user *)
  Variable codes : text -> option (heap -> outcome).

  Definition alloc (o : hobj) (h : heap) : act hval := done (HRef (length h)) (h ++ [o]).
  Definition adding (r : outcome) (h : heap) : act hval :=
    match r with Some (new, v) => done v (h ++ new) | None => raise h end.
  Definition made {A} (r : option A) (h : heap) : act A :=
    match r with Some a => done a h | None => raise h end.
  Definition make (f : factory) (h : heap) : act hval :=
    match f with
    | FList => alloc (OList []) h
    | FDict => alloc (ODict [] None) h
    | FInt => done (HInt 0) h
    | FInst l => alloc (OInst (map (fun n => (n, HSent)) l)) h
    end.

  (** *** containers *)
  Fixpoint find_key (h : heap) (d : list (hval * hval)) (k : hval) : option (option hval) :=
    match d with
    | [] => Some None
    | (k', v) :: r => match op_eq ops h k' k with
                      | Some true => Some (Some v)
                      | Some false => find_key h r k
                      | None => None
                      end
    end.
  Fixpoint put_key (h : heap) (d : list (hval * hval)) (k v : hval) : option (list (hval * hval)) :=
    match d with
    | [] => Some [(k, v)]
    | (k', v') :: r => match op_eq ops h k' k with
                       | Some true => Some ((k', v) :: r)
                       | Some false => option_map (cons (k', v')) (put_key h r k v)
                       | None => None
                       end
    end.
  Fixpoint member (h : heap) (l : list hval) (v : hval) : option bool :=
    match l with
    | [] => Some false
    | w :: r => match op_eq ops h w v with
                | Some true => Some true
                | Some false => member h r v
                | None => None
                end
    end.
  (** an index, from the end when negative *)
  Definition position (n : nat) (k : hval) : option nat :=
    match k with
    | HInt z => if (0 <=? z)%Z then Some (Z.to_nat z)
                else if (0 <=? z + Z.of_nat n)%Z then Some (Z.to_nat (z + Z.of_nat n)) else None
    | _ => None
    end.
  (** v[k] *)
  Definition get_item (v k : hval) (h : heap) : act hval :=
    match v with
    | HTup l => match position (length l) k with Some i => made (nth_error l i) h | None => raise h end
    | HStr _ | HScalar _ => adding (op_item ops h v k) h
    | HRef a =>
        match nth_error h a with
        | Some (OList l) => match position (length l) k with Some i => made (nth_error l i) h | None => raise h end
        | Some (ODict d f) =>
            if op_hash ops h k then
              match find_key h d k with
              | Some (Some x) => done x h
              | Some None =>
                  match f with
                  | Some f => andthen (make f h) (fun x h => done x (set_nth h a (ODict (d ++ [(k, x)]) (Some f))))
                  | None => raise h
                  end
              | None => raise h
              end
            else raise h
        | Some (OOther _) => adding (op_item ops h v k) h
        | _ => raise h
        end
    | _ => raise h
    end.
  (** v[k] = x *)
  Definition set_item (v k x : hval) (h : heap) : act unit :=
    match v with
    | HRef a =>
        match nth_error h a with
        | Some (OList l) =>
            match position (length l) k with
            | Some i => if i <? length l then done tt (set_nth h a (OList (set_nth l i x))) else raise h
            | None => raise h
            end
        | Some (ODict d f) =>
            if op_hash ops h k then
              match put_key h d k x with Some d' => done tt (set_nth h a (ODict d' f)) | None => raise h end
            else raise h
        | _ => raise h
        end
    | _ => raise h
    end.
  (** v.n and v.n = x *)
  Definition get_attr (v : hval) (n : text) (h : heap) : act hval :=
    match v with
    | HRef a => match nth_error h a with Some (OInst l) => made (assoc l n) h | _ => raise h end
    | _ => raise h
    end.
  Fixpoint put_attr (l : list (text * hval)) (n : text) (x : hval) : list (text * hval) :=
    match l with [] => [] | (m, y) :: r => if same_text n m then (m, x) :: r else (m, y) :: put_attr r n x end.
  Definition set_attr (v : hval) (n : text) (x : hval) (h : heap) : act unit :=
    match v with
    | HRef a =>
        match nth_error h a with
        | Some (OInst l) => match assoc l n with Some _ => done tt (set_nth h a (OInst (put_attr l n x))) | None => raise h end
        | _ => raise h
        end
    | _ => raise h
    end.
  (** the items of a list or tuple *)
  Definition items_of (v : hval) (h : heap) : option (list hval) :=
    match v with
    | HTup l => Some l
    | HRef a => match nth_error h a with Some (OList l) => Some l | _ => None end
    | _ => None
    end.
  (** v += w and v |= w: a list is extended in place, other values are added *)
  Definition in_place_add (v w : hval) (h : heap) : act hval :=
    match v with
    | HRef a =>
        match nth_error h a with
        | Some (OList l) => match items_of w h with Some l' => done v (set_nth h a (OList (l ++ l'))) | None => raise h end
        | _ => adding (op_add ops h v w) h
        end
    | HSent => raise h
    | _ => adding (op_add ops h v w) h
    end.
  Definition in_place_or (v w : hval) (h : heap) : act hval :=
    match v, w with HInt x, HInt y => done (HInt (Z.lor x y)) h | _, _ => raise h end.
  (** v.m(x) as a statement *)
  Definition call_method (v : hval) (m : text) (x : hval) (h : heap) : act unit :=
    match v with
    | HRef a =>
        match nth_error h a with
        | Some (OList l) =>
            if same_text m (T "append") then done tt (set_nth h a (OList (l ++ [x]))) else raise h
        | Some (OSet l) =>
            if same_text m (T "add") then
              if op_hash ops h x then
                match member h l x with
                | Some true => done tt h
                | Some false => done tt (set_nth h a (OSet (l ++ [x])))
                | None => raise h
                end
              else raise h
            else raise h
        | _ => raise h
        end
    | _ => raise h
    end.

  (** *** comparisons *)
  (** v is w, one of them None or the sentinel *)
  Definition same (v w : hval) : option bool :=
    match v, w with
    | HNone, HNone | HSent, HSent => Some true
    | HNone, _ | _, HNone | HSent, _ | _, HSent => Some false
    | _, _ => None
    end.
  Definition contains (v x : hval) (h : heap) : option bool :=
    match v with
    | HRef a =>
        match nth_error h a with
        | Some (OList l) => member h l x
        | Some (OSet l) => if op_hash ops h x then member h l x else None
        | Some (ODict d _) => if op_hash ops h x then member h (map fst d) x else None
        | _ => None
        end
    | HTup l => member h l x
    | _ => None
    end.
  Definition compare_values (o : text) (x y : hval) (h : heap) : option bool :=
    if same_text o (T "is") then same x y
    else if same_text o (T "is not") then option_map negb (same x y)
    else if same_text o (T "<") then op_lt ops h x y
    else if same_text o (T ">") then op_lt ops h y x
    else if same_text o (T "==") then op_eq ops h x y
    else if same_text o (T "in") then contains y x h
    else if same_text o (T "not in") then option_map negb (contains y x h)
    else None.

  (** *** displays *)
  Fixpoint set_of (h : heap) (l acc : list hval) : option (list hval) :=
    match l with
    | [] => Some acc
    | v :: r => if op_hash ops h v then
                  match member h acc v with
                  | Some true => set_of h r acc
                  | Some false => set_of h r (acc ++ [v])
                  | None => None
                  end
                else None
    end.
  Fixpoint dict_of (h : heap) (l acc : list (hval * hval)) : option (list (hval * hval)) :=
    match l with
    | [] => Some acc
    | (k, v) :: r => if op_hash ops h k then
                       match put_key h acc k v with Some acc => dict_of h r acc | None => None end
                     else None
    end.
  Definition factory_named (g : text) : option factory :=
    if same_text g (T "list") then Some FList
    else if same_text g (T "dict") then Some FDict
    else if same_text g (T "int") then Some FInt
    else None.

  Section Expr.
    Variable e : env.
    Fixpoint eval (a : ast) (h : heap) {struct a} : act hval :=
      let evals := fix evals (l : list ast) (h : heap) : act (list hval) :=
        match l with
        | [] => done [] h
        | a :: r => andthen (eval a h) (fun v h => andthen (evals r h) (fun vs h => done (v :: vs) h))
        end in
      let evalps := fix evalps (l : list (ast * ast)) (h : heap) : act (list (hval * hval)) :=
        match l with
        | [] => done [] h
        | (a, b) :: r =>
            andthen (eval a h) (fun k h => andthen (eval b h) (fun v h =>
            andthen (evalps r h) (fun vs h => done ((k, v) :: vs) h)))
        end in
      match a with
      | AName n =>
          match codes n with
          | Some c => adding (c h) h
          | None => made (assoc e n) h
          end
      | ANum n => done (HInt (Z.of_N n)) h
      | AConst c => if same_text c (T "None") then done HNone h else raise h
      | ABin o a b =>
          if same_text o (T "+") then
            andthen (eval a h) (fun v h => andthen (eval b h) (fun w h => adding (op_add ops h v w) h))
          else raise h
      | ACompare a [(o, b)] =>
          andthen (eval a h) (fun v h => andthen (eval b h) (fun w h =>
          made (option_map HBool (compare_values o v w h)) h))
      | ABool isor l =>
          (fix go (l : list ast) (h : heap) : act hval :=
             match l with
             | [] => raise h
             | [a] => eval a h
             | a :: r => andthen (eval a h) (fun v h =>
                 match op_true ops h v with
                 | Some t => if Bool.eqb t isor then done v h else go r h
                 | None => raise h
                 end)
             end) l h
      | ASub a i => andthen (eval a h) (fun v h => andthen (eval i h) (fun k h => get_item v k h))
      | AAttr a n => andthen (eval a h) (fun v h => get_attr v n h)
      | ATuple l => andthen (evals l h) (fun vs h => done (HTup vs) h)
      | AList l => andthen (evals l h) (fun vs h => alloc (OList vs) h)
      | ASet l => andthen (evals l h) (fun vs h =>
          match set_of h vs [] with Some s => alloc (OSet s) h | None => raise h end)
      | ADict l => andthen (evalps l h) (fun vs h =>
          match dict_of h vs [] with Some d => alloc (ODict d None) h | None => raise h end)
      | ACall (AName f) [AName g] [] =>
          if same_text f (T "defaultdict") then
            match factory_named g with Some c => alloc (ODict [] (Some c)) h | None => raise h end
          else raise h
      | _ => raise h
      end.
  End Expr.

  (** *** statements *)
  (** target = v *)
  Definition assign_to (t : ast) (v : hval) (e : env) (h : heap) : act env :=
    match t with
    | AName n => done ((n, v) :: e) h
    | ASub a i =>
        andthen (eval e a h) (fun w h => andthen (eval e i h) (fun k h =>
        andthen (set_item w k v h) (fun _ h => done e h)))
    | AAttr a n =>
        andthen (eval e a h) (fun w h => andthen (set_attr w n v h) (fun _ h => done e h))
    | _ => raise h
    end.
  Fixpoint assign_all (ts : list ast) (v : hval) (e : env) (h : heap) : act env :=
    match ts with
    | [] => done e h
    | t :: r => andthen (assign_to t v e h) (fun e h => assign_all r v e h)
    end.
  (** target f= e: the target is evaluated once *)
  Definition augment (f : hval -> hval -> heap -> act hval) (t x : ast) (e : env) (h : heap) : act env :=
    match t with
    | AName n =>
        andthen (eval e t h) (fun v h => andthen (eval e x h) (fun w h =>
        andthen (f v w h) (fun u h => done ((n, u) :: e) h)))
    | ASub a i =>
        andthen (eval e a h) (fun c h => andthen (eval e i h) (fun k h =>
        andthen (get_item c k h) (fun v h => andthen (eval e x h) (fun w h =>
        andthen (f v w h) (fun u h => andthen (set_item c k u h) (fun _ h => done e h))))))
    | AAttr a n =>
        andthen (eval e a h) (fun c h =>
        andthen (get_attr c n h) (fun v h => andthen (eval e x h) (fun w h =>
        andthen (f v w h) (fun u h => andthen (set_attr c n u h) (fun _ h => done e h)))))
    | _ => raise h
    end.
  (** ... and whether a break was met *)
  Definition on (m : act env) : act (env * bool) := andthen m (fun e h => done (e, false) h).
  Definition exec_simple (s : simple_stmt) (e : env) (h : heap) : act (env * bool) :=
    match s with
    | SPass => done (e, false) h
    | SBreak => done (e, true) h
    | SAssign ts x => on (andthen (eval e x h) (fun v h => assign_all ts v e h))
    | SAdd t x => on (augment in_place_add t x e h)
    | SOr t x => on (augment in_place_or t x e h)
    | SExpr (ACall (AAttr a m) [x] []) =>
        on (andthen (eval e a h) (fun v h => andthen (eval e x h) (fun w h =>
            andthen (call_method v m w h) (fun _ h => done e h))))
    | SExpr _ => raise h
    end.
  Fixpoint exec (s : stmt) (e : env) (h : heap) {struct s} : act (env * bool) :=
    let execs := fix execs (l : list stmt) (e : env) (h : heap) : act (env * bool) :=
      match l with
      | [] => done (e, false) h
      | s :: r => andthen (exec s e h) (fun p h => if (snd p : bool) then done p h else execs r (fst p) h)
      end in
    match s with
    | Simple s => exec_simple s e h
    | If l other =>
        (fix go (l : list (ast * list stmt)) (h : heap) : act (env * bool) :=
           match l with
           | [] => execs other e h
           | (c, b) :: r =>
               andthen (eval e c h) (fun v h =>
               match op_true ops h v with
               | Some true => execs b e h
               | Some false => go r h
               | None => raise h
               end)
           end) l h
    end.
  Fixpoint exec_all (l : list stmt) (e : env) (h : heap) : act (env * bool) :=
    match l with
    | [] => done (e, false) h
    | s :: r => andthen (exec s e h) (fun p h => if (snd p : bool) then done p h else exec_all r (fst p) h)
    end.
End Run.

(** for row in rows: body -- a row is what the codes of the user give for it; with
    the rows left after a break *)
Definition row : Type := text -> option (heap -> outcome).
Fixpoint exec_rows (ops : pyops) (body : list stmt) (rows : list row) (e : env) (h : heap) : act (env * list row) :=
  match rows with
  | [] => done (e, []) h
  | r :: rs =>
      andthen (exec_all ops r body e h) (fun p h =>
      if (snd p : bool) then done (fst p, rs) h else exec_rows ops body rs (fst p) h)
  end.
(** it_ = iter(rows); for row in it_: body; for row in it_: body2 *)
Definition exec_two_loops (ops : pyops) (body body2 : list stmt) (rows : list row) (e : env) (h : heap) : act env :=
  andthen (exec_rows ops body rows e h) (fun p h =>
  andthen (exec_rows ops body2 (snd p) (fst p) h) (fun p h => done (fst p) h)).
(** values that are no containers and no references *)
Definition scalar (v : hval) : Prop :=
  match v with HTup _ | HRef _ => False | _ => True end.
(** the objects [before] are all there, unchanged; there may be others *)
Definition unchanged (before after : heap) : Prop := exists new, after = before ++ new.
