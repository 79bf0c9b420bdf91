(** What Python makes of the source text of a few functions: reading it (lines,
    indentation, statements; the expressions are read by Spec_Syntax.v), and
    calling the functions defined by it.  Independent of the model of convtools'
    code generator: it uses neither its syntax of expressions nor its evaluator,
    only the primitive operations on values (Model_Eval.prims).

    Both accept less than Python does.  Where they give a result, it is Python's,
    provided that generator expressions and generators are consumed at once (they
    are only accepted as the argument of tuple, list, set, dict and sorted). *)
From Coq Require Import String Ascii List NArith ZArith Bool Arith.
From Verif Require Import Model_Code Model_Eval Spec_Syntax.
Import ListNotations.

(** *** statements *)
Inductive stmt : Type :=
| SAssign (x : text) (a : ast)              (* x = a *)
| SSetItem (o i a : ast)                    (* o[i] = a *)
| SExpr (a : ast)
| SReturn (a : ast)
| SYield (a : ast)
| SIf (c : ast) (b : list stmt)             (* if c: b *)
| STry (b h : list stmt)                    (* try: b except (TypeError, KeyError, ...): h *)
| SGlobal (l : list text).                  (* global x, y *)

(** a function: parameters, keyword-only parameters, body *)
Record func : Type := { f_params : list text; f_kwonly : list text; f_body : list stmt }.

(** *** lines *)
Fixpoint lines (t : text) : list text :=
  match t with
  | [] => [[]]
  | c :: r => if N.eqb c 10 then [] :: lines r
              else match lines r with l :: ls => (c :: l) :: ls | [] => [[c]] end
  end.
Definition blank (l : text) : bool := forallb (N.eqb 32) l.
(** a line indented by [k] steps of four spaces, not by more *)
Definition indented (k : nat) (l t : text) : Prop :=
  l = repeat 32%N (4 * k) ++ t /\ match t with c :: _ => c <> 32%N | [] => False end.

(** the lines of a block, all indented by [k] steps or more *)
Inductive block : nat -> list text -> list stmt -> Prop :=
| b_end k : block k [] []
| b_blank k l ls b : blank l = true -> block k ls b -> block k (l :: ls) b
| b_simple k l t ls s b : indented k l t -> simple_stmt t s -> block k ls b -> block k (l :: ls) (s :: b)
| b_if k l t e c l1 b1 ls b :
    indented k l t -> t = T "if " ++ e ++ T ":" -> reads e c ->
    block (S k) l1 b1 -> b1 <> [] -> block k ls b -> block k (l :: l1 ++ ls) (SIf c b1 :: b)
| b_try k l l1 b1 l' l2 b2 ls b :
    indented k l (T "try:") -> block (S k) l1 b1 -> b1 <> [] ->
    indented k l' (T "except (TypeError, KeyError, IndexError, AttributeError):") ->
    block (S k) l2 b2 -> b2 <> [] -> block k ls b ->
    block k (l :: l1 ++ l' :: l2 ++ ls) (STry b1 b2 :: b)
with simple_stmt : text -> stmt -> Prop :=
| s_global l : Forall (fun x => ident x = true) l -> l <> [] ->
    simple_stmt (T "global " ++ intersperse (T ", ") l) (SGlobal l)
| s_return e a : reads e a -> simple_stmt (T "return " ++ e) (SReturn a)
| s_yield e a : reads e a -> simple_stmt (T "yield " ++ e) (SYield a)
| s_assign x e a : ident x = true -> reads e a -> simple_stmt (x ++ T " = " ++ e) (SAssign x a)
| s_setitem t o i e a : reads t (ASub o i) -> reads e a -> simple_stmt (t ++ T " = " ++ e) (SSetItem o i a)
| s_expr e a : reads e a -> simple_stmt e (SExpr a).

(** A text that defines one function: blank lines, the def line, the body. *)
Definition reads_function (t : text) (f : text) (fd : func) : Prop :=
  exists skipped body,
    lines t = skipped ++ (T "def " ++ f ++ T "(" ++
       intersperse (T ", ") (f_params fd ++ match f_kwonly fd with [] => [] | k => T "*" :: k end) ++ T "):")
       :: body /\
    forallb blank skipped = true /\
    ident f = true /\ Forall (fun x => ident x = true) (f_params fd ++ f_kwonly fd) /\
    NoDup (f_params fd ++ f_kwonly fd) /\
    block 1 body (f_body fd) /\ f_body fd <> [].

(** *** meaning *)
(** names a body assigns: they are local to the function *)
Definition assigned (b : list stmt) : list text :=
  flat_map (fun s => match s with SAssign x _ => [x] | _ => [] end) b.
Definition locals (fd : func) : list text := f_params fd ++ f_kwonly fd ++ assigned (f_body fd).
(** a function with a yield is a generator function *)
Definition yields (s : stmt) : bool :=
  match s with
  | SYield _ => true
  | SIf _ b => existsb (fun s => match s with SYield _ => true | _ => false end) b
  | _ => false
  end.
Definition is_generator (fd : func) : bool := existsb yields (f_body fd).
Definition mem (x : text) (l : list text) : bool := existsb (teqb x) l.

(** functions defined so far; the latest definition of a name comes first *)
Definition table := list (text * func).
Fixpoint find_def (d : table) (f : text) : option func :=
  match d with
  | [] => None
  | (g, fd) :: r => if teqb f g then Some fd else find_def r f
  end.

Fixpoint all {B} (l : list (option B)) : option (list B) :=
  match l with
  | [] => Some []
  | o :: r => match o, all r with Some b, Some bs => Some (b :: bs) | _, _ => None end
  end.
(** list(..), tuple(..), set(..), dict(..) of a generator *)
Definition collector (x : text) : option ckind :=
  if teqb x (T "list") then Some KList else if teqb x (T "tuple") then Some KTuple
  else if teqb x (T "set") then Some KSet else if teqb x (T "dict") then Some KDict else None.

Section Meaning.
  Context {V W X : Type}.
  Variable pr : prims V W X.
  Notation M := (@M V W X).
  Notation env := (list (text * V)).
  Variable glob : text -> option V.       (* module globals and builtins *)
  Variable key : text -> lname.           (* labels_ is indexed by strings *)
  Variable defs : table.

  Notation code := (env -> M V) (only parsing).
  Definition constant (x : text) : option V :=
    if teqb x (T "None") then Some (litv pr LNone)
    else if teqb x (T "True") then Some (litv pr (LBool true))
    else if teqb x (T "False") then Some (litv pr (LBool false)) else None.
  Definition op1 (o : opn) (l : list (env -> M V)) : env -> M V :=
    fun E => bind (mapM (fun m => m E) l) (fun vs => prim (op pr o vs)).
  (** a < b == c: left to right, stopping at the first falsy comparison *)
  Fixpoint chain (v : V) (l : list (text * (env -> M V))) (E : env) : M V :=
    match l with
    | [] => ret v
    | (o, m) :: r =>
        bind (m E) (fun w => bind (prim (op pr (OBin o) [v; w])) (fun c =>
        match r with
        | [] => ret c
        | _ => bind (prim (truth pr c)) (fun b => if b then chain w r E else ret c)
        end))
    end.
  (** a and b and c, a or b or c *)
  Fixpoint junction (isor : bool) (m : env -> M V) (l : list (env -> M V)) (E : env) : M V :=
    match l with
    | [] => m E
    | m' :: r => bind (m E) (fun v => bind (prim (truth pr v)) (fun b =>
                   if Bool.eqb b isor then ret v else junction isor m' r E))
    end.
  (** x for x in .. if ..: what is added to a collection of kind [k] per item *)
  Definition each (k : ckind) (elts : list (env -> M V)) (x : text) (cond : option (env -> M V)) (E : env)
    : V -> V -> M V :=
    fun item acc =>
      let E' := (x, item) :: E in
      let add := bind (mapM (fun m => m E') elts) (fun vs => prim (push pr k acc vs)) in
      match cond with
      | None => add
      | Some c => bind (c E') (fun v => bind (prim (truth pr v)) (fun b => if b then add else ret acc))
      end.
  Definition collect (k : ckind) (i : iterator V W X) (body : V -> V -> M V) : M V :=
    bind (prim1 (start pr k)) (fun acc => bind (iterate body i acc) (fun acc => prim1 (finish pr k acc))).

  (** the statements of an ordinary function, [c]: the meaning of expressions *)
  Fixpoint exec (c : ast -> option (env -> M V)) (b : list stmt) : option (env -> M V) :=
    match b with
    | [] => Some (fun _ => ret (litv pr LNone))
    | SReturn a :: _ => c a
    | SGlobal _ :: r => exec c r
    | SAssign x a :: r =>
        match c a, exec c r with
        | Some m, Some k => Some (fun E => bind (m E) (fun v => k ((x, v) :: E)))
        | _, _ => None
        end
    | SSetItem o i a :: r =>
        match c o, c i, c a, exec c r with
        | Some mo, Some mi, Some ma, Some k =>
            Some (fun E => bind (ma E) (fun v => bind (mo E) (fun o => bind (mi E) (fun i =>
                    bind (prim (mut pr MSetItem [o; i; v])) (fun _ => k E)))))
        | _, _, _, _ => None
        end
    | SExpr a :: r =>
        match c a, exec c r with
        | Some m, Some k => Some (fun E => bind (m E) (fun _ => k E))
        | _, _ => None
        end
    | [STry [SReturn a] [SReturn h]] =>
        match c a, c h with
        | Some m, Some k => Some (fun E s => match m E s with
                                             | (s', Exc x) => if caught pr x then k E s' else (s', Exc x)
                                             | r => r
                                             end)
        | _, _ => None
        end
    | _ => None
    end.
  (** the statements of a generator function consumed by a collection of kind [k] *)
  Fixpoint produce (c : ast -> option (env -> M V)) (k : ckind) (b : list stmt) : option (env -> V -> M V) :=
    let yield a r :=
      match c a, r with
      | Some m, Some n => Some (fun (E : env) acc => bind (m E) (fun v => bind (prim (push pr k acc [v])) (n E)))
      | _, _ => None
      end in
    match b with
    | [] => Some (fun _ acc => ret acc)
    | SYield a :: r => yield a (produce c k r)
    | SIf e [SYield a] :: r =>
        match c e, produce c k r with
        | Some t, Some n =>
            match yield a (Some n) with
            | Some y => Some (fun E acc => bind (t E) (fun v => bind (prim (truth pr v)) (fun b =>
                                if b then y E acc else n E acc)))
            | None => None
            end
        | _, _ => None
        end
    | _ => None
    end.

  (** The meaning of an expression; [sc]: the local variables in whose scope it
      stands; [n]: how deeply expressions and calls may nest (no result beyond). *)
  Fixpoint comp (n : nat) (sc : list text) (a : ast) {struct n} : option (env -> M V) :=
    match n with
    | O => None
    | S n =>
        let c := comp n sc in
        let cs l := all (map c l) in
        let o1 o l := match cs l with Some ms => Some (op1 o ms) | None => None end in
        (* any call f(args, k=v) *)
        let call f args kws := o1 (OCall (length args) (map fst kws)) (f :: args ++ map snd kws) in
        let opt (o : option ast) : option (option (env -> M V)) :=
          match o with None => Some None | Some a => match comp n sc a with Some m => Some (Some m) | None => None end end in
        match a with
        | AName x =>
            if mem x sc
            then Some (fun E => match lookup E x with Some v => ret v | None => raise (name_error pr x) end)
            else match find_def defs x with
                 | Some _ => None
                 | None => if teqb x (T "add_label_") || teqb x (T "get_by_label_") then None
                           else Some (fun _ => match glob x with Some v => ret v | None => raise (name_error pr x) end)
                 end
        | ANum z => Some (fun _ => ret (litv pr (LInt (Z.of_N z))))
        | AStr s => Some (fun _ => ret (litv pr (LStr s)))
        | AConst x => match constant x with Some v => Some (fun _ => ret v) | None => None end
        | AUnary o a => if teqb o (T "-") then o1 ONeg [a] else None
        | ABin o a b => o1 (OBin o) [a; b]
        | ANot a => o1 ONot [a]
        | ACompare a l =>
            match c a, cs (map snd l) with
            | Some m, Some ms => Some (fun E => bind (m E) (fun v => chain v (combine (map fst l) ms) E))
            | _, _ => None
            end
        | ABool isor l =>
            match cs l with Some (m :: ms) => Some (junction isor m ms) | _ => None end
        | AIf e t f =>
            match c e, c t, c f with
            | Some me, Some mt, Some mf =>
                Some (fun E => bind (me E) (fun v => bind (prim (truth pr v)) (fun b => if b then mt E else mf E)))
            | _, _, _ => None
            end
        | ASub a i => o1 OItem [a; i]
        | AAttr a x => o1 (OAttr x) [a]
        | ATuple l => o1 OTuple l
        | AList l => o1 OList l
        | ASet l => o1 OSet l
        | ADict l => o1 ODict (flat_map (fun p => [fst p; snd p]) l)
        | AComp k elts x it cond =>
            match k with
            | GGen => None
            | _ =>
                let kk := match k with GSet => KSet | GDict => KDict | _ => KList end in
                let c' := comp n (x :: sc) in
                match c it, all (map c' elts),
                      match cond with None => Some None | Some e => option_map Some (c' e) end with
                | Some mi, Some ms, Some mc =>
                    Some (fun E => bind (mi E) (fun v => bind (prim (iter pr v)) (fun i =>
                            collect kk i (each kk ms x mc E))))
                | _, _, _ => None
                end
            end
        | AComp2 _ _ _ _ _ _ => None
        | ACall f args kws =>
            match f with
            | AName x =>
                if mem x sc then call f args kws
                else
                match find_def defs x with
                | Some fd =>                                     (* a function of the module *)
                    if is_generator fd || negb (Nat.eqb (length args) (length (f_params fd)))
                       || negb (match kws, f_kwonly fd with [], [] => true | _, _ => false end) then None
                    else match cs args, exec (comp n (locals fd)) (f_body fd) with
                         | Some ms, Some body =>
                             Some (fun E => bind (mapM (fun m => m E) ms) (fun vs => body (combine (f_params fd) vs)))
                         | _, _ => None
                         end
                | None =>
                    if teqb x (T "add_label_") then
                      match args, kws with
                      | [AStr s; e], [] =>
                          match c e with
                          | Some m => Some (fun E => bind (m E) (fun v => bind (set_label (key s) v) (fun _ => ret (litv pr LNone))))
                          | None => None
                          end
                      | _, _ => None
                      end
                    else if teqb x (T "get_by_label_") then
                      match args, kws with
                      | [AStr s], [] => Some (fun _ => get_label pr (key s))
                      | _, _ => None
                      end
                    else
                    match args, kws with
                    | [AComp GGen elts y it cond], [] =>          (* tuple(e for y in it) *)
                        let c' := comp n (y :: sc) in
                        match collector x, c it, all (map c' elts),
                              match cond with None => Some None | Some e => option_map Some (c' e) end with
                        | Some kk, Some mi, Some ms, Some mc =>
                            Some (fun E => bind (mi E) (fun v => bind (prim (iter pr v)) (fun i =>
                                    collect kk i (each kk ms y mc E))))
                        | _, _, _, _ => None
                        end
                    | [AComp GGen elts y it cond], [(k1, e1); (k2, e2)] =>  (* sorted((e for y in it), key=.., reverse=..) *)
                        let c' := comp n (y :: sc) in
                        if negb (teqb x (T "sorted")) then None else
                        match glob x, c e1, c e2, c it, all (map c' elts),
                              match cond with None => Some None | Some e => option_map Some (c' e) end with
                        | Some fv, Some m1, Some m2, Some mi, Some ms, Some mc =>
                            (* the source is evaluated and iter() called when the generator is made,
                               its items are produced inside sorted *)
                            Some (fun E => bind (mi E) (fun v => bind (prim (iter pr v)) (fun i =>
                                    bind (m1 E) (fun v1 => bind (m2 E) (fun v2 =>
                                    bind (collect KSrc i (each KSrc ms y mc E)) (fun l =>
                                    prim (op pr (OCall 1 [k1; k2]) [fv; l; v1; v2])))))))
                        | _, _, _, _, _, _ => None
                        end
                    | [ACall (AName g) gargs []], [] =>            (* list(generator(args)) *)
                        match (if mem g sc then None else find_def defs g) with
                        | Some fd =>
                            if is_generator fd then
                              if negb (Nat.eqb (length gargs) (length (f_params fd)))
                                 || negb (match f_kwonly fd with [] => true | _ => false end) then None
                              else
                              match collector x, cs gargs with
                              | Some kk, Some ms =>
                                  match produce (comp n (locals fd)) kk (f_body fd) with
                                  | Some body =>
                                      Some (fun E => bind (mapM (fun m => m E) ms) (fun vs =>
                                              bind (prim1 (start pr kk)) (fun acc =>
                                              bind (body (combine (f_params fd) vs) acc) (fun acc =>
                                              prim1 (finish pr kk acc)))))
                                  | None => None
                                  end
                              | _, _ => None
                              end
                            else call f args kws
                        | None => call f args kws
                        end
                    | _, _ => call f args kws
                    end
                end
            | _ => call f args kws
            end
        end
    end.

  (** calling a function: f(vs, k=v ...); every parameter gets exactly one value *)
  Definition call_function (n : nat) (fd : func) (vs : list V) (kws : list (text * V)) : option (M V) :=
    if Nat.eqb (length vs) (length (f_params fd)) && negb (is_generator fd) &&
       forallb (fun k => mem k (map fst kws)) (f_kwonly fd) &&
       forallb (fun k => mem (fst k) (f_kwonly fd)) kws
    then match exec (comp n (locals fd)) (f_body fd) with
         | Some body => Some (body (combine (f_params fd) vs ++ kws))
         | None => None
         end
    else None.
End Meaning.

(** The texts [ts], executed one after the other, leave these functions behind. *)
Inductive defines : list text -> table -> Prop :=
| d_none : defines [] []
| d_more ts t d f fd : defines ts d -> reads_function t f fd -> defines (ts ++ [t]) ((f, fd) :: d).
