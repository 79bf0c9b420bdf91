(** What an expression template means: an expression with holes, and expressions
    put into the holes.  Independent of str.format and of the parentheses that
    InlineExpr writes. *)
From Coq Require Import String Ascii List NArith Bool Arith.
From Verif Require Import Model_Code Spec_Syntax.
Import ListNotations.

(** *** templates *)
(** A hole is for the positional argument with this number, or for the keyword
    argument with this name. *)
Inductive slot : Type := Pos (i : nat) | Key (k : text).
Inductive piece : Type := Raw (t : text) | Hole (s : slot).
(** the text of a template with [f s] written into the hole [s] *)
Definition fill (f : slot -> text) (ps : list piece) : text :=
  flat_map (fun p => match p with Raw t => t | Hole s => f s end) ps.

(** How the user writes a template: braces of the text are doubled; a hole is {i} or
    {k}; or, when the positional holes are in order, {} and {k}. *)
Definition brace (c : N) : bool := (N.eqb c 123 || N.eqb c 125)%bool.
Definition doubled (t : text) : text := flat_map (fun c => if brace c then [c; c] else [c]) t.
Definition written (numbered : bool) (ps : list piece) : text :=
  flat_map (fun p => match p with
    | Raw t => doubled t
    | Hole (Pos i) => T "{" ++ (if numbered then ndec (N.of_nat i) else []) ++ T "}"
    | Hole (Key k) => T "{" ++ k ++ T "}"
    end) ps.
Fixpoint in_order (n : nat) (ps : list piece) : bool :=
  match ps with
  | [] => true
  | Hole (Pos i) :: r => Nat.eqb i n && in_order (S n) r
  | _ :: r => in_order n r
  end.
Definition well_written (numbered : bool) (ps : list piece) : bool :=
  (numbered || in_order 0 ps) &&
  forallb (fun p => match p with Hole (Key k) => ident k | _ => true end) ps.

(** *** holes stand apart from their neighbours *)
(** the last character before a hole is not part of a name, a number or a string, and is not a dot *)
Definition may_precede (c : N) : bool := negb (is_ident c || is_quote c || N.eqb c 46).
(** the first character after it neither; a dot only after an argument that is not an int *)
Definition may_follow (int : bool) (c : N) : bool := negb (is_ident c || is_quote c || int && N.eqb c 46).
Section Apart.
  Variable int : slot -> bool.
  Fixpoint last_char (t : text) : option N :=
    match t with [] => None | [c] => Some c | _ :: r => last_char r end.
  (** [prev]: the last character of the text just before, if there is one; [after_hole]:
      the hole just before, if there is one.  There is text between any two holes, and
      neighbouring texts are written as one. *)
  Fixpoint apart (prev : option N) (after_hole : option slot) (ps : list piece) : bool :=
    match ps with
    | [] => true
    | Raw [] :: r => apart prev after_hole r
    | Raw (c :: t) :: r =>
        match prev with Some _ => false | None => true end &&
        match after_hole with Some s => may_follow (int s) c | None => true end &&
        apart (last_char (c :: t)) None r
    | Hole s :: r =>
        match after_hole with Some _ => false | None => true end &&
        match prev with Some c => may_precede c | None => true end &&
        apart None (Some s) r
    end.
End Apart.
(** The text between the holes consists of whole tokens (so no hole is inside a string),
    and none of them is a name that [clear] rejects. *)
Definition raw_ok (clear : text -> bool) (ps : list piece) : bool :=
  forallb (fun p => match p with
    | Raw t => match tokenize t with
               | Some ts => forallb (fun tk => match tk with TName x => clear x | _ => true end) ts
               | None => false
               end
    | Hole _ => true
    end) ps.

(** *** expressions with variables for the holes *)
Section Plug.
  (** the variables that stand for the holes, and what is put into each *)
  Variable arg : text -> option ast.
  (** put the arguments in place of their variables, all at once *)
  Fixpoint plug (a : ast) : ast :=
    match a with
    | AName x => match arg x with Some b => b | None => AName x end
    | ANum n => ANum n | AStr s => AStr s | AConst x => AConst x
    | AUnary o a => AUnary o (plug a)
    | ABin o a b => ABin o (plug a) (plug b)
    | ACompare a l => ACompare (plug a) (map (fun p => (fst p, plug (snd p))) l)
    | ANot a => ANot (plug a)
    | ABool o l => ABool o (map plug l)
    | AIf c t f => AIf (plug c) (plug t) (plug f)
    | ASub a i => ASub (plug a) (plug i)
    | AAttr a n => AAttr (plug a) n
    | ACall f l ks => ACall (plug f) (map plug l) (map (fun p => (fst p, plug (snd p))) ks)
    | ATuple l => ATuple (map plug l) | AList l => AList (map plug l) | ASet l => ASet (map plug l)
    | ADict l => ADict (map (fun p => (plug (fst p), plug (snd p))) l)
    | AComp k es x it c => AComp k (map plug es) x (plug it) (option_map plug c)
    | AComp2 e x it y it2 c => AComp2 (plug e) x (plug it) y (plug it2) (option_map plug c)
    end.

  Variable int : text -> bool.        (* ... of a hole for an int constant? *)
  Variable clear : text -> bool.      (* no variable of a hole occurs in this name *)
  (** The variables are used as variables only: not as names of attributes, keyword
      arguments or loop variables.  An int constant is not the object of an attribute, an
      item or a call, and not the base of a power. *)
  Definition int_var (a : ast) : bool := match a with AName x => int x | _ => false end.
  Fixpoint holes_ok (a : ast) : bool :=
    match a with
    | AName _ | ANum _ | AStr _ | AConst _ => true
    | AUnary _ a | ANot a => holes_ok a
    | ABin o a b => negb (teqb o (T "**") && int_var a) && holes_ok a && holes_ok b
    | ACompare a l => holes_ok a && forallb (fun p => holes_ok (snd p)) l
    | ABool _ l | ATuple l | AList l | ASet l => forallb holes_ok l
    | AIf c t f => holes_ok c && holes_ok t && holes_ok f
    | ASub a i => negb (int_var a) && holes_ok a && holes_ok i
    | AAttr a n => negb (int_var a) && clear n && holes_ok a
    | ACall f l ks => negb (int_var f) && holes_ok f && forallb holes_ok l &&
                      forallb (fun p => clear (fst p) && holes_ok (snd p)) ks
    | ADict l => forallb (fun p => holes_ok (fst p) && holes_ok (snd p)) l
    | AComp _ es x it c => clear x && forallb holes_ok es && holes_ok it &&
                           match c with Some c => holes_ok c | None => true end
    | AComp2 e x it y it2 c => clear x && clear y && holes_ok e && holes_ok it && holes_ok it2 &&
                               match c with Some c => holes_ok c | None => true end
    end.
End Plug.

(** *** what an inline expression with arguments stands for *)
(** an int constant, or one with a sign *)
Definition number_tree (a : ast) : bool := match a with ANum _ | AUnary _ (ANum _) => true | _ => false end.
(** the holes of a template *)
Definition holes (ps : list piece) : list slot :=
  flat_map (fun p => match p with Raw _ => [] | Hole s => [s] end) ps.
(** [v] is not part of [x] *)
Definition not_in (v x : text) : bool := negb (contains v x).
Fixpoint lookup {A} (k : text) (l : list (text * A)) : option A :=
  match l with [] => None | (k', a) :: r => if teqb k k' then Some a else lookup k r end.
Definition argument {A} (args : list A) (kws : list (text * A)) (s : slot) : option A :=
  match s with Pos i => nth_error args i | Key k => lookup k kws end.
(** The body of the template, written with one variable per hole: [name s] is an
    identifier, different for different holes, that is not part of any name in the
    template.  [int s]: the argument of [s] is an int constant. *)
Definition names_holes (name : slot -> text) (ps : list piece) : Prop :=
  (forall s, In s (holes ps) -> ident (name s) = true) /\
  (forall s s', In s (holes ps) -> In s' (holes ps) -> name s = name s' -> s = s').
(** the hole that a variable stands for *)
Definition slot_of (name : slot -> text) (ps : list piece) (v : text) : option slot :=
  find (fun s => teqb (name s) v) (holes ps).
Definition clear_of (name : slot -> text) (ps : list piece) (x : text) : bool :=
  forallb (fun s => not_in (name s) x) (holes ps).
(** [reads_template name int ps body]: with the variables in the holes, the template is
    the expression [body]; the holes stand apart and are places for expressions. *)
Definition reads_template (name : slot -> text) (int : slot -> bool) (ps : list piece) (body : ast) : Prop :=
  names_holes name ps /\
  reads (fill name ps) body /\
  raw_ok (clear_of name ps) ps = true /\
  apart int None None ps = true /\
  holes_ok (fun v => match slot_of name ps v with Some s => int s | None => false end) (clear_of name ps) body = true.
(** [body] with the arguments in the holes *)
Definition instance (name : slot -> text) (ps : list piece) (args : list ast) (kws : list (text * ast)) (body : ast) : ast :=
  plug (fun v => match slot_of name ps v with Some s => argument args kws s | None => None end) body.
