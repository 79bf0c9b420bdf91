(** What Python makes of the source text of a function with loops: reading it.
    Lines and indentation as in Spec_Source.v, expressions by Spec_Syntax.v, the
    statements of a loop body are those of Spec_Stmt.v.  Independent of the model of
    convtools.

    Accepts less than Python does: what it accepts, Python reads in the same way.
    Blocks are indented by four spaces. *)
From Coq Require Import String Ascii List NArith ZArith Bool Arith.
From Verif Require Import Model_Code Spec_Syntax Spec_Stmt.
From Verif Require Spec_Source.
Import ListNotations.
Notation lines := Spec_Source.lines.
Notation indented := Spec_Source.indented.

(** what can stand to the left of an assignment sign *)
Definition is_target (a : ast) : Prop :=
  match a with AName _ | ASub _ _ | AAttr _ _ => True | _ => False end.
(** t1 = t2 = *)
Definition targets_text (ts : list text) : text := flat_map (fun t => t ++ T " = ") ts.

Inductive simple_line : text -> simple_stmt -> Prop :=
| l_pass : simple_line (T "pass") SPass
| l_break : simple_line (T "break") SBreak
| l_assign ts tas e a :
    Forall2 reads ts tas -> Forall is_target tas -> ts <> [] -> reads e a ->
    simple_line (targets_text ts ++ e) (SAssign tas a)
| l_add t ta e a : reads t ta -> is_target ta -> reads e a -> simple_line (t ++ T " += " ++ e) (SAdd ta a)
| l_or t ta e a : reads t ta -> is_target ta -> reads e a -> simple_line (t ++ T " |= " ++ e) (SOr ta a)
| l_expr e a : reads e a -> simple_line e (SExpr a).

(** the lines of a block, all indented by [k] steps or more *)
Inductive lines_of : nat -> list text -> list stmt -> Prop :=
| k_end k : lines_of k [] []
| k_blank k l ls b : blank l = true -> lines_of k ls b -> lines_of k (l :: ls) b
| k_simple k l t ls s b :
    indented k l t -> simple_line t s -> lines_of k ls b -> lines_of k (l :: ls) (Simple s :: b)
| k_if k l e c l1 b1 l2 br other ls b :
    indented k l (T "if " ++ e ++ T ":") -> reads e c -> lines_of (S k) l1 b1 -> b1 <> [] ->
    branches_of k l2 br other -> lines_of k ls b ->
    lines_of k (l :: l1 ++ l2 ++ ls) (If ((c, b1) :: br) other :: b)
(** what follows the first branch of an if statement *)
with branches_of : nat -> list text -> list (ast * list stmt) -> list stmt -> Prop :=
| br_end k : branches_of k [] [] []
| br_elif k l e c l1 b1 l2 br other :
    indented k l (T "elif " ++ e ++ T ":") -> reads e c -> lines_of (S k) l1 b1 -> b1 <> [] ->
    branches_of k l2 br other -> branches_of k (l :: l1 ++ l2) ((c, b1) :: br) other
| br_else k l l1 b1 :
    indented k l (T "else:") -> lines_of (S k) l1 b1 -> b1 <> [] ->
    branches_of k (l :: l1) [] b1.

(** *** functions *)
Inductive fstmt : Type :=
| FGlobal (l : list text)                              (* global x, y *)
| FSimple (s : simple_stmt)
| FFor (x : text) (it : ast) (b : list stmt)           (* for x in it: b *)
| FCollect (x : text) (elt : ast) (k v : text) (it : ast)   (* x = [elt for k, v in it] *)
| FReturn (a : ast).

(** what a comprehension may loop over without parentheses (here: no conditional
    expression, its if would end the loop) *)
Definition loopable (a : ast) : Prop := match a with AName _ | ACall _ _ _ => True | _ => False end.
Inductive fbody : list text -> list fstmt -> Prop :=
| f_end : fbody [] []
| f_blank l ls b : blank l = true -> fbody ls b -> fbody (l :: ls) b
| f_global l xs ls b :
    indented 1 l (T "global " ++ intersperse (T ", ") xs) -> Forall (fun x => ident x = true) xs -> xs <> [] ->
    fbody ls b -> fbody (l :: ls) (FGlobal xs :: b)
| f_simple l t ls s b : indented 1 l t -> simple_line t s -> fbody ls b -> fbody (l :: ls) (FSimple s :: b)
| f_for l x e it l1 b1 ls b :
    indented 1 l (T "for " ++ x ++ T " in " ++ e ++ T ":") -> ident x = true -> reads e it ->
    lines_of 2 l1 b1 -> b1 <> [] -> fbody ls b -> fbody (l :: l1 ++ ls) (FFor x it b1 :: b)
| f_collect l x e elt k v i it ls b :
    indented 1 l (x ++ T " = [" ++ e ++ T " for " ++ k ++ T ", " ++ v ++ T " in " ++ i ++ T "]") ->
    ident x = true -> reads e elt -> ident k = true -> ident v = true -> reads i it -> loopable it ->
    fbody ls b -> fbody (l :: ls) (FCollect x elt k v it :: b)
| f_return l e a ls b : indented 1 l (T "return " ++ e) -> reads e a -> fbody ls b -> fbody (l :: ls) (FReturn a :: b).

(** A text that defines one function with these parameters. *)
Definition defines (t : text) (f : text) (params : list text) (body : list fstmt) : Prop :=
  exists skipped rest,
    lines t = skipped ++ (T "def " ++ f ++ T "(" ++ intersperse (T ", ") params ++ T "):") :: rest /\
    forallb blank skipped = true /\ ident f = true /\
    Forall (fun x => ident x = true) params /\ NoDup params /\
    fbody rest body /\ body <> [].
