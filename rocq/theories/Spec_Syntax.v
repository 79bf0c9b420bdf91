(** Python's expression syntax, as far as generated code needs it: a tokenizer and
    a recursive-descent parser that follows the grammar of the language reference
    (expression, disjunction, conjunction, inversion, comparison, the arithmetic
    levels, unary, power, primary, atom).  Independent of the model of convtools.

    Both accept less than Python does (ASCII identifiers, decimal integers, plain
    string literals, one name as comprehension target, no lambda, no slices, ...):
    whatever they accept, Python reads in the same way.  CPython's limits on the
    nesting depth of parentheses are not represented. *)
From Coq Require Import String Ascii List NArith ZArith Bool Arith.
From Verif Require Import Model_Code.
Import ListNotations.
Local Open Scope N_scope.

(** *** tokens *)
Inductive token : Type :=
| TName (x : text) | TNum (n : N) | TStr (s : text) | TConst (x : text)
| LPar | RPar | LBr | RBr | LBrace | RBrace | Comma | Colon | Dot | Assign
| TBin (o : text)                         (* + - * / // % ** == != < <= > >= ... *)
| KAnd | KOr | KNot | KIf | KElse | KFor | KIn | KIs
| KOther.                                 (* any other keyword *)

Definition is_alpha (c : N) : bool := (65 <=? c) && (c <=? 90) || (97 <=? c) && (c <=? 122) || (c =? 95).
Definition is_digit (c : N) : bool := (48 <=? c) && (c <=? 57).
Definition is_ident (c : N) : bool := is_alpha c || is_digit c.
Definition is_quote (c : N) : bool := (c =? 34) || (c =? 39).
Definition surrogate (c : N) : bool := (55296 <=? c) && (c <=? 57343).

Definition other_keywords : list text :=
  map T ["as"; "assert"; "async"; "await"; "break"; "class"; "continue"; "def"; "del"; "elif";
         "except"; "finally"; "from"; "global"; "import"; "lambda"; "nonlocal"; "pass"; "raise";
         "return"; "try"; "while"; "with"; "yield"]%string.
Definition constants : list text := map T ["None"; "True"; "False"]%string.
Definition syntax_keywords : list (text * token) :=
  [(T "and", KAnd); (T "or", KOr); (T "not", KNot); (T "if", KIf); (T "else", KElse);
   (T "for", KFor); (T "in", KIn); (T "is", KIs)].
Definition keyword (x : text) : bool :=
  existsb (teqb x) other_keywords || existsb (teqb x) constants ||
  existsb (fun k => teqb x (fst k)) syntax_keywords.
Definition word_token (x : text) : token :=
  if existsb (teqb x) constants then TConst x
  else match find (fun k => teqb x (fst k)) syntax_keywords with
       | Some k => snd k
       | None => if existsb (teqb x) other_keywords then KOther else TName x
       end.

(** an identifier *)
Definition ident (x : text) : bool :=
  match x with c :: r => is_alpha c && forallb is_ident r | [] => false end && negb (keyword x).

(** *** tokenizer: a state machine *)
Inductive lstate : Type :=
| Start
| InName (acc : text)
| InNum (n : N) (zero : bool)             (* zero: starts with the digit 0 *)
| InOp (c : N)                            (* one operator character read *)
| InOp2 (c d : N)                         (* two *)
| InStr (q : N) (acc : text)
| Esc (q : N) (acc : text)                (* after a backslash *)
| Hex (q : N) (acc : text) (k : nat) (v : N)   (* k more hex digits *)
| EmptyStr (q : N).                       (* after '' or "" *)

(** operator characters, and the operators of two characters *)
Definition op_char (c : N) : bool := existsb (N.eqb c) [43; 45; 42; 47; 37; 60; 62; 61; 33; 64; 38; 124; 94; 126; 58; 46].
(* + - * / % < > = ! @ & | ^ ~ : . *)
Definition op_pair (c d : N) : bool :=
  existsb (fun p => (c =? fst p) && (d =? snd p))
    [(61,61); (33,61); (60,61); (62,61); (47,47); (42,42); (60,60); (62,62);      (* == != <= >= // ** << >> *)
     (45,62); (58,61); (43,61); (45,61); (42,61); (47,61); (37,61); (38,61);      (* -> := += -= *= /= %= &= *)
     (124,61); (94,61); (64,61); (46,46)].                                        (* |= ^= @= .. *)
(** three characters: //= **= <<= >>= *)
Definition op_triple (c d : N) (e : N) : bool := (e =? 61) && (c =? d) && negb (c =? 61) || (e =? 46) && (c =? 46).

Definition op_token (c : N) : option token :=
  if c =? 58 then Some Colon else if c =? 46 then Some Dot else if c =? 61 then Some Assign
  else if c =? 33 then None else Some (TBin [c]).
(** two characters: only comparisons and //, **, <<, >> occur in expressions *)
Definition op2_token (c d : N) : option token :=
  if existsb (fun p => (c =? fst p) && (d =? snd p))
       [(61,61); (33,61); (60,61); (62,61); (47,47); (42,42); (60,60); (62,62)]
  then Some (TBin [c; d]) else None.

Definition bracket (c : N) : option token :=
  if c =? 40 then Some LPar else if c =? 41 then Some RPar
  else if c =? 91 then Some LBr else if c =? 93 then Some RBr
  else if c =? 123 then Some LBrace else if c =? 125 then Some RBrace
  else if c =? 44 then Some Comma else None.

(** a character outside of any token *)
Definition first (c : N) : option (list token * lstate) :=
  if c =? 32 then Some ([], Start)
  else if is_alpha c then Some ([], InName [c])
  else if is_digit c then Some ([], InNum (c - 48) (c =? 48))
  else if is_quote c then Some ([], InStr c [])
  else match bracket c with
       | Some t => Some ([t], Start)
       | None => if op_char c then Some ([], InOp c) else None
       end.
Definition emit (t : option token) (c : N) : option (list token * lstate) :=
  match t, first c with
  | Some t, Some (l, s) => Some (t :: l, s)
  | _, _ => None
  end.

Definition hex_value (c : N) : option N :=
  if is_digit c then Some (c - 48)
  else if (97 <=? c) && (c <=? 102) then Some (c - 87)
  else if (65 <=? c) && (c <=? 70) then Some (c - 55) else None.

Definition escape (q : N) (acc : text) (c : N) : option (list token * lstate) :=
  if (c =? 92) || is_quote c then Some ([], InStr q (acc ++ [c]))
  else if c =? 110 then Some ([], InStr q (acc ++ [10]))
  else if c =? 114 then Some ([], InStr q (acc ++ [13]))
  else if c =? 116 then Some ([], InStr q (acc ++ [9]))
  else if c =? 120 then Some ([], Hex q acc 2 0)
  else if c =? 117 then Some ([], Hex q acc 4 0)
  else if c =? 85 then Some ([], Hex q acc 8 0)
  else None.

Definition step (s : lstate) (c : N) : option (list token * lstate) :=
  match s with
  | Start => first c
  | InName acc =>
      if is_ident c then Some ([], InName (acc ++ [c]))
      else if is_quote c then None                     (* a prefix such as r'..' *)
      else emit (Some (word_token acc)) c
  | InNum n zero =>
      if is_digit c then if zero then None else Some ([], InNum (10 * n + (c - 48)) false)
      else if is_alpha c || (c =? 46) then None        (* 5e3, 0x1, 5_0, 5.0 *)
      else emit (Some (TNum n)) c
  | InOp o =>
      if op_pair o c then Some ([], InOp2 o c)
      else if (o =? 46) && is_digit c then None        (* .5 *)
      else emit (op_token o) c
  | InOp2 o p =>
      if op_triple o p c then None else emit (op2_token o p) c
  | InStr q acc =>
      if c =? q then match acc with [] => Some ([], EmptyStr q) | _ => Some ([TStr acc], Start) end
      else if c =? 92 then Some ([], Esc q acc)
      else if (c =? 10) || (c =? 13) || (c =? 0) || surrogate c then None
      else Some ([], InStr q (acc ++ [c]))
  | Esc q acc => escape q acc c
  | Hex q acc k v =>
      match hex_value c, k with
      | Some d, S O => let u := 16 * v + d in
                       if u <=? 1114111 then Some ([], InStr q (acc ++ [u])) else None
      | Some d, S k' => Some ([], Hex q acc k' (16 * v + d))
      | _, _ => None
      end
  | EmptyStr q =>
      if c =? q then None                              (* triple quotes *)
      else emit (Some (TStr [])) c
  end.

Definition flush (s : lstate) : option (list token) :=
  match s with
  | Start => Some []
  | InName acc => Some [word_token acc]
  | InNum n _ => Some [TNum n]
  | InOp o => option_map (fun t => [t]) (op_token o)
  | InOp2 o p => option_map (fun t => [t]) (op2_token o p)
  | EmptyStr _ => Some [TStr []]
  | _ => None
  end.

Definition prepend (l : list token) (o : option (list token)) : option (list token) :=
  match o with Some r => Some (l ++ r) | None => None end.
Fixpoint lex (s : lstate) (t : text) : option (list token) :=
  match t with
  | [] => flush s
  | c :: r => match step s c with
              | Some (l, s') => prepend l (lex s' r)
              | None => None
              end
  end.
Definition tokenize (t : text) : option (list token) := lex Start t.

(** *** syntax trees *)
Inductive gkind : Type := GGen | GList | GSet | GDict.
Inductive ast : Type :=
| AName (x : text) | ANum (n : N) | AStr (s : text) | AConst (x : text)
| AUnary (o : text) (a : ast)                    (* -a *)
| ABin (o : text) (a b : ast)                    (* a + b *)
| ACompare (a : ast) (l : list (text * ast))     (* a < b == c *)
| ANot (a : ast)
| ABool (isor : bool) (l : list ast)             (* a or b or c *)
| AIf (c t f : ast)                              (* t if c else f *)
| ASub (a i : ast) | AAttr (a : ast) (n : text)
| ACall (f : ast) (args : list ast) (kws : list (text * ast))
| ATuple (l : list ast) | AList (l : list ast) | ASet (l : list ast) | ADict (l : list (ast * ast))
| AComp (k : gkind) (elts : list ast) (x : text) (it : ast) (cond : option ast)
                                                 (* two variables: x is "k, v" *)
| AComp2 (e : ast) (x : text) (it : ast) (y : text) (it2 : ast) (cond : option ast).
                                                 (* (e for x in it for y in it2 if cond) *)

(** *** parser *)
Local Close Scope N_scope.
Definition parsed (A : Type) : Type := option (A * list token).
Definition pbind {A B} (r : parsed A) (k : A -> list token -> parsed B) : parsed B :=
  match r with Some (a, ts) => k a ts | None => None end.

(** level of a left-associative binary operator *)
Definition bin_level (o : text) : nat :=
  if teqb o (T "|") then 5 else if teqb o (T "^") then 6 else if teqb o (T "&") then 7
  else if teqb o (T "<<") || teqb o (T ">>") then 8
  else if teqb o (T "+") || teqb o (T "-") then 9
  else if existsb (teqb o) (map T ["*"; "/"; "//"; "%"; "@"]%string) then 10
  else 0.
Definition is_comparison (o : text) : bool :=
  existsb (teqb o) (map T ["=="; "!="; "<"; "<="; ">"; ">="]%string).
Definition is_unary (o : text) : bool := existsb (teqb o) (map T ["-"; "+"; "~"]%string).

Section Parser.
  (** [p l]: the parser of level [l], with less fuel *)
  Variable p : nat -> list token -> parsed ast.

  (** the target of a for: a name, or two of them, kept as written *)
  Definition target (ts : list token) : option (text * list token) :=
    match ts with
    | TName x :: KIn :: r => Some (x, r)
    | TName x :: Comma :: TName y :: KIn :: r => Some (x ++ T ", " ++ y, r)
    | _ => None
    end.
  (** for x in disjunction [if disjunction] *)
  Definition comp_for (ts : list token) : parsed (text * ast * option ast) :=
    match ts with
    | KFor :: r =>
        pbind (target r) (fun x r =>
        pbind (p 1 r) (fun it r =>
        match r with
        | KIf :: r => pbind (p 1 r) (fun c r => Some ((x, it, Some c), r))
        | _ => Some ((x, it, None), r)
        end))
    | _ => None
    end.
  Definition close (t : token) (ts : list token) (a : ast) : parsed ast :=
    match t, ts with
    | RPar, RPar :: r | RBr, RBr :: r | RBrace, RBrace :: r => Some (a, r)
    | _, _ => None
    end.
  Definition is_close (t u : token) : bool :=
    match t, u with RPar, RPar | RBr, RBr | RBrace, RBrace => true | _, _ => false end.

  (** after "(e for x in it if c": the end, or one more for *)
  Definition gen_rest (e : ast) (x : text) (it : ast) (c : option ast) (ts : list token) : parsed ast :=
    match ts with
    | KFor :: _ =>
        match c with
        | None => pbind (comp_for ts) (fun f r => let '(y, it2, c2) := f in close RPar r (AComp2 e x it y it2 c2))
        | Some _ => None
        end
    | _ => close RPar ts (AComp GGen [e] x it c)
    end.

  (** what follows an element of a display: , e, e ... close *)
  Fixpoint more (k : nat) (cl : token) (acc : list ast) (ts : list token) : parsed (list ast) :=
    match k with
    | O => None
    | S k' =>
        match ts with
        | Comma :: t :: r =>
            if is_close cl t then Some (acc, r)
            else pbind (p 0 (t :: r)) (fun e r => more k' cl (acc ++ [e]) r)
        | t :: r => if is_close cl t then Some (acc, r) else None
        | [] => None
        end
    end.
  Fixpoint more_pairs (k : nat) (acc : list (ast * ast)) (ts : list token) : parsed (list (ast * ast)) :=
    match k with
    | O => None
    | S k' =>
        match ts with
        | RBrace :: r => Some (acc, r)
        | Comma :: RBrace :: r => Some (acc, r)
        | Comma :: r =>
            pbind (p 0 r) (fun a r =>
            match r with
            | Colon :: r => pbind (p 0 r) (fun b r => more_pairs k' (acc ++ [(a, b)]) r)
            | _ => None
            end)
        | _ => None
        end
    end.

  (** arguments of a call, after the opening parenthesis *)
  Fixpoint call_args (k : nat) (pos : list ast) (kws : list (text * ast)) (ts : list token)
    : parsed (list ast * list (text * ast)) :=
    match k with
    | O => None
    | S k' =>
        match ts with
        | RPar :: r => Some ((pos, kws), r)
        | TName x :: Assign :: r =>
            if existsb (fun kw => teqb x (fst kw)) kws then None       (* repeated *)
            else pbind (p 0 r) (fun e r =>
                 match r with
                 | Comma :: r => call_args k' pos (kws ++ [(x, e)]) r
                 | RPar :: r => Some ((pos, kws ++ [(x, e)]), r)
                 | _ => None
                 end)
        | _ =>
            match kws with
            | _ :: _ => None                                           (* positional after keyword *)
            | [] =>
                pbind (p 0 ts) (fun e r =>
                match r with
                | Comma :: r => call_args k' (pos ++ [e]) kws r
                | RPar :: r => Some ((pos ++ [e], kws), r)
                | KFor :: _ =>
                    match pos with
                    | [] => pbind (comp_for r) (fun f r =>
                              let '(x, it, c) := f in
                              match r with
                              | RPar :: r => Some (([AComp GGen [e] x it c], kws), r)
                              | _ => None
                              end)
                    | _ => None
                    end
                | _ => None
                end)
            end
        end
    end.

  Fixpoint trailers (k : nat) (a : ast) (ts : list token) : parsed ast :=
    match k with
    | O => None
    | S k' =>
        match ts with
        | LBr :: r => pbind (p 0 r) (fun i r =>
            match r with RBr :: r => trailers k' (ASub a i) r | _ => None end)
        | Dot :: TName x :: r => trailers k' (AAttr a x) r
        | Dot :: _ => None
        | LPar :: r => pbind (call_args k' [] [] r) (fun args r =>
            trailers k' (ACall a (fst args) (snd args)) r)
        | _ => Some (a, ts)
        end
    end.

  Definition atom (k : nat) (ts : list token) : parsed ast :=
    match ts with
    | TName x :: r => Some (AName x, r)
    | TNum n :: r => Some (ANum n, r)
    | TStr s :: r => Some (AStr s, r)
    | TConst x :: r => Some (AConst x, r)
    | LPar :: RPar :: r => Some (ATuple [], r)
    | LPar :: r =>
        pbind (p 0 r) (fun e r =>
        match r with
        | RPar :: r => Some (e, r)
        | KFor :: _ => pbind (comp_for r) (fun f r =>
                         let '(x, it, c) := f in gen_rest e x it c r)
        | Comma :: _ => pbind (more k RPar [e] r) (fun l r => Some (ATuple l, r))
        | _ => None
        end)
    | LBr :: RBr :: r => Some (AList [], r)
    | LBr :: r =>
        pbind (p 0 r) (fun e r =>
        match r with
        | KFor :: _ => pbind (comp_for r) (fun f r =>
                         let '(x, it, c) := f in close RBr r (AComp GList [e] x it c))
        | _ => pbind (more k RBr [e] r) (fun l r => Some (AList l, r))
        end)
    | LBrace :: RBrace :: r => Some (ADict [], r)
    | LBrace :: r =>
        pbind (p 0 r) (fun e r =>
        match r with
        | Colon :: r =>
            pbind (p 0 r) (fun v r =>
            match r with
            | KFor :: _ => pbind (comp_for r) (fun f r =>
                             let '(x, it, c) := f in close RBrace r (AComp GDict [e; v] x it c))
            | _ => pbind (more_pairs k [(e, v)] r) (fun l r => Some (ADict l, r))
            end)
        | KFor :: _ => pbind (comp_for r) (fun f r =>
                         let '(x, it, c) := f in close RBrace r (AComp GSet [e] x it c))
        | _ => pbind (more k RBrace [e] r) (fun l r => Some (ASet l, r))
        end)
    | _ => None
    end.

  (** left-associative operators of level [l] *)
  Fixpoint bin_loop (k l : nat) (a : ast) (ts : list token) : parsed ast :=
    match k with
    | O => None
    | S k' =>
        match ts with
        | TBin o :: r =>
            if Nat.eqb (bin_level o) l
            then pbind (p (S l) r) (fun b r => bin_loop k' l (ABin o a b) r)
            else Some (a, ts)
        | _ => Some (a, ts)
        end
    end.
  Definition comparison_op (ts : list token) : option (text * list token) :=
    match ts with
    | TBin o :: r => if is_comparison o then Some (o, r) else None
    | KIn :: r => Some (T "in", r)
    | KNot :: KIn :: r => Some (T "not in", r)
    | KIs :: KNot :: r => Some (T "is not", r)
    | KIs :: r => Some (T "is", r)
    | _ => None
    end.
  Fixpoint cmp_loop (k : nat) (acc : list (text * ast)) (ts : list token) : parsed (list (text * ast)) :=
    match k with
    | O => None
    | S k' =>
        match comparison_op ts with
        | Some (o, r) => pbind (p 5 r) (fun b r => cmp_loop k' (acc ++ [(o, b)]) r)
        | None => Some (acc, ts)
        end
    end.
  Fixpoint bool_loop (k : nat) (isor : bool) (acc : list ast) (ts : list token) : parsed (list ast) :=
    match k with
    | O => None
    | S k' =>
        match isor, ts with
        | true, KOr :: r => pbind (p 2 r) (fun b r => bool_loop k' isor (acc ++ [b]) r)
        | false, KAnd :: r => pbind (p 3 r) (fun b r => bool_loop k' isor (acc ++ [b]) r)
        | _, _ => Some (acc, ts)
        end
    end.
  Definition of_bool (isor : bool) (l : list ast) : ast :=
    match l with [a] => a | _ => ABool isor l end.
  Definition of_compare (a : ast) (l : list (text * ast)) : ast :=
    match l with [] => a | _ => ACompare a l end.

  (** 0 expression, 1 disjunction, 2 conjunction, 3 inversion, 4 comparison,
      5 |, 6 ^, 7 &, 8 shifts, 9 + -, 10 * / // % @, 11 unary, 12 power, 13 primary *)
  Definition level (k l : nat) (ts : list token) : parsed ast :=
    match l with
    | 0 => pbind (p 1 ts) (fun t r =>
             match r with
             | KIf :: r => pbind (p 1 r) (fun c r =>
                 match r with
                 | KElse :: r => pbind (p 0 r) (fun f r => Some (AIf c t f, r))
                 | _ => None
                 end)
             | _ => Some (t, r)
             end)
    | 1 => pbind (p 2 ts) (fun a r => pbind (bool_loop k true [a] r) (fun l r => Some (of_bool true l, r)))
    | 2 => pbind (p 3 ts) (fun a r => pbind (bool_loop k false [a] r) (fun l r => Some (of_bool false l, r)))
    | 3 => match ts with
           | KNot :: r => pbind (p 3 r) (fun a r => Some (ANot a, r))
           | _ => p 4 ts
           end
    | 4 => pbind (p 5 ts) (fun a r => pbind (cmp_loop k [] r) (fun l r => Some (of_compare a l, r)))
    | 5 | 6 | 7 | 8 | 9 | 10 => pbind (p (S l) ts) (fun a r => bin_loop k l a r)
    | 11 => match ts with
            | TBin o :: r => if is_unary o then pbind (p 11 r) (fun a r => Some (AUnary o a, r)) else None
            | _ => p 12 ts
            end
    | 12 => pbind (p 13 ts) (fun a r =>
              match r with
              | TBin o :: r' => if teqb o (T "**")
                                then pbind (p 11 r') (fun b r => Some (ABin o a b, r)) else Some (a, r)
              | _ => Some (a, r)
              end)
    | _ => pbind (atom k ts) (fun a r => trailers k a r)
    end.
End Parser.

Fixpoint parse (fuel l : nat) (ts : list token) : parsed ast :=
  match fuel with
  | O => None
  | S n => level (parse n) n l ts
  end.

(** Python reads the text [t] as the expression [a]. *)
Definition reads (t : text) (a : ast) : Prop :=
  exists ts n, tokenize t = Some ts /\ parse n 0 ts = Some (a, []).

(** *** constants *)
(** what an expression made of literals denotes *)
Inductive denotes : ast -> lit -> Prop :=
| den_num n : denotes (ANum n) (LInt (Z.of_N n))
| den_neg n : denotes (AUnary (T "-") (ANum n)) (LInt (- Z.of_N n)%Z)
| den_str s : denotes (AStr s) (LStr s)
| den_none : denotes (AConst (T "None")) LNone
| den_true : denotes (AConst (T "True")) (LBool true)
| den_false : denotes (AConst (T "False")) (LBool false).

(** repr of a str.  [printable]: str.isprintable of one character; only its
    values outside ASCII are used. *)
Local Open Scope N_scope.
Definition hex_digit (d : N) : N := if d <? 10 then 48 + d else 87 + d.
Fixpoint hex_text (k : nat) (n : N) : text :=
  match k with O => [] | S k' => hex_text k' (n / 16) ++ [hex_digit (n mod 16)] end.
Section Repr.
  Variable printable : N -> bool.
  Definition repr_char (q c : N) : text :=
    if (c =? q) || (c =? 92) then [92; c]
    else if c =? 9 then [92; 116] else if c =? 10 then [92; 110] else if c =? 13 then [92; 114]
    else if (c <? 32) || (c =? 127) then [92; 120] ++ hex_text 2 c
    else if c <? 127 then [c]
    else if printable c then [c]
    else if c <? 256 then [92; 120] ++ hex_text 2 c
    else if c <? 65536 then [92; 117] ++ hex_text 4 c
    else [92; 85] ++ hex_text 8 c.
  Definition py_repr (s : text) : text :=
    let q := if existsb (N.eqb 39) s && negb (existsb (N.eqb 34) s) then 34 else 39 in
    [q] ++ flat_map (repr_char q) s ++ [q].
End Repr.
(** a Python str: code points *)
Definition is_str (s : text) : bool := forallb (fun c => c <=? 1114111) s.
(** surrogates are not printable: they have category Cs *)
Definition printable_ok (printable : N -> bool) : Prop := forall c, surrogate c = true -> printable c = false.
