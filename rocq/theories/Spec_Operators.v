(** What an expression written with Python's operators on conversions should compute (C63). *)
From Coq Require Import String List ZArith NArith Bool.
From Verif Require Import Model_Code Model_Eval Spec_Eval Model_Operators.
Import ListNotations.

(** the operators as Python writes them; & | are "and", "or" *)
Definition sign (o : bop) : text :=
  T match o with Add => "+" | Mul => "*" | Sub => "-" | TrueDiv => "/" | Mod => "%" | FloorDiv => "//"
               | BitAnd => "and" | BitOr => "or" end.
Definition compare_sign (o : cop) : text :=
  T match o with Eq_ => "==" | Ne => "!=" | Gt_ => ">" | Ge => ">=" | Lt_ => "<" | Le => "<=" end.
(** the methods by what they stand for *)
Definition method_sign (m : meth) : text :=
  T match m with
    | MAdd => "+" | MMul => "*" | MSub => "-" | MDiv => "/" | MMod => "%" | MFloorDiv => "//"
    | MEq => "==" | MNotEq => "!=" | MGt => ">" | MGte => ">=" | MLt => "<" | MLte => "<="
    | MIs => "is" | MIsNot => "is not" | MIn => "in" | MNotIn => "not in"
    | MOr => "or" | MAnd => "and" | MGetItem => "[]" end.

Section Computes.
  Context {V W X : Type}.
  Variable pr : prims V W X.
  Variable args : list (text * V).

  (** x <o> y for two expressions [x] and [y], with [x] first; and, or: [y] only if needed *)
  Definition apply (o : text) (x y : @M V W X V) : @M V W X V :=
    bind x (fun a =>
      if text_eq_dec o (T "and") then bind (prim (truth pr a)) (fun t => if t then y else ret a)
      else if text_eq_dec o (T "or") then bind (prim (truth pr a)) (fun t => if t then ret a else y)
      else bind y (fun b => prim (op pr (if text_eq_dec o (T "[]") then OItem else OBin o) [a; b]))).

  (** the expression with its conversions replaced by their values for the input [v] *)
  Inductive computes (v : V) : expr -> @M V W X V -> Prop :=
  | C_conv c : computes v (Conv c) (den pr args c v)
  | C_const l : computes v (Const l) (ret (litv pr l))
  | C_bin o a b x y : computes v a x -> computes v b y -> computes v (Bin o a b) (apply (sign o) x y)
  | C_cmp o a b x y : computes v a x -> computes v b y -> computes v (Cmp o a b) (apply (compare_sign o) x y)
  | C_method m a b x y : computes v a x -> computes v b y -> computes v (Method m a b) (apply (method_sign m) x y)
  | C_index a b x y : computes v a x -> computes v b y -> computes v (Index a b) (apply (T "[]") x y)
  | C_invert a x : computes v a x -> computes v (Invert a) (bind x (fun a => prim (op pr ONot [a])))
  | C_not a x : computes v a x -> computes v (Not_ a) (bind x (fun a => prim (op pr ONot [a])))
  | C_negate a x : computes v a x -> computes v (Negate a) (bind x (fun a => prim (op pr ONeg [a]))).

  (** comparing a constant with a value is comparing the value with the constant the other way round *)
  Definition comparisons_mirror : Prop := forall l b w,
    let cmp o x y := op pr (OBin (T o)) [x; y] w in
    cmp "=="%string b (litv pr l) = cmp "=="%string (litv pr l) b /\
    cmp "!="%string b (litv pr l) = cmp "!="%string (litv pr l) b /\
    cmp ">"%string b (litv pr l) = cmp "<"%string (litv pr l) b /\
    cmp ">="%string b (litv pr l) = cmp "<="%string (litv pr l) b /\
    cmp "<"%string b (litv pr l) = cmp ">"%string (litv pr l) b /\
    cmp "<="%string b (litv pr l) = cmp ">="%string (litv pr l) b.

  (** a or b or ... ([stop] = true), a and b and ... ([stop] = false): the operands one after
      the other until one has the truth value [stop]; the value is that of the operand looked
      at last, whose truth value is not asked for if there is no operand after it. *)
  Inductive decides (stop : bool) : list (@M V W X V) -> st -> st * out X V -> Prop :=
  | D_last x s : decides stop [x] s (x s)
  | D_raises x y l s s1 e : x s = (s1, Exc e) -> decides stop (x :: y :: l) s (s1, Exc e)
  | D_truth_raises x y l s w L u w' e : x s = ((w, L), Val u) -> truth pr u w = (w', Exc e) ->
      decides stop (x :: y :: l) s ((w', L), Exc e)
  | D_stops x y l s w L u w' : x s = ((w, L), Val u) -> truth pr u w = (w', Val stop) ->
      decides stop (x :: y :: l) s ((w', L), Val u)
  | D_goes_on x y l s w L u w' r : x s = ((w, L), Val u) -> truth pr u w = (w', Val (negb stop)) ->
      decides stop (y :: l) (w', L) r -> decides stop (x :: y :: l) s r.
  (** u == b == c == ...: the value [u] is compared with that of the next operand, that one
      with the one after it, and so on until the result of a comparison is false; each
      operand is evaluated once. *)
  Inductive chains : V -> list (@M V W X V) -> st -> st * out X V -> Prop :=
  | H_raises u y l s s1 e : y s = (s1, Exc e) -> chains u (y :: l) s (s1, Exc e)
  | H_compare_raises u y l s w L b w' e : y s = ((w, L), Val b) -> op pr (OBin (T "==")) [u; b] w = (w', Exc e) ->
      chains u (y :: l) s ((w', L), Exc e)
  | H_last u y s w L b w' t : y s = ((w, L), Val b) -> op pr (OBin (T "==")) [u; b] w = (w', Val t) ->
      chains u [y] s ((w', L), Val t)
  | H_truth_raises u y z l s w L b w' t w2 e : y s = ((w, L), Val b) -> op pr (OBin (T "==")) [u; b] w = (w', Val t) ->
      truth pr t w' = (w2, Exc e) -> chains u (y :: z :: l) s ((w2, L), Exc e)
  | H_differs u y z l s w L b w' t w2 : y s = ((w, L), Val b) -> op pr (OBin (T "==")) [u; b] w = (w', Val t) ->
      truth pr t w' = (w2, Val false) -> chains u (y :: z :: l) s ((w2, L), Val t)
  | H_equals u y z l s w L b w' t w2 r : y s = ((w, L), Val b) -> op pr (OBin (T "==")) [u; b] w = (w', Val t) ->
      truth pr t w' = (w2, Val true) -> chains b (z :: l) (w2, L) r -> chains u (y :: z :: l) s r.
  Inductive evaluates : many -> list (@M V W X V) -> st -> st * out X V -> Prop :=
  | E_or l s r : decides true l s r -> evaluates OrMany l s r
  | E_and l s r : decides false l s r -> evaluates AndMany l s r
  | E_eq_raises x l s s1 e : x s = (s1, Exc e) -> evaluates EqMany (x :: l) s (s1, Exc e)
  | E_eq x l s s1 u r : x s = (s1, Val u) -> chains u l s1 r -> evaluates EqMany (x :: l) s r.
  (** the value of a conversion for the input [v], or the constant *)
  Definition value_of (v : V) (x : operand) : @M V W X V :=
    match x with Conversion c => den pr args c v | Plain l => ret (litv pr l) end.
End Computes.

(** Expressions with a conversion on the left of every operator; with [m], comparisons
    may have a constant there.  None of: and, or, not, in, is, chained comparisons. *)
Inductive over (m : bool) : expr -> Prop :=
| O_conv c : over m (Conv c)
| O_bin o a b : over m a -> part m b -> over m (Bin o a b)
| O_cmp o a b : over m a -> part m b -> over m (Cmp o a b)
| O_cmp_const o l b : m = true -> over m b -> over m (Cmp o (Const l) b)
| O_method k a b : over m a -> part m b -> over m (Method k a b)
| O_index a b : over m a -> part m b -> over m (Index a b)
| O_invert a : over m a -> over m (Invert a)
| O_not a : over m a -> over m (Not_ a)
| O_negate a : over m a -> over m (Negate a)
with part (m : bool) : expr -> Prop :=
| P_over a : over m a -> part m a
| P_const l : part m (Const l).
