(** The generated Python expressions: their syntax, their exact text, and the
    code generator of /repo/src/convtools/base.py (and mutations.py), node by
    node.  Definitions only; the meaning of the expressions is in Model_Eval.v.

    Text is a list of code points.  Three things Python computes from its own
    tables are parameters: which code points [\w] matches ([wordch]), the repr of
    a str ([srepr]) and the names the generator picks ([gname], [pname], [hname];
    what is known about the choice of names is in Model_Names.v). *)
From Coq Require Import String Ascii List ZArith NArith Bool Arith.
Import ListNotations.

Definition text := list N.
Definition T (s : string) : text := map N_of_ascii (list_ascii_of_string s).
Definition text_eq_dec : forall a b : text, {a = b} + {a <> b} := list_eq_dec N.eq_dec.
Definition teqb (a b : text) : bool := if text_eq_dec a b then true else false.
(** Python's order of strings: by code points. *)
Fixpoint tleb (a b : text) : bool :=
  match a, b with
  | [], _ => true
  | _ :: _, [] => false
  | x :: a', y :: b' => if N.ltb x y then true else if N.eqb x y then tleb a' b' else false
  end.
Fixpoint tinsert (x : text) (l : list text) : list text :=
  match l with
  | [] => [x]
  | y :: r => if tleb x y then x :: l else y :: tinsert x r
  end.
Definition sort_names (l : list text) : list text := fold_right tinsert [] l.

(** Values whose code is a literal: NaiveConversion, base.py:939-949. *)
Inductive lit : Type :=
| LNone | LBool (b : bool) | LInt (z : Z) | LStr (s : text).

(** Names of cached values.  [U]: chosen by the user (labels); [A k]:
    "cached_val_<number>" of the CachingConversion with number [k]
    (base.py:979-982); [P q]: the same for the CachingConversion that an If
    creates while its code is generated (base.py:1231); [q] is the position of
    that If, standing for the fresh number. *)
Inductive lname : Type := U (s : text) | A (k : nat) | P (q : list nat).
Definition lname_eq_dec : forall a b : lname, {a = b} + {a <> b}.
Proof. decide equality; auto using text_eq_dec, Nat.eq_dec, (list_eq_dec Nat.eq_dec). Defined.

(** Operations that evaluate all their operands from left to right and then do
    one thing: subscription, attribute access, call, operators, displays. *)
Inductive opn : Type :=
| OItem                                   (* a[b] *)
| OAttr (n : text)                        (* a.n *)
| OGetattr                                (* getattr(a, b) *)
| OCall (npos : nat) (kws : list text)    (* f(a, ..., k=b, ...) *)
| OBin (o : text)                         (* (a + b), (a is b), (a < b) ... *)
| ONot | ONeg                             (* (not a), (-a) *)
| OSlice                                  (* (slice(a, b, c)) *)
| OTuple | OList | OSet | ODict           (* displays *)
| OSortedList | OSortedTuple | OSortedDict. (* sorted(a, key=b,reverse=c) ... *)

(** What a comprehension or a generator of items is consumed by. *)
Inductive ckind : Type :=
| KList | KTuple | KSet | KDict
| KSrc          (* the parenthesised generator inside sorted(...) *)
| KSrcPair.     (* the same for dicts: pairs *)

(** The statements of a tap function, mutations.py:27-68. *)
Inductive mkind : Type := MSetItem | MSetAttr | MDelItem | MDelAttr | MCustom.

(** Python expressions that the generator can emit. *)
Inductive px : Type :=
| PName (x : text)
| PLit (l : lit)
| PGlob (g : nat)                                   (* an object put into the globals *)
| POp (o : opn) (l : list px)
| PBool (isor : bool) (l : list px)                 (* (a or b or ...), (a and b ...) *)
| PEqs (l : list px)                                (* (a == b == ...) *)
| PIf (c t f : px)                                  (* (t if c else f) *)
| PAttach (a b : px)                                (* (a and None or b) *)
| PAdd (n : lname) (e : px)                         (* add_label_('n', e) *)
| PGet (n : lname)                                  (* get_by_label_('n') *)
| PComp (k : ckind) (elts : list px) (x : text) (it : px) (cond : option px)
| PDefault (f : text) (args : list px) (body : px)  (* get_or_default(...) *)
| PItems (f : text) (k : ckind) (args : list px) (params : list text)
         (lines : list (option px * px))            (* list(optional_items_generator(...)) *)
| PTap (f : text) (args : list px) (params : list text)
       (stmts : list (mkind * list px)).            (* tap(...) *)

(** Conversions, as the library builds them.  Every method of BaseConversion and
    every class listed in conversion.py:41-130 ends up as one of these, except:
    InlineExpr (Model_Inline.v) and EscapedString with user-written text, generator
    comprehensions (Model_Gen.v), joins and aggregations (Model_Join.v,
    Model_Aggregate.v), ConversionWrapper and NamedConversion.
    [CPipe a b]: [b] with [a] as its predefined input (base.py:735-750). *)
Inductive cv : Type :=
| CThis                                             (* GetItem() *)
| CLit (l : lit) | CGlob (g : nat)                  (* NaiveConversion *)
| CArg (x : text)                                   (* InputArg *)
| CLabel (n : lname)                                (* LabelConversion *)
| COp (o : opn) (l : list cv)
| CAttr (a n : cv)                                  (* one step of GetAttr *)
| CBool (isor : bool) (l : list cv)                 (* Or, And *)
| CEqs (l : list cv)                                (* Eq *)
| CIf (nc : bool) (c t f : option cv)               (* If; nc = no_input_caching *)
| CDefault (attr : bool) (self : option cv) (idx : list cv) (d : cv)
                                                    (* GetItem/GetAttr(..., default=d) *)
| CComp (k : ckind) (elts : list cv) (cond : option cv)
| CItems (k : ckind) (lines : list (option cv * cv)) (* collection with optional items *)
| CCache (n : lname) (c : cv) (ls : list (lname * cv)) (* CachingConversion *)
| CPipe (a b : cv)
| CTap (o : cv) (ms : list (mkind * list cv)).

(** get_self_code and the loop of GetItem without default, base.py:1299-1306: [c.item(i, j)], [x.item(i, j)]. *)
Definition citem (self : option cv) (idx : list cv) : cv :=
  fold_left (fun a i => COp OItem [a; i]) idx (match self with Some s => s | None => CThis end).
(** GetAttr, base.py:1342-1355 *)
Definition cattr (self : option cv) (idx : list cv) : cv :=
  fold_left CAttr idx (match self with Some s => s | None => CThis end).
(** Call, base.py:1365-1384; CallFunc, base.py:1386-1389 *)
Definition ccall (self : option cv) (args : list cv) (kw : list (text * cv)) : cv :=
  COp (OCall (length args) (map fst kw))
      ((match self with Some s => s | None => CThis end) :: args ++ map snd kw).
(** pipe: the input goes to the bottom of the chain, base.py:735-750 *)
Fixpoint cpipe (a b : cv) : cv :=
  match b with CPipe b0 b1 => CPipe (cpipe a b0) b1 | _ => CPipe a b end.

Section Text.
  Variable wordch : N -> bool.
  Variable srepr : text -> text.
  Variable gname : nat -> text.

  (** decimal digits *)
  Fixpoint digits (fuel : nat) (n : N) : text :=
    match fuel with
    | O => []
    | S f => if N.ltb n 10 then [(48 + n)%N]
             else digits f (N.div n 10) ++ [(48 + N.modulo n 10)%N]
    end.
  Definition ndec (n : N) : text := digits (S (N.to_nat (N.log2 n))) n.
  (** repr of an int *)
  Definition zrepr (z : Z) : text :=
    match z with
    | Zneg p => T "-" ++ ndec (Npos p)
    | _ => ndec (Z.to_N z)
    end.

  (** base.py:939-949 *)
  Definition lit_text (l : lit) : text :=
    match l with
    | LNone => T "None"
    | LBool true => T "True"
    | LBool false => T "False"
    | LInt z => zrepr z
    | LStr s => srepr s
    end.

  Fixpoint intersperse (sep : text) (l : list text) : text :=
    match l with
    | [] => []
    | [a] => a
    | a :: r => a ++ sep ++ intersperse sep r
    end.

  (** the number of the fresh CachingConversion made at position [q] *)
  Variable pnum : list nat -> nat.
  (** base.py:979-982 *)
  Definition label_text (n : lname) : text :=
    match n with
    | U s => s
    | A k => T "cached_val_" ++ ndec (N.of_nat k)
    | P q => T "cached_val_" ++ ndec (N.of_nat (pnum q))
    end.

  Fixpoint zip_kw (ks : list text) (vs : list text) : list text :=
    match ks, vs with
    | k :: ks', v :: vs' => (k ++ T "=" ++ v) :: zip_kw ks' vs'
    | _, _ => []
    end.
  Fixpoint pairs (sep : text) (l : list text) : list text :=
    match l with
    | a :: b :: r => (a ++ sep ++ b) :: pairs sep r
    | _ => []
    end.
  Definition nth_t (l : list text) (i : nat) : text := nth i l [].

  (** base.py:1296-1297, 1351-1355, 1372-1384, 1455-1466 (with the templates of
      599-730), 1569-1573, 1584-1588, 1628-1633, 1782-1785, 1794-1797, 1806-1809,
      1831-1839, 1875-1878; ensure_conversion of a slice, 199-204. *)
  Definition op_text (o : opn) (l : list text) : text :=
    match o with
    | OItem => nth_t l 0 ++ T "[" ++ nth_t l 1 ++ T "]"
    | OAttr n => nth_t l 0 ++ T "." ++ n
    | OGetattr => T "getattr(" ++ nth_t l 0 ++ T ", " ++ nth_t l 1 ++ T ")"
    | OCall np kws =>
        nth_t l 0 ++ T "(" ++
        intersperse (T ",") (firstn np (tl l) ++ zip_kw kws (skipn np (tl l))) ++ T ")"
    | OBin o => T "(" ++ nth_t l 0 ++ T " " ++ o ++ T " " ++ nth_t l 1 ++ T ")"
    | ONot => T "(not " ++ nth_t l 0 ++ T ")"
    | ONeg => T "(-" ++ nth_t l 0 ++ T ")"
    | OSlice => T "(slice(" ++ nth_t l 0 ++ T ", " ++ nth_t l 1 ++ T ", " ++ nth_t l 2 ++ T "))"
    | OTuple => T "(" ++ intersperse (T ",") l ++ T ",)"
    | OList => T "[" ++ intersperse (T ",") l ++ T "]"
    | OSet => T "{" ++ intersperse (T ",") l ++ T "}"
    | ODict => T "{" ++ intersperse (T ",") (pairs (T ":") l) ++ T "}"
    | OSortedList =>
        T "sorted(" ++ nth_t l 0 ++ T ", key=" ++ nth_t l 1 ++ T ",reverse=" ++ nth_t l 2 ++ T ")"
    | OSortedTuple =>
        T "tuple(sorted(" ++ nth_t l 0 ++ T ", key=" ++ nth_t l 1 ++ T ",reverse=" ++ nth_t l 2 ++ T "))"
    | OSortedDict =>
        T "OrderedDict(sorted(" ++ nth_t l 0 ++ T ", key=" ++ nth_t l 1 ++ T ",reverse=" ++ nth_t l 2 ++ T "))"
    end.

  (** base.py:1536-1547, 1559-1560, 1566-1567, 1579-1582, 1594-1595, 1616-1626 *)
  Definition comp_text (k : ckind) (elts : list text) (x it : text) (cond : option text) : text :=
    let body e := e ++ T " for " ++ x ++ T " in " ++ it ++
                  match cond with Some c => T " if " ++ c | None => [] end in
    match k with
    | KList => T "[" ++ body (nth_t elts 0) ++ T "]"
    | KTuple => T "tuple(" ++ body (nth_t elts 0) ++ T ")"
    | KSet => T "{" ++ body (nth_t elts 0) ++ T "}"
    | KDict => T "{" ++ body (nth_t elts 0 ++ T ": " ++ nth_t elts 1) ++ T "}"
    | KSrc => T "(" ++ body (nth_t elts 0) ++ T ")"
    | KSrcPair => T "(" ++ body (T "(" ++ nth_t elts 0 ++ T ", " ++ nth_t elts 1 ++ T ")") ++ T ")"
    end.
  (** base.py:1787, 1799, 1811, 1841 *)
  Definition kind_text (k : ckind) : text :=
    match k with
    | KList => T "list" | KTuple => T "tuple" | KSet => T "set" | KDict => T "dict"
    | _ => T "iter"
    end.

  (** The text of an expression.  The bodies of the helper functions
      (get_or_default, optional_items_generator, tap) are compiled separately; only
      the call appears. *)
  Fixpoint print (e : px) : text :=
    match e with
    | PName x => x
    | PLit l => lit_text l
    | PGlob g => gname g
    | POp o l => op_text o (map print l)
    | PBool isor l =>
        T "(" ++ intersperse (if isor then T " or " else T " and ") (map print l) ++ T ")"
    | PEqs l => T "(" ++ intersperse (T " == ") (map print l) ++ T ")"
    | PIf c t f =>
        T "(" ++ print t ++ T " if " ++ print c ++ T " else " ++ print f ++ T ")"
    | PAttach a b => T "(" ++ print a ++ T " and None or " ++ print b ++ T ")"
    | PAdd n e => T "add_label_('" ++ label_text n ++ T "', " ++ print e ++ T ")"
    | PGet n => T "get_by_label_('" ++ label_text n ++ T "')"
    | PComp k elts x it cond =>
        comp_text k (map print elts) x (print it)
          (match cond with Some c => Some (print c) | None => None end)
    | PDefault f args _ => f ++ T "(" ++ intersperse (T ",") (map print args) ++ T ")"
    | PItems f k args _ _ =>
        kind_text k ++ T "(" ++ f ++ T "(" ++ intersperse (T ",") (map print args) ++ T "))"
    | PTap f args _ _ => f ++ T "(" ++ intersperse (T ",") (map print args) ++ T ")"
    end.

  Fixpoint starts (p s : text) : bool :=
    match p, s with
    | [], _ => true
    | a :: p', b :: s' => N.eqb a b && starts p' s'
    | _, _ => false
    end.
  (** [needle in hay] for strings *)
  Fixpoint contains (needle hay : text) : bool :=
    starts needle hay || match hay with [] => false | _ :: r => contains needle r end.

  Definition strip_parens (t : text) : text :=
    match t with
    | c :: r =>
        if N.eqb c 40 && N.eqb (last t 0%N) 41 then removelast r else t
    | [] => t
    end.
  (** If.input_is_simple and symbols_making_expr_complex, base.py:1217-1225 *)
  Definition simple (t : text) : bool :=
    forallb (fun c => wordch c || N.eqb c 34 || N.eqb c 39) (strip_parens t).

  (** gen_code_and_update_ctx, base.py:312-324: [a] is the code of the predefined
      input, [r] the code generated for it *)
  Definition attach (a r : px) : px :=
    if negb (simple (print a)) && negb (contains (print a) (print r)) then PAttach a r else r.

  Variable pname : text -> text.       (* gen_name("i", ctx, code_input) *)
  Variable hname : list nat -> text.   (* names of helper functions *)

  Definition ascii_alpha (c : N) : bool :=
    (N.leb 65 c && N.leb c 90) || (N.leb 97 c && N.leb c 122).
  (** GetAttr.valid_attr, base.py:1349, applied to the attribute name itself; the
      code applies it to the code of the index, which has this form only for a
      str constant. *)
  Definition valid_attr (s : text) : bool :=
    match s with
    | c :: r => ascii_alpha c &&
                forallb (fun d => ascii_alpha d || (N.leb 48 d && N.leb d 57) || N.eqb d 95) r
    | [] => false
    end.
  (** wrap_path_item, base.py:1351-1355 *)
  Definition attr_code (a n : px) : px :=
    match n with
    | PLit (LStr s) => if valid_attr s then POp (OAttr s) [a] else POp OGetattr [a; n]
    | _ => POp OGetattr [a; n]
    end.

  (** Names of the InputArgs a conversion depends on (get_args, base.py:404-413,
      labels excluded), in the order the conversion mentions them. *)
  Fixpoint args_of (c : cv) : list text :=
    let opt (o : option cv) := match o with Some c => args_of c | None => [] end in
    match c with
    | CThis | CLit _ | CGlob _ | CLabel _ => []
    | CArg x => [x]
    | COp _ l | CBool _ l | CEqs l => flat_map args_of l
    | CAttr a n => args_of a ++ args_of n
    | CIf _ c t f => opt c ++ opt t ++ opt f
    | CDefault _ s idx d => opt s ++ flat_map args_of idx ++ args_of d
    | CComp _ elts cond => flat_map args_of elts ++ opt cond
    | CItems _ lines => flat_map (fun l => opt (fst l) ++ args_of (snd l)) lines
    | CCache _ c ls => args_of c ++ flat_map (fun l => args_of (snd l)) ls
    | CPipe a b => args_of a ++ args_of b
    | CTap o ms => args_of o ++ flat_map (fun m => flat_map args_of (snd m)) ms
    end.
  (** The parameters of a helper function (get_args_def_code(as_kwargs=False) and
      get_args_as_func_args, base.py:415-446): every name once, sorted by name. *)
  Definition params_of (c : cv) : list text := sort_names (nodup text_eq_dec (args_of c)).

  (** The code generator: gen_code_and_update_ctx / _gen_code_and_update_ctx.
      [q]: position, source of fresh names; [inp]: code_input.
      [fed]: whether [inp] is the code of the predefined input put at the bottom of
      the pipe of [c] (base.py:735-750), as If does with
      EscapedString(...).pipe(...), base.py:1242-1247. *)
  Fixpoint gen (fed : bool) (q : list nat) (c : cv) (inp : px) {struct c} : px :=
    let gens := fix gens (q : list nat) (i : nat) (l : list cv) (inp : px) : list px :=
                  match l with [] => [] | c :: r => gen false (i :: q) c inp :: gens q (S i) r inp end in
    let fin r := if fed then attach inp r else r in
    match c with
    | CThis => fin inp                                                  (* 1299-1306 *)
    | CLit l => fin (PLit l)                                            (* 939-949 *)
    | CGlob g => fin (PGlob g)                                          (* 950-954 *)
    | CArg x => fin (PName x)                                           (* 1059 *)
    | CLabel n => fin (PGet n)                                          (* 1075 *)
    | COp o l => fin (POp o (gens q 0 l inp))
    | CAttr a n => fin (attr_code (gen false (0 :: q) a inp) (gen false (1 :: q) n inp))
    | CBool isor l => fin (PBool isor (gens q 0 l inp))                   (* 1147-1165 *)
    | CEqs l => fin (PEqs (gens q 0 l inp))                               (* 1166-1172 *)
    | CIf nc co t f =>                                                  (* 1227-1253 *)
        let plain := simple (print inp) || nc in
        let k := P q in
        let ic := if plain then inp else PBool true [PAdd k inp; PGet k] in
        let ib := if plain then inp else PGet k in
        fin (PIf (match co with None => ic | Some c => gen true (0 :: q) c ic end)
                 (match t with None => ib | Some c => gen true (1 :: q) c ib end)
                 (match f with None => ib | Some c => gen true (2 :: q) c ib end))
    | CDefault at_ self idx d =>                                        (* 1308-1339 *)
        let obj := PName (T "obj_") in
        let over := match self with None | Some CThis => false | Some _ => true end in
        let selfc := match self with Some s => gen false (0 :: q) s inp | None => inp end in
        let body :=
          fold_left (fun a i => if at_ then attr_code a i else POp OItem [a; i])
                    (gens q 2 idx obj)
                    (PName (if over then T "self_" else T "obj_")) in
        fin (PDefault (hname q)
               ((if over then [selfc; inp] else [inp]) ++ [gen false (1 :: q) d inp]) body)
    | CComp k elts cond =>                                              (* 1519-1547 *)
        let x := pname (print inp) in
        fin (PComp k (gens q 1 elts (PName x)) x inp
               (match cond with
                | Some c => Some (gen false (0 :: q) c (PName x)) | None => None end))
    | CItems k lines =>                                                 (* 1648-1677 *)
        let data := PName (T "data_") in
        let ps := params_of c in
        fin (PItems (hname q) k (inp :: map PName ps) ps
               ((fix go i ls :=
                   match ls with
                   | [] => []
                   | (co, v) :: r =>
                       (match co with Some c => Some (gen false (0 :: i :: q) c data) | None => None end,
                        gen false (1 :: i :: q) v data) :: go (S i) r
                   end) 0 lines))
    | CCache n c ls =>                                                  (* 1014-1029 *)
        fin (PBool true
               (PAdd n (gen false (0 :: q) c inp) ::
                (fix go i ls :=
                   match ls with
                   | [] => [PGet n]
                   | (l, lc) :: r => PAdd l (gen false (i :: q) lc (PGet n)) :: go (S i) r
                   end) 1 ls))
    | CPipe a b =>                                                      (* 312-324 *)
        let code := gen fed (0 :: q) a inp in
        attach code (gen false (1 :: q) b code)
    | CTap o ms =>                                                      (* 1899-1918 *)
        let data := PName (T "data_") in
        let ps := params_of c in
        fin (PTap (hname q) (gen false (0 :: q) o inp :: map PName ps) ps
               ((fix go i ms :=
                   match ms with
                   | [] => []
                   | (k, l) :: r =>
                       (k, gens (i :: q) 0 l data) :: go (S i) r
                   end) 1 ms))
    end.
End Text.
