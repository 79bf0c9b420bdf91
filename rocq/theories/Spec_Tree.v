(** The expression each piece of generated code is meant to be: the syntax tree
    Python should build from its text. *)
From Coq Require Import String Ascii List NArith ZArith Bool Arith.
From Verif Require Import Model_Code Spec_Frag Spec_Syntax.
Import ListNotations.

Definition lit_tree (l : lit) : ast :=
  match l with
  | LNone => AConst (T "None")
  | LBool true => AConst (T "True")
  | LBool false => AConst (T "False")
  | LInt z => if Z.ltb z 0 then AUnary (T "-") (ANum (Z.to_N (- z))) else ANum (Z.to_N z)
  | LStr s => AStr s
  end.

(** the operators of the comparison level: all of these chain *)
Definition compares (o : text) : bool :=
  existsb (teqb o) (map T ["is"; "is not"; "in"; "not in"; "!="; ">"; ">="; "<"; "<="; "=="]%string).
Definition computes (o : text) : bool :=
  existsb (teqb o) (map T ["+"; "*"; "-"; "/"; "%"; "//"]%string).

Definition call (f : string) (l : list ast) : ast := ACall (AName (T f)) l [].
Fixpoint two_by_two (l : list ast) : list (ast * ast) :=
  match l with a :: b :: r => (a, b) :: two_by_two r | _ => [] end.
Definition nth_a (l : list ast) (i : nat) : ast := nth i l (AConst []).

Definition op_tree (o : opn) (l : list ast) : ast :=
  match o with
  | OItem => ASub (nth_a l 0) (nth_a l 1)
  | OAttr n => AAttr (nth_a l 0) n
  | OGetattr => call "getattr" l
  | OCall np kws => ACall (nth_a l 0) (firstn np (tl l)) (combine kws (skipn np (tl l)))
  | OBin o => if compares o then ACompare (nth_a l 0) [(o, nth_a l 1)] else ABin o (nth_a l 0) (nth_a l 1)
  | ONot => ANot (nth_a l 0)
  | ONeg => AUnary (T "-") (nth_a l 0)
  | OSlice => call "slice" l
  | OTuple => ATuple l
  | OList => AList l
  | OSet => ASet l
  | ODict => ADict (two_by_two l)
  | OSortedList =>
      ACall (AName (T "sorted")) [nth_a l 0] [(T "key", nth_a l 1); (T "reverse", nth_a l 2)]
  | OSortedTuple =>
      call "tuple" [ACall (AName (T "sorted")) [nth_a l 0] [(T "key", nth_a l 1); (T "reverse", nth_a l 2)]]
  | OSortedDict =>
      call "OrderedDict" [ACall (AName (T "sorted")) [nth_a l 0] [(T "key", nth_a l 1); (T "reverse", nth_a l 2)]]
  end.

Definition comp_tree (k : ckind) (elts : list ast) (x : text) (it : ast) (cond : option ast) : ast :=
  match k with
  | KList => AComp GList elts x it cond
  | KTuple => call "tuple" [AComp GGen elts x it cond]
  | KSet => AComp GSet elts x it cond
  | KDict => AComp GDict elts x it cond
  | KSrc => AComp GGen elts x it cond
  | KSrcPair => AComp GGen [ATuple elts] x it cond
  end.

Section Tree.
  Variable gname : nat -> text.
  Variable pnum : list nat -> nat.
  Notation label n := (label_text pnum n).

  Fixpoint tree (e : px) : ast :=
    match e with
    | PName x => AName x
    | PLit l => lit_tree l
    | PGlob g => AName (gname g)
    | POp o l => op_tree o (map tree l)
    | PBool isor l => ABool isor (map tree l)
    | PEqs l => match map tree l with
                | a :: r => ACompare a (map (fun b => (T "==", b)) r)
                | [] => AConst []
                end
    | PIf c t f => AIf (tree c) (tree t) (tree f)
    | PAttach a b => ABool true [ABool false [tree a; AConst (T "None")]; tree b]
    | PAdd n e => call "add_label_" [AStr (label n); tree e]
    | PGet n => call "get_by_label_" [AStr (label n)]
    | PComp k elts x it cond =>
        comp_tree k (map tree elts) x (tree it) (match cond with Some c => Some (tree c) | None => None end)
    | PDefault f args _ => ACall (AName f) (map tree args) []
    | PItems f k args _ _ => ACall (AName (kind_text k)) [ACall (AName f) (map tree args) []] []
    | PTap f args _ _ => ACall (AName f) (map tree args) []
    end.

  (** *** well-formed code *)
  Definition is_int (e : px) : bool := match e with PLit (LInt _) => true | _ => false end.
  Definition base_int (l : list px) : bool := match l with e :: _ => is_int e | [] => false end.
  Fixpoint distinct (l : list text) : bool :=
    match l with [] => true | x :: r => negb (existsb (teqb x) r) && distinct r end.
  (** characters a label may contain: it is put between quotes as it is *)
  Definition label_char (c : N) : bool :=
    negb (N.eqb c 39 || N.eqb c 92 || N.eqb c 10 || N.eqb c 13 || N.eqb c 0 || surrogate c).

  Definition op_ok (o : opn) (l : list px) : bool :=
    wf_op o (length l) &&
    match o with
    | OItem => negb (base_int l)
    | OAttr n => ident n && negb (base_int l)
    | OCall _ kws => negb (base_int l) && forallb ident kws && distinct kws
    | OBin o => compares o || computes o
    | _ => true
    end.

  Fixpoint readable (e : px) : bool :=
    match e with
    | PName x => ident x
    | PLit (LStr s) => is_str s
    | PLit _ => true
    | PGlob g => ident (gname g)
    | POp o l => op_ok o l && forallb readable l
    | PBool _ l | PEqs l => Nat.leb 2 (length l) && forallb readable l
    | PIf c t f => readable c && readable t && readable f
    | PAttach a b => readable a && readable b
    | PAdd n e => forallb label_char (label n) && readable e
    | PGet n => forallb label_char (label n)
    | PComp k elts x it cond =>
        wf_comp k (length elts) && ident x && forallb readable elts && readable it &&
        (match cond with Some c => readable c | None => true end)
    | PDefault f args body => ident f && forallb readable args && readable body
    | PItems f _ args _ lines =>
        ident f && forallb readable args &&
        forallb (fun l => (match fst l with Some c => readable c | None => true end) && readable (snd l)) lines
    | PTap f args _ stmts =>
        ident f && forallb readable args && forallb (fun s => forallb readable (snd s)) stmts
    end.
End Tree.

(** The expressions inside the helper functions that code calls; each is compiled
    as a text of its own. *)
Fixpoint helpers (e : px) : list px :=
  let opt (o : option px) := match o with Some c => helpers c | None => [] end in
  match e with
  | PName _ | PLit _ | PGlob _ | PGet _ => []
  | POp _ l | PBool _ l | PEqs l => flat_map helpers l
  | PIf c t f => helpers c ++ helpers t ++ helpers f
  | PAttach a b => helpers a ++ helpers b
  | PAdd _ e => helpers e
  | PComp _ elts _ it cond => flat_map helpers elts ++ helpers it ++ opt cond
  | PDefault _ args body => flat_map helpers args ++ body :: helpers body
  | PItems _ _ args _ lines =>
      flat_map helpers args ++
      flat_map (fun l => (match fst l with Some c => c :: helpers c | None => [] end) ++ snd l :: helpers (snd l)) lines
  | PTap _ args _ stmts =>
      flat_map helpers args ++ flat_map (fun s => snd s ++ flat_map helpers (snd s)) stmts
  end.
