(** What the user wrote, as a Python expression: the reading of a conversion made
    of operators only, independent of how code is generated. *)
From Coq Require Import String Ascii List NArith ZArith Bool Arith.
From Verif Require Import Model_Code Spec_Frag Spec_Syntax Spec_Tree.
Import ListNotations.

(** Attributes spelled a.n and getattr(a, 'n') are one and the same lookup. *)
Fixpoint desugar (a : ast) : ast :=
  match a with
  | AName _ | ANum _ | AStr _ | AConst _ => a
  | AUnary o a => AUnary o (desugar a)
  | ABin o a b => ABin o (desugar a) (desugar b)
  | ACompare a l => ACompare (desugar a) (map (fun p => (fst p, desugar (snd p))) l)
  | ANot a => ANot (desugar a)
  | ABool i l => ABool i (map desugar l)
  | AIf c t f => AIf (desugar c) (desugar t) (desugar f)
  | ASub a i => ASub (desugar a) (desugar i)
  | AAttr a n => call "getattr" [desugar a; AStr n]
  | ACall f l kws => ACall (desugar f) (map desugar l) (map (fun p => (fst p, desugar (snd p))) kws)
  | ATuple l => ATuple (map desugar l)
  | AList l => AList (map desugar l)
  | ASet l => ASet (map desugar l)
  | ADict l => ADict (map (fun p => (desugar (fst p), desugar (snd p))) l)
  | AComp k l x it co =>
      AComp k (map desugar l) x (desugar it) (match co with Some c => Some (desugar c) | None => None end)
  | AComp2 e x it y it2 co =>
      AComp2 (desugar e) x (desugar it) y (desugar it2) (match co with Some c => Some (desugar c) | None => None end)
  end.

(** Items, attributes, calls, operators, and / or / not / if, comparisons,
    collections and comprehensions, in any nesting. *)
Fixpoint operators (c : cv) : bool :=
  match c with
  | CThis | CLit _ | CGlob _ | CArg _ => true
  | COp (OAttr _) _ => false                    (* written as c.attr *)
  | COp _ l | CBool _ l | CEqs l => forallb operators l
  | CAttr a n => operators a && operators n
  | CIf _ c t f => optb operators c && optb operators t && optb operators f
  | CComp _ elts co => forallb operators elts && optb operators co
  | _ => false
  end.

Section Meant.
  Variable gname : nat -> text.
  Variable pname : text -> text.

  (** [x]: the variable holding the input.  The elements of a comprehension over
      it get the variable [pname x]. *)
  Fixpoint meant (x : text) (c : cv) {struct c} : ast :=
    let opt (o : option cv) := match o with Some c => meant x c | None => AName x end in
    match c with
    | CThis => AName x
    | CLit l => lit_tree l
    | CGlob g => AName (gname g)
    | CArg y => AName y
    | COp o l => op_tree o (map (meant x) l)
    | CAttr a n => call "getattr" [meant x a; meant x n]
    | CBool isor l => ABool isor (map (meant x) l)
    | CEqs l => match map (meant x) l with
                | a :: r => ACompare a (map (fun b => (T "==", b)) r)
                | [] => AConst []
                end
    | CIf _ c t f => AIf (opt c) (opt t) (opt f)
    | CComp k elts co =>
        comp_tree k (map (meant (pname x)) elts) (pname x) (AName x)
          (match co with Some c => Some (meant (pname x) c) | None => None end)
    | _ => AConst []
    end.
End Meant.
