(** The conversions whose generated code is covered by the theorems about syntax. *)
From Coq Require Import String Ascii List NArith ZArith Bool Arith.
From Verif Require Import Model_Code Spec_Frag Spec_Syntax Spec_Tree.
Import ListNotations.

(** Names the generator picks are identifiers. *)
Definition names_plain (gname : nat -> text) (pname : text -> text) (hname : list nat -> text) : Prop :=
  (forall g, ident (gname g) = true) /\ (forall t, ident (pname t) = true) /\ (forall q, ident (hname q) = true).

(** The conversion may be an integer constant ([i]: so may its input). *)
Fixpoint intlike (i : bool) (c : cv) : bool :=
  match c with
  | CThis => i
  | CLit (LInt _) => true
  | CPipe a b => intlike (intlike i a) b
  | _ => false
  end.
Definition lab_ok (n : lname) : bool := match n with U s => forallb label_char s | _ => true end.
(** A constant attribute name is not a keyword; any other name is computed. *)
Definition name_ok (n : cv) : bool :=
  match n with CLit (LStr s) => negb (keyword s) | CThis | CPipe _ _ => false | _ => true end.

(** Operations get the operands they need; input arguments and keyword arguments
    are identifiers; no item, attribute or call is applied to an integer constant;
    no attribute is named like a keyword; labels contain no quote, backslash or
    line break; strings are strings. *)
Fixpoint writable (i : bool) (c : cv) {struct c} : bool :=
  match c with
  | CThis | CGlob _ => true
  | CLit (LStr s) => is_str s
  | CLit _ => true
  | CArg x => ident x
  | CLabel n => lab_ok n
  | COp o l =>
      wf_op o (length l) &&
      match o with
      | OItem => negb (match l with a :: _ => intlike i a | [] => false end)
      | OAttr n => ident n && negb (match l with a :: _ => intlike i a | [] => false end)
      | OCall _ kws => negb (match l with a :: _ => intlike i a | [] => false end) && forallb ident kws && distinct kws
      | OBin o => compares o || computes o
      | _ => true
      end && forallb (writable i) l
  | CAttr a n => negb (intlike i a) && name_ok n && writable i a && writable i n
  | CBool _ l | CEqs l => Nat.leb 2 (length l) && forallb (writable i) l
  | CIf _ co t f => optb (writable i) co && optb (writable i) t && optb (writable i) f
  | CDefault at_ self idx d =>
      optb (writable i) self && forallb (writable false) idx && writable i d && (negb at_ || forallb name_ok idx)
  | CComp k elts co => wf_comp k (length elts) && forallb (writable false) elts && optb (writable false) co
  | CItems _ lines => forallb (fun l => optb (writable false) (fst l) && writable false (snd l)) lines
  | CCache n c ls =>
      lab_ok n && writable i c && forallb (fun l => lab_ok (fst l) && writable false (snd l)) ls
  | CPipe a b => writable i a && writable (intlike i a) b
  | CTap o ms => writable i o && forallb (fun m => forallb (writable false) (snd m)) ms
  end.
