(** c.inline_expr(code).pass_args(...): /repo/src/convtools/base.py:1418-1466, with
    the part of str.format that templates use. *)
From Coq Require Import String Ascii List NArith Bool Arith.
From Verif Require Import Model_Code.
Import ListNotations.

(** *** str.format (CPython's Objects/stringlib/unicode_format.h) *)
(** AutoNumberState: {} and {0} cannot be mixed. *)
Inductive numbering : Type := Undecided | Automatic (n : nat) | Manual.
(** where the scan is: outside of fields, after one brace, inside a field *)
Inductive scan : Type := Outside | Opened | Closed | Inside (f : text).
Definition decimal (c : N) : bool := N.leb 48 c && N.leb c 57.
Definition number (f : text) : nat := N.to_nat (fold_left (fun n c => 10 * n + (c - 48))%N f 0%N).
(** Field names with . [ ! : or { in them (attributes, items, conversions, format
    specifications, nested fields) are left out: no result. *)
Definition special (c : N) : bool := existsb (N.eqb c) [46; 91; 33; 58; 123]%N.
Fixpoint keyword_value (k : text) (kws : list (text * text)) : option text :=
  match kws with
  | [] => None                                                          (* KeyError *)
  | (k', v) :: r => if teqb k k' then Some v else keyword_value k r
  end.
Section Format.
  Variable args : list text.
  Variable kws : list (text * text).
  Definition field_value (m : numbering) (f : text) : option (text * numbering) :=
    match f with
    | [] =>
        let at_ n := match nth_error args n with Some v => Some (v, Automatic (S n)) | None => None end in
        match m with
        | Undecided => at_ 0
        | Automatic n => at_ n
        | Manual => None                                                (* ValueError *)
        end
    | _ =>
        if forallb decimal f then
          match m with
          | Automatic _ => None                                         (* ValueError *)
          | _ => match nth_error args (number f) with Some v => Some (v, Manual) | None => None end
          end
        else match keyword_value f kws with Some v => Some (v, m) | None => None end
    end.
  (** None: an exception, or something left out *)
  Fixpoint format (m : numbering) (s : scan) (t : text) : option text :=
    match t with
    | [] => match s with Outside => Some [] | _ => None end             (* ValueError: single brace *)
    | c :: r =>
        let inside f :=
          if N.eqb c 125 then
            match field_value m f with
            | Some (v, m') => option_map (app v) (format m' Outside r)
            | None => None
            end
          else if special c then None
          else format m (Inside (f ++ [c])) r in
        match s with
        | Outside => if N.eqb c 123 then format m Opened r
                     else if N.eqb c 125 then format m Closed r
                     else option_map (cons c) (format m Outside r)
        | Opened => if N.eqb c 123 then option_map (cons c) (format m Outside r) else inside []
        | Closed => if N.eqb c 125 then option_map (cons c) (format m Outside r) else None
        | Inside f => inside f
        end
    end.
End Format.
Definition str_format (t : text) (args : list text) (kws : list (text * text)) : option text :=
  format args kws Undecided Outside t.

(** *** InlineExpr *)
(** Conversions whose root may be an InlineExpr; its arguments again.  InlineExpr
    below other conversions is not modelled, nor one with a predefined input. *)
Inductive icv : Type :=
| IConv (c : cv)
| IInline (code_str : text) (args : list icv) (kwargs : list (text * icv)).

Section Inline.
  Variable wordch : N -> bool.
  Variable srepr : text -> text.
  Variable gname : nat -> text.
  Variable pnum : list nat -> nat.
  Variable pname : text -> text.
  Variable hname : list nat -> text.
  (** _gen_code_and_update_ctx, base.py:1455-1466.  [q]: position of the conversion,
      [inp]: code_input. *)
  Fixpoint icode (inp : px) (q : list nat) (i : icv) : option text :=
    match i with
    | IConv c => Some (print srepr gname pnum (gen wordch srepr gname pnum pname hname false q c inp))
    | IInline t args kwargs =>
        let codes := fix codes (k : nat) (l : list icv) : option (list text) :=
          match l with
          | [] => Some []
          | i :: r => match icode inp (k :: q) i, codes (S k) r with
                      | Some a, Some b => Some (a :: b)
                      | _, _ => None
                      end
          end in
        let kcodes := fix kcodes (k : nat) (l : list (text * icv)) : option (list (text * text)) :=
          match l with
          | [] => Some []
          | (x, i) :: r => match icode inp (k :: q) i, kcodes (S k) r with
                           | Some a, Some b => Some ((x, a) :: b)
                           | _, _ => None
                           end
          end in
        match codes 0 args, kcodes (length args) kwargs with
        | Some l, Some ks => option_map (fun s => T "(" ++ s ++ T ")") (str_format t l ks)
        | _, _ => None
        end
    end.
End Inline.

(** The templates of BaseConversion's own operators, base.py:220, 602, 636-730. *)
Definition operator_templates : list (text * text) :=
  map (fun o => (T o, T "{0} " ++ T o ++ T " {1}"))
    ["is"; "is not"; "in"; "not in"; "!="; ">"; ">="; "<"; "<="; "+"; "*"; "-"; "/"; "%"; "//"]%string.
