(** Vocabulary for C34: what is known about the codes of a reduce. *)
From Coq Require Import String List ZArith NArith Bool Arith.
From Verif Require Import Model_Reducers Model_Code Model_AggText.
Import ListNotations.

(** Characters of Python names. *)
Definition wordc (c : N) : bool :=
  (N.leb 48 c && N.leb c 57) || (N.leb 65 c && N.leb c 90) || N.eqb c 95 || (N.leb 97 c && N.leb c 122) || N.leb 128 c.
Definition is_word (t : text) : Prop := t <> [] /\ forallb wordc t = true.
(** f(,... is not an expression *)
Definition not_call_of_nothing (t : text) : Prop := forall f r, is_word f -> t <> f ++ 40%N :: 44%N :: r.
(** What every expression written on one line satisfies. *)
Record expression_text (t : text) : Prop := {
  not_empty : t <> [];
  one_line : ~ In 10%N t;
  no_leading_comma : forall r, t <> 44%N :: r;
  well_called : not_call_of_nothing t
}.

(** The codes of the parts of a reduce. *)
Definition parts (q : rcode) : list text :=
  r_expr q :: r_extras q ++
  (match r_cond q with Some c => [c] | None => [] end) ++
  (match r_initial q with Some i => [i] | None => [] end).
(** A reduce by a built-in reducer or a callable: *)
Definition well_formed (q : rcode) : Prop :=
  (forall t, In t (parts q) -> expression_text t) /\
  match r_op q with
  | Func f => is_word f
  | Stmts b => r_extras q <> [] \/
      In b [Sum; SumOrNone; Max; Min; Count; CountDistinct; First; Last; Array; ArrayDistinct; DictCount]
  | Inline _ => False
  end.
(** No code of it contains the text [t]. *)
Definition free_of (t : text) (q : rcode) : Prop :=
  (forall p, In p (parts q) -> contains t p = false) /\
  match r_op q with Func f => contains t f = false | _ => True end.
(** No initial value for Max, Min, MaxRow, MinRow, DictMax, DictMin. *)
Definition plain_initial (q : rcode) : Prop :=
  match r_op q with Stmts b => builtin_uncond b = true \/ r_initial q = None | _ => True end.

(** The two reduces have the same code, whatever the variable is called. *)
Definition same_block (q q' : rcode) : Prop :=
  r_cond q = r_cond q' /\
  forall x, reduce_initial q x = reduce_initial q' x /\ reduce_two q x = reduce_two q' x.
