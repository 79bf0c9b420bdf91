(** What the theorems about compiled converters assume and conclude. *)
From Coq Require Import String List ZArith NArith Bool Arith.
From Verif Require Import Model_Code Model_Eval Spec_Frag Spec_Eval.
Import ListNotations.

(** Facts about Python used: None is falsy, a.n is getattr(a, "n"). *)
Definition py_ok {V W X} (pr : prims V W X) : Prop :=
  (forall w, truth pr (litv pr LNone) w = (w, Val false)) /\
  (forall s v w, op pr (OAttr s) [v] w = op pr OGetattr [v; litv pr (LStr s)] w).

(** Truth tests never fail and have no effect.  True of built-in values; not of
    objects with their own __bool__ (numpy arrays raise). *)
Definition tests_ok {V W X} (pr : prims V W X) : Prop :=
  forall v w, exists b, truth pr v w = (w, Val b).

(** Facts about the texts the generator uses: [\w] on ASCII, and that names and
    string literals are not empty. [N] stands for the variable names "i_..", "pipe_..". *)
Record names_ok (wordch : N -> bool) (srepr : text -> text) (gname : nat -> text)
       (pname : text -> text) (hname : list nat -> text) (tname : text -> text) : Prop := {
  nk_word : forall c, (c < 128)%N ->
    wordch c = (ascii_alpha c || (N.leb 48 c && N.leb c 57) || N.eqb c 95);
  nk_g : forall g, gname g <> [];
  nk_h : forall q, hname q <> [];
  nk_s : forall s, srepr s <> [];
  nk_p : forall t, forallb wordch (pname t) = true /\ pname t <> [];
  nk_t : forall t, forallb wordch (tname t) = true /\ tname t <> []
}.

(** Every input argument the conversion uses is passed, and none has the name of
    a variable of the generated code. *)
Definition args_ok {V} (pname tname : text -> text) (args : list (text * V)) (c : cv) : Prop :=
  forall y, In y (args_of c) ->
    y <> [] /\ y <> T "data_" /\ (forall t, pname t <> y) /\ (forall t, tname t <> y) /\
    exists u, In (y, u) args.

(** The stages s1, s2, ..., sn of a pipe one after the other. *)
Fixpoint in_turn {V W X} (pr : prims V W X) (args : list (text * V)) (l : list cv) (v : V) : @M V W X V :=
  match l with
  | [] => ret v
  | c :: r => bind (den pr args c v) (in_turn pr args r)
  end.
(** s1.pipe(s2). ... .pipe(sn) *)
Definition pipe_all (c : cv) (l : list cv) : cv := fold_left cpipe l c.

(** The same value or exception, the same effects, the same labels (the names
    If invents for itself aside). *)
Definition same {V W X B} (r r' : @st V W * out X B) : Prop :=
  fst (fst r) = fst (fst r') /\ snd r = snd r' /\
  forall n, user_name n = true -> snd (fst r) n = snd (fst r') n.

(** One stage compiled and run by itself: [x] is the variable holding its input,
    only that variable and the input arguments are in scope.  [q]: where it stands,
    which decides the fresh names in its code. *)
Section Alone.
  Variable wordch : N -> bool.
  Variable srepr : text -> text.
  Variable gname : nat -> text.
  Variable pnum : list nat -> nat.
  Variable pname : text -> text.
  Variable hname : list nat -> text.
  Context {V W X : Type}.
  Definition alone (pr : prims V W X) (args : list (text * V)) (q : list nat) (x : text) (c : cv) (v : V) : @M V W X V :=
    eval pr ((x, v) :: args) (gen wordch srepr gname pnum pname hname false q c (PName x)).
  Fixpoint alone_in_turn (tname : text -> text) (pr : prims V W X) (args : list (text * V))
           (i : nat) (x : text) (l : list cv) (v : V) : @M V W X V :=
    match l with
    | [] => ret v
    | c :: r => bind (alone pr args [i] x c v) (alone_in_turn tname pr args (S i) (tname x) r)
    end.
End Alone.
