(** Concrete names and functions used by the instances shown beside the theorems
    and by the refutations. *)
From Coq Require Import String Ascii List ZArith NArith Bool Arith.
From Verif Require Import Model_PyVal Model_Code Model_Eval Model_Python Model_Converter
  Spec_Frag Spec_Eval Spec_Converter.
Import ListNotations.

Definition word (c : N) : bool := ascii_alpha c || (N.leb 48 c && N.leb c 57) || N.eqb c 95.
Definition quote (s : text) : text := T "'" ++ s ++ T "'".
Definition gn (g : nat) : text := T "f" ++ ndec (N.of_nat g).
Definition pn (t : text) : text := T "i_" ++ filter word t.
Definition tn (t : text) : text := T "pipe_" ++ filter word t.
Definition hn (q : list nat) : text := T "helper".
Definition pnum0 (q : list nat) : nat := length q.

Lemma demo_names : names_ok word quote gn pn hn tn.
Proof.
  constructor; try (intros; discriminate); try reflexivity.
  - intros t. split; [|discriminate]. unfold pn. rewrite forallb_app, andb_true_iff.
    split; [reflexivity|]. apply forallb_forall. intros c Hc. now apply filter_In in Hc.
  - intros t. split; [|discriminate]. unfold tn. rewrite forallb_app, andb_true_iff.
    split; [reflexivity|]. apply forallb_forall. intros c Hc. now apply filter_In in Hc.
Qed.

(** Every call is recorded.  f0(x) = x + 1, f1 raises, f2(x) = x, any other
    function returns the tuple of its arguments. *)
Definition tcall (f : val) (a : list val) (kw : list (text * val)) (w : list (nat * list val))
  : list (nat * list val) * out exc val :=
  match f with
  | VObj i =>
      (w ++ [(i, a)],
       match i, a with
       | 0, [x] => of_res (py_add x (VInt 1))
       | 1, _ => Exc (UserError 1)
       | 2, [x] => Val x
       | _, _ => Val (VTuple a)
       end)
  | _ => (w, Exc TypeError)
  end.
Definition tattr (v : val) (s : string) (w : list (nat * list val)) : list (nat * list val) * out exc val :=
  (w, Exc AttributeError).
Definition tpy := python tcall tattr.
Definition nolab : @labels val := fun _ => None.

Lemma python_ok {W} call getattr : py_ok (@python W call getattr) .
Proof. split; reflexivity. Qed.
Lemma python_tests {W} call getattr : tests_ok (@python W call getattr).
Proof. intros v w. eexists. reflexivity. Qed.

(** calls made and result of a converter *)
Definition tconv (c : cv) (args : list (text * val)) (v : val) : list (nat * list val) * out exc val :=
  let '((w, _), r) := call_converter word quote gn pnum0 pn hn tn tpy c args v ([], nolab) in (w, r).
Definition tden (c : cv) (args : list (text * val)) (v : val) : list (nat * list val) * out exc val :=
  let '((w, _), r) := den tpy args c v ([], nolab) in (w, r).

Definition str (s : string) : cv := CLit (LStr (T s)).
Definition int (z : Z) : cv := CLit (LInt z).
Definition fcall (f : nat) (l : list cv) : cv := ccall (Some (CGlob f)) l [].
Definition key (s : string) : cv := citem None [str s].
