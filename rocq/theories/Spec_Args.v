(** What "an input argument used anywhere in a conversion" means, and the order
    of the parameters.  Nothing here mentions dependencies or signatures. *)
From Coq Require Import String List NArith.
From Verif Require Import Model_Code.
Import ListNotations.

(** [part a c]: [a] is written directly inside [c]. *)
Inductive part : cv -> cv -> Prop :=
| part_op o l a : In a l -> part a (COp o l)
| part_bool b l a : In a l -> part a (CBool b l)
| part_eqs l a : In a l -> part a (CEqs l)
| part_attr_object a n : part a (CAttr a n)
| part_attr_name a n : part n (CAttr a n)
| part_if_condition nc c t f : part c (CIf nc (Some c) t f)
| part_if_true nc c t f : part t (CIf nc c (Some t) f)
| part_if_false nc c t f : part f (CIf nc c t (Some f))
| part_default_self b s idx d : part s (CDefault b (Some s) idx d)
| part_default_index b s idx d a : In a idx -> part a (CDefault b s idx d)
| part_default_value b s idx d : part d (CDefault b s idx d)
| part_comp_element k elts co a : In a elts -> part a (CComp k elts co)
| part_comp_condition k elts c : part c (CComp k elts (Some c))
| part_items_condition k ls c e : In (Some c, e) ls -> part c (CItems k ls)
| part_items_element k ls co e : In (co, e) ls -> part e (CItems k ls)
| part_cached n c ls : part c (CCache n c ls)
| part_label n c ls nl e : In (nl, e) ls -> part e (CCache n c ls)
| part_pipe_first a b : part a (CPipe a b)
| part_pipe_second a b : part b (CPipe a b)
| part_tapped o ms : part o (CTap o ms)
| part_mutation o ms k l a : In (k, l) ms -> In a l -> part a (CTap o ms).

Inductive within : cv -> cv -> Prop :=
| within_itself c : within c c
| within_part a b c : within a b -> part b c -> within a c.

(** input argument [x] is used somewhere in [c] *)
Definition uses (c : cv) (x : text) : Prop := within (CArg x) c.

Definition is_sort (o : opn) : Prop :=
  match o with OSortedList | OSortedTuple | OSortedDict => True | _ => False end.
(** no sort(key=..., reverse=...) inside [c] uses an input argument in its key
    or in reverse *)
Definition sorts_use_no_argument (c : cv) : Prop :=
  forall o src key_reverse k x,
    within (COp o (src :: key_reverse)) c -> is_sort o -> In k key_reverse -> ~ uses k x.

(** alphabetical order (by code points) *)
Inductive before : text -> text -> Prop :=
| before_shorter a l : before [] (a :: l)
| before_smaller a b l l' : (a < b)%N -> before (a :: l) (b :: l')
| before_later a l l' : before l l' -> before (a :: l) (a :: l').

Fixpoint joined (sep : text) (l : list text) : text :=
  match l with
  | [] => []
  | [a] => a
  | a :: r => a ++ sep ++ joined sep r
  end.

(** [x] is one of the words of [s]: a non-empty run of word characters that
    cannot be extended on either side *)
Definition has_word (wordch : N -> bool) (s x : text) : Prop :=
  x <> [] /\ forallb wordch x = true /\
  exists a b, s = a ++ x ++ b /\
    (a = [] \/ exists a' c, a = a' ++ [c] /\ wordch c = false) /\
    (b = [] \/ exists c b', b = c :: b' /\ wordch c = false).
