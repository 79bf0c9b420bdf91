(** What is written inside what, in conversions with aggregations and joins.
    Nothing here mentions dependencies. *)
From Coq Require Import List.
From Verif Require Import Model_Code Model_AggDeps Spec_Args.
Import ListNotations.

(** [below a g]: [a] is written directly inside [g], as something [g] computes
    with (neither a sort key nor a join condition). *)
Inductive below : gv -> gv -> Prop :=
| below_part l a : In a l -> below a (GParts l)
| below_reduce id l a : In a l -> below a (GReduce id l)
| below_key by_ out s a : In a by_ -> below a (GGroup by_ out s)
| below_output by_ out s : below out (GGroup by_ out s)
| below_left l r c : below l (GJoin l r c)
| below_right l r c : below r (GJoin l r c)
| below_first a b : below a (GPipe a b)
| below_second a b : below b (GPipe a b).
(** [gpart a g]: [a] is written directly inside [g]. *)
Inductive gpart : gv -> gv -> Prop :=
| gpart_below a g : below a g -> gpart a g
| gpart_sort by_ out ks a : In a ks -> gpart a (GGroup by_ out (Some ks))
| gpart_condition l r c : gpart (GPlain c) (GJoin l r c).

Inductive inside : gv -> gv -> Prop :=
| inside_itself g : inside g g
| inside_below a b g : inside a b -> below b g -> inside a g.
Inductive gwithin : gv -> gv -> Prop :=
| gwithin_itself g : gwithin g g
| gwithin_part a b g : gwithin a b -> gpart b g -> gwithin a g.

(** input argument [x] is used somewhere in [g] *)
Definition guses (g : gv) (x : text) : Prop := exists c, gwithin (GPlain c) g /\ uses c x.

(** no sort inside [g] uses an input argument in its key or in reverse *)
Definition gsorts_use_no_argument (g : gv) : Prop :=
  (forall c, gwithin (GPlain c) g -> sorts_use_no_argument c) /\
  (forall by_ out ks k x, gwithin (GGroup by_ out (Some ks)) g -> In k ks -> ~ guses k x).
(** no join condition reads a label *)
Definition conditions_read_no_label (g : gv) : Prop :=
  forall l r c n, gwithin (GJoin l r c) g -> ~ within (CLabel n) c.

(** reduce [id] of [g] that does not belong to a group_by or aggregate inside [g] *)
Inductive own_reduce (id : nat) : gv -> Prop :=
| own_itself l : own_reduce id (GReduce id l)
| own_below a g : own_reduce id a -> below a g -> (forall by_ out s, g <> GGroup by_ out s) -> own_reduce id g.

(** *** reduces inside reduces *)
(** some reduce is written inside [g], as something [g] computes with *)
Definition has_reduce (g : gv) : Prop := exists id parts, inside (GReduce id parts) g.
(** [g] is a reduce, or a pipe with a reduce among its stages *)
Inductive reduce_stage : gv -> Prop :=
| stage_reduce id parts : reduce_stage (GReduce id parts)
| stage_first a b : reduce_stage a -> reduce_stage (GPipe a b)
| stage_second a b : reduce_stage b -> reduce_stage (GPipe a b).
(** somewhere in [g] a reduce is written inside a reduce, or something with a
    reduce in it is piped into a reduce *)
Definition nested_reduces (g : gv) : Prop :=
  (exists id parts p, gwithin (GReduce id parts) g /\ In p parts /\ has_reduce p) \/
  (exists a b, gwithin (GPipe a b) g /\ has_reduce a /\ reduce_stage b).
