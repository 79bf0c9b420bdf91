(** C55, the class of the groups: its text is that of a class whose instances have the
    attributes v0, v1, ... of the reduces, all referring to the sentinel.  This is what
    Spec_AggModule.class_ok assumes of the class. *)
From Coq Require Import String Ascii List NArith ZArith Bool Arith Lia.
From Verif Require Import Model_PyVal Model_Code Model_AggText Model_ClassText Spec_Syntax Spec_Stmt Spec_FuncText Spec_FuncRun Spec_AggRun Spec_ClassText
  Proofs_ClassText.
Import ListNotations.

(** For any number of reduces but none. *)
Theorem C55_class n : n <> 0 ->
  exists body, defines_class (class_text n) (T "AggData") (map attribute (seq 0 n)) body /\
  forall globals, globals (T "_none") = Some RSent ->
    construct globals (map attribute (seq 0 n)) body [] = Ok (map (fun x => (x, RSent)) (map attribute (seq 0 n))).
Proof.
  intros N. exists (init_stmts n). split; [exact (class_read n N)|]. intros globals G.
  rewrite (map_map attribute). apply (construct_all globals _ G (seq 0 n) []).
  - intros i I. apply in_map_iff. exists i. split; [reflexivity|exact I].
  - apply seq_NoDup.
Qed.
(** two reduces *)
Example C55_class_text : class_text 2 = T "class AggData:" ++ [10%N] ++ T "    __slots__ = ['v0', 'v1']" ++ [10%N] ++
  T "    def __init__(self):" ++ [10%N] ++ T "        self.v0 = _none" ++ [10%N] ++ T "        self.v1 = _none".
Proof. reflexivity. Qed.
Example C55_class_case : exists body, defines_class (class_text 2) (T "AggData") [T "v0"; T "v1"] body /\
  construct (fun _ => Some RSent) [T "v0"; T "v1"] body [] = Ok [(T "v0", RSent); (T "v1", RSent)].
Proof.
  destruct (C55_class 2 ltac:(lia)) as (body & D & C). exists body. split; [exact D|]. exact (C (fun _ => Some RSent) eq_refl).
Qed.

(** c.group_by(c.item("k")).aggregate(c.item("k")), the distinct keys: without reduces the
    constructor has no body, and the text is not that of a class. *)
Theorem C55_no_reduce_refuted : ~ exists cls slots body, defines_class (class_text 0) cls slots body.
Proof.
  intros (cls & slots & body & l1 & e & l2 & rest & L & _ & _ & _ & _ & F & NE).
  assert (E : lines (class_text 0) = [T "class AggData:"; T "    __slots__ = []"; T "    def __init__(self):"; []]) by reflexivity.
  rewrite E in L. injection L as _ _ _ <-. inversion F as [|l s ? r (u & [I U] & _) F']; subst.
  destruct u; [contradiction|]. discriminate I.
Qed.

Print Assumptions C55_class.
Print Assumptions C55_no_reduce_refuted.
