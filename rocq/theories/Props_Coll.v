(** C22 (optional items), C23 (collections), C24 (comprehensions), C25 (sort), on
    Python's built-in values with arbitrary user functions. *)
From Coq Require Import String List ZArith NArith Bool Arith Sorted Permutation.
From Verif Require Import Model_PyVal Model_Code Model_Eval Model_Converter Model_Python Model_Api Spec_Frag Spec_Eval
  Spec_Reducers Spec_Converter Spec_Coll Spec_Demo Proofs_Reducers Proofs_Converter Proofs_Coll.
Import ListNotations.
Open Scope list_scope.

Section Statements.
  Context {W : Type}.
  Variable call : val -> list val -> list (text * val) -> W -> W * out exc val.
  Variable getattr : val -> string -> W -> W * out exc val.
  Variables (wordch : N -> bool) (srepr : text -> text) (gname : nat -> text) (pnum : list nat -> nat)
            (pname : text -> text) (hname : list nat -> text) (tname : text -> text).
  Hypothesis Hn : names_ok wordch srepr gname pname hname tname.
  Notation pr := (python call getattr).
  Notation call_converter := (call_converter wordch srepr gname pnum pname hname tname pr).
  Notation contributes := (contributes call getattr).
  Notation contributes2 := (contributes2 call getattr).
  Notation yields := (yields call getattr).
  Notation yields2 := (yields2 call getattr).

  (** [c] is a conversion the theorems about compiled code cover, and its input
      arguments are passed. *)
  Definition covered (args : list (text * val)) (c : cv) : Prop :=
    args_ok pname tname args c /\ forallb (frag true false false) (stages c) = true.

  Lemma reads args c v x : covered args c -> gives call getattr args c v x ->
    forall s, just (call_converter c args v s) s x.
  Proof.
    intros [Ha Hf] Hg s. unfold just.
    assert (H := converter_reads pr (python_ok call getattr) true (fun _ => python_tests call getattr)
                   wordch srepr gname pnum pname hname tname Hn args c v Ha Hf s).
    now rewrite (Hg s) in H.
  Qed.

  (** C22 and C23 for lists, tuples and sets: the converter returns the collection
      of what the entries contribute, in order; and has no effect of its own. *)
  Theorem C22_optional_items : forall k l is args v xss,
    make_all l = Some is -> covered args (coll k is) ->
    Forall2 (contributes args v) l xss -> fits k (concat xss) ->
    forall s, just (call_converter (coll k is) args v s) s (holding k (concat xss)).
  Proof. intros k l is args v xss Hm Hc HF Hk s. apply reads; auto. now apply (coll_den call getattr args k l). Qed.

  (** ... and for dicts *)
  Theorem C22_optional_dict_items : forall l is args v pss,
    make_pairs l = Some is -> covered args (dict is) ->
    Forall2 (contributes2 args v) l pss -> (forall x, In x (map fst (concat pss)) -> hashable x = true) ->
    exists d, dict_of (concat pss) d /\
      forall s, just (call_converter (dict is) args v s) s (VDict d).
  Proof.
    intros l is args v pss Hm Hc HF Hk. exists (fold_dict (concat pss) []). split; [now apply fold_dict_of|].
    intros s. apply reads; auto. now apply (dict_den call getattr args l).
  Qed.

  (** C23: collections without optional items. *)
  Theorem C23_collections_partial : forall k cs args v xs,
    covered args (coll k (map Req cs)) ->
    Forall2 (fun c x => gives call getattr args c v x) cs xs -> fits k xs ->
    forall s, just (call_converter (coll k (map Req cs)) args v s) s (holding k xs).
  Proof.
    intros k cs args v xs Hc HF Hk s.
    assert (E : concat (map (fun x => [x]) xs) = xs) by (clear; induction xs; cbn; congruence).
    assert (T := C22_optional_items k (map Plain cs) (map Req cs) args v (map (fun x => [x]) xs)).
    rewrite E in T. apply T; auto.
    - clear. induction cs as [|c cs IH]; [reflexivity|]. cbn in *. now rewrite IH.
    - clear - HF. induction HF; cbn; constructor; auto. apply There; [constructor|auto].
  Qed.
  Theorem C23_dicts : forall cs args v ps,
    covered args (dict (map (fun p => (Req (fst p), Req (snd p))) cs)) ->
    Forall2 (fun c p => gives call getattr args (fst c) v (fst p) /\ gives call getattr args (snd c) v (snd p)) cs ps ->
    (forall x, In x (map fst ps) -> hashable x = true) ->
    exists d, dict_of ps d /\
      forall s, just (call_converter (dict (map (fun p => (Req (fst p), Req (snd p))) cs)) args v s) s (VDict d).
  Proof.
    intros cs args v ps Hc HF Hk.
    assert (E : concat (map (fun x => [x]) ps) = ps) by (clear; induction ps; cbn; congruence).
    assert (T := C22_optional_dict_items (map (fun p => (Plain (fst p), Plain (snd p))) cs)
                   (map (fun p => (Req (fst p), Req (snd p))) cs) args v (map (fun x => [x]) ps)).
    rewrite E in T. apply T; auto.
    - clear. induction cs as [|c cs IH]; [reflexivity|]. cbn in *. now rewrite IH.
    - clear - HF. induction HF as [|c [p q] cs ps [H1 H2] HF IH]; cbn; constructor; auto.
      apply There2; try constructor; auto.
  Qed.

  (** C24: [yss] lists what each item of the input yields. *)
  Theorem C24_comprehension : forall k co e c args v xs yss,
    comprehension (match k with KTuple => CoTuple e | KSet => CoSet e | _ => CoList e end) co None = Some c ->
    covered args c ->
    items_of v = Ok xs -> Forall2 (yields args co e) xs yss -> fits k (concat yss) ->
    forall s, just (call_converter c args v s) s (holding k (concat yss)).
  Proof.
    intros k co e c args v xs yss Hc Hcov Hi HF Hk s. apply reads; auto. intros t.
    destruct k; try destruct Hk; injection Hc as <-; rewrite (comp_den call getattr args _ co e v xs yss Hi HF).
    - now rewrite pushes_list.
    - now rewrite pushes_tuple.
    - rewrite pushes_set by exact Hk. now rewrite fold_vadd_nil by exact Hk.
  Qed.
  Theorem C24_dict_comprehension : forall co ek ev c args v xs pss,
    comprehension (CoDict ek ev) co None = Some c -> covered args c ->
    items_of v = Ok xs -> Forall2 (yields2 args co ek ev) xs pss ->
    (forall x, In x (map fst (concat pss)) -> hashable x = true) ->
    exists d, dict_of (concat pss) d /\ forall s, just (call_converter c args v s) s (VDict d).
  Proof.
    intros co ek ev c args v xs pss Hc Hcov Hi HF Hk. exists (fold_dict (concat pss) []). split; [now apply fold_dict_of|].
    intros s. apply reads; auto. intros t. injection Hc as <-.
    rewrite (comp2_den call getattr args _ co ek ev v xs pss Hi HF). now rewrite pushes_dict by exact Hk.
  Qed.

  (** C25: sorting lists and tuples *)
  Theorem C25_sorted : forall k co e sk rv key c args v xs yss,
    k = KList \/ k = KTuple ->
    comprehension (match k with KTuple => CoTuple e | _ => CoList e end) co (Some (sk, rv)) = Some c ->
    covered args c ->
    items_of v = Ok xs -> Forall2 (yields args co e) xs yss ->
    keyfun call sk key (concat yss) -> ordered (map key (concat yss)) ->
    exists ys, sorted_by key rv (concat yss) ys /\
      forall s, just (call_converter c args v s) s (holding k ys).
  Proof.
    intros k co e sk rv key c args v xs yss Hk Hc Hcov Hi HF Hkey Ho.
    destruct (sorted_ok call sk key rv (VList (concat yss)) (concat yss) eq_refl Hkey Ho) as (ys & Hs & E).
    exists ys. split; [exact Hs|]. intros s. apply reads; auto. intros [w L].
    destruct Hk; subst k; injection Hc as <-.
    - rewrite (sorted_den call getattr args OSortedList _ sk rv (concat yss) ys); auto.
      rewrite (comp_den call getattr args _ co e v xs yss Hi HF), pushes_list. reflexivity.
    - rewrite (sorted_den call getattr args OSortedTuple _ sk rv (concat yss) ys); auto.
      rewrite (comp_den call getattr args _ co e v xs yss Hi HF), pushes_src. reflexivity.
  Qed.
  (** ... and dicts: the (key, value) pairs are sorted, as tuples, before the dict
      is made of them. *)
  Theorem C25_sorted_dict : forall co ek ev sk rv key c args v xs pss,
    comprehension (CoDict ek ev) co (Some (sk, rv)) = Some c -> covered args c ->
    items_of v = Ok xs -> Forall2 (yields2 args co ek ev) xs pss ->
    (forall x, In x (map fst (concat pss)) -> hashable x = true) ->
    let pair p := VTuple [fst p; snd p] in
    keyfun call sk key (map pair (concat pss)) -> ordered (map key (map pair (concat pss))) ->
    exists qs d, sorted_by key rv (map pair (concat pss)) (map pair qs) /\ Permutation (concat pss) qs /\
      dict_of qs d /\ forall s, just (call_converter c args v s) s (VDict d).
  Proof.
    intros co ek ev sk rv key c args v xs pss Hc Hcov Hi HF Hh pair Hkey Ho.
    destruct (sorted_ok call sk key rv (VList (map pair (concat pss))) _ eq_refl Hkey Ho) as (ys & Hs & E).
    destruct (perm_pairs (concat pss) ys) as (qs & -> & Hq). { apply Hs. }
    assert (Hh' : hash_all (map fst qs)).
    { intros x Hx. apply Hh. apply (Permutation_in x (Permutation_map fst (Permutation_sym Hq)) Hx). }
    exists qs, (fold_dict qs []). split; [exact Hs|]. split; [exact Hq|]. split; [now apply fold_dict_of|].
    intros s. apply reads; auto. intros [w L]. injection Hc as <-.
    rewrite (sorted_den call getattr args OSortedDict _ sk rv (map pair (concat pss)) (map pair qs)); auto.
    - change (map pair qs) with (map pairv qs). rewrite pair_list_ok. cbn [Model_PyVal.bind]. now rewrite build_dict_ok by exact Hh'.
    - rewrite (comp2_den call getattr args _ co ek ev v xs pss Hi HF), pushes_srcpair. reflexivity.
  Qed.
End Statements.

Ltac instance_gives := intros s; destruct s; reflexivity.

(** C22: [item a, optional(item b), optional(item c, skip_value=0),
    optional(f0(item d), skip_if=item e), optional(f0(x), keep_if=item g)] *)
Definition demo22 : list entry :=
  [Plain (key "a"); UnlessNone (key "b"); Unless (key "c") (LInt 0);
   SkipIf (fcall 0 [key "d"]) (key "e"); KeepIf (key "d") (key "g")].
Definition input22 : val :=
  VDict [(VStr "a", VNone); (VStr "b", VNone); (VStr "c", VInt 7); (VStr "d", VInt 1); (VStr "e", VBool true);
         (VStr "g", VStr "x")].
Example C22_instance :
  exists is, make_all demo22 = Some is /\ covered pn tn [] (coll KTuple is) /\
    Forall2 (contributes tcall tattr [] input22) demo22 [[VNone]; []; [VInt 7]; []; [VInt 1]] /\
    tconv (coll KTuple is) [] input22 = ([], Val (VTuple [VNone; VInt 7; VInt 1])).
Proof.
  eexists. split; [reflexivity|]. split; [split; [intros y []|vm_compute; reflexivity]|]. split; [|vm_compute; reflexivity].
  repeat constructor.
  - instance_gives.
  - change false with (negb (is_none VNone)). constructor. instance_gives.
  - change true with (negb (py_eq (VInt 7) (litval tcall tattr (LInt 0)))). constructor; [discriminate|instance_gives].
  - instance_gives.
  - change false with (negb (truthy (VBool true))). constructor. instance_gives.
  - change true with (truthy (VStr "x")). constructor. instance_gives.
  - instance_gives.
Qed.
Example C22_dict_instance :
  exists is, make_pairs [(Plain (str "k"), UnlessNone (key "b")); (KeepIf (key "d") (key "e"), Plain (key "c"))] = Some is /\
    covered pn tn [] (dict is) /\
    tconv (dict is) [] input22 = ([], Val (VDict [(VInt 1, VInt 7)])).
Proof.
  eexists. split; [reflexivity|]. split; [split; [intros y []|vm_compute; reflexivity]|]. vm_compute. reflexivity.
Qed.
(** The value of an optional item is computed once for its condition and once
    more for the collection.  With a function that answers differently the second
    time, the list contains the None that was to be left out. *)
Definition flip (f : val) (a : list val) (kw : list (text * val)) (w : nat) : nat * out exc val :=
  (S w, Val (if Nat.even w then VInt 1 else VNone)).
Theorem C22_changing_value_refuted :
  exists is c, make_all [UnlessNone (fcall 0 [])] = Some is /\ c = coll KList is /\
    forall L, exists L', call_converter word quote gn pnum0 pn hn tn (python flip (fun _ _ w => (w, Exc AttributeError))) c [] VNone (0, L)
      = ((2, L'), Val (VList [VNone])).
Proof. do 2 eexists. split; [reflexivity|]. split; [reflexivity|]. intros L. exists L. reflexivity. Qed.
(** c.optional raises exactly when skip_value is passed together with a condition. *)
Theorem C22_refused : forall c v sk ke,
  optional c v sk ke = None <-> v <> LNone /\ (sk <> None \/ ke <> None).
Proof.
  intros c v sk ke. unfold optional. split.
  - destruct sk, ke, v; intros H; try discriminate H; (split; [discriminate|]); (left; discriminate) + (right; discriminate).
  - intros [H1 H2]. destruct sk, ke, v; try reflexivity; try (now destruct H1); destruct H2 as [H2|H2]; now destruct H2.
Qed.
(** With both skip_if and keep_if, skip_if is dropped:
    c.list(c.optional(c.item("d"), skip_if=c.item("e"), keep_if=c.item("g"))) contains the
    item although "e" is True. *)
Theorem C22_skip_if_with_keep_if_refuted : exists i,
  optional (key "d") LNone (Some (key "e")) (Some (key "g")) = Some i /\
  gives tcall tattr [] (key "e") input22 (VBool true) /\
  tconv (coll KList [i]) [] input22 = ([], Val (VList [VInt 1])).
Proof. eexists. split; [reflexivity|]. split; [instance_gives|]. vm_compute. reflexivity. Qed.
Print Assumptions C22_refused.
Print Assumptions C22_skip_if_with_keep_if_refuted.
Print Assumptions C22_optional_items.
Print Assumptions C22_optional_dict_items.

(** C23 *)
Example C23_instance :
  covered pn tn [] (coll KSet (map Req [key "c"; int 7; key "d"])) /\
  tconv (coll KSet (map Req [key "c"; int 7; key "d"])) [] input22 = ([], Val (VSet [VInt 7; VInt 1])) /\
  tconv (coll KList []) [] input22 = ([], Val (VList [])) /\
  tconv (dict []) [] input22 = ([], Val (VDict [])).
Proof. split; [split; [intros y []|vm_compute; reflexivity]|]. vm_compute. auto. Qed.
(** The evaluator works on expressions, not on their text.  The text of an empty
    set is that of an empty dict, and the text of an empty tuple is "(,)", which is
    not Python. *)
Theorem C23_empty_set_refuted : forall sr gname pnum pname hname q inp,
  let gen := gen word sr gname pnum pname hname false q in
  let print := print sr gname pnum in
  print (gen (coll KSet []) inp) = print (gen (dict []) inp) /\
  print (gen (coll KSet []) inp) = T "{}".
Proof. intros. split; reflexivity. Qed.
Theorem C23_empty_tuple_refuted : forall sr gname pnum pname hname q inp,
  print sr gname pnum (gen word sr gname pnum pname hname false q (coll KTuple []) inp) = T "(,)".
Proof. reflexivity. Qed.
Print Assumptions C23_collections_partial.
Print Assumptions C23_dicts.

(** C24 *)
Example C24_instance :
  let v := VList [VInt 3; VInt (-1); VInt 0; VInt 3] in
  let co := Some (COp (OBin (T ">")) [CThis; int (-1)]) in
  let c k := CComp k [COp (OBin (T "+")) [CThis; int 1]] co in
  let cd := CComp KDict [CThis; fcall 0 [CThis]] co in
  covered pn tn [] (c KList) /\ covered pn tn [] cd /\
  Forall2 (yields tcall tattr [] co (COp (OBin (T "+")) [CThis; int 1])) [VInt 3; VInt (-1); VInt 0; VInt 3]
    [[VInt 4]; []; [VInt 1]; [VInt 4]] /\
  tconv (c KList) [] v = ([], Val (VList [VInt 4; VInt 1; VInt 4])) /\
  tconv (c KSet) [] v = ([], Val (VSet [VInt 4; VInt 1])) /\
  tconv cd [] v = ([(0, [VInt 3]); (0, [VInt 0]); (0, [VInt 3])], Val (VDict [(VInt 3, VInt 4); (VInt 0, VInt 1)])).
Proof.
  split; [split; [intros y []|vm_compute; reflexivity]|]. split; [split; [intros y []|vm_compute; reflexivity]|].
  split; [|vm_compute; auto].
  repeat constructor; try instance_gives.
  - change true with (truthy (VBool true)). constructor. instance_gives.
  - change false with (truthy (VBool false)). constructor. instance_gives.
  - change true with (truthy (VBool true)). constructor. instance_gives.
  - change true with (truthy (VBool true)). constructor. instance_gives.
Qed.
Print Assumptions C24_comprehension.
Print Assumptions C24_dict_comprehension.

(** C25: sort by the first component, which has ties; the key function is 3. *)
Definition fstcall (f : val) (a : list val) (kw : list (text * val)) (w : nat) : nat * out exc val :=
  (w, match a with [VTuple (x :: _)] => Val x | _ => Exc TypeError end).
Example C25_instance :
  let t (a : Z) (b : string) := VTuple [VInt a; VStr b] in
  let xs := [t 2%Z "x"%string; t 1%Z "x"%string; t 2%Z "y"%string; t 1%Z "y"%string] in
  let py := python fstcall (fun _ _ w => (w, Exc AttributeError)) in
  let run rv L := option_map (fun c => snd (call_converter word quote gn pnum0 pn hn tn py c [] (VList xs) (0, L)))
                    (comprehension (CoList CThis) None (Some (Key 3, rv))) in
  (exists c, comprehension (CoList CThis) None (Some (Key 3, true)) = Some c /\ covered pn tn [] c) /\
  ordered (map (fun x => match x with VTuple (y :: _) => y | _ => x end) xs) /\
  (forall L, run false L = Some (Val (VList [t 1%Z "x"%string; t 1%Z "y"%string; t 2%Z "x"%string; t 2%Z "y"%string]))) /\
  (forall L, run true L = Some (Val (VList [t 2%Z "x"%string; t 2%Z "y"%string; t 1%Z "x"%string; t 1%Z "y"%string]))).
Proof.
  cbv zeta. split; [|split; [|split; intros L; reflexivity]].
  - eexists. split; [reflexivity|]. split; [intros y []|vm_compute; reflexivity].
  - apply ints_ordered. cbn. intros x Hx. repeat destruct Hx as [<-|Hx]; try discriminate. destruct Hx.
Qed.
(** A set comprehension cannot be sorted: the method raises. *)
Theorem C25_set_sort_raises : forall e co s, comprehension (CoSet e) co (Some s) = None.
Proof. reflexivity. Qed.
Print Assumptions C25_sorted.
Print Assumptions C25_sorted_dict.
