(** C09 (constants), C10 (operator expressions), C46 (attributes and items): how
    Python reads the text of the generated code.  [reads t a]: the tokenizer and the
    parser of Spec_Syntax.v read [t] as the expression [a]. *)
From Coq Require Import String Ascii List NArith ZArith Bool Arith Lia.
From Verif Require Import Model_Code Model_Converter Spec_Frag Spec_Syntax Spec_Tree Spec_Writable Spec_Meant Spec_Converter
  Proofs_Syntax Proofs_Code Proofs_Lex Proofs_Tree Proofs_Writable Proofs_Meant Proofs_Api.
Import ListNotations.

(** Python reads the text as this expression and as no other. *)
Definition reads_only (t : text) (a : ast) : Prop := reads t a /\ forall b, reads t b -> b = a.
(** The facts about names that the generator relies on: \w contains the ASCII
    letters, digits and _; the names it makes are identifiers. *)
Definition word_ok (wordch : N -> bool) : Prop :=
  forall c, (c < 128)%N -> wordch c = (ascii_alpha c || (N.leb 48 c && N.leb c 57) || N.eqb c 95).
(** None, True, False, every int, every str. *)
Definition constant (l : lit) : bool := match l with LStr s => is_str s | _ => true end.

Section Syntax.
  Variable printable : N -> bool.          (* str.isprintable *)
  Variable wordch : N -> bool.             (* re's \w *)
  Variable gname : nat -> text.
  Variable pnum : list nat -> nat.
  Variable pname : text -> text.
  Variable hname : list nat -> text.
  Variable tname : text -> text.
  Hypothesis PO : printable_ok printable.
  Hypothesis WO : word_ok wordch.
  Hypothesis NP : names_plain gname pname hname.
  Hypothesis TP : forall t, ident (tname t) = true.
  Notation srepr := (py_repr printable).
  Notation gen := (gen wordch srepr gname pnum pname hname).
  Notation print := (print srepr gname pnum).
  Notation converter := (converter wordch srepr gname pnum pname hname tname).

  Lemma reads_only_tree e : readable gname pnum e = true -> reads_only (print e) (tree gname pnum e).
  Proof.
    intros R. assert (H : reads (print e) (tree gname pnum e)) by now apply readable_reads.
    split; [exact H|]. intros b B. exact (reads_unique _ _ _ B H).
  Qed.

  (** *** C09 *)
  (** The text of a constant is read as one literal (with a sign, if it is a
      negative int) that denotes the constant. *)
  Theorem C09_constants : forall l, constant l = true ->
    exists a, reads_only (lit_text srepr l) a /\ denotes a l.
  Proof.
    intros l H. exists (lit_tree l). split.
    - apply (reads_only_tree (PLit l)). destruct l; auto.
    - destruct l as [|[]|z|s]; try constructor. cbn [lit_tree]. destruct (Z.ltb_spec z 0).
      + replace z with (- Z.of_N (Z.to_N (- z)))%Z at 2 by lia. constructor.
      + replace z with (Z.of_N (Z.to_N z)) at 2 by lia. constructor.
  Qed.

  (** *** C10 *)
  Lemma stages_readable l : forall i x, ident x = true -> forallb (writable false) l = true ->
    let '(ls, last) := body wordch srepr gname pnum pname hname tname i x l in
    Forall (fun e => readable gname pnum e = true) (map snd ls ++ [last]) /\ forallb ident (map fst ls) = true.
  Proof.
    induction l as [|c l IH]; intros i x X W.
    - cbn [body map app forallb]. split; [|reflexivity]. constructor; [exact X|constructor].
    - cbn [forallb] in W. ands. cbn [body].
      assert (R : readable gname pnum (gen false [i] c (PName x)) = true).
      { apply (gen_readable wordch srepr gname pnum pname hname NP c false [i] (PName x) false); auto; discriminate. }
      destruct l as [|d l]; [split; [constructor; auto|reflexivity]|].
      specialize (IH (S i) (tname x) (TP x) H0).
      destruct (body wordch srepr gname pnum pname hname tname (S i) (tname x) (d :: l)) as [ls last].
      destruct IH as [F G]. cbn [map snd fst app forallb]. rewrite TP, G. split; [constructor; auto|reflexivity].
  Qed.

  (** Every conversion without labels, defaults, optional items, tap and inner
      pipes, in any nesting: Python reads its text as the expression the user wrote
      and as nothing else.  [desugar] turns a.n into getattr(a, 'n'). *)
  Theorem C10_code_is_what_was_written : forall c x q,
    operators c = true -> writable false c = true -> ident x = true ->
    exists a, reads_only (print (gen false q c (PName x))) a /\ desugar a = meant gname pname x c.
  Proof.
    intros c x q O W X. exists (tree gname pnum (gen false q c (PName x))). split.
    - apply reads_only_tree.
      apply (gen_readable wordch srepr gname pnum pname hname NP c false q (PName x) false); auto; discriminate.
    - now apply gen_meets.
  Qed.
  (** A converter without pipes is the one expression the user wrote. *)
  Theorem C10_converter : forall c,
    operators c = true -> writable false c = true ->
    exists e a, converter c = ([], e) /\ reads_only (print e) a /\ desugar a = meant gname pname (T "data_") c.
  Proof.
    intros c O W.
    destruct (C10_code_is_what_was_written c (T "data_") [0] O W eq_refl) as (a & R & M).
    exists (gen false [0] c (PName (T "data_"))), a. split; [|split; auto].
    unfold Model_Converter.converter. destruct c; try reflexivity. discriminate O.
  Qed.
  (** Any converter: every right-hand side, the returned expression and every
      expression inside a helper function is read as one expression, namely the
      tree of the code, and every assigned name is an identifier. *)
  Theorem C10_every_text_is_one_expression : forall c,
    forallb (writable false) (stages c) = true ->
    let '(ls, last) := converter c in
    forallb ident (map fst ls) = true /\
    forall e b, In e (map snd ls ++ [last]) -> In b (e :: helpers e) -> reads_only (print b) (tree gname pnum b).
  Proof.
    intros c W. unfold Model_Converter.converter.
    pose proof (stages_readable (stages c) 0 (T "data_") eq_refl W) as H.
    destruct (body wordch srepr gname pnum pname hname tname 0 (T "data_") (stages c)) as [ls last].
    destruct H as [F G]. split; [exact G|]. intros e b E B. rewrite Forall_forall in F.
    pose proof (F e E) as R. apply reads_only_tree. destruct B as [<-|B]; [exact R|].
    pose proof (helpers_readable gname pnum e R) as HR. rewrite Forall_forall in HR. exact (HR b B).
  Qed.

  (** *** C46 *)
  Lemma lookups_ok (at_ : bool) (ks : list lit) :
    forallb constant ks = true ->
    (at_ = true -> forallb (fun l => match l with LStr s => negb (keyword s) | _ => true end) ks = true) ->
    forall c, operators c = true -> writable false c = true -> intlike false c = false ->
    let f := fun a i => if at_ then CAttr a i else COp OItem [a; i] in
    let r := fold_left f (map CLit ks) c in operators r = true /\ writable false r = true.
  Proof.
    induction ks as [|k ks IH]; intros K A c O W I; cbn [map fold_left]; [auto|].
    cbn [forallb] in K. ands.
    assert (Wk : writable false (CLit k) = true) by (destruct k; auto).
    apply IH; auto.
    - intros E. specialize (A E). cbn [forallb] in A. ands. auto.
    - destruct at_; cbn [operators forallb]; now rewrite O.
    - destruct at_.
      + specialize (A eq_refl). cbn [forallb] in A. ands.
        cbn [writable]. rewrite W, I. cbn [andb negb].
        destruct k; auto; cbn [name_ok writable] in *; rewrite ?Wk, ?andb_true_r; auto.
      + cbn [writable forallb length wf_op Nat.eqb]. rewrite W, I. cbn [andb negb].
        destruct k; auto; cbn [writable] in Wk; now rewrite Wk.
    - destruct at_; reflexivity.
  Qed.
  Lemma fold_meant (at_ : bool) ks x c :
    meant gname pname x (fold_left (fun a i => if at_ then CAttr a i else COp OItem [a; i]) (map CLit ks) c) =
    fold_left (fun a k => if at_ then call "getattr" [a; lit_tree k] else ASub a (lit_tree k)) ks (meant gname pname x c).
  Proof.
    revert c; induction ks as [|k ks IH]; intros c; cbn [map fold_left]; [reflexivity|].
    rewrite IH. destruct at_; reflexivity.
  Qed.

  (** c.attr(n1, ..., nk): getattr(... getattr(data_, n1) ..., nk), for all strings
      that are not keywords. *)
  Theorem C46_attr_partial : forall names : list text,
    forallb (fun s => is_str s && negb (keyword s)) names = true ->
    exists e a, converter (cattr None (map (fun s => CLit (LStr s)) names)) = ([], e) /\ reads_only (print e) a /\
      desugar a = fold_left (fun a s => call "getattr" [a; AStr s]) names (AName (T "data_")).
  Proof.
    intros names H.
    assert (K : forallb constant (map LStr names) = true /\
                forallb (fun l => match l with LStr s => negb (keyword s) | _ => true end) (map LStr names) = true).
    { induction names as [|s l IH]; [auto|]. cbn [forallb map constant] in *. ands.
      destruct (IH H0) as [-> ->]. rewrite H, H1. auto. }
    destruct K as [K1 K2].
    destruct (lookups_ok true (map LStr names) K1 (fun _ => K2) CThis eq_refl eq_refl eq_refl) as [O W].
    destruct (C10_converter _ O W) as (e & a & E & R & M). rewrite map_map in E, M. exists e, a.
    split; [exact E|split; [exact R|]]. rewrite M. rewrite <- (map_map LStr CLit).
    rewrite (fold_meant true (map LStr names) (T "data_") CThis). cbn [meant]. clear.
    generalize (AName (T "data_")). induction names as [|s l IH]; intros a; cbn [map fold_left]; auto.
  Qed.
  (** c.item(k1, ..., kn): data_[k1]...[kn], for all constants. *)
  Theorem C46_item : forall ks : list lit,
    forallb constant ks = true ->
    exists e a, converter (citem None (map CLit ks)) = ([], e) /\ reads_only (print e) a /\
      desugar a = fold_left (fun a k => ASub a (lit_tree k)) ks (AName (T "data_")).
  Proof.
    intros ks K.
    destruct (lookups_ok false ks K ltac:(discriminate) CThis eq_refl eq_refl eq_refl) as [O W].
    destruct (C10_converter _ O W) as (e & a & E & R & M). exists e, a.
    split; [exact E|split; [exact R|]]. rewrite M. apply (fold_meant false).
  Qed.
  (** A lookup of an attribute whose name is computed never fails to compile, even
      if the name turns out to be a keyword. *)
  Theorem C46_computed_attr : forall a n, operators (CAttr a n) = true -> writable false (CAttr a n) = true ->
    exists e t, converter (CAttr a n) = ([], e) /\ reads_only (print e) t /\
      desugar t = call "getattr" [meant gname pname (T "data_") a; meant gname pname (T "data_") n].
  Proof. intros a n O W. exact (C10_converter (CAttr a n) O W). Qed.

  (** c.attr(k) for a keyword k is not a Python expression. *)
  Definition unreadable (t : text) : Prop := forall a, ~ reads t a.
  Theorem C46_keyword_attr_refuted : exists c, c = cattr None [CLit (LStr (T "class"))] /\
    converter c = ([], POp (OAttr (T "class")) [PName (T "data_")]) /\ unreadable (print (snd (converter c))).
  Proof.
    eexists. split; [reflexivity|]. split; [reflexivity|]. intros a (ts & n & E & P).
    vm_compute in E. injection E as <-. revert P.
    do 31 (destruct n as [|n]; [vm_compute; discriminate|]). vm_compute. discriminate.
  Qed.
  (** c.naive(5).attr("real") is not a Python expression either. *)
  Theorem C46_attr_of_int_refuted : exists c, c = cattr (Some (CLit (LInt 5))) [CLit (LStr (T "real"))] /\
    print (snd (converter c)) = T "5.real" /\ unreadable (print (snd (converter c))).
  Proof.
    eexists. split; [reflexivity|]. split; [reflexivity|]. intros a (ts & n & E & P).
    vm_compute in E. discriminate.
  Qed.
  (** c.naive(-5).call(c.this()) and the like apply to 5, and the minus sign to
      what they return. *)
  Theorem C10_negative_constant_refuted : exists c, c = citem (Some (CLit (LInt (-5)))) [CThis] /\
    reads_only (print (snd (converter c))) (AUnary (T "-") (ASub (ANum 5) (AName (T "data_")))).
  Proof.
    eexists. split; [reflexivity|].
    assert (H : reads (print (snd (converter (citem (Some (CLit (LInt (-5)))) [CThis]))))
                  (AUnary (T "-") (ASub (ANum 5) (AName (T "data_"))))).
    { eexists _, 40. split; [vm_compute; reflexivity|vm_compute; reflexivity]. }
    split; [exact H|]. intros b B. exact (reads_unique _ _ _ B H).
  Qed.
  (** c.tuple() and c.set() with no items: not an expression, and a dict. *)
  Theorem C23_empty_tuple_text_refuted : unreadable (print (snd (converter (COp OTuple [])))).
  Proof.
    intros a (ts & n & E & P). vm_compute in E. injection E as <-. revert P.
    do 31 (destruct n as [|n]; [vm_compute; discriminate|]). vm_compute. discriminate.
  Qed.
  Theorem C23_empty_set_text_refuted : reads_only (print (snd (converter (COp OSet [])))) (ADict []).
  Proof.
    assert (H : reads (print (snd (converter (COp OSet [])))) (ADict [])) by (eexists _, 40; split; [vm_compute; reflexivity|vm_compute; reflexivity]).
    split; [exact H|]. intros b B. exact (reads_unique _ _ _ B H).
  Qed.
  (** A label with a quote in it breaks the literal it is put into: the code is
      not an expression. *)
  Theorem C10_label_quote_refuted : exists c, c = CLabel (U (T "it's")) /\
    print (snd (converter c)) = T "get_by_label_('it's')" /\ unreadable (print (snd (converter c))).
  Proof.
    eexists. split; [reflexivity|]. split; [reflexivity|]. intros a (ts & n & E & P). vm_compute in E. discriminate.
  Qed.
End Syntax.

(** *** instances *)
Require Import Verif.Spec_Demo.
Definition ascii_printable (c : N) : bool := N.leb 32 c && N.leb c 126.
Lemma ascii_ok : printable_ok ascii_printable.
Proof.
  intros c. unfold surrogate, ascii_printable. rewrite andb_true_iff, !N.leb_le. intros [H _].
  destruct (N.leb_spec c 126); [lia|now rewrite andb_false_r].
Qed.
Lemma word_is_ok : word_ok word.
Proof. intros c _. reflexivity. Qed.

(** names that are identifiers *)
Lemma digits_ident f n : forallb is_ident (digits f n) = true.
Proof.
  revert n; induction f as [|f IH]; intros n; [reflexivity|]. cbn [digits].
  assert (D : forall d, (d < 10)%N -> is_ident (48 + d) = true).
  { intros d H. assert (E : (d = 0 \/ d = 1 \/ d = 2 \/ d = 3 \/ d = 4 \/ d = 5 \/ d = 6 \/ d = 7 \/ d = 8 \/ d = 9)%N) by lia.
    destruct E as [->|[->|[->|[->|[->|[->|[->|[->|[->| ->]]]]]]]]]; reflexivity. }
  destruct (n <? 10)%N eqn:E.
  - apply N.ltb_lt in E. cbn [forallb]. now rewrite D.
  - rewrite forallb_app, IH. cbn [forallb]. rewrite D; [reflexivity|]. apply N.mod_lt. discriminate.
Qed.
(** a name with an underscore after its first letter is no keyword *)
Lemma under_ident a s : is_alpha a = true -> forallb is_ident s = true -> ident (a :: 95%N :: s) = true.
Proof.
  intros A S. unfold ident. rewrite A. cbn [forallb]. rewrite S. cbn [andb].
  replace (keyword (a :: 95%N :: s)) with false; [reflexivity|].
  symmetry. unfold keyword. rewrite !orb_false_iff.
  assert (G : forall l, forallb (fun k => match k with _ :: 95%N :: _ => false | _ => true end) l = true ->
              existsb (teqb (a :: 95%N :: s)) l = false).
  { induction l as [|k l IH]; [reflexivity|]. cbn [forallb existsb]. intros H. ands. rewrite IH by assumption.
    rewrite orb_false_r. destruct (teqb (a :: 95%N :: s) k) eqn:E; [|reflexivity].
    apply teqb_true in E. subst k. discriminate. }
  split; [split; apply G; reflexivity|].
  specialize (G (map fst syntax_keywords) eq_refl).
  revert G. generalize syntax_keywords. induction l as [|k l IH]; [reflexivity|]. cbn [map existsb]. intros G.
  apply orb_false_iff in G as [G1 G2]. now rewrite G1, IH.
Qed.
Definition names (g : nat) : text := T "f_" ++ ndec (N.of_nat g).
Lemma demo_plain : names_plain names pn hn.
Proof.
  split; [|split].
  - intros g. apply (under_ident 102 (ndec (N.of_nat g))); [reflexivity|apply digits_ident].
  - intros t. apply (under_ident 105 (filter word t)); [reflexivity|]. apply forallb_forall. intros c H.
    apply filter_In in H as [_ H]. revert H. unfold word, is_ident, is_alpha, is_digit, ascii_alpha.
    destruct (65 <=? c)%N, (c <=? 90)%N, (97 <=? c)%N, (c <=? 122)%N, (48 <=? c)%N, (c <=? 57)%N, (c =? 95)%N; auto.
  - intros q. reflexivity.
Qed.
Lemma demo_temp t : ident (tn t) = true.
Proof.
  assert (K : keyword (tn t) = false).
  { unfold tn. generalize (filter word t). intros s. reflexivity. }
  assert (F : forallb is_ident (filter word t) = true).
  { apply forallb_forall. intros c H.
    apply filter_In in H as [_ H]. revert H. unfold word, is_ident, is_alpha, is_digit, ascii_alpha.
    destruct (65 <=? c)%N, (c <=? 90)%N, (97 <=? c)%N, (c <=? 122)%N, (48 <=? c)%N, (c <=? 57)%N, (c =? 95)%N; auto. }
  unfold ident. rewrite K, andb_true_r. revert F. unfold tn. generalize (filter word t). intros s F. cbn. exact F.
Qed.

(** c.item("it's", -5) with a backslash, a newline, a quote and a code point above
    the BMP in the key *)
Example C09_instance :
  let s := T "it's" ++ [92; 10; 34; 128512; 55296]%N in
  constant (LStr s) = true /\
  lit_text (py_repr ascii_printable) (LStr s) = T "'it\'s\\\n""\U0001f600\ud800'" /\
  lit_text (py_repr ascii_printable) (LInt (-42)) = T "-42".
Proof. vm_compute. auto. Qed.

(** (c.item("a") + 1 > c.attr("b")) & [f(x) for x in this if x < -2], a call with a
    keyword argument, a dict and a conditional *)
Definition big : cv :=
  CBool false
    [COp (OBin (T ">")) [COp (OBin (T "+")) [key "a"; int 1]; cattr None [str "b"]];
     COp ONot [COp (OBin (T ">")) [COp (OBin (T ">")) [int 3; int 2]; int 1]];
     CComp KList [ccall (Some (CGlob 0)) [CThis] [(T "k", COp ODict [str "x"; COp OTuple [CThis]])]]
       (Some (COp (OBin (T "<")) [CThis; int (-2)]));
     CIf false (Some (CBool true [CThis; CEqs [CThis; int 1; key "c"]])) (Some (cattr None [str "d e"])) None].
Example C10_instance :
  operators big = true /\ writable false big = true /\
  print (py_repr ascii_printable) names pnum0 (gen word (py_repr ascii_printable) names pnum0 pn hn false [0] big (PName (T "data_"))) =
  T "(((data_['a'] + 1) > data_.b) and (not ((3 > 2) > 1)) and [f_0(i_data_,k={'x':(i_data_,)}) for i_data_ in data_ if (i_data_ < -2)] and (getattr(data_, 'd e') if (data_ or (data_ == 1 == data_['c'])) else data_))".
Proof. vm_compute. auto. Qed.
(** a pipe with labels, a default, optional items and tap *)
Definition piped : cv :=
  CPipe (CPipe (CCache (U (T "n")) (key "a") [(U (T "m"), cattr None [str "b"])])
               (CItems KDict [(Some (CLabel (U (T "m"))), COp OTuple [str "k"; CDefault false None [str "z"] (int 0)])]))
        (CTap CThis [(MSetItem, [str "y"; CArg (T "w")])]).
Example C10_pipe_instance : forallb (writable false) (stages piped) = true /\ length (stages piped) = 3.
Proof. vm_compute. auto. Qed.
Example C46_instance :
  forallb (fun s => is_str s && negb (keyword s)) [T "name"; T "_private"; T "first-name"; []] = true /\
  forallb constant [LStr (T "class"); LInt (-1); LNone] = true.
Proof. vm_compute. auto. Qed.
Example C46_computed_instance :
  let c := CAttr (key "o") (key "n") in operators c = true /\ writable false c = true.
Proof. vm_compute. auto. Qed.

Print Assumptions C09_constants.
Print Assumptions C10_code_is_what_was_written.
Print Assumptions C10_converter.
Print Assumptions C10_every_text_is_one_expression.
Print Assumptions C46_attr_partial.
Print Assumptions C46_item.
Print Assumptions C46_computed_attr.
Print Assumptions C46_keyword_attr_refuted.
Print Assumptions C46_attr_of_int_refuted.
Print Assumptions C10_negative_constant_refuted.
Print Assumptions C23_empty_tuple_text_refuted.
Print Assumptions C23_empty_set_text_refuted.
Print Assumptions C10_label_quote_refuted.
