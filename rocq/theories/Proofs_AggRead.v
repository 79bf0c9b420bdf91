(** The statements generated for a reduce are read as those of Spec_AggProgram.v. *)
From Coq Require Import String Ascii List NArith ZArith Bool Arith Lia.
From Verif Require Import Model_Reducers Model_Code Model_AggText Model_AggSource Spec_Syntax Spec_Stmt Spec_FuncText Spec_AggProgram
  Proofs_Syntax Proofs_Lex Proofs_AggExpr.
From Verif Require Spec_Source.
Import ListNotations.

(** *** lines *)
Definition hd_ok (t : text) : Prop := match t with c :: _ => c <> 32%N | [] => False end.
Lemma hd_app t u : hd_ok t -> hd_ok (t ++ u). Proof. destruct t; [contradiction|auto]. Qed.
Lemma indented_at k t : hd_ok t -> indented k (repeat 32%N (4 * k) ++ t) t.
Proof. intros H. split; [reflexivity|exact H]. Qed.
Lemma more_indent k : repeat 32%N (4 * S k) = repeat 32%N (4 * k) ++ T "    ".
Proof. replace (4 * S k) with (4 * k + 4) by lia. now rewrite repeat_app. Qed.
Lemma indented_more k t : hd_ok t -> indented (S k) (repeat 32%N (4 * k) ++ T "    " ++ t) t.
Proof. intros H. split; [now rewrite more_indent, <- app_assoc|exact H]. Qed.
Lemma lines_app k l1 b1 l2 b2 : lines_of k l1 b1 -> lines_of k l2 b2 -> lines_of k (l1 ++ l2) (b1 ++ b2).
Proof.
  intros H1 H2. induction H1; cbn [app].
  - exact H2.
  - now apply k_blank; auto.
  - eapply k_simple; eauto.
  - rewrite <- !app_assoc. eapply k_if; eauto.
Qed.
Lemma indent_app k a b : indent k (a ++ b) = indent k a ++ indent k b. Proof. apply map_app. Qed.
Lemma indent_sub k ls : indent (S k) ls = indent k (indent 1 ls).
Proof. unfold indent. rewrite map_map. apply map_ext. intros l. rewrite more_indent, <- app_assoc. reflexivity. Qed.

Lemma simple_reads k t s : simple_line t s -> hd_ok t -> lines_of k (indent k [t]) [Simple s].
Proof. intros L H. eapply k_simple; [now apply indented_at|exact L|apply k_end]. Qed.
Definition reads_as (l : list text) (b : list stmt) : Prop := forall k, lines_of k (indent k l) b.
Lemma reads_app l1 b1 l2 b2 : reads_as l1 b1 -> reads_as l2 b2 -> reads_as (l1 ++ l2) (b1 ++ b2).
Proof. intros H1 H2 k. rewrite indent_app. now apply lines_app. Qed.
Lemma simple_as t s : simple_line t s -> hd_ok t -> reads_as [t] [Simple s].
Proof. intros L H k. now apply simple_reads. Qed.
Lemma two_as t s t' s' : simple_line t s -> hd_ok t -> simple_line t' s' -> hd_ok t' -> reads_as [t; t'] [Simple s; Simple s'].
Proof. intros. apply (reads_app [t] [Simple s]); now apply simple_as. Qed.
Lemma if_at k e c l b rest rb : reads e c -> reads_as l b -> b <> [] -> branches_of k rest (fst rb) (snd rb) ->
  lines_of k (indent k ((T "if " ++ e ++ T ":") :: indent 1 l) ++ rest) [If ((c, b) :: fst rb) (snd rb)].
Proof.
  intros R L N B. unfold indent at 1. cbn [map]. fold (indent k (indent 1 l)). rewrite <- indent_sub. cbn [app].
  rewrite <- (app_nil_r rest). eapply k_if; [apply indented_at; cbn; discriminate|exact R|apply L|exact N|exact B|apply k_end].
Qed.
Lemma if_as e c l b : reads e c -> reads_as l b -> b <> [] -> reads_as ((T "if " ++ e ++ T ":") :: indent 1 l) [if_ c b []].
Proof. intros R L N k. rewrite <- (app_nil_r (indent k _)). apply (if_at k e c l b [] ([], [])); auto. apply br_end. Qed.
Lemma if_else_as e c l b l' b' : reads e c -> reads_as l b -> b <> [] -> reads_as l' b' -> b' <> [] ->
  reads_as (((T "if " ++ e ++ T ":") :: indent 1 l) ++ T "else:" :: indent 1 l') [if_ c b b'].
Proof.
  intros R L N L' N' k. rewrite indent_app. apply (if_at k e c l b _ ([], b')); auto.
  cbn [fst snd]. unfold indent at 1. cbn [map]. fold (indent k (indent 1 l')). rewrite <- indent_sub.
  eapply br_else; [apply indented_at; cbn; discriminate|apply L'|exact N'].
Qed.
Lemma if_elif_as e c l b e' c' l' b' : reads e c -> reads_as l b -> b <> [] -> reads e' c' -> reads_as l' b' -> b' <> [] ->
  reads_as (((T "if " ++ e ++ T ":") :: indent 1 l) ++ (T "elif " ++ e' ++ T ":") :: indent 1 l') [If [(c, b); (c', b')] []].
Proof.
  intros R L N R' L' N' k. rewrite indent_app. apply (if_at k e c l b _ ([(c', b')], [])); auto.
  cbn [fst snd]. unfold indent at 1. cbn [map]. fold (indent k (indent 1 l')). rewrite <- indent_sub.
  rewrite <- (app_nil_r (indent (S k) l')).
  eapply br_elif; [apply indented_at; cbn; discriminate|exact R'|apply L'|exact N'|apply br_end].
Qed.

(** *** simple statements *)
Lemma assign_line t ta e a : reads t ta -> is_target ta -> reads e a -> simple_line (t ++ T " = " ++ e) (SAssign [ta] a).
Proof.
  intros R I E. replace (t ++ T " = " ++ e) with (targets_text [t] ++ e).
  - apply l_assign; auto. discriminate.
  - cbn [targets_text flat_map]. now rewrite app_nil_r, <- app_assoc.
Qed.
Lemma assign2_line t ta u ua e a : reads t ta -> is_target ta -> reads u ua -> is_target ua -> reads e a ->
  simple_line (t ++ T " = " ++ u ++ T " = " ++ e) (SAssign [ta; ua] a).
Proof.
  intros R I R' I' E. replace (t ++ T " = " ++ u ++ T " = " ++ e) with (targets_text [t; u] ++ e).
  - apply l_assign; auto. discriminate.
  - cbn [targets_text flat_map]. now rewrite app_nil_r, <- !app_assoc.
Qed.

(** *** the statements of the built-in reducers, unfolded *)
Section Lines.
  Variables V : text.
  Definition fresh_line (factory : string) : text := V ++ T " = " ++ T "_d" ++ T " = " ++ (T "defaultdict(" ++ T factory ++ T ")").
  Definition sub (a i : text) : text := a ++ T "[" ++ i ++ T "]".
  Definition o2 (o : string) (a b : text) : text := a ++ op_text_of o ++ b.
  Definition if_lines (c : text) (l : list text) : list text := (T "if " ++ c ++ T ":") :: indent 1 l.
  Definition asg (t e : text) : text := t ++ T " = " ++ e.
  Definition aug (t e : text) : text := t ++ T " += " ++ e.
  Definition first_lines (b : builtin) (E X : text) : list text :=
    match b with
    | Sum => [asg V (T "(" ++ (E ++ T " or " ++ T "0") ++ T ")")]
    | SumOrNone | First | Last => [asg V E]
    | Max | Min => if_lines (o2 "is not" E (T "None")) [asg V E]
    | Count => [asg V (T "1")]
    | CountDistinct => [asg V (T "{ " ++ E ++ T " }")]
    | MaxRow | MinRow => if_lines (o2 "is not" E (T "None")) [asg V (T "(" ++ E ++ T ", " ++ X ++ T ")")]
    | Array => [asg V (T "[" ++ E ++ T "]")]
    | ArrayDistinct => [asg V (T "{ " ++ E ++ T ": " ++ T "None" ++ T " }")]
    | Dict | DictFirst | DictLast => [asg V (T "{ " ++ E ++ T ": " ++ X ++ T " }")]
    | DictArray => [fresh_line "list"; sub (T "_d") E ++ T ".append(" ++ X ++ T ")"]
    | DictArrayDistinct => [fresh_line "dict"; asg (sub (sub (T "_d") E) X) (T "None")]
    | DictSum => [fresh_line "int"; aug (sub (T "_d") E) (X ++ T " or " ++ T "0")]
    | DictSumOrNone => [fresh_line "int"; asg (sub (T "_d") E) X]
    | DictMax | DictMin => if_lines (o2 "is not" X (T "None")) [asg V (T "{ " ++ E ++ T ": " ++ X ++ T " }")]
    | DictCount => [asg V (T "{ " ++ E ++ T ": " ++ T "1" ++ T " }")]
    | DictCountDistinct => [asg V (T "{ " ++ E ++ T ": " ++ (T "{ " ++ X ++ T " }") ++ T " }")]
    end.
  Definition next_lines (b : builtin) (Z E X : text) : list text :=
    match b with
    | Sum => [aug V (T "(" ++ (E ++ T " or " ++ T "0") ++ T ")")]
    | SumOrNone => if_lines (o2 "is" E (T "None")) [asg V (T "None")] ++
                   (T "elif " ++ o2 "is not" Z (T "None") ++ T ":") :: indent 1 [asg V (Z ++ T " + " ++ E)]
    | Max => if_lines (o2 "is not" E (T "None") ++ T " and " ++ o2 ">" E Z) [asg V E]
    | Min => if_lines (o2 "is not" E (T "None") ++ T " and " ++ o2 "<" E Z) [asg V E]
    | Count => [aug V (T "1")]
    | CountDistinct => [V ++ T ".add(" ++ E ++ T ")"]
    | First => [T "pass"]
    | Last => [asg V E]
    | MaxRow => if_lines (o2 "is not" E (T "None") ++ T " and " ++ o2 "<" (sub Z (T "0")) E) [asg V (T "(" ++ E ++ T ", " ++ X ++ T ")")]
    | MinRow => if_lines (o2 "is not" E (T "None") ++ T " and " ++ o2 ">" (sub Z (T "0")) E) [asg V (T "(" ++ E ++ T ", " ++ X ++ T ")")]
    | Array => [V ++ T ".append(" ++ E ++ T ")"]
    | ArrayDistinct => [asg (sub V E) (T "None")]
    | Dict | DictLast => [asg (sub V E) X]
    | DictArray => [sub V E ++ T ".append(" ++ X ++ T ")"]
    | DictArrayDistinct => [asg (sub (sub V E) X) (T "None")]
    | DictSum => [aug (sub V E) (X ++ T " or " ++ T "0")]
    | DictSumOrNone => if_lines (o2 "is" X (T "None")) [asg (sub V E) (T "None")] ++
                       (T "elif " ++ o2 "is not" (sub Z E) (T "None") ++ T ":") :: indent 1 [aug (sub V E) X]
    | DictMax => if_lines (o2 "is not" X (T "None") ++ T " and " ++ (T "(" ++ (o2 "not in" E Z ++ T " or " ++ o2 ">" X (sub Z E)) ++ T ")")) [asg (sub V E) X]
    | DictMin => if_lines (o2 "is not" X (T "None") ++ T " and " ++ (T "(" ++ (o2 "not in" E Z ++ T " or " ++ o2 "<" X (sub Z E)) ++ T ")")) [asg (sub V E) X]
    | DictCount => if_lines (o2 "not in" E Z) [asg (sub V E) (T "1")] ++ T "else:" :: indent 1 [aug (sub V E) (T "1")]
    | DictCountDistinct => if_lines (o2 "not in" E Z) [asg (sub V E) (T "{ " ++ X ++ T " }")] ++ T "else:" :: indent 1 [sub V E ++ T ".add(" ++ X ++ T ")"]
    | DictFirst => if_lines (o2 "not in" E Z) [asg (sub V E) X]
    end.
  Ltac filled :=
    repeat match goal with |- context [statement ?s] => let p := eval vm_compute in (statement s) in change (statement s) with p end;
    unfold if_lines, indent, fresh_line, asg, aug, sub, o2, op_text_of;
    cbn [map fill flat_map fill1 app]; rewrite ?app_nil_r, <- ?app_assoc; reflexivity.
  Lemma first_filled b args : map (fill V args) (initial_from_first b) = first_lines b (args 0) (args 1).
  Proof. destruct b; cbn [initial_from_first first_lines map]; filled. Qed.
  Lemma next_filled b args : map (fill V args) (reduce_statements b) = next_lines b (args 0) (args 1) (args 2).
  Proof. destruct b; cbn [reduce_statements next_lines map]; filled. Qed.
End Lines.

(** *** reading them *)
Section Reading.
  Variables V E X : text.
  Variables v e x : ast.
  Hypothesis HV : code true V v.
  Hypothesis TV : is_target v.
  Hypothesis OV : hd_ok V.
  Hypothesis HE : code false E e.

  Lemma zero_code : code false (T "0") (ANum 0). Proof. exact (ndec_code 0). Qed.
  Lemma one_code : code false (T "1") (ANum 1). Proof. exact (ndec_code 1). Qed.
  Lemma or0 A a d : code d A a -> lv 1 (A ++ T " or " ++ T "0") (either a (ANum 0)).
  Proof. intros H. apply or_lv; [apply (code_lv d); [lia|exact H]|apply (code_lv false); [lia|apply zero_code]]. Qed.
  Lemma cmp_reads o os d A a d' B b : op_tokens o os -> code d A a -> code d' B b -> reads (o2 o A B) (cmp o a b).
  Proof. intros O HA HB. apply (lv_reads 4). now apply cmp_lv with os d d'. Qed.
  Lemma none_is o os d A a : op_tokens o os -> code d A a -> lv 4 (o2 o A (T "None")) (cmp o a none).
  Proof. intros O HA. apply cmp_lv with os d true; auto. apply none_code. Qed.
  Lemma none_reads o os d A a : op_tokens o os -> code d A a -> reads (o2 o A (T "None")) (cmp o a none).
  Proof. intros O HA. apply (lv_reads 4). now apply none_is with os d. Qed.
  Lemma and_reads A a B b : lv 4 A a -> lv 4 B b -> reads (A ++ T " and " ++ B) (both a b).
  Proof. intros HA HB. apply (lv_reads 2). apply and_lv; apply (lv_weaken 3 4); auto. Qed.
  Lemma D_code : code true (T "_d") (name "_d"). Proof. now apply ident_code. Qed.
  Lemma set_as t ta f a : reads t ta -> is_target ta -> hd_ok t -> reads f a -> reads_as [asg t f] [set_to ta a].
  Proof. intros. apply simple_as; [now apply assign_line|now apply hd_app]. Qed.
  Lemma aug_as t ta f a : reads t ta -> is_target ta -> hd_ok t -> reads f a -> reads_as [aug t f] [Simple (SAdd ta a)].
  Proof. intros. apply simple_as; [now apply l_add|now apply hd_app]. Qed.
  Lemma expr_as t a : reads t a -> hd_ok t -> reads_as [t] [Simple (SExpr a)].
  Proof. intros. apply simple_as; [now apply l_expr|assumption]. Qed.
  Lemma V_reads : reads V v. Proof. now apply (code_reads true). Qed.
  Lemma fresh_as factory : ident (T factory) = true -> simple_line (fresh_line V factory) (SAssign [v; name "_d"] (ACall (name "defaultdict") [name factory] [])).
  Proof.
    intros I. apply assign2_line; [apply V_reads|exact TV|apply (code_reads true), D_code|exact Logic.I|].
    apply (code_reads true). apply (call_code (T "defaultdict") [T factory] [name factory]); [reflexivity|].
    repeat constructor. exists true. now apply ident_code.
  Qed.
  Lemma fresh_hd factory : hd_ok (fresh_line V factory). Proof. now apply hd_app. Qed.
  Lemma d_as l b factory : ident (T factory) = true -> reads_as l b -> reads_as (fresh_line V factory :: l) (fresh v factory :: b).
  Proof.
    intros I H. apply (reads_app [fresh_line V factory] [fresh v factory]); [|exact H].
    apply simple_as; [now apply fresh_as|apply fresh_hd].
  Qed.
  Lemma sub_hd A i : hd_ok A -> hd_ok (sub A i). Proof. apply hd_app. Qed.
  Lemma d_hd : hd_ok (T "_d"). Proof. cbn. discriminate. Qed.

  Ltac ok := first
    [ exact Logic.I | discriminate | exact TV | exact OV | apply d_hd
    | apply sub_hd; ok | apply hd_app; ok ].

  Hint Resolve HV HE V_reads none_code zero_code one_code D_code : agg.
  Lemma E_reads : reads E e. Proof. now apply (code_reads false). Qed.

  Lemma set_V_as f a : reads f a -> reads_as [asg V f] [set_to v a].
  Proof. intros H. apply set_as; [apply V_reads|ok|ok|exact H]. Qed.
  Lemma none_text : reads (T "None") none. Proof. apply (code_reads true), none_code. Qed.
  Lemma one_text : reads (T "1") (ANum 1). Proof. apply (code_reads false), one_code. Qed.

  Lemma first_reads b : (needs_extra b = true -> code false X x) -> reads_as (first_lines V b E X) (first_stmts v b e x).
  Proof.
    intros HX.
    assert (SE : code true (sub (T "_d") E) (ASub (name "_d") e)) by (eapply sub_code; [apply D_code|exact HE]).
    destruct b; cbn [first_lines first_stmts needs_extra] in *; try specialize (HX eq_refl).
    - apply set_V_as. apply (code_reads true), (paren_code 1), (or0 _ _ false), HE.
    - apply set_V_as, E_reads.
    - apply if_as; [eapply none_reads; [constructor|exact HE]|apply set_V_as, E_reads|discriminate].
    - apply if_as; [eapply none_reads; [constructor|exact HE]|apply set_V_as, E_reads|discriminate].
    - apply set_V_as, one_text.
    - apply set_V_as. eapply code_reads, set_code, HE.
    - apply set_V_as, E_reads.
    - apply set_V_as, E_reads.
    - apply if_as; [eapply none_reads; [constructor|exact HE]|apply set_V_as; eapply code_reads, pair_code; eassumption|discriminate].
    - apply if_as; [eapply none_reads; [constructor|exact HE]|apply set_V_as; eapply code_reads, pair_code; eassumption|discriminate].
    - apply set_V_as. eapply code_reads, list_code, HE.
    - apply set_V_as. eapply code_reads, dict_code; [exact HE|apply none_code].
    - apply set_V_as. eapply code_reads, dict_code; eassumption.
    - apply d_as; [reflexivity|]. apply expr_as; [|ok]. eapply code_reads, append_code; eassumption.
    - apply d_as; [reflexivity|]. apply set_as; [eapply code_reads, sub_code; eassumption|ok|ok|apply none_text].
    - apply d_as; [reflexivity|]. apply aug_as; [eapply code_reads, SE|ok|ok|eapply lv_reads, or0; eassumption].
    - apply d_as; [reflexivity|]. apply set_as; [eapply code_reads, SE|ok|ok|eapply code_reads; eassumption].
    - apply if_as; [eapply none_reads; [constructor|eassumption]|apply set_V_as; eapply code_reads, dict_code; eassumption|discriminate].
    - apply if_as; [eapply none_reads; [constructor|eassumption]|apply set_V_as; eapply code_reads, dict_code; eassumption|discriminate].
    - apply set_V_as. eapply code_reads, dict_code; [exact HE|apply one_code].
    - apply set_V_as. eapply code_reads, dict_code; [exact HE|eapply set_code; eassumption].
    - apply set_V_as. eapply code_reads, dict_code; eassumption.
    - apply set_V_as. eapply code_reads, dict_code; eassumption.
  Qed.

  Lemma next_reads b Z z d : code d Z z -> (needs_primary b = true -> d = true) -> (needs_extra b = true -> code false X x) ->
    reads_as (next_lines V b Z E X) (next_stmts v b z e x).
  Proof.
    intros HZ HP HX.
    assert (SE : code true (sub V E) (ASub v e)) by (eapply sub_code; [exact HV|exact HE]).
    assert (NE : lv 4 (o2 "is not" E (T "None")) (cmp "is not" e none)) by (eapply none_is; [constructor|exact HE]).
    destruct b; cbn [next_lines next_stmts needs_extra needs_primary] in *; try specialize (HX eq_refl); try (specialize (HP eq_refl); subst d).
    - apply aug_as; [apply V_reads|ok|ok|]. apply (code_reads true), (paren_code 1), (or0 _ _ false), HE.
    - apply if_elif_as; [eapply none_reads; [constructor|exact HE]|apply set_V_as, none_text|discriminate| | |discriminate].
      + eapply none_reads; [constructor|exact HZ].
      + apply set_V_as. eapply lv_reads, plus_lv; eassumption.
    - apply if_as; [|apply set_V_as, E_reads|discriminate]. apply and_reads; [exact NE|eapply cmp_lv; [constructor|exact HE|exact HZ]].
    - apply if_as; [|apply set_V_as, E_reads|discriminate]. apply and_reads; [exact NE|eapply cmp_lv; [constructor|exact HE|exact HZ]].
    - apply aug_as; [apply V_reads|ok|ok|apply one_text].
    - apply expr_as; [|ok]. eapply code_reads, add_code; eassumption.
    - apply simple_as; [apply l_pass|ok].
    - apply set_V_as, E_reads.
    - apply if_as; [|apply set_V_as; eapply code_reads, pair_code; eassumption|discriminate].
      apply and_reads; [exact NE|eapply cmp_lv; [constructor|eapply sub_code; [exact HZ|apply zero_code]|exact HE]].
    - apply if_as; [|apply set_V_as; eapply code_reads, pair_code; eassumption|discriminate].
      apply and_reads; [exact NE|eapply cmp_lv; [constructor|eapply sub_code; [exact HZ|apply zero_code]|exact HE]].
    - apply expr_as; [|ok]. eapply code_reads, append_code; eassumption.
    - apply set_as; [eapply code_reads, SE|ok|ok|apply none_text].
    - apply set_as; [eapply code_reads, SE|ok|ok|eapply code_reads; eassumption].
    - apply expr_as; [|ok]. eapply code_reads, append_code; eassumption.
    - apply set_as; [eapply code_reads, sub_code; eassumption|ok|ok|apply none_text].
    - apply aug_as; [eapply code_reads, SE|ok|ok|eapply lv_reads, or0; eassumption].
    - apply if_elif_as; [eapply none_reads; [constructor|eassumption]|apply set_as; [eapply code_reads, SE|ok|ok|apply none_text]|discriminate| | |discriminate].
      + eapply none_reads; [constructor|eapply sub_code; [exact HZ|exact HE]].
      + apply aug_as; [eapply code_reads, SE|ok|ok|eapply code_reads; eassumption].
    - apply if_as; [|apply set_as; [eapply code_reads, SE|ok|ok|eapply code_reads; eassumption]|discriminate].
      apply and_reads; [eapply none_is; [constructor|eassumption]|].
      eapply code_lv; [lia|]. eapply paren_code, or_lv; (eapply lv_weaken; [|eapply cmp_lv; [constructor| |]]);
        [lia|exact HE|exact HZ|lia|exact HX|eapply sub_code; [exact HZ|exact HE]].
    - apply if_as; [|apply set_as; [eapply code_reads, SE|ok|ok|eapply code_reads; eassumption]|discriminate].
      apply and_reads; [eapply none_is; [constructor|eassumption]|].
      eapply code_lv; [lia|]. eapply paren_code, or_lv; (eapply lv_weaken; [|eapply cmp_lv; [constructor| |]]);
        [lia|exact HE|exact HZ|lia|exact HX|eapply sub_code; [exact HZ|exact HE]].
    - apply if_else_as; [eapply cmp_reads; [constructor|exact HE|exact HZ]| |discriminate| |discriminate].
      + apply set_as; [eapply code_reads, SE|ok|ok|apply one_text].
      + apply aug_as; [eapply code_reads, SE|ok|ok|apply one_text].
    - apply if_else_as; [eapply cmp_reads; [constructor|exact HE|exact HZ]| |discriminate| |discriminate].
      + apply set_as; [eapply code_reads, SE|ok|ok|eapply code_reads, set_code; eassumption].
      + apply expr_as; [|ok]. eapply code_reads, add_code; eassumption.
    - apply if_as; [eapply cmp_reads; [constructor|exact HE|exact HZ]| |discriminate].
      apply set_as; [eapply code_reads, SE|ok|ok|eapply code_reads; eassumption].
    - apply set_as; [eapply code_reads, SE|ok|ok|eapply code_reads; eassumption].
  Qed.
End Reading.
