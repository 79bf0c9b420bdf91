(** Reading the text of the class of the groups. *)
From Coq Require Import String Ascii List NArith ZArith Bool Arith Lia.
From Verif Require Import Model_PyVal Model_Code Model_AggText Model_ClassText Spec_Syntax Spec_Stmt Spec_FuncText Spec_AggProgram Spec_FuncRun Spec_AggRun Spec_ClassText
  Proofs_Syntax Proofs_Grammar Proofs_Lex Proofs_Tree Proofs_AggExpr Proofs_AggOutput Proofs_AggRead Proofs_AggBlocks Proofs_FuncRun Proofs_AggRunFn.
From Verif Require Spec_Source Proofs_SourceText Proofs_AggFunc.
Import ListNotations.

Lemma list_shape_sp l la : Forall2 (fun t a => exists d, code d t a) l la -> code true (T "[" ++ intersperse (T ", ") l ++ T "]") (AList la).
Proof.
  intros F. destruct (codes_tokens l la F) as (tss & F1 & F2). destruct F1 as [|t ts l tss L1 F1].
  - inversion F2; subst. apply (code_of_primary _ _ [LBr; RBr]).
    + intros rest A. change (T "[" ++ intersperse (T ", ") [] ++ T "]") with (T "[]"). now rewrite (lex_const (T "[]") [LBr; RBr]) by reflexivity.
    + apply atom_primary; [|exact I]. intros r. apply a_nil.
  - inversion F2 as [|a ? la' ? U F3]; subst. apply (code_of_primary _ _ (LBr :: ts ++ seps Comma tss ++ [RBr])).
    + intros rest A. rewrite <- !app_assoc. rewrite (lex_const (T "[") [LBr]) by reflexivity.
      rewrite (lex_joined (T ", ") Comma t ts l tss); auto; try reflexivity; [|exists 44%N, [32%N]; split; reflexivity].
      rewrite (lex_const (T "]") [RBr]) by reflexivity. rewrite !prepend_app. f_equal. rewrite <- ?app_assoc. cbn [app]. rewrite <- ?app_assoc. reflexivity.
    + apply atom_primary; [|exact I]. intros r. cbn [app]. rewrite <- !app_assoc. eapply a_list.
      * apply U; [lia|]. apply stops_seps. cbn; auto.
      * apply (more_units RBr ltac:(cbn; auto) la' tss F3 r [a]).
Qed.
Lemma attr_plain i : forallb (plain_in 39) (attr_text i) = true.
Proof.
  unfold attr_text. cbn [T]. rewrite forallb_app. apply andb_true_iff. split; [reflexivity|].
  apply forallb_forall. intros c I. apply Proofs_AggHash.ndec_digits in I.
  assert (c = 48 \/ c = 49 \/ c = 50 \/ c = 51 \/ c = 52 \/ c = 53 \/ c = 54 \/ c = 55 \/ c = 56 \/ c = 57)%N as D by lia.
  repeat (destruct D as [->|D]; [reflexivity|]). now rewrite D.
Qed.
Lemma str_primary s : primary [TStr s] (AStr s).
Proof. apply atom_primary; [|exact I]. intros r. exists 0. reflexivity. Qed.
Lemma quoted_code i : code true (T "'" ++ attr_text i ++ T "'") (AStr (attr_text i)).
Proof.
  apply (code_of_primary _ _ [TStr (attr_text i)]); [|apply str_primary].
  intros rest A. rewrite <- !app_assoc. apply (lex_quoted 39%N (attr_text i) (attr_text i) rest true); [cbn; auto|apply run_plain, attr_plain|exact A].
Qed.

Definition init_stmts (n : nat) : list simple_stmt := map (fun i => SAssign [AAttr (name "self") (attr_text i)] (name "_none")) (seq 0 n).
Lemma init_line i : simple_line (T "self." ++ attr_text i ++ T " = _none") (SAssign [AAttr (name "self") (attr_text i)] (name "_none")).
Proof.
  pose proof (assign_line (T "self" ++ T "." ++ attr_text i) (AAttr (name "self") (attr_text i)) (T "_none") (name "_none")) as H.
  rewrite <- !app_assoc in H. apply H.
  - apply (code_reads true). exact (attr_code (T "self") (attr_text i) eq_refl (v_ident _)).
  - exact I.
  - apply (code_reads true). now apply ident_code.
Qed.
Lemma class_lines n : n <> 0 -> lines (class_text n) =
  T "class AggData:" :: (T "    __slots__ = [" ++ intersperse (T ", ") (map (fun i => T "'" ++ attr_text i ++ T "'") (seq 0 n)) ++ T "]") ::
  T "    def __init__(self):" :: map (fun i => T "        self." ++ attr_text i ++ T " = _none") (seq 0 n).
Proof.
  intros N. assert (FA : forall i, Proofs_SourceText.flat (attr_text i) = true) by (intros i; apply Proofs_SourceText.ident_flat, v_ident).
  assert (FS : Proofs_SourceText.flat (intersperse (T ", ") (map (fun i => T "'" ++ attr_text i ++ T "'") (seq 0 n))) = true).
  { generalize (seq 0 n). clear N. intros l. destruct l as [|i l]; [reflexivity|]. revert i; induction l as [|j l IH]; intros i.
    - cbn [map intersperse]. now rewrite !Proofs_SourceText.flat_app, FA.
    - change (intersperse (T ", ") (map (fun i => T "'" ++ attr_text i ++ T "'") (i :: j :: l))) with
        ((T "'" ++ attr_text i ++ T "'") ++ T ", " ++ intersperse (T ", ") (map (fun i => T "'" ++ attr_text i ++ T "'") (j :: l))).
      rewrite !Proofs_SourceText.flat_app, FA. exact (IH j). }
  assert (E : class_text n = intersperse [10%N] (T "class AggData:" :: (T "    __slots__ = [" ++ intersperse (T ", ") (map (fun i => T "'" ++ attr_text i ++ T "'") (seq 0 n)) ++ T "]") ::
    T "    def __init__(self):" :: map (fun i => T "        self." ++ attr_text i ++ T " = _none") (seq 0 n))).
  { unfold class_text. destruct n as [|n]; [contradiction|]. cbn [seq map]. 
    generalize (map (fun i => T "        self." ++ attr_text i ++ T " = _none") (seq 1 n)).
    generalize (T "        self." ++ attr_text 0 ++ T " = _none").
    generalize (intersperse (T ", ") ((T "'" ++ attr_text 0 ++ T "'") :: map (fun i => T "'" ++ attr_text i ++ T "'") (seq 1 n))).
    intros u a l. change (intersperse [10%N] (T "class AggData:" :: (T "    __slots__ = [" ++ u ++ T "]") :: T "    def __init__(self):" :: a :: l)) with
      (T "class AggData:" ++ [10%N] ++ (T "    __slots__ = [" ++ u ++ T "]") ++ [10%N] ++ T "    def __init__(self):" ++ [10%N] ++ intersperse [10%N] (a :: l)).
    now rewrite <- !app_assoc. }
  rewrite E. apply Proofs_AggFunc.lines_all. cbn [forallb]. rewrite !Proofs_SourceText.flat_app, FS. cbn [andb].
  apply forallb_forall. intros x I. apply in_map_iff in I as (i & <- & _). now rewrite !Proofs_SourceText.flat_app, FA.
Qed.
Lemma class_read n : n <> 0 -> defines_class (class_text n) (T "AggData") (map attr_text (seq 0 n)) (init_stmts n).
Proof.
  intros N. exists (T "    __slots__ = [" ++ intersperse (T ", ") (map (fun i => T "'" ++ attr_text i ++ T "'") (seq 0 n)) ++ T "]"),
    (T "[" ++ intersperse (T ", ") (map (fun i => T "'" ++ attr_text i ++ T "'") (seq 0 n)) ++ T "]"),
    (T "    def __init__(self):"), (map (fun i => T "        self." ++ attr_text i ++ T " = _none") (seq 0 n)).
  split; [exact (class_lines n N)|]. split; [reflexivity|]. split; [split; [reflexivity|discriminate]|].
  split; [|split; [split; [reflexivity|discriminate]|split]].
  - apply (code_reads true). apply list_shape_sp. generalize (seq 0 n). intros l. induction l as [|i l IH]; constructor; [|exact IH].
    exists true. apply quoted_code.
  - unfold init_stmts. generalize (seq 0 n). intros l. induction l as [|i l IH]; constructor; [|exact IH].
    eexists. split; [|apply init_line]. split; [reflexivity|discriminate].
  - destruct n; [contradiction|discriminate].
Qed.
Lemma put_new (fields : list (text * rv)) x v : ~ In x (map fst fields) -> Spec_ClassText.put fields x v = fields ++ [(x, v)].
Proof.
  induction fields as [|[y w] r IH]; intros N; [reflexivity|]. cbn [Spec_ClassText.put map fst In app] in *. destruct (same_text x y) eqn:E.
  - apply same_text_eq in E. subst. destruct N. now left.
  - rewrite IH; [reflexivity|]. intros I. apply N. now right.
Qed.
Lemma construct_all globals slots : globals (T "_none") = Some RSent -> forall l done,
  (forall i, In i l -> In (attr_text i) slots) -> NoDup (done ++ l) ->
  construct globals slots (map (fun i => SAssign [AAttr (name "self") (attr_text i)] (name "_none")) l) (map (fun i => (attr_text i, RSent)) done) =
    Ok (map (fun i => (attr_text i, RSent)) (done ++ l)).
Proof.
  intros G. induction l as [|i l IH]; intros done S D; [now rewrite app_nil_r|]. cbn [map]. unfold name at 1 2. cbn [construct].
  change (same_text (T "self") (T "self") && negb (same_text (T "_none") (T "self"))) with true. cbv iota. rewrite G.
  assert (H : has_slot slots (attr_text i) = true).
  { apply existsb_exists. exists (attr_text i). split; [apply S; now left|apply same_text_refl]. }
  rewrite H. rewrite put_new.
  - change [(attr_text i, RSent)] with (map (fun i => (attr_text i, RSent)) [i]). rewrite <- map_app. rewrite (IH (done ++ [i])).
    + now rewrite <- app_assoc.
    + intros j J. apply S. now right.
    + now rewrite <- app_assoc.
  - rewrite map_map. cbn [fst]. intros I. apply in_map_iff in I as (j & E & J). assert (j = i) as -> by (apply attribute_inj; exact E).
    apply NoDup_remove_2 in D. apply D. apply in_or_app. now left.
Qed.
