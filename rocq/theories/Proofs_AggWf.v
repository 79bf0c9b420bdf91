(** Texts that Python reads as an expression are expression texts in the sense of
    Spec_AggText.v. *)
From Coq Require Import String Ascii List NArith ZArith Bool Arith Lia.
From Verif Require Import Model_Code Spec_AggText Spec_Syntax Proofs_Syntax Proofs_Lex.
From Verif Require Proofs_SourceText.
Import ListNotations.

(** *** texts no expression starts with *)
Definition bad (ts : list token) : Prop := forall n l, parse n l ts = None.
Lemma bad_of ts :
  match ts with KNot :: _ | TBin _ :: _ => False | _ => True end ->
  (forall n k, pbind (atom (parse n) k ts) (fun a r => trailers (parse n) k a r) = None) -> bad ts.
Proof.
  intros H A n. induction n as [|n IH]; intros l; [reflexivity|]. cbn [parse].
  destruct l as [|[|[|[|[|[|[|[|[|[|[|[|[|l]]]]]]]]]]]]]; cbn [level]; try (rewrite IH; reflexivity).
  - destruct ts as [|t ts]; [apply IH|]. destruct t; try apply IH. contradiction.
  - destruct ts as [|t ts]; [apply IH|]. destruct t; try apply IH. contradiction.
  - apply A.
Qed.
Lemma bad_comma ts : bad (Comma :: ts). Proof. now apply bad_of. Qed.
Lemma bad_par ts : bad (LPar :: Comma :: ts).
Proof. apply bad_of; [exact I|]. intros n k. cbn [atom]. now rewrite bad_comma. Qed.
Lemma bad_not ts : bad ts -> bad (KNot :: ts).
Proof.
  intros B n. induction n as [|n IH]; intros l; [reflexivity|]. cbn [parse].
  destruct l as [|[|[|[|[|[|[|[|[|[|[|[|[|l]]]]]]]]]]]]]; cbn [level]; try (rewrite IH; reflexivity); try (rewrite B; reflexivity); try apply IH; reflexivity.
Qed.
Lemma bad_call t ts : match t with TBin _ | LPar | LBr | LBrace => False | _ => True end -> bad (t :: LPar :: Comma :: ts).
Proof.
  intros H. destruct t; try contradiction; try (now apply bad_of); try (apply bad_not, bad_par);
    (apply bad_of; [exact I|]; intros n0 k; cbn [atom pbind]; destruct k as [|[|k]]; cbn [trailers call_args pbind]; try reflexivity;
     now rewrite bad_comma).
Qed.

(** *** words *)
Lemma wordc_cases c : wordc c = true -> is_ident c = true \/ (128 <=? c)%N = true.
Proof.
  unfold wordc, is_ident, is_alpha, is_digit. rewrite !orb_true_iff. intros [[[[H|H]|H]|H]|H]; rewrite ?H; auto 8; left;
    rewrite ?orb_true_iff; auto 8.
Qed.
Lemma high_first c : (128 <=? c)%N = true -> first c = None /\ is_ident c = false /\ is_quote c = false /\ is_digit c = false.
Proof.
  intros H. apply N.leb_le in H.
  assert (L : forall a, (a < 128)%N -> (c =? a)%N = false) by (intros; apply N.eqb_neq; lia).
  assert (L2 : forall a, (a < 128)%N -> (c <=? a)%N = false) by (intros; apply N.leb_gt; lia).
  unfold first, is_ident, is_alpha, is_digit, is_quote, bracket, op_char. cbn [existsb].
  rewrite !L, !L2 by reflexivity. rewrite !andb_false_r. auto.
Qed.
Lemma emit_high t c : first c = None -> emit t c = None.
Proof. intros H. unfold emit. rewrite H. now destruct t. Qed.
Definition after_word (o : option (list token)) : Prop :=
  o = None \/ exists t ts, match t with TName _ | TConst _ | TNum _ | KAnd | KOr | KNot | KIf | KElse | KFor | KIn | KIs | KOther => True | _ => False end /\
    o = Some (t :: LPar :: Comma :: ts).
Lemma word_token_kind x : match word_token x with TName _ | TConst _ | TNum _ | KAnd | KOr | KNot | KIf | KElse | KFor | KIn | KIs | KOther => True | _ => False end.
Proof.
  unfold word_token. destruct (existsb (teqb x) constants); [exact I|].
  destruct (find (fun k => teqb x (fst k)) syntax_keywords) as [[k t]|] eqn:F.
  - apply find_some in F as [F _]. unfold syntax_keywords in F. cbn [In] in F. cbn [snd].
    repeat (destruct F as [F|F]; [inversion F; exact I|]). contradiction.
  - destruct (existsb (teqb x) other_keywords); exact I.
Qed.
Lemma lex_name w : forallb wordc w = true -> forall acc r, after_word (lex (InName acc) (w ++ 40%N :: 44%N :: r)).
Proof.
  induction w as [|c w IH]; intros H acc r.
  - cbn [app lex step]. change (is_ident 40) with false. change (is_quote 40) with false. unfold emit. cbn [first]. cbn [lex step].
    change (first 40) with (Some ([LPar], Start)). cbn iota. cbn [lex step]. change (first 44) with (Some ([Comma], Start)). cbn iota beta.
    destruct (lex Start r) as [ts|]; [right|now left]. exists (word_token acc), ts. split; [apply word_token_kind|reflexivity].
  - cbn [forallb] in H. apply andb_true_iff in H as [H1 H2]. cbn [app lex step]. destruct (wordc_cases c H1) as [E|E].
    + rewrite E. cbn [prepend]. specialize (IH H2 (acc ++ [c]) r). destruct (lex (InName (acc ++ [c])) (w ++ 40%N :: 44%N :: r)); exact IH.
    + destruct (high_first c E) as (F & -> & -> & _). rewrite emit_high by exact F. now left.
Qed.
Lemma lex_num w : forallb wordc w = true -> forall n z r, after_word (lex (InNum n z) (w ++ 40%N :: 44%N :: r)).
Proof.
  induction w as [|c w IH]; intros H n z r.
  - cbn [app lex step]. change (is_digit 40) with false. change (is_alpha 40 || (40 =? 46)%N) with false. unfold emit. cbn [lex step].
    change (first 40) with (Some ([LPar], Start)). cbn iota. cbn [lex step]. change (first 44) with (Some ([Comma], Start)). cbn iota beta.
    destruct (lex Start r) as [ts|]; [right|now left]. exists (TNum n), ts. split; [exact I|reflexivity].
  - cbn [forallb] in H. apply andb_true_iff in H as [H1 H2]. cbn [app lex step].
    destruct (is_digit c) eqn:D.
    + destruct z; [now left|]. specialize (IH H2 (10 * n + (c - 48))%N false r). cbn [prepend].
      destruct (lex (InNum (10 * n + (c - 48)) false) (w ++ 40%N :: 44%N :: r)); exact IH.
    + destruct (is_alpha c || (c =? 46)%N) eqn:A; [now left|]. destruct (wordc_cases c H1) as [E|E].
      * unfold is_ident in E. rewrite D, orb_false_r in E. rewrite E in A. discriminate A.
      * destruct (high_first c E) as (F & _). rewrite emit_high by exact F. now left.
Qed.
Lemma reads_bad t a : reads t a -> match lex Start t with Some ts => ~ bad ts | None => False end.
Proof. intros (ts & n & L & H). unfold tokenize in L. rewrite L. intros B. rewrite B in H. discriminate. Qed.
Lemma reads_text t a : reads t a -> expression_text t.
Proof.
  intros R. pose proof (reads_bad t a R) as H. split.
  - intros ->. cbn in H. apply H. intros n l. apply bad_of; [exact I|]. reflexivity.
  - intros I. apply Proofs_SourceText.reads_flat in R. unfold Proofs_SourceText.flat in R. rewrite forallb_forall in R.
    specialize (R _ I). discriminate R.
  - intros r ->. cbn [lex step] in H. change (first 44) with (Some ([Comma], Start)) in H. cbn iota in H. cbn [prepend] in H.
    destruct (lex Start r) as [ts|]; [|exact H]. apply H. cbn [app]. apply bad_comma.
  - intros f r [N W] ->. destruct f as [|c f]; [contradiction|]. cbn [forallb] in W. apply andb_true_iff in W as [W1 W2].
    cbn [app lex step] in H. unfold first in H.
    assert (C : (c =? 32)%N = false) by (apply N.eqb_neq; intros ->; discriminate W1). rewrite C in H.
    destruct (is_alpha c) eqn:A.
    + destruct (lex_name f W2 [c] r) as [E|(t & ts & K & E)]; rewrite E in H; cbn [prepend] in H; [exact H|].
      apply H. cbn [app]. apply bad_call. destruct t; auto.
    + destruct (is_digit c) eqn:D.
      * destruct (lex_num f W2 (c - 48)%N (c =? 48)%N r) as [E|(t & ts & K & E)]; rewrite E in H; cbn [prepend] in H; [exact H|].
        apply H. cbn [app]. apply bad_call. destruct t; auto.
      * destruct (wordc_cases c W1) as [E|E]; [unfold is_ident in E; rewrite A, D in E; discriminate|].
        destruct (high_first c E) as (F & _). unfold first in F. rewrite C, A, D in F. rewrite F in H. exact H.
Qed.
