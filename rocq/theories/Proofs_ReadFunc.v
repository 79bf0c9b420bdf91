(** A text defines at most one function, in one way. *)
From Coq Require Import String Ascii List NArith ZArith Bool Arith Lia.
From Verif Require Import Model_Code Model_Eval Spec_Syntax Spec_Source Proofs_Syntax Proofs_Lex Proofs_ReadOnce Proofs_SourceText.
Import ListNotations.

(** *** tokens of a text followed by a space *)
Definition quoted (s : lstate) : Prop :=
  match s with InStr q _ | Esc q _ | Hex q _ _ _ | EmptyStr q => is_quote q = true | _ => True end.
Lemma first_quoted c l s : first c = Some (l, s) -> quoted s.
Proof.
  unfold first. destruct (N.eqb c 32); [injection 1 as <- <-; exact I|].
  destruct (is_alpha c); [injection 1 as <- <-; exact I|]. destruct (is_digit c); [injection 1 as <- <-; exact I|].
  destruct (is_quote c) eqn:E; [injection 1 as <- <-; exact E|].
  destruct (bracket c); [injection 1 as <- <-; exact I|]. destruct (op_char c); [injection 1 as <- <-; exact I|discriminate].
Qed.
Lemma emit_quoted t c l s : emit t c = Some (l, s) -> quoted s.
Proof.
  unfold emit. destruct t; [|discriminate]. destruct (first c) as [[l' s']|] eqn:E; [|discriminate].
  injection 1 as <- <-. eapply first_quoted; eauto.
Qed.
Lemma step_quoted s c l s' : quoted s -> step s c = Some (l, s') -> quoted s'.
Proof.
  intros Q. destruct s; cbn [step quoted] in *.
  - apply first_quoted.
  - destruct (is_ident c); [injection 1 as <- <-; exact I|]. destruct (is_quote c); [discriminate|]. apply emit_quoted.
  - destruct (is_digit c); [destruct zero; [discriminate|injection 1 as <- <-; exact I]|].
    destruct (_ || _); [discriminate|]. apply emit_quoted.
  - destruct (op_pair c0 c); [injection 1 as <- <-; exact I|]. destruct (_ && _); [discriminate|]. apply emit_quoted.
  - destruct (op_triple c0 d c); [discriminate|]. apply emit_quoted.
  - destruct (N.eqb c q); [destruct acc; injection 1 as <- <-; [exact Q|exact I]|].
    destruct (N.eqb c 92); [injection 1 as <- <-; exact Q|]. destruct (_ || _); [discriminate|]. injection 1 as <- <-; exact Q.
  - unfold escape. repeat (match goal with |- context [if ?b then _ else _] => destruct b end; [injection 1 as <- <-; exact Q|]).
    discriminate.
  - destruct (hex_value c); [|discriminate]. destruct k as [|[|k]]; [discriminate| |injection 1 as <- <-; exact Q].
    destruct (N.leb _ _); [injection 1 as <- <-; exact Q|discriminate].
  - destruct (N.eqb c q); [discriminate|]. apply emit_quoted.
Qed.
Lemma lex_split t : forall s ts, quoted s -> lex s t = Some ts ->
  exists l s' f, run s t = Some (l, s') /\ quoted s' /\ flush s' = Some f /\ ts = l ++ f.
Proof.
  induction t as [|c t IH]; intros s ts Q H; cbn [lex Proofs_Lex.run] in *.
  - exists [], s, ts. auto.
  - destruct (step s c) as [[l1 s1]|] eqn:E; [|discriminate]. pose proof (step_quoted _ _ _ _ Q E) as Q1.
    destruct (lex s1 t) as [ts1|] eqn:E1; [|discriminate]. cbn in H. injection H as <-.
    destruct (IH s1 ts1 Q1 E1) as (l & s' & f & R & Q' & F & ->). exists (l1 ++ l), s', f. rewrite R. rewrite app_assoc. auto.
Qed.
Lemma space s f r : quoted s -> flush s = Some f -> lex s (32%N :: r) = prepend f (lex Start r).
Proof.
  intros Q F. destruct s; cbn [flush] in F; try discriminate; cbn [lex step].
  - injection F as <-. reflexivity.
  - injection F as <-. reflexivity.
  - injection F as <-. reflexivity.
  - unfold option_map in F. destruct (op_token c) as [t|] eqn:E; [|discriminate]. injection F as <-.
    assert (P : op_pair c 32 = false).
    { unfold op_pair. rewrite <- not_true_iff_false. intros H. apply existsb_exists in H as ([x y] & I & H). cbn [fst snd] in H.
      apply andb_true_iff in H as [_ H]. apply N.eqb_eq in H. subst. cbn [In] in I.
      repeat (destruct I as [I|I]; [discriminate I|]). destruct I. }
    rewrite P. change (is_digit 32) with false. rewrite andb_false_r. reflexivity.
  - unfold option_map in F. destruct (op2_token c d) as [t|] eqn:E; [|discriminate]. injection F as <-.
    change (op_triple c d 32) with false. reflexivity.
  - injection F as <-. cbn in Q. destruct (N.eqb 32 q) eqn:E; [apply N.eqb_eq in E; subst; discriminate Q|]. reflexivity.
Qed.
Lemma tokens_space t ts r : tokenize t = Some ts -> tokenize (t ++ 32%N :: r) = prepend ts (tokenize r).
Proof.
  unfold tokenize. intros H. destruct (lex_split t Start ts I H) as (l & s' & f & R & Q & F & ->).
  rewrite (lex_run _ _ _ _ _ R), (space _ _ _ Q F). apply prepend_app.
Qed.
Definition gap (u : text) : Prop := u = [] \/ exists r, u = 32%N :: r.
Lemma tokens_assign u : gap u -> tokenize (61%N :: u) = prepend [Assign] (tokenize u).
Proof.
  intros [->|[r ->]]; [reflexivity|]. change (tokenize (61%N :: 32%N :: r)) with (prepend [] (prepend [Assign] (lex Start r))).
  change (tokenize (32%N :: r)) with (prepend [] (lex Start r)). now rewrite !prepend_nil.
Qed.

(** no expression continues with an assignment sign *)
Lemma not_assign t a u b : gap u -> reads t a -> ~ reads (t ++ T " =" ++ u) b.
Proof.
  intros G (ts & n & E & H) (ts' & m & E' & H').
  change (t ++ T " =" ++ u) with (t ++ 32%N :: 61%N :: u) in E'.
  rewrite (tokens_space _ _ _ E), (tokens_assign _ G) in E'. destruct (tokenize u) as [tu|]; [|discriminate].
  cbn in E'. injection E' as <-.
  apply (parse_le n (n + m)) in H; [|lia]. apply (parse_le m (n + m)) in H'; [|lia].
  rewrite (parse_ext tu _ _ _ _ _ H) in H'. discriminate.
Qed.

(** no expression starts with a keyword *)
Definition kw (t : token) : Prop := t = KIf \/ t = KOther.
Lemma no_kw n : forall l t ts, kw t -> parse n l (t :: ts) = None.
Proof.
  induction n as [|n IH]; intros l t ts K; [reflexivity|]. cbn [parse].
  assert (H : forall l, parse n l (t :: ts) = None) by (intros; auto).
  destruct K as [-> | ->];
    do 13 (destruct l as [|l]; [cbn [level]; rewrite ?H; reflexivity|]); reflexivity.
Qed.
Lemma no_empty n : forall l, parse n l [] = None.
Proof.
  induction n as [|n IH]; intros l; [reflexivity|]. cbn [parse].
  do 13 (destruct l as [|l]; [cbn [level]; rewrite ?IH; reflexivity|]); reflexivity.
Qed.
(** texts that start with a keyword *)
Definition keyed (t : text) : Prop := exists k, kw k /\ (tokenize t = None \/ exists ts, tokenize t = Some (k :: ts)).
Lemma keyed_word w t : (exists k, kw k /\ Proofs_Lex.run Start w = Some ([k], Start)) -> keyed (w ++ t).
Proof.
  intros (k & K & R). exists k. split; [exact K|]. unfold tokenize. rewrite (lex_run _ _ _ _ _ R).
  destruct (lex Start t) as [ts|]; cbn; eauto.
Qed.
Lemma keyed_not t a : keyed t -> ~ reads t a.
Proof.
  intros (k & K & [E|[ts E]]) (ts' & n & E' & H); [congruence|]. rewrite E in E'. injection E' as <-. rewrite no_kw in H by exact K. discriminate.
Qed.
Lemma keyed_not_assign t a u : gap u -> keyed (t ++ T " =" ++ u) -> reads t a -> tokenize u <> None -> False.
Proof.
  intros G (k & K & D) (ts & n & E & H) N.
  change (t ++ T " =" ++ u) with (t ++ 32%N :: 61%N :: u) in D.
  rewrite (tokens_space _ _ _ E), (tokens_assign _ G) in D. destruct (tokenize u) as [tu|]; [|contradiction].
  destruct D as [D|[ts' D]]; [discriminate|]. cbn in D. injection D as D. destruct ts as [|k' ts].
  - rewrite no_empty in H. discriminate.
  - injection D as -> _. rewrite no_kw in H by exact K. discriminate.
Qed.

(** *** simple statements *)
Lemma ident_reads x : ident x = true -> reads x (AName x).
Proof.
  intros H. exists [TName x], 40. split.
  - unfold tokenize. rewrite <- (app_nil_r x) at 1. rewrite (lex_ident x [] false H I). reflexivity.
  - reflexivity.
Qed.
(** the two forms of assignments *)
Definition assigns (s : stmt) (t e : text) : Prop :=
  exists a, reads e a /\
    ((exists x, t = x /\ ident x = true /\ s = SAssign x a) \/ (exists o i, reads t (ASub o i) /\ s = SSetItem o i a)).
Lemma assigns_reads s t e : assigns s t e -> (exists b, reads t b) /\ exists a, reads e a.
Proof.
  intros (a & E & [(x & -> & I & _)|(o & i & R & _)]); split; eauto. eexists. now apply ident_reads.
Qed.
Lemma sp_gap e : gap (T " " ++ e). Proof. right. eexists. reflexivity. Qed.
Lemma reads_token t a : reads t a -> tokenize t <> None.
Proof. intros (ts & n & E & _). congruence. Qed.
Lemma space_token t a : reads t a -> tokenize (T " " ++ t) <> None.
Proof. intros R. change (tokenize (T " " ++ t)) with (prepend [] (tokenize t)). rewrite prepend_nil. eapply reads_token; eauto. Qed.

Inductive shape (t : text) (s : stmt) : Prop :=
| sh_keyword (w : text) (r : text) : In w (map T ["global "; "return "; "yield "]%string) -> t = w ++ r -> shape t s
| sh_assign u e : t = u ++ T " =" ++ T " " ++ e -> assigns s u e -> shape t s
| sh_expr a : reads t a -> s = SExpr a -> shape t s.
Lemma stmt_shape t s : simple_stmt t s -> shape t s.
Proof.
  intros H. destruct H.
  - eapply sh_keyword; [left; reflexivity|reflexivity].
  - eapply sh_keyword; [right; left; reflexivity|reflexivity].
  - eapply sh_keyword; [right; right; left; reflexivity|reflexivity].
  - eapply sh_assign; [reflexivity|]. exists a. split; eauto.
  - eapply sh_assign; [reflexivity|]. exists a. split; eauto.
  - eapply sh_expr; eauto.
Qed.
Lemma keyword_keyed w r : In w (map T ["global "; "return "; "yield "; "if "]%string) -> keyed (w ++ r).
Proof.
  intros H. apply keyed_word. cbn [map In] in H.
  destruct H as [<-|[<-|[<-|[<-|[]]]]]; eexists; (split; [|reflexivity]); unfold kw; auto.
Qed.
Lemma try_keyed : keyed (T "try:").
Proof. exists KOther. split; [right; reflexivity|]. right. eexists. reflexivity. Qed.
(** a text that starts with a keyword is not an assignment, nor an expression *)
Lemma keyed_shape t s : keyed t -> simple_stmt t s -> exists w r, In w (map T ["global "; "return "; "yield "]%string) /\ t = w ++ r.
Proof.
  intros K H. destruct (stmt_shape _ _ H) as [w r I E|u e E A|a R _].
  - eauto.
  - exfalso. subst. destruct (assigns_reads _ _ _ A) as [[b B] [a Ra]].
    eapply keyed_not_assign; [apply sp_gap|exact K|exact B|eapply space_token; eauto].
  - exfalso. eapply keyed_not; eauto.
Qed.

(** splitting at the assignment sign *)
Lemma split_assign u e v f b : reads u b -> (exists b', reads v b') ->
  u ++ T " =" ++ T " " ++ e = v ++ T " =" ++ T " " ++ f -> length u <= length v -> u = v /\ e = f.
Proof.
  intros Ru [b' Rv] H L.
  assert (P : exists m, v = u ++ m).
  { clear - H L. revert v H L. induction u as [|c u IH]; intros v H L; [exists v; reflexivity|]. destruct v as [|d v]; [inversion L|].
    cbn [app] in H. injection H as -> H. destruct (IH v H) as [m ->]; [now apply le_S_n in L|]. exists m. reflexivity. }
  destruct P as [m ->]. rewrite <- app_assoc in H. apply app_inv_head in H.
  destruct m as [|c1 m]; [split; [now rewrite app_nil_r|]; cbn [app] in H; now apply app_inv_head in H; apply app_inv_head in H|].
  exfalso. cbn in H. injection H as <- H. destruct m as [|c2 m]; [discriminate H|]. cbn in H. injection H as <- H.
  assert (G : gap m) by (destruct m as [|c3 m]; [now left|]; cbn in H; injection H as <- _; right; eauto).
  eapply (not_assign u b m b'); eauto.
Qed.
Lemma split_assign' u e v f : (exists b, reads u b) -> (exists b', reads v b') ->
  u ++ T " =" ++ T " " ++ e = v ++ T " =" ++ T " " ++ f -> u = v /\ e = f.
Proof.
  intros [b B] [b' B'] H. destruct (Nat.leb_spec (length u) (length v)).
  - eapply split_assign; eauto.
  - destruct (split_assign v f u e b' B' (ex_intro _ b B) (eq_sym H)) as [E1 E2]; [now apply Nat.lt_le_incl|]. split; congruence.
Qed.

(** lists of names *)
Definition wordlike (x : text) : Prop := x <> [] /\ forallb (fun c => negb (N.eqb c 44)) x = true.
Lemma ident_wordlike x : ident x = true -> wordlike x.
Proof.
  intros H. split; [intros ->; discriminate|]. apply forallb_forall. intros c Hc. apply negb_true_iff, N.eqb_neq. intros ->.
  apply ident_char in H. rewrite forallb_forall in H. specialize (H _ Hc). discriminate.
Qed.
Lemma idents_wordlike l : Forall (fun x => ident x = true) l -> Forall wordlike l.
Proof. apply Forall_impl. exact ident_wordlike. Qed.
Lemma comma_split (x y a b : text) : forallb (fun c => negb (N.eqb c 44)) x = true -> forallb (fun c => negb (N.eqb c 44)) y = true ->
  x ++ 44%N :: a = y ++ 44%N :: b -> x = y /\ a = b.
Proof.
  revert y. induction x as [|c x IH]; intros [|d y] Hx Hy H; cbn [app forallb] in *.
  - injection H as ->. auto.
  - injection H as <- _. discriminate.
  - injection H as -> _. discriminate.
  - injection H as -> H. apply andb_true_iff in Hx as [_ Hx], Hy as [_ Hy]. destruct (IH y Hx Hy H) as [-> ->]. auto.
Qed.
Lemma comma_none (x y a : text) : forallb (fun c => negb (N.eqb c 44)) x = true -> x <> y ++ 44%N :: a.
Proof.
  intros H E. rewrite E, forallb_app in H. apply andb_true_iff in H as [_ H]. discriminate.
Qed.
Lemma intersperse_inj l : forall l', Forall wordlike l -> Forall wordlike l' ->
  intersperse (T ", ") l = intersperse (T ", ") l' -> l = l'.
Proof.
  induction l as [|x l IH]; intros l' F F' H.
  - destruct l' as [|y [|z l']]; [reflexivity| |]; inversion F' as [|? ? [N _] _]; subst; cbn in H; destruct y; try contradiction; discriminate.
  - inversion F as [|? ? [N C] F1]; subst. destruct l' as [|y l'].
    + exfalso. destruct l; cbn in H; destruct x; try contradiction; discriminate.
    + inversion F' as [|? ? [N' C'] F1']; subst.
      destruct l as [|x2 l], l' as [|y2 l'].
      * cbn in H. now subst.
      * exfalso. cbn [intersperse] in H. exact (comma_none x y _ C H).
      * exfalso. cbn [intersperse] in H. symmetry in H. exact (comma_none y x _ C' H).
      * cbn [intersperse] in H. change (T ", ") with ([44%N; 32%N]) in H at 1 3. cbn [app] in H. apply comma_split in H as [-> H]; auto.
        injection H as H. f_equal. apply IH; auto.
Qed.

(** statements by their kind *)
Lemma global_once l s : Forall (fun x => ident x = true) l -> simple_stmt (T "global " ++ intersperse (T ", ") l) s -> s = SGlobal l.
Proof.
  intros F H. remember (T "global " ++ intersperse (T ", ") l) as t eqn:E. destruct H as [l' F' N'|e' a' R'|e' a' R'|x e' a' Ix R'|t0 o i e' a' R0 R'|e' a' R']; try discriminate E.
  - f_equal. apply app_inv_head in E. revert E. apply intersperse_inj; now apply idents_wordlike.
  - exfalso. apply (keyed_not_assign x (AName x) (T " " ++ e')); auto using sp_gap, ident_reads; [|eapply space_token; eauto].
    change (x ++ T " =" ++ T " " ++ e') with (x ++ T " = " ++ e'). rewrite E. apply keyword_keyed. cbn [map In]; tauto.
  - exfalso. apply (keyed_not_assign t0 (ASub o i) (T " " ++ e')); auto using sp_gap; [|eapply space_token; eauto].
    change (t0 ++ T " =" ++ T " " ++ e') with (t0 ++ T " = " ++ e'). rewrite E. apply keyword_keyed. cbn [map In]; tauto.
  - exfalso. subst e'. eapply keyed_not; [|eassumption]. apply keyword_keyed. cbn [map In]; tauto.
Qed.
Lemma return_once e a s : reads e a -> simple_stmt (T "return " ++ e) s -> s = SReturn a.
Proof.
  intros F H. remember (T "return " ++ e) as t eqn:E. destruct H as [l' F' N'|e' a' R'|e' a' R'|x e' a' Ix R'|t0 o i e' a' R0 R'|e' a' R']; try discriminate E.
  - f_equal. apply app_inv_head in E as ->. eapply reads_unique; eauto.
  - exfalso. apply (keyed_not_assign x (AName x) (T " " ++ e')); auto using sp_gap, ident_reads; [|eapply space_token; eauto].
    change (x ++ T " =" ++ T " " ++ e') with (x ++ T " = " ++ e'). rewrite E. apply keyword_keyed. cbn [map In]; tauto.
  - exfalso. apply (keyed_not_assign t0 (ASub o i) (T " " ++ e')); auto using sp_gap; [|eapply space_token; eauto].
    change (t0 ++ T " =" ++ T " " ++ e') with (t0 ++ T " = " ++ e'). rewrite E. apply keyword_keyed. cbn [map In]; tauto.
  - exfalso. subst e'. eapply keyed_not; [|eassumption]. apply keyword_keyed. cbn [map In]; tauto.
Qed.
Lemma yield_once e a s : reads e a -> simple_stmt (T "yield " ++ e) s -> s = SYield a.
Proof.
  intros F H. remember (T "yield " ++ e) as t eqn:E. destruct H as [l' F' N'|e' a' R'|e' a' R'|x e' a' Ix R'|t0 o i e' a' R0 R'|e' a' R']; try discriminate E.
  - f_equal. apply app_inv_head in E as ->. eapply reads_unique; eauto.
  - exfalso. apply (keyed_not_assign x (AName x) (T " " ++ e')); auto using sp_gap, ident_reads; [|eapply space_token; eauto].
    change (x ++ T " =" ++ T " " ++ e') with (x ++ T " = " ++ e'). rewrite E. apply keyword_keyed. cbn [map In]; tauto.
  - exfalso. apply (keyed_not_assign t0 (ASub o i) (T " " ++ e')); auto using sp_gap; [|eapply space_token; eauto].
    change (t0 ++ T " =" ++ T " " ++ e') with (t0 ++ T " = " ++ e'). rewrite E. apply keyword_keyed. cbn [map In]; tauto.
  - exfalso. subst e'. eapply keyed_not; [|eassumption]. apply keyword_keyed. cbn [map In]; tauto.
Qed.
Lemma assigns_once s s' u e : assigns s u e -> assigns s' u e -> s = s'.
Proof.
  intros (a & R & H) (a' & R' & H'). pose proof (reads_unique _ _ _ R R') as <-.
  destruct H as [(x & -> & I & ->)|(o & i & Q & ->)], H' as [(x' & -> & I' & ->)|(o' & i' & Q' & ->)].
  - reflexivity.
  - pose proof (reads_unique _ _ _ (ident_reads _ I) Q'). discriminate.
  - pose proof (reads_unique _ _ _ (ident_reads _ I') Q). discriminate.
  - pose proof (reads_unique _ _ _ Q Q') as E. injection E as <- <-. reflexivity.
Qed.
Lemma keyword_once w r s s' : In w (map T ["global "; "return "; "yield "]%string) ->
  simple_stmt (w ++ r) s -> simple_stmt (w ++ r) s' -> s = s'.
Proof.
  intros I H H'.
  assert (K : keyed (w ++ r)) by (apply keyword_keyed; cbn [map In] in *; tauto).
  remember (w ++ r) as t eqn:E. destruct H as [l F N|e a R|e a R|x e a Ix R|t0 o i e a R0 R|e a R].
  - symmetry. apply global_once; auto.
  - symmetry. apply (return_once e a); auto.
  - symmetry. apply (yield_once e a); auto.
  - exfalso. apply (keyed_not_assign x (AName x) (T " " ++ e)); auto using sp_gap, ident_reads. eapply space_token; eauto.
  - exfalso. apply (keyed_not_assign t0 (ASub o i) (T " " ++ e)); auto using sp_gap. eapply space_token; eauto.
  - exfalso. eapply keyed_not; eauto.
Qed.
Lemma stmt_once t s s' : simple_stmt t s -> simple_stmt t s' -> s = s'.
Proof.
  intros H H'. destruct (stmt_shape _ _ H) as [w r I E|u e E A|a R Es].
  - subst t. eapply keyword_once; eauto.
  - destruct (stmt_shape _ _ H') as [w r I' E'|u' e' E' A'|a R Es].
    + subst t. rewrite E' in *. eapply keyword_once; eauto.
    + rewrite E' in E. destruct (assigns_reads _ _ _ A) as [B _]. destruct (assigns_reads _ _ _ A') as [B' _].
      apply split_assign' in E as [-> ->]; auto. eapply assigns_once; eauto.
    + exfalso. destruct (assigns_reads _ _ _ A) as [[b B] _]. subst t. eapply (not_assign u b (T " " ++ e) a); eauto using sp_gap.
  - destruct (stmt_shape _ _ H') as [w r I' E'|u' e' E' A'|a' R' Es'].
    + subst t. eapply keyword_once; eauto.
    + exfalso. destruct (assigns_reads _ _ _ A') as [[b B] _]. subst t. eapply (not_assign u' b (T " " ++ e') a); eauto using sp_gap.
    + subst. f_equal. eapply reads_unique; eauto.
Qed.
Lemma stmt_not_if e s : ~ simple_stmt (T "if " ++ e) s.
Proof.
  intros H. destruct (keyed_shape (T "if " ++ e) s) as (w & r & I & E); auto.
  { apply keyword_keyed. cbn [map In]. tauto. }
  cbn [map In] in I. destruct I as [<-|[<-|[<-|[]]]]; discriminate E.
Qed.
Lemma stmt_not_try s : ~ simple_stmt (T "try:") s.
Proof.
  intros H. destruct (keyed_shape _ s try_keyed H) as (w & r & I & E).
  cbn [map In] in I. destruct I as [<-|[<-|[<-|[]]]]; discriminate E.
Qed.
Lemma stmt_not_except r s : ~ simple_stmt (T "except " ++ r) s.
Proof.
  intros H. assert (K : keyed (T "except " ++ r)). { apply keyed_word. exists KOther. split; [right; reflexivity|reflexivity]. }
  destruct (keyed_shape _ s K H) as (w & r' & I & E). cbn [map In] in I. destruct I as [<-|[<-|[<-|[]]]]; discriminate E.
Qed.

(** *** blocks *)
(** leading spaces *)
Fixpoint lead (l : text) : nat := match l with c :: r => if N.eqb c 32 then S (lead r) else 0 | [] => 0 end.
Lemma lead_repeat n t : match t with c :: _ => c <> 32%N | [] => False end -> lead (repeat 32%N n ++ t) = n.
Proof.
  intros H. induction n as [|n IH]; cbn [repeat app].
  - destruct t as [|c t]; [contradiction|]. cbn. now rewrite (proj2 (N.eqb_neq _ _) H).
  - cbn. now rewrite IH.
Qed.
Lemma indented_lead k l t : indented k l t -> lead l = 4 * k /\ blank l = false.
Proof.
  intros [-> H]. split; [now apply lead_repeat|]. unfold blank. rewrite forallb_app. apply andb_false_iff. right.
  destruct t as [|c t]; [contradiction|]. cbn [forallb]. destruct (N.eqb 32 c) eqn:E; [apply N.eqb_eq in E; congruence|reflexivity].
Qed.
Lemma indented_once k l t t' : indented k l t -> indented k l t' -> t = t'.
Proof. intros [-> _] [E _]. now apply app_inv_head in E. Qed.
(** lines of a block are blank or indented by its depth at least; the lines of its statements exactly *)
Definition deep (k : nat) (l : text) : Prop := blank l = true \/ 4 * k <= lead l.
Lemma deep_S k l : deep (S k) l -> deep k l.
Proof. intros [H|H]; [now left|right; lia]. Qed.
Lemma block_deep k ls b : block k ls b -> Forall (deep k) ls.
Proof.
  induction 1 as [k|k l ls b B H IH|k l t ls s b I Q H IH|k l t e c l1 b1 ls b I E R H1 IH1 N1 H IH|k l l1 b1 l' l2 b2 ls b I H1 IH1 N1 I' H2 IH2 N2 H IH].
  - constructor.
  - constructor; [now left|exact IH].
  - constructor; [right; destruct (indented_lead _ _ _ I); lia|exact IH].
  - constructor; [right; destruct (indented_lead _ _ _ I); lia|]. apply Forall_app. split; [|exact IH].
    eapply Forall_impl; [apply deep_S|exact IH1].
  - constructor; [right; destruct (indented_lead _ _ _ I); lia|]. apply Forall_app. split.
    + eapply Forall_impl; [apply deep_S|exact IH1].
    + constructor; [right; destruct (indented_lead _ _ _ I'); lia|]. apply Forall_app. split; [|exact IH].
      eapply Forall_impl; [apply deep_S|exact IH2].
Qed.
(** the first line that is not blank *)
Definition solid (l : text) : bool := negb (blank l).
Lemma block_solid k ls b : block k ls b -> block k (filter solid ls) b.
Proof.
  induction 1 as [k|k l ls b B H IH|k l t ls s b I Q H IH|k l t e c l1 b1 ls b I E R H1 IH1 N1 H IH|k l l1 b1 l' l2 b2 ls b I H1 IH1 N1 I' H2 IH2 N2 H IH];
    cbn [filter].
  - constructor.
  - unfold solid at 1. rewrite B. exact IH.
  - unfold solid at 1. rewrite (proj2 (indented_lead _ _ _ I)). cbn [negb]. eapply b_simple; eauto.
  - unfold solid at 1. rewrite (proj2 (indented_lead _ _ _ I)). cbn [negb]. rewrite filter_app. eapply b_if; eauto.
  - unfold solid at 1. rewrite (proj2 (indented_lead _ _ _ I)). cbn [negb]. rewrite filter_app. cbn [filter]. unfold solid at 2.
    rewrite (proj2 (indented_lead _ _ _ I')). cbn [negb]. rewrite filter_app. eapply b_try; eauto.
Qed.
Definition opens (k : nat) (ls : list text) : Prop := match ls with [] => True | l :: _ => lead l = 4 * k end.
Definition nonblank (ls : list text) : Prop := Forall (fun l => blank l = false) ls.
Lemma block_opens k ls b : block k ls b -> nonblank ls -> opens k ls.
Proof.
  intros H N. destruct H as [|k l ls b B H|k l t ls s b I Q H|k l t e c l1 b1 ls b I E R H1 N1 H|k l l1 b1 l' l2 b2 ls b I H1 N1 I' H2 N2 H];
    cbn; auto; try apply (indented_lead _ _ _ I). inversion N; congruence.
Qed.
Lemma split_once k : forall a b a' b', Forall (deep (S k)) a -> Forall (deep (S k)) a' -> opens k b -> opens k b' ->
  nonblank (a ++ b) -> a ++ b = a' ++ b' -> a = a' /\ b = b'.
Proof.
  induction a as [|l a IH]; intros b a' b' Fa Fa' Ob Ob' N H.
  - destruct a' as [|l' a']; [auto|]. exfalso. cbn [app] in *. subst b. inversion Fa' as [|? ? D _]; subst. inversion N as [|? ? N1 _]; subst.
    cbn in Ob. destruct D as [D|D]; [congruence|lia].
  - inversion Fa as [|? ? D Fa1]; subst. cbn [app] in N. inversion N as [|? ? N1 N2]; subst. destruct a' as [|l' a'].
    + exfalso. cbn [app] in H. subst b'. cbn in Ob'. destruct D as [D|D]; [congruence|lia].
    + cbn [app] in H. injection H as <- H. inversion Fa'; subst. destruct (IH b a' b') as [-> ->]; auto.
Qed.
Lemma except_opens k l' t ls : indented k l' t -> opens k (l' :: ls).
Proof. intros I. apply (indented_lead _ _ _ I). Qed.

Lemma block_once_solid k ls b : block k ls b -> nonblank ls -> forall b', block k ls b' -> b = b'.
Proof.
  induction 1 as [k|k l ls b B H IH|k l t ls s b I Q H IH|k l t e c l1 b1 ls b I E R H1 IH1 N1 H IH|k l l1 b1 l' l2 b2 ls b I H1 IH1 N1 I' H2 IH2 N2 H IH];
    intros N b' H'.
  - inversion H'; reflexivity.
  - exfalso. inversion N; congruence.
  - inversion N as [|? ? Nl Nls]; subst. inversion H' as [|? ? ? ? B' ?|? ? t' ? s' b2 I' Q' H2|? ? t' e' c' ? ? ? ? I' E' ? ? ? ?|? ? ? ? ? ? ? ? ? I' ? ? ? ? ? ?]; subst.
    + congruence.
    + pose proof (indented_once _ _ _ _ I I') as <-. f_equal; [eapply stmt_once; eauto|eauto].
    + exfalso. pose proof (indented_once _ _ _ _ I I') as ->. eapply stmt_not_if; eauto.
    + exfalso. pose proof (indented_once _ _ _ _ I I') as ->. eapply stmt_not_try; eauto.
  - inversion N as [|? ? Nl Nls]; subst. pose proof Nls as Nls'. apply Forall_app in Nls as [Na Nb].
    inversion H' as [|? ? ? ? B' ?|? ? t' ? s' b2 I' Q' H2|? ? t' e' c' l1' b1' ls' b0' I' E' R' H1' N1' H0'|? ? ? ? ? ? ? ? ? I' ? ? ? ? ? ?]; subst.
    + congruence.
    + exfalso. pose proof (indented_once _ _ _ _ I I') as <-. eapply stmt_not_if; eauto.
    + pose proof (indented_once _ _ _ _ I I') as E. apply app_inv_head in E. apply app_inv_tail in E. subst e'.
      assert (Ob : opens k ls) by (eapply block_opens; eauto).
      assert (Nb' : nonblank (l1' ++ ls')) by (match goal with E : _ ++ _ = _ ++ _ |- _ => rewrite E end; exact Nls').
      assert (Ob' : opens k ls') by (apply Forall_app in Nb' as [_ Nb']; eapply block_opens; eauto).
      destruct (split_once k l1' ls' l1 ls) as [-> ->]; eauto using block_deep.
      f_equal; [f_equal; [eapply reads_unique; eauto|eauto]|eauto].
    + exfalso. pose proof (indented_once _ _ _ _ I I') as E. discriminate E.
  - inversion N as [|? ? Nl Nls]; subst. pose proof Nls as Nls'. apply Forall_app in Nls as [Na Nb].
    inversion Nb as [|? ? Nl' Nb1]; subst. pose proof Nb1 as Nb1'. apply Forall_app in Nb1 as [Nb1 Nb2].
    inversion H' as [|? ? ? ? B' ?|? ? t' ? s' b0' J' Q' H0'|? ? t' e' c' ? ? ? ? J' E' ? ? ? ?|? ? l1' b1' l'' l2' b2' ls' b0' J' H1' N1' J'' H2' N2' H0']; subst.
    + congruence.
    + exfalso. pose proof (indented_once _ _ _ _ I J') as <-. eapply stmt_not_try; eauto.
    + exfalso. pose proof (indented_once _ _ _ _ I J') as E. discriminate E.
    + assert (Nb' : nonblank (l1' ++ l'' :: l2' ++ ls')) by (match goal with E : _ ++ _ = _ ++ _ |- _ => rewrite E end; exact Nls').
      destruct (split_once k l1' (l'' :: l2' ++ ls') l1 (l' :: l2 ++ ls)) as [-> E]; eauto using block_deep, except_opens.
      injection E as -> E. apply Forall_app in Nb' as [_ Nb']. inversion Nb' as [|? ? _ Nb2']; subst.
      assert (Ob : opens k ls) by (eapply block_opens; eauto).
      assert (Ob' : opens k ls') by (pose proof Nb2' as Nb3; apply Forall_app in Nb3 as [_ Nb3]; eapply block_opens; eauto).
      destruct (split_once k l2' ls' l2 ls) as [-> ->]; eauto using block_deep.
      f_equal; [f_equal; eauto|eauto].
Qed.
Lemma filter_nonblank ls : nonblank (filter solid ls).
Proof. apply Forall_forall. intros l H. apply filter_In in H as [_ H]. now apply negb_true_iff in H. Qed.
Lemma block_once k ls b b' : block k ls b -> block k ls b' -> b = b'.
Proof. intros H H'. apply (block_once_solid k (filter solid ls) b (block_solid _ _ _ H) (filter_nonblank ls)). now apply block_solid. Qed.

(** *** functions *)
Lemma skip_once s d b s' d' b' : s ++ d :: b = s' ++ d' :: b' -> forallb blank s = true -> forallb blank s' = true ->
  blank d = false -> blank d' = false -> d = d' /\ b = b'.
Proof.
  revert s'. induction s as [|l s IH]; intros [|l' s'] H F F' D D'; cbn [app forallb] in *.
  - now injection H.
  - injection H as -> H. apply andb_true_iff in F' as [F' _]. congruence.
  - injection H as -> H. apply andb_true_iff in F as [F _]. congruence.
  - injection H as -> H. apply andb_true_iff in F as [_ F], F' as [_ F']. eauto.
Qed.
Lemma paren_split (x y a b : text) : forallb is_ident x = true -> forallb is_ident y = true ->
  x ++ 40%N :: a = y ++ 40%N :: b -> x = y /\ a = b.
Proof.
  revert y. induction x as [|c x IH]; intros [|d y] Hx Hy H; cbn [app forallb] in *.
  - injection H as ->. auto.
  - injection H as <- _. discriminate.
  - injection H as -> _. discriminate.
  - injection H as -> H. apply andb_true_iff in Hx as [_ Hx], Hy as [_ Hy]. destruct (IH y Hx Hy H) as [-> ->]. auto.
Qed.
Definition star (k : list text) : list text := match k with [] => [] | x :: r => T "*" :: x :: r end.
Lemma star_wordlike k : Forall wordlike k -> Forall wordlike (star k).
Proof. intros F. destruct k; [constructor|]. constructor; [split; [discriminate|reflexivity]|exact F]. Qed.
Lemma star_once p k : forall p' k', Forall (fun x => ident x = true) p -> Forall (fun x => ident x = true) p' ->
  p ++ star k = p' ++ star k' -> p = p' /\ k = k'.
Proof.
  assert (S1 : forall k k', star k = star k' -> k = k').
  { intros [|x k1] [|y k1'] H; cbn in H; try discriminate; [reflexivity|]. now injection H as -> ->. }
  induction p as [|x p IH]; intros [|y p'] k' F F' H; cbn [app] in H.
  - auto.
  - exfalso. inversion F' as [|? ? Q _]; subst. destruct k; [discriminate|]. cbn in H. injection H as <- _. discriminate Q.
  - exfalso. inversion F as [|? ? Q _]; subst. destruct k'; [discriminate|]. cbn in H. injection H as -> _. discriminate Q.
  - injection H as -> H. inversion F; inversion F'; subst. destruct (IH p' k') as [-> ->]; auto.
Qed.
Theorem function_once t f fd f' fd' : reads_function t f fd -> reads_function t f' fd' -> f = f' /\ fd = fd'.
Proof.
  intros (s & b & E & K & If & Ip & _ & Bb & _) (s' & b' & E' & K' & If' & Ip' & _ & Bb' & _).
  rewrite E in E'. apply skip_once in E' as [E1 <-]; auto.
  apply app_inv_head in E1. apply paren_split in E1 as [-> E1]; auto using ident_char.
  apply app_inv_tail in E1. apply intersperse_inj in E1.
  - apply Forall_app in Ip as [Ip1 Ip2], Ip' as [Ip1' Ip2'].
    pose proof (block_once _ _ _ _ Bb Bb') as Eb. destruct fd as [p k c], fd' as [p' k' c']. cbn [f_params f_kwonly f_body] in *.
    destruct (star_once p k p' k' Ip1 Ip1' E1) as [-> ->]. subst. auto.
  - apply Forall_app in Ip as [Ip1 Ip2]. apply Forall_app. split; [|apply star_wordlike]; now apply idents_wordlike.
  - apply Forall_app in Ip' as [Ip1 Ip2]. apply Forall_app. split; [|apply star_wordlike]; now apply idents_wordlike.
Qed.

Lemma defines_once ts d : defines ts d -> forall d', defines ts d' -> d = d'.
Proof.
  induction 1 as [|ts t d f fd H IH R]; intros d' H'.
  - inversion H' as [|ts' t' d0 f' fd' ? ? E]; [reflexivity|]. destruct ts'; discriminate E.
  - inversion H' as [E|ts' t' d0 f' fd' H0 R' E]; [destruct ts; discriminate E|].
    apply app_inj_tail in E as [-> ->]. destruct (function_once _ _ _ _ _ R R') as [<- <-]. f_equal. auto.
Qed.
Print Assumptions defines_once.
