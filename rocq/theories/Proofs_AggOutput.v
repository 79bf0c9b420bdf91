(** Outputs of aggregations made with tuples, lists, sets, dicts and calls: their text is
    read as the expression meant, and how such an expression is evaluated. *)
From Coq Require Import String Ascii List NArith ZArith Bool Arith Lia.
From Verif Require Import Model_PyVal Model_Reducers Model_Code Model_AggText Model_AggFinish Spec_Syntax Spec_Tree Spec_AggProgram
  Spec_FuncRun Spec_AggRun Spec_AggFinish Proofs_Syntax Proofs_Grammar Proofs_Lex Proofs_Tree Proofs_AggExpr
  Proofs_FuncRun Proofs_RedRun Proofs_Steady Proofs_AggFinish.
From Verif Require Spec_Stmt.
Import ListNotations.

Definition maker_tree (s : maker) (l : list ast) : ast :=
  match s with
  | STuple => ATuple l
  | SList => AList l
  | SSet => ASet l
  | SDict => ADict (in_twos l)
  | SCall f => ACall (AName f) l []
  | SBin o => op_tree (OBin o) l
  | SNot => ANot (nth_a l 0)
  | SNeg => AUnary (T "-") (nth_a l 0)
  | SItem => ASub (nth_a l 0) (nth_a l 1)
  | SBool isor => ABool isor l
  | SIf => AIf (nth_a l 0) (nth_a l 1) (nth_a l 2)
  end.

(** *** texts *)
Lemma same_length {A B} (R : A -> B -> Prop) l l' : Forall2 R l l' -> length l = length l'.
Proof. induction 1; cbn; congruence. Qed.
Lemma more_units cl (F0 : In cl [RPar; RBr; RBrace]) l tss : Forall2 (fun a ts => unit ts a) l tss -> forall r acc,
  PMore cl acc (seps Comma tss ++ cl :: r) (acc ++ l) r.
Proof.
  induction 1 as [|b ts l tss Ub F IH]; intros r acc.
  - rewrite app_nil_r. now apply m_end.
  - rewrite seps_cons. cbn [app]. rewrite <- app_assoc. eapply m_more.
    + apply Ub; [lia|]. destruct F; [|exact I]. destruct F0 as [<-|[<-|[<-|[]]]]; exact I.
    + replace (acc ++ b :: l) with ((acc ++ [b]) ++ l) by now rewrite <- app_assoc. apply IH.
Qed.
Lemma stops_seps cl tss r : In cl [RPar; RBr; RBrace] -> stops 0 (seps Comma tss ++ cl :: r).
Proof. intros F. destruct tss; [|exact I]. destruct F as [<-|[<-|[<-|[]]]]; exact I. Qed.
Lemma list_shape l la : Forall2 (fun t a => exists d, code d t a) l la -> code true (T "[" ++ intersperse (T ",") l ++ T "]") (AList la).
Proof.
  intros F. destruct (codes_tokens l la F) as (tss & F1 & F2). destruct F1 as [|t ts l tss L1 F1].
  - inversion F2; subst. apply (code_of_primary _ _ [LBr; RBr]).
    + intros rest A. change (T "[" ++ intersperse (T ",") [] ++ T "]") with (T "[]"). now rewrite (lex_const (T "[]") [LBr; RBr]) by reflexivity.
    + apply atom_primary; [|exact I]. intros r. apply a_nil.
  - inversion F2 as [|a ? la' ? U F3]; subst. apply (code_of_primary _ _ (LBr :: ts ++ seps Comma tss ++ [RBr])).
    + intros rest A. rewrite <- !app_assoc. rewrite (lex_const (T "[") [LBr]) by reflexivity.
      rewrite (lex_joined (T ",") Comma t ts l tss); try apply sep_comma; auto; [|reflexivity].
      rewrite (lex_const (T "]") [RBr]) by reflexivity. rewrite !prepend_app. f_equal. rewrite <- ?app_assoc. cbn [app]. rewrite <- ?app_assoc. reflexivity.
    + apply atom_primary; [|exact I]. intros r. cbn [app]. rewrite <- !app_assoc. eapply a_list.
      * apply U; [lia|]. apply stops_seps. cbn; auto.
      * apply (more_units RBr ltac:(cbn; auto) la' tss F3 r [a]).
Qed.
Lemma set_shape l la : l <> [] -> Forall2 (fun t a => exists d, code d t a) l la -> code true (T "{" ++ intersperse (T ",") l ++ T "}") (ASet la).
Proof.
  intros NE F. destruct (codes_tokens l la F) as (tss & F1 & F2). destruct F1 as [|t ts l tss L1 F1]; [contradiction|].
  inversion F2 as [|a ? la' ? U F3]; subst. apply (code_of_primary _ _ (LBrace :: ts ++ seps Comma tss ++ [RBrace])).
  - intros rest A. rewrite <- !app_assoc. rewrite (lex_const (T "{") [LBrace]) by reflexivity.
    rewrite (lex_joined (T ",") Comma t ts l tss); try apply sep_comma; auto; [|reflexivity].
    rewrite (lex_const (T "}") [RBrace]) by reflexivity. rewrite !prepend_app. f_equal. rewrite <- ?app_assoc. cbn [app]. rewrite <- ?app_assoc. reflexivity.
  - apply atom_primary; [|exact I]. intros r. cbn [app]. rewrite <- !app_assoc. eapply a_set.
    + apply U; [lia|]. apply stops_seps. cbn; auto.
    + apply (more_units RBrace ltac:(cbn; auto) la' tss F3 r [a]).
Qed.
(** a text that can follow a colon at once *)
Definition head_ok (t : text) : Prop := exists c r, t = c :: r /\ opener c = true.
Lemma lex_pair_texts t ts u us : head_ok u -> lexes t ts -> lexes u us -> lexes (t ++ T ":" ++ u) (ts ++ Colon :: us).
Proof.
  intros (c & q & H & O) L1 L2 rest A. rewrite <- !app_assoc. rewrite L1 by reflexivity.
  assert (E : lex Start (T ":" ++ u ++ rest) = prepend [Colon] (lex Start (u ++ rest))).
  { rewrite H. cbn [app]. apply (lex_const_op (T ":") [] 58); auto. cbn; auto. }
  rewrite E. rewrite (L2 _ A). rewrite !prepend_app. f_equal; try now rewrite <- app_assoc.
Qed.
Lemma lex_pair_lists l : Forall head_ok l -> forall tss, Forall2 lexes l tss -> Forall2 lexes (Model_Code.pairs (T ":") l) (pair_toks tss).
Proof.
  induction l as [|a|a b l IH] using two_ind; intros HO tss F.
  - inversion F; constructor.
  - inversion F as [|? ? ? ? G F1]; subst. inversion F1; subst. constructor.
  - inversion F as [|? ta ? ? Ga F1]; subst. inversion F1 as [|? tb ? ? Gb F2]; subst.
    cbn [Model_Code.pairs pair_toks]. inversion HO as [|? ? _ H1]; subst. inversion H1; subst. constructor; [now apply lex_pair_texts|now apply IH].
Qed.
Lemma more_pair_units l : forall tss r acc, Forall2 (fun a ts => unit ts a) l tss -> Nat.even (length l) = true ->
  PPairs acc (seps Comma (pair_toks tss) ++ RBrace :: r) (acc ++ in_twos l) r.
Proof.
  induction l as [|a|a b l IH] using two_ind; intros tss r acc F E.
  - inversion F; subst. cbn [in_twos]. rewrite app_nil_r. apply mp_end.
  - discriminate E.
  - inversion F as [|? ta ? ? Ga F1]; subst. inversion F1 as [|? tb ? ? Gb F2]; subst.
    cbn [in_twos pair_toks]. rewrite seps_cons, <- app_comm_cons, <- !app_assoc. cbn [app].
    eapply mp_more; [apply Ga; [lia|exact I]| |].
    + apply Gb; [lia|]. apply stops_seps. cbn; auto.
    + replace (acc ++ (a, b) :: in_twos l) with ((acc ++ [(a, b)]) ++ in_twos l) by now rewrite <- app_assoc.
      apply IH; auto.
Qed.
Lemma dict_shape l la : Nat.even (length l) = true -> Forall head_ok l -> Forall2 (fun t a => exists d, code d t a) l la ->
  code true (T "{" ++ intersperse (T ",") (Model_Code.pairs (T ":") l) ++ T "}") (ADict (in_twos la)).
Proof.
  intros E HO F. destruct (codes_tokens l la F) as (tss & F1 & F2). destruct F1 as [|t ts l tss L1 F1].
  - inversion F2; subst. apply (code_of_primary _ _ [LBrace; RBrace]).
    + intros rest A. change (T "{" ++ intersperse (T ",") (Model_Code.pairs (T ":") []) ++ T "}") with (T "{}"). now rewrite (lex_const (T "{}") [LBrace; RBrace]) by reflexivity.
    + apply atom_primary; [|exact I]. intros r. apply a_dict0.
  - destruct F1 as [|u us l tss L2 F1]; [discriminate E|]. inversion HO as [|? ? _ H1]; subst. inversion H1; subst.
    inversion F2 as [|a ? la' ? U F3]; subst. inversion F3 as [|b ? la2 ? V F4]; subst.
    apply (code_of_primary _ _ (LBrace :: (ts ++ Colon :: us) ++ seps Comma (pair_toks tss) ++ [RBrace])).
    + intros rest A. cbn [Model_Code.pairs]. rewrite <- !app_assoc. rewrite (lex_const (T "{") [LBrace]) by reflexivity.
      rewrite (lex_joined (T ",") Comma (t ++ T ":" ++ u) (ts ++ Colon :: us) (Model_Code.pairs (T ":") l) (pair_toks tss)); try apply sep_comma.
      * rewrite (lex_const (T "}") [RBrace]) by reflexivity. rewrite !prepend_app. f_equal. repeat (rewrite <- ?app_assoc; cbn [app]). reflexivity.
      * now apply lex_pair_texts.
      * now apply lex_pair_lists.
      * reflexivity.
    + apply atom_primary; [|exact I]. intros r. repeat (rewrite <- ?app_assoc; cbn [app]). cbn [in_twos]. eapply a_dict.
      * apply U; [lia|exact I].
      * apply V; [lia|]. apply stops_seps. cbn; auto.
      * apply (more_pair_units la2 tss r [(a, b)]); auto. apply same_length in F. cbn [length] in F, E. injection F as F. cbn in E. now rewrite <- F.
Qed.
(** operators *)
Lemma bin_lv o d E e d' X x : computes o = true -> code d E e -> code d' X x -> lv 0 (E ++ (T " " ++ o ++ T " ") ++ X) (ABin o e x).
Proof.
  intros O (es & G) (xs & GX). destruct (bin_toks o O) as (R & Lv & _). exists (es ++ [TBin o] ++ xs). split; [|split].
  - intros rest A. rewrite <- !app_assoc. rewrite (c_lex _ _ _ _ G) by (now apply after_false).
    rewrite !app_assoc, <- (app_assoc (T " ")), <- (app_assoc (_ ++ _ ++ _)).
    rewrite (lex_const _ _ _ R). rewrite (c_lex _ _ _ _ GX) by (now apply after_false). now rewrite !prepend_app.
  - intros k r K St. replace k with 0 in * by lia. rewrite <- !app_assoc. apply (level_down (bin_level o)); try lia; auto.
    + apply (o_bin o _ _ (xs ++ r)).
      * lia.
      * apply G; [lia|]. cbn [app stops power]. rewrite bin_not_pow by lia. destruct (Nat.eqb (bin_level o) 0) eqn:Z; [apply Nat.eqb_eq in Z; lia|lia].
      * apply GX; [lia|]. apply (stops_le 0); [lia|exact St].
      * apply (stops_le 0); [lia|exact St].
    + apply plain_app, G.
  - apply plain_app, G.
Qed.
Definition operator (o : text) : Prop :=
  In o (map T ["+"; "*"; "-"; "/"; "%"; "//"; "in"; "not in"; "!="; ">"; ">="; "<"; "<="; "=="]%string).
Lemma bin_code o d E e d' X x : operator o -> code d E e -> code d' X x ->
  code true (T "(" ++ E ++ T " " ++ o ++ T " " ++ X ++ T ")") (op_tree (OBin o) [e; x]).
Proof.
  intros O C C'. unfold operator in O. cbn [map In] in O.
  assert (A : computes o = true -> code true (T "(" ++ E ++ T " " ++ o ++ T " " ++ X ++ T ")") (op_tree (OBin o) [e; x])).
  { intros K. destruct (bin_toks o K) as (_ & _ & N). cbn [op_tree]. rewrite N. eapply code_eq; [apply (paren_code 0); eapply bin_lv; eauto|].
    repeat (rewrite <- ?app_assoc; cbn [app]). reflexivity. }
  repeat (destruct O as [<-|O]; [apply A; reflexivity|]). clear A.
  assert (B : forall p os, op_tokens p os -> compares (T p) = true ->
    code true (T "(" ++ E ++ T " " ++ T p ++ T " " ++ X ++ T ")") (op_tree (OBin (T p)) [e; x])).
  { intros p os OT N. cbn [op_tree]. rewrite N. unfold nth_a. cbn [nth].
    eapply code_eq; [apply (paren_code 4); eapply (cmp_lv p); eauto|]. unfold op_text_of. repeat (rewrite <- ?app_assoc; cbn [app]). reflexivity. }
  repeat (destruct O as [<-|O]; [eapply B; [constructor|reflexivity]|]). contradiction.
Qed.
Lemma not_lv d E e : code d E e -> code true (T "(not " ++ E ++ T ")") (ANot e).
Proof.
  intros (es & G). apply (code_of_primary _ _ (LPar :: (KNot :: es) ++ [RPar])).
  - intros rest A. rewrite <- !app_assoc. rewrite (lex_const (T "(not ") [LPar; KNot]) by reflexivity.
    rewrite (c_lex _ _ _ _ G) by (destruct d; reflexivity). rewrite (lex_const (T ")") [RPar]) by reflexivity. rewrite !prepend_app.
    repeat (rewrite <- ?app_assoc; cbn [app]). reflexivity.
  - apply paren_primary. intros r St. apply (descends 3); try lia; try exact I; auto.
    + cbn [app]. apply o_not. apply G; [lia|]. apply (stops_le 0); [lia|exact St].
    + cbn. lia.
Qed.
Lemma neg_lv d E e : head_ok E -> code d E e -> code true (T "(-" ++ E ++ T ")") (AUnary (T "-") e).
Proof.
  intros (c & q & H & O) (es & G). apply (code_of_primary _ _ (LPar :: (TBin (T "-") :: es) ++ [RPar])).
  - intros rest A. rewrite <- !app_assoc. change (T "(-") with (T "(" ++ T "-"). rewrite <- app_assoc.
    rewrite (lex_const (T "(") [LPar]) by reflexivity.
    assert (X : lex Start (T "-" ++ E ++ T ")" ++ rest) = prepend [TBin (T "-")] (lex Start (E ++ T ")" ++ rest))).
    { rewrite H. cbn [app]. apply (lex_const_op (T "-") [] 45); auto. cbn; auto. }
    rewrite X. rewrite (c_lex _ _ _ _ G) by (destruct d; reflexivity). rewrite (lex_const (T ")") [RPar]) by reflexivity. rewrite !prepend_app.
    repeat (rewrite <- ?app_assoc; cbn [app]). reflexivity.
  - apply paren_primary. intros r St. apply (descends 11); try lia; try exact I; auto.
    + cbn [app]. apply o_unary; [reflexivity|]. apply G; [lia|]. apply (stops_le 0); [lia|exact St].
    + cbn. lia.
Qed.
Lemma bool_units (o : bool) l tss : Forall2 (fun a ts => unit ts a) l tss -> forall r acc, stops 0 r ->
  PBools o acc (seps (if o then KOr else KAnd) tss ++ r) (acc ++ l) r.
Proof.
  induction 1 as [|a ts l tss U F IH]; intros r acc St.
  - rewrite app_nil_r. apply b_end. apply (stops_le 0); [destruct o; lia|exact St].
  - rewrite seps_cons, <- app_comm_cons, <- app_assoc. eapply b_more.
    + apply U; [destruct o; lia|]. destruct F; [apply (stops_le 0); [destruct o; lia|exact St]|]. rewrite seps_cons. destruct o; cbn; lia.
    + replace (acc ++ a :: l) with ((acc ++ [a]) ++ l) by now rewrite <- app_assoc. now apply IH.
Qed.
Lemma bool_code (o : bool) l la : 2 <= length l -> Forall2 (fun t a => exists d, code d t a) l la ->
  code true (T "(" ++ intersperse (if o then T " or " else T " and ") l ++ T ")") (ABool o la).
Proof.
  intros L F. destruct (codes_tokens l la F) as (tss & F1 & F2). destruct F1 as [|t ts l tss L1 F1]; [cbn in L; lia|].
  destruct F1 as [|t' ts' l tss L2 F1]; [cbn in L; lia|].
  inversion F2 as [|a ? la' ? U F3]; subst. inversion F3 as [|b ? la2 ? U2 F4]; subst.
  set (s := if o then T " or " else T " and "). set (K := if o then KOr else KAnd).
  assert (R : run Start s = Some ([K], Start)) by (destruct o; reflexivity).
  assert (Sc : exists c r, s = c :: r /\ sep false c = true) by (destruct o; eexists _, _; split; reflexivity).
  apply (code_of_primary _ _ (LPar :: (ts ++ seps K (ts' :: tss)) ++ [RPar])).
  - intros rest A. rewrite <- !app_assoc. rewrite (lex_const (T "(") [LPar]) by reflexivity.
    rewrite (lex_joined s K t ts (t' :: l) (ts' :: tss)); auto; [|reflexivity].
    rewrite (lex_const (T ")") [RPar]) by reflexivity. rewrite !prepend_app. f_equal. repeat (rewrite <- ?app_assoc; cbn [app]). reflexivity.
  - apply paren_primary. intros r St. rewrite <- app_assoc. apply (descends (if o then 1 else 2)); try (destruct o; lia); auto.
    + change (ABool o (a :: b :: la2)) with (of_bool o ([a] ++ b :: la2)). eapply o_bool; [|apply bool_units; [exact F3|exact St]].
      apply U; [destruct o; lia|]. rewrite seps_cons. destruct o; cbn; lia.
    + pose proof (u_plain _ _ U) as N. destruct ts as [|u us]; [contradiction|]. cbn [app]. destruct u; auto; contradiction.
    + pose proof (u_plain _ _ U) as N. destruct ts as [|u us]; [contradiction|]. cbn [app]. destruct u; auto. destruct o; lia.
Qed.
Lemma maker_code none_name params s os l la : maker_ok none_name params s os -> length os = length l -> Forall head_ok l ->
  Forall2 (fun t a => exists d, code d t a) l la ->
  match s, l, la with SItem, t :: _, a :: _ => code true t a | _, _, _ => True end ->
  code true (maker_text s l) (maker_tree s la).
Proof.
  intros OK LE HO F FI. destruct s; cbn [maker_text maker_tree maker_ok op_text] in *; try rewrite LE in OK.
  - destruct F; [|now apply tuple_code]. destruct os; [contradiction|discriminate LE].
  - now apply list_shape.
  - apply set_shape; [|exact F]. intros ->. destruct os; [contradiction|discriminate LE].
  - now apply dict_shape.
  - cbn [nth_t nth tl]. rewrite firstn_all, skipn_all. cbn [zip_kw]. rewrite app_nil_r. apply call_code; [apply OK|exact F].
  - destruct OK as [O L]. destruct F as [|t a l la [d C] F]; [discriminate L|]. destruct F as [|t' a' l la [d' C'] F]; [discriminate L|].
    destruct F; [|discriminate L]. unfold nth_t. cbn [nth]. eapply bin_code; eauto.
  - destruct F as [|t a l la [d C] F]; [discriminate OK|]. destruct F; [|discriminate OK]. unfold nth_t, nth_a. cbn [nth]. eapply not_lv; eauto.
  - destruct F as [|t a l la [d C] F]; [discriminate OK|]. destruct F; [|discriminate OK]. unfold nth_t, nth_a. cbn [nth]. inversion HO; subst. eapply neg_lv; eauto.
  - destruct OK as [L _]. destruct F as [|t a l la _ F]; [discriminate L|]. destruct F as [|t' a' l la [d' C'] F]; [discriminate L|].
    destruct F; [|discriminate L]. unfold nth_t, nth_a. cbn [nth]. eapply sub_code; eauto.
  - now apply bool_code.
  - destruct F as [|t a l la [d C] F]; [discriminate OK|]. destruct F as [|t' a' l la [d' C'] F]; [discriminate OK|].
    destruct F as [|t2 a2 l la [d2 C2] F]; [discriminate OK|]. destruct F; [|discriminate OK]. unfold nth_t, nth_a. cbn [nth].
    eapply code_eq; [apply (paren_code 0); apply if_lv; [eapply (code_lv d' 1); [lia|exact C']|eapply (code_lv d 1); [lia|exact C]|
      eapply (code_lv d2 0); [lia|exact C2]]|]. repeat (rewrite <- ?app_assoc; cbn [app]). reflexivity.
Qed.
Lemma maker_head none_name params s os l : maker_ok none_name params s os -> length os = length l -> Forall head_ok l -> head_ok (maker_text s l).
Proof.
  intros OK LE HO. destruct s; cbn [maker_text op_text maker_ok] in *; try (eexists _, _; split; reflexivity).
  - cbn [nth_t nth]. apply wordy_head. apply ident_token, OK.
  - destruct OK as [L _]. rewrite LE in L. destruct HO as [|t l (c & r & -> & O) _]; [discriminate L|]. unfold nth_t. cbn [nth]. eexists _, _. split; [reflexivity|exact O].
Qed.

(** *** values *)
Section Values.
  Variable globals : text -> option rv.
  Variable call : text -> list val -> res val.
  Variable outside : ast -> (ast -> option val) -> res val.
  Notation ev := (Spec_FuncRun.ev globals call outside).
  Variable s : state.
  Definition gives (a : ast) (v : val) : Prop := ev a s = Ok (RVal v, s).
  Lemma items_give l vs : Forall2 gives l vs -> Proofs_Steady.items globals call outside l s = Ok (vs, s).
  Proof.
    induction 1 as [|a v l vs G F IH]; [reflexivity|]. cbn [Proofs_Steady.items]. rewrite G. cbn [bind fst snd item_of Spec_FuncRun.item_of].
    now rewrite IH.
  Qed.
  Lemma evs_give l vs : Forall2 gives l vs -> Proofs_Steady.evs globals call outside l s = Ok (map RVal vs, s).
  Proof.
    induction 1 as [|a v l vs G F IH]; [reflexivity|]. cbn [Proofs_Steady.evs map]. rewrite G. cbn [bind fst snd]. now rewrite IH.
  Qed.
  Lemma pairs_give l : forall vs, Forall2 gives l vs -> Proofs_Steady.pairs globals call outside (in_twos l) s = Ok (in_twos vs, s).
  Proof.
    induction l as [|a|a b l IH] using two_ind; intros vs F.
    - inversion F; reflexivity.
    - inversion F as [|? v ? ? G F1]; subst. inversion F1; subst. reflexivity.
    - inversion F as [|? v ? ? Ga F1]; subst. inversion F1 as [|? w ? ? Gb F2]; subst. cbn [in_twos Proofs_Steady.pairs].
      rewrite Ga. cbn [bind fst snd Spec_FuncRun.item_of]. rewrite Gb. cbn [bind fst snd Spec_FuncRun.item_of]. now rewrite (IH _ F2).
  Qed.
  Lemma args_values vs : args_of (map RVal vs) = Ok vs.
  Proof. induction vs as [|v vs IH]; [reflexivity|]. cbn. now rewrite IH. Qed.
  Lemma hashable_all l : forallb hashable l = true -> Spec_Stmt.hash_all l = Ok tt.
  Proof.
    induction l as [|v l IH]; [reflexivity|]. cbn [forallb Spec_Stmt.hash_all]. intros H. apply andb_true_iff in H as [H1 H2].
    unfold hashable in H1. destruct (need_hash v); [|discriminate H1]. cbn [bind]. now apply IH.
  Qed.
  Notation called := (fun f l => success (call f l)).
  Lemma bin_gives o a b x y v : operator o -> gives a x -> gives b y -> binary called o x y = Some v -> gives (op_tree (OBin o) [a; b]) v.
  Proof.
    intros O A B E. unfold operator in O. cbn [map In] in O. unfold gives in *.
    assert (AR : compares o = false -> ev (op_tree (OBin o) [a; b]) s = do z <- arithmetic call o x y; Ok (RVal z, s)).
    { intros N. cbn [op_tree]. rewrite N. unfold nth_a. cbn [nth Spec_FuncRun.ev]. rewrite A. cbn [bind fst snd]. rewrite B. reflexivity. }
    assert (CM : compares o = true -> ev (op_tree (OBin o) [a; b]) s = do z <- comparison call o (RVal x) (RVal y); Ok (RVal z, s)).
    { intros N. cbn [op_tree]. rewrite N. unfold nth_a. cbn [nth Spec_FuncRun.ev]. rewrite A. cbn [bind fst snd]. rewrite B. reflexivity. }
    assert (RB : forall (r : res bool) f, option_map f (success r) = Some v -> (do z <- (do b <- r; Ok (f b)); Ok (RVal z, s)) = Ok (RVal v, s)).
    { intros r f H. destruct r; [|discriminate H]. injection H as <-. reflexivity. }
    assert (RV : forall r : res val, success r = Some v -> (do z <- r; Ok (RVal z, s)) = Ok (RVal v, s)).
    { intros r H. destruct r; [|discriminate H]. injection H as <-. reflexivity. }
    repeat (destruct O as [<-|O]; [rewrite (AR eq_refl); apply RV; exact E|]).
    destruct O as [<-|O]; [rewrite (CM eq_refl); exact (RB (py_in x y) VBool E)|].
    destruct O as [<-|O]; [rewrite (CM eq_refl); change (option_map (fun b => VBool (negb b)) (success (py_in x y)) = Some v) in E;
      change ((do z <- (do b <- (do b <- py_in x y; Ok (negb b)); Ok (VBool b)); Ok (RVal z, s)) = Ok (RVal v, s)); destruct (py_in x y); [|discriminate E]; injection E as <-; reflexivity|].
    destruct O as [<-|O]; [rewrite (CM eq_refl); injection E as <-; reflexivity|].
    destruct O as [<-|O]; [rewrite (CM eq_refl); exact (RB (py_lt y x) VBool E)|].
    destruct O as [<-|O]; [rewrite (CM eq_refl); exact (RV (call (T ">=") [x; y]) E)|].
    destruct O as [<-|O]; [rewrite (CM eq_refl); exact (RB (py_lt x y) VBool E)|].
    destruct O as [<-|O]; [rewrite (CM eq_refl); exact (RV (call (T "<=") [x; y]) E)|].
    destruct O as [<-|O]; [rewrite (CM eq_refl); injection E as <-; reflexivity|contradiction].
  Qed.
  Lemma maker_gives sh l vs v : match sh with SCall f => is_global f s = true | SBin o => operator o | SItem => True | _ => True end ->
    match sh, l with SItem, a :: _ => fixed_at s a | _, _ => True end ->
    Forall2 gives l vs -> made called sh vs = Some v -> gives (maker_tree sh l) v.
  Proof.
    intros G FX F M. unfold gives. destruct sh; cbn [maker_tree made] in *.
    - rewrite ev_tuple, (items_give l vs F). injection M as <-. reflexivity.
    - rewrite ev_list, (items_give l vs F). injection M as <-. reflexivity.
    - rewrite ev_set, (items_give l vs F). cbn [bind fst snd]. destruct (forallb hashable vs) eqn:H; [|discriminate M].
      injection M as <-. change Spec_FuncRun.hash_all with Spec_Stmt.hash_all. now rewrite (hashable_all _ H).
    - rewrite ev_dict, (pairs_give l vs F). cbn [bind fst snd]. destruct (forallb hashable (map fst (in_twos vs))) eqn:H; [|discriminate M].
      injection M as <-. now rewrite (hashable_all _ H).
    - rewrite ev_call, G, (evs_give l vs F). cbn [bind fst snd]. rewrite args_values. cbn [bind].
      destruct (call f vs); [|discriminate M]. injection M as <-. reflexivity.
    - destruct F as [|a x l vs A F]; [discriminate M|]. destruct F as [|b y l vs B F]; [discriminate M|]. destruct F; [|discriminate M].
      exact (bin_gives o a b x y v G A B M).
    - destruct F as [|a x l vs A F]; [discriminate M|]. destruct F; [|discriminate M]. injection M as <-. unfold nth_a. cbn [nth Spec_FuncRun.ev].
      unfold gives in A. rewrite A. reflexivity.
    - destruct F as [|a x l vs A F]; [discriminate M|]. destruct F; [|discriminate M]. unfold nth_a. cbn [nth Spec_FuncRun.ev].
      unfold gives in A. rewrite A. cbn [bind fst snd needs]. unfold unary. destruct (as_int x); [injection M as <-; reflexivity|].
      destruct (call (T "-") [x]); [|discriminate M]. injection M as <-. reflexivity.
    - destruct F as [|a x l vs A F]; [discriminate M|]. destruct F as [|b y l vs B F]; [discriminate M|]. destruct F; [|discriminate M].
      unfold nth_a. cbn [nth Spec_FuncRun.ev]. unfold gives in A, B. rewrite A. cbn [bind fst snd]. rewrite B. cbn [bind fst snd needs].
      assert (E : item a x y s = do z <- py_getitem x y; Ok (z, s)).
      { unfold item, fixed_at, seen in *. destruct (variable a s) as [j|]; [|reflexivity]. cbn [option_map] in FX.
        destruct (obj_at s j) as [|? [?|]| | | |]; try reflexivity. contradiction. }
      rewrite E. destruct (py_getitem x y); [|discriminate M]. injection M as <-. reflexivity.
    - discriminate M.
    - discriminate M.
  Qed.
End Values.
