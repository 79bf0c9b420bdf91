(** The expressions in the code of a join are read as trees: labels, generator
    expressions, chains of ==, conditions. *)
From Coq Require Import String Ascii List NArith ZArith Bool Arith Lia.
From Verif Require Import Model_PyVal Model_Join Model_Reducers Model_Code Spec_Syntax Spec_Stmt Spec_AggProgram Spec_Tree
  Proofs_Syntax Proofs_Grammar Proofs_Lex Proofs_Tree Proofs_AggExpr Proofs_AggFinish Proofs_AggOutput
  Model_JoinText Model_JoinFuncs Spec_GenRun Spec_JoinText Proofs_JoinCond Proofs_JoinRows.
Import ListNotations.

(** *** labels *)
Lemma str_code k : forallb label_char k = true -> code true ([39%N] ++ k ++ [39%N]) (AStr k).
Proof.
  intros L. apply (code_of_primary _ _ [TStr k]).
  - intros rest A. rewrite <- !app_assoc. apply (lex_quoted 39 k k rest true); [cbn; auto| |exact A]. apply (run_plain 39 [] k). exact L.
  - apply atom_primary; [|exact I]. intros r. apply a_str.
Qed.
Lemma get_code k : forallb label_char k = true -> code true (get_text k) (get_ast k).
Proof.
  intros L. eapply code_eq; [apply (call_code (T "get_by_label_") [[39%N] ++ k ++ [39%N]] [AStr k]); [reflexivity|]|].
  - constructor; [|constructor]. exists true. now apply str_code.
  - unfold get_text. cbn [intersperse]. rewrite <- !app_assoc. reflexivity.
Qed.
Lemma call2_code f d X x d' Y y : ident f = true -> code d X x -> code d' Y y ->
  code true (f ++ T "(" ++ X ++ T ", " ++ Y ++ T ")") (ACall (AName f) [x; y] []).
Proof.
  intros If (xs & G) (ys & G'). apply (code_of_primary _ _ ([TName f] ++ LPar :: comma_tokens [xs; ys] ++ [RPar])).
  - intros rest A. rewrite <- !app_assoc. rewrite (lex_ident f _ true If) by reflexivity. lext.
    cbn [comma_tokens seps flat_map app]. repeat (rewrite <- ?app_assoc; cbn [app]). reflexivity.
  - apply call_primary; [apply name_primary|]. constructor; [apply G|]. constructor; [apply G'|constructor].
Qed.
Lemma add_code k d E e : forallb label_char k = true -> code d E e -> code true (add_text k E) (ACall (AName (T "add_label_")) [AStr k; e] []).
Proof.
  intros L C. eapply code_eq; [apply (call2_code (T "add_label_") true ([39%N] ++ k ++ [39%N]) (AStr k) d E e); [reflexivity|now apply str_code|exact C]|].
  unfold add_text. rewrite <- !app_assoc. reflexivity.
Qed.
Lemma cache_code k d E e : forallb label_char k = true -> code d E e -> code true (cache_text k E) (cache_ast k e).
Proof.
  intros L C. eapply code_eq; [apply (bool_code true [add_text k E; get_text k]); [cbn; lia|]|cbn [intersperse]; unfold cache_text; now rewrite <- !app_assoc].
  constructor; [exists true; eapply add_code; eauto|]. constructor; [exists true; now apply get_code|constructor].
Qed.
Lemma after_code d A a d' R r : code d A a -> code d' R r -> code true (T "(" ++ A ++ T " and None or " ++ R ++ T ")") (after_ast a r).
Proof.
  intros C C'. eapply code_eq; [apply (paren_code 1 ((A ++ T " and " ++ T "None") ++ T " or " ++ R)), (or_lv _ (both a none))|].
  - apply and_lv; eapply code_lv; eauto using none_code; lia.
  - eapply code_lv; eauto; lia.
  - repeat (rewrite <- ?app_assoc; cbn [app]). reflexivity.
Qed.

(** *** generator expressions *)
Definition opt_if (t : text) (c : option ast) : Prop :=
  match c with None => t = [] | Some c => exists C, t = T " if " ++ C /\ lv 1 C c end.
Definition loops (t : text) (x : text) (i : ast) (c : option ast) (ts : list token) : Prop :=
  (forall rest, Proofs_Lex.after false rest -> lex Start (t ++ rest) = prepend (KFor :: ts) (lex Start rest)) /\
  (forall z r, In z [RPar; KFor] -> PFor ((KFor :: ts) ++ z :: r) x i c (z :: r)).
Lemma for_loops x I i t c : ident x = true -> lv 1 I i -> opt_if t c ->
  exists ts, loops (T " for " ++ x ++ T " in " ++ I ++ t) x i c ts.
Proof.
  intros Ix (is & L & H & _) C. destruct c as [c|]; cbn [opt_if] in C.
  - destruct C as (Ct & -> & (cs & L' & H' & _)). exists (TName x :: KIn :: is ++ KIf :: cs). split.
    + intros rest A. rewrite <- !app_assoc. rewrite (lex_const (T " for ") [KFor]) by reflexivity.
      rewrite (lex_ident x _ false Ix) by reflexivity. lext. repeat (rewrite <- ?app_assoc; cbn [app]). reflexivity.
    + intros z r Z. cbn [app]. rewrite <- app_assoc. cbn [app]. eapply f_for_if; [apply H; [lia|cbn; lia]|].
      apply H'; [lia|]. destruct Z as [<-|[<-|[]]]; exact Logic.I.
  - subst t. exists (TName x :: KIn :: is). split.
    + intros rest A. rewrite <- !app_assoc. cbn [app]. rewrite (lex_const (T " for ") [KFor]) by reflexivity.
      rewrite (lex_ident x _ false Ix) by reflexivity. lext. repeat (rewrite <- ?app_assoc; cbn [app]). reflexivity.
    + intros z r Z. cbn [app]. apply f_for; [apply H; [lia|]|]; destruct Z as [<-|[<-|[]]]; exact Logic.I.
Qed.
Lemma gen_code d E e x I i t c : code d E e -> ident x = true -> lv 1 I i -> opt_if t c ->
  code true (T "(" ++ E ++ T " for " ++ x ++ T " in " ++ I ++ t ++ T ")") (AComp GGen [e] x i c).
Proof.
  intros (es & G) Ix LI C. destruct (for_loops x I i t c Ix LI C) as (ts & L & F).
  apply (code_of_primary _ _ (LPar :: es ++ (KFor :: ts) ++ [RPar])).
  - intros rest A. rewrite <- !app_assoc. rewrite (lex_const (T "(") [LPar]) by reflexivity.
    rewrite (c_lex _ _ _ _ G) by (destruct d; reflexivity).
    replace (T " for " ++ x ++ T " in " ++ I ++ t ++ T ")" ++ rest) with ((T " for " ++ x ++ T " in " ++ I ++ t) ++ T ")" ++ rest) by now rewrite <- !app_assoc.
    rewrite L by reflexivity. rewrite (lex_const (T ")") [RPar]) by reflexivity. rewrite !prepend_app. repeat (rewrite <- ?app_assoc; cbn [app]). reflexivity.
  - apply atom_primary; [|exact Logic.I]. intros r. cbn [app]. rewrite <- app_assoc. cbn [app].
    eapply a_gen; [apply G; [lia|exact Logic.I]|]. rewrite <- app_assoc. cbn [app]. apply (F RPar r). cbn; auto.
Qed.
Lemma gen2_code d E e x I i y J j t c : code d E e -> ident x = true -> lv 1 I i -> ident y = true -> lv 1 J j -> opt_if t c ->
  code true (T "(" ++ E ++ T " for " ++ x ++ T " in " ++ I ++ T " for " ++ y ++ T " in " ++ J ++ t ++ T ")") (AComp2 e x i y j c).
Proof.
  intros (es & G) Ix LI Iy LJ C. destruct (for_loops x I i [] None Ix LI eq_refl) as (ts & L & F). destruct (for_loops y J j t c Iy LJ C) as (ts' & L' & F').
  apply (code_of_primary _ _ (LPar :: es ++ (KFor :: ts) ++ (KFor :: ts') ++ [RPar])).
  - intros rest A. rewrite <- !app_assoc. rewrite (lex_const (T "(") [LPar]) by reflexivity.
    rewrite (c_lex _ _ _ _ G) by (destruct d; reflexivity).
    replace (T " for " ++ x ++ T " in " ++ I ++ T " for " ++ y ++ T " in " ++ J ++ t ++ T ")" ++ rest) with
      ((T " for " ++ x ++ T " in " ++ I ++ []) ++ (T " for " ++ y ++ T " in " ++ J ++ t) ++ T ")" ++ rest) by (rewrite <- !app_assoc; reflexivity).
    rewrite L by reflexivity. rewrite L' by reflexivity. rewrite (lex_const (T ")") [RPar]) by reflexivity. rewrite !prepend_app. repeat (rewrite <- ?app_assoc; cbn [app]). reflexivity.
  - apply atom_primary; [|exact Logic.I]. intros r. cbn [app]. rewrite <- app_assoc. cbn [app]. rewrite <- app_assoc. cbn [app]. rewrite <- app_assoc. cbn [app].
    eapply a_gen2; [apply G; [lia|exact Logic.I]|apply (F KFor); cbn; auto|apply (F' RPar); cbn; auto].
Qed.
(** f(x,k=(n)) *)
Lemma kwcall_code f d X x k n : ident f = true -> code d X x -> ident k = true -> ident n = true ->
  code true (f ++ T "(" ++ X ++ T "," ++ k ++ T "=(" ++ n ++ T "))") (ACall (AName f) [x] [(k, AName n)]).
Proof.
  intros If (xs & G) Ik In'. apply (code_of_primary _ _ (TName f :: LPar :: xs ++ [Comma; TName k; Assign; LPar; TName n; RPar; RPar])).
  - intros rest A. rewrite <- !app_assoc. rewrite (lex_ident f _ true If) by reflexivity. lext.
    change (T "=(" ++ n ++ T "))" ++ rest) with (T "=" ++ T "(" ++ n ++ T "))" ++ rest).
    destruct (ident_token k Ik) as [W E].
    assert (R : Proofs_Lex.run Start (k ++ T "=") = Some ([TName k], InOp 61)).
    { apply (run_app _ _ _ [] _ [TName k] _ (run_word k W)). change (T "=") with [61%N]. cbn [Proofs_Lex.run step].
      change (is_ident 61%N) with false. change (is_quote 61%N) with false. cbv iota. rewrite E. reflexivity. }
    rewrite (app_assoc k). change (T "(" ++ n ++ T "))" ++ rest) with (40%N :: n ++ T "))" ++ rest).
    rewrite (lex_const_op (k ++ T "=") [TName k] 61 Assign); [|exact R|cbn; auto|reflexivity|reflexivity].
    change (40%N :: n ++ T "))" ++ rest) with (T "(" ++ n ++ T "))" ++ rest). rewrite (lex_const (T "(") [LPar]) by reflexivity.
    rewrite (lex_ident n _ true In') by reflexivity. rewrite (lex_const (T "))") [RPar; RPar]) by reflexivity.
    rewrite !prepend_app. repeat (rewrite <- ?app_assoc; cbn [app]). reflexivity.
  - constructor; [|exact Logic.I|].
    + intros r b r' Tr. cbn [app]. rewrite <- app_assoc. cbn [app]. eapply p_primary; [apply a_name|]. eapply t_call; [|exact Tr].
      eapply (c_pos []); [apply G; exact Logic.I|apply G; [lia|exact Logic.I]|]. apply (c_kw_last _ []); [reflexivity|].
      apply (u_level _ _ (primary_unit _ _ (paren_primary [TName n] (AName n) (fun r => u_level _ _ (primary_unit _ _ (name_primary n)) 0 r ltac:(lia)))) 0 (RPar :: r)); [lia|exact Logic.I].
    + intros r R. exact Logic.I.
Qed.

(** *** == *)
Lemma eq_units l tss : Forall2 (fun a ts => unit ts a) l tss -> forall r acc, stops 0 r ->
  PCmp acc (seps (TBin (T "==")) tss ++ r) (acc ++ map (fun b => (T "==", b)) l) r.
Proof.
  induction 1 as [|a ts l tss U F IH]; intros r acc St.
  - rewrite app_nil_r. apply cmp_end. apply (stops_le 0); [lia|exact St].
  - rewrite seps_cons, <- app_comm_cons, <- app_assoc. eapply cmp_more; [reflexivity| |].
    + apply U; [lia|]. destruct F; [apply (stops_le 0); [lia|exact St]|]. rewrite seps_cons. cbn. lia.
    + cbn [map]. replace (acc ++ (T "==", a) :: map (fun b => (T "==", b)) l) with ((acc ++ [(T "==", a)]) ++ map (fun b => (T "==", b)) l) by now rewrite <- app_assoc.
      now apply IH.
Qed.
Lemma eqs_code t a l la : 1 <= length l -> (exists d, code d t a) -> Forall2 (fun t a => exists d, code d t a) l la ->
  code true (T "(" ++ intersperse (T " == ") (t :: l) ++ T ")") (ACompare a (map (fun b => (T "==", b)) la)).
Proof.
  intros L [d (ts & G)] F. destruct (codes_tokens l la F) as (tss & F1 & F2). destruct F1 as [|t' ts' l tss L2 F1]; [cbn in L; lia|].
  inversion F2 as [|b ? la2 ? U2 F4]; subst.
  apply (code_of_primary _ _ (LPar :: (ts ++ seps (TBin (T "==")) (ts' :: tss)) ++ [RPar])).
  - intros rest A. rewrite <- !app_assoc. rewrite (lex_const (T "(") [LPar]) by reflexivity.
    rewrite (lex_joined (T " == ") (TBin (T "==")) t ts (t' :: l) (ts' :: tss)).
    + rewrite (lex_const (T ")") [RPar]) by reflexivity. rewrite !prepend_app. f_equal. repeat (rewrite <- ?app_assoc; cbn [app]). reflexivity.
    + reflexivity.
    + eexists _, _. split; reflexivity.
    + intros r B. apply G. now apply after_false.
    + now constructor.
    + reflexivity.
  - apply paren_primary. intros r St. rewrite <- app_assoc. apply (level_down 4); try lia; auto.
    + change (ACompare a (map (fun x => (T "==", x)) (b :: la2))) with (of_compare a ([] ++ map (fun x => (T "==", x)) (b :: la2))).
      eapply o_cmp; [|apply eq_units; [exact F2|exact St]]. apply G; [lia|]. rewrite seps_cons. cbn. lia.
    + apply plain_app, G.
Qed.
