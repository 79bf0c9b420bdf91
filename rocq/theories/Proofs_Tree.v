(** The text of well-formed generated code reads as its tree. *)
From Coq Require Import String Ascii List NArith ZArith Bool Arith Lia.
From Verif Require Import Model_Code Spec_Frag Spec_Syntax Spec_Tree Proofs_Scope Proofs_Syntax Proofs_Grammar Proofs_Lex.
Import ListNotations.

Definition lexes (t : text) (ts : list token) : Prop :=
  forall rest, after false rest -> lex Start (t ++ rest) = prepend ts (lex Start rest).

Lemma lex_const t ts rest : run Start t = Some (ts, Start) -> lex Start (t ++ rest) = prepend ts (lex Start rest).
Proof. apply lex_run. Qed.
Lemma lex_const_op t ts o tk c rest :
  run Start t = Some (ts, InOp o) -> In o [61; 45; 58]%N -> op_token o = Some tk -> opener c = true ->
  lex Start (t ++ c :: rest) = prepend (ts ++ [tk]) (lex Start (c :: rest)).
Proof.
  intros R I O C. rewrite (lex_run _ _ _ _ _ R). rewrite (lex_op o tk).
  - apply prepend_app.
  - apply op_pair_opener; assumption.
  - destruct I as [<-|[<-|[<-|[]]]]; reflexivity.
  - exact O.
Qed.

(** *** lists *)
Lemma intersperse_cons s a l : intersperse s (a :: l) = a ++ flat_map (fun b => s ++ b) l.
Proof.
  revert a; induction l as [|b l IH]; intros a; [cbn; now rewrite app_nil_r|].
  change (intersperse s (a :: b :: l)) with (a ++ s ++ intersperse s (b :: l)).
  rewrite IH. cbn [flat_map]. now rewrite <- app_assoc.
Qed.
Definition seps (tk : token) (tss : list (list token)) : list token := flat_map (cons tk) tss.
Lemma seps_cons tk a l : seps tk (a :: l) = tk :: a ++ seps tk l. Proof. reflexivity. Qed.
Lemma seps_nil tk : seps tk [] = []. Proof. reflexivity. Qed.
Lemma lex_seps s tk l tss rest :
  run Start s = Some ([tk], Start) -> (exists c r, s = c :: r /\ sep false c = true) ->
  Forall2 lexes l tss -> after false rest ->
  lex Start (flat_map (fun b => s ++ b) l ++ rest) = prepend (seps tk tss) (lex Start rest).
Proof.
  intros R (c & r & -> & Sc) F A. induction F as [|t ts l tss H F IH]; cbn [flat_map seps app].
  - now rewrite prepend_nil.
  - rewrite <- !app_assoc. rewrite app_comm_cons.
    rewrite (lex_const _ _ _ R). rewrite H.
    + change (fun b => c :: r ++ b) with (fun b => (c :: r) ++ b) in *. rewrite IH, !prepend_app. reflexivity.
    + destruct F; [exact A|exact Sc].
Qed.
Lemma after_seps s l rest :
  (exists c r, s = c :: r /\ sep false c = true) -> after false rest ->
  after false (flat_map (fun b => s ++ b) l ++ rest).
Proof. intros (c & r & -> & Sc) A. destruct l; [exact A|exact Sc]. Qed.
Lemma lex_joined s tk t ts l tss rest :
  run Start s = Some ([tk], Start) -> (exists c r, s = c :: r /\ sep false c = true) ->
  lexes t ts -> Forall2 lexes l tss -> after false rest ->
  lex Start (intersperse s (t :: l) ++ rest) = prepend (ts ++ seps tk tss) (lex Start rest).
Proof.
  intros R Sc H F A. rewrite intersperse_cons, <- app_assoc. rewrite H by (apply after_seps; assumption).
  rewrite (lex_seps s tk l tss) by assumption. now rewrite prepend_app.
Qed.
Lemma sep_comma : run Start (T ",") = Some ([Comma], Start) /\ (exists c r, T "," = c :: r /\ sep false c = true).
Proof. split; [reflexivity|]. exists 44%N, []. split; reflexivity. Qed.

Section Tree.
  Variable printable : N -> bool.
  Variable gname : nat -> text.
  Variable pnum : list nat -> nat.
  Hypothesis PO : printable_ok printable.
  Notation print := (print (py_repr printable) gname pnum).
  Notation tree := (tree gname pnum).
  Notation readable := (readable gname pnum).
  Notation label := (label_text pnum).

  Record good (e : px) (ts : list token) : Prop := {
    g_lex : forall rest, after (negb (is_int e)) rest -> lex Start (print e ++ rest) = prepend ts (lex Start rest);
    g_head : exists c r, print e = c :: r /\ opener c = true;
    g_level : forall k r, k <= 11 -> stops k r -> P k (ts ++ r) (tree e) r;
    g_prim : is_int e = false -> forall r b r', PTrail (tree e) r b r' -> P 13 (ts ++ r) b r';
    g_pos : forall r, match r with Assign :: _ => False | _ => True end -> positional (ts ++ r);
    g_tok : match ts with [] | KNot :: _ => False | TBin _ :: _ => is_int e = true | _ => True end
  }.

  Lemma good_lexes e ts : good e ts -> lexes (print e) ts.
  Proof. intros G rest A. apply G. now apply after_false. Qed.
  Lemma good_op e ts t l o tk rest :
    good e ts -> run Start t = Some (l, InOp o) -> In o [61; 45; 58]%N -> op_token o = Some tk ->
    lex Start (t ++ print e ++ rest) = prepend (l ++ [tk]) (lex Start (print e ++ rest)).
  Proof.
    intros G R I O. destruct (g_head _ _ G) as (c & r & -> & Oc). cbn [app].
    now apply lex_const_op with o.
  Qed.

  (** code that is not an integer constant *)
  Lemma mk_good_gen e ts :
    is_int e = false ->
    (forall rest, after true rest -> lex Start (print e ++ rest) = prepend ts (lex Start rest)) ->
    (exists c r, print e = c :: r /\ opener c = true) ->
    match ts with [] | KNot :: _ | TBin _ :: _ => False | _ => True end ->
    (forall r, match r with Assign :: _ => False | _ => True end -> positional (ts ++ r)) ->
    (forall r b r', PTrail (tree e) r b r' -> P 13 (ts ++ r) b r') ->
    good e ts.
  Proof.
    intros I L H U Ps Pr. constructor.
    - intros rest A. rewrite I in A. apply L, A.
    - exact H.
    - intros k r K St. apply (descends 13); try lia.
      + apply Pr. apply stops_trailers. apply (stops_le k); [lia|exact St].
      + exact St.
      + destruct ts as [|u us]; [contradiction|]. cbn [app]. destruct u; auto; contradiction.
      + destruct ts as [|u us]; [contradiction|]. cbn [app]. destruct u; auto; contradiction.
    - intros _. exact Pr.
    - exact Ps.
    - destruct ts as [|u us]; [contradiction|]. destruct u; auto; contradiction.
  Qed.
  Lemma mk_good e u us :
    is_int e = false ->
    (forall rest, after true rest -> lex Start (print e ++ rest) = prepend (u :: us) (lex Start rest)) ->
    (exists c r, print e = c :: r /\ opener c = true) ->
    match u with KNot | TBin _ => False | TName _ => match us with Assign :: _ => False | _ => True end | _ => True end ->
    (forall r b r', PTrail (tree e) r b r' -> P 13 (u :: us ++ r) b r') ->
    good e (u :: us).
  Proof.
    intros I L H U Pr. apply mk_good_gen; auto.
    - destruct u; auto.
    - intros r R. cbn [app positional]. destruct u; auto. destruct us as [|w us]; [exact R|exact U].
  Qed.

  Lemma opens_T s : match s with c :: _ => opener c | [] => false end = true -> forall t, exists c r, s ++ t = c :: r /\ opener c = true.
  Proof. destruct s as [|c s]; [discriminate|]. intros H t. exists c, (s ++ t). split; [reflexivity|exact H]. Qed.
  Lemma wordy_head x : wordy x = true -> forall t, exists c r, x ++ t = c :: r /\ opener c = true.
  Proof.
    destruct x as [|c x]; [discriminate|]. cbn [wordy]. intros H t. exists c, (x ++ t). split; [reflexivity|].
    apply andb_true_iff in H as [H _]. unfold opener. cbn [existsb].
    destruct (c =? 61)%N eqn:E1; [apply N.eqb_eq in E1 as ->; discriminate H|].
    destruct (c =? 62)%N eqn:E2; [apply N.eqb_eq in E2 as ->; discriminate H|].
    destruct (c =? 46)%N eqn:E3; [apply N.eqb_eq in E3 as ->; discriminate H|]. reflexivity.
  Qed.

  (** *** atoms *)
  Lemma good_ident e x : print e = x -> is_int e = false -> tree e = AName x -> ident x = true -> good e [TName x].
  Proof.
    intros Pe I Te Ix. apply mk_good; [exact I| | |exact Logic.I|].
    - intros rest A. rewrite Pe. apply (lex_ident x rest true Ix A).
    - rewrite Pe. destruct (ident_token x Ix) as [W _].
      destruct (wordy_head x W []) as (c & r & E & O). rewrite app_nil_r in E. eauto.
    - intros r b r' Tr. rewrite Te in Tr. eapply p_primary; [apply a_name|exact Tr].
  Qed.
  Lemma good_name x : ident x = true -> good (PName x) [TName x].
  Proof. now apply good_ident. Qed.
  Lemma good_glob g : ident (gname g) = true -> good (PGlob g) [TName (gname g)].
  Proof. now apply good_ident. Qed.

  Lemma digits_head f n : 0 < f -> exists c r, digits f n = c :: r /\ is_digit c = true.
  Proof.
    revert n; induction f as [|f IH]; intros n F; [lia|]. cbn [digits].
    destruct (n <? 10)%N eqn:E.
    - apply N.ltb_lt in E. eexists _, []. split; [reflexivity|]. now apply digit_is.
    - destruct f as [|f].
      + cbn [digits app]. eexists _, []. split; [reflexivity|]. apply digit_is. apply N.mod_lt. discriminate.
      + destruct (IH (n / 10)%N ltac:(lia)) as (c & r & -> & D). exists c, (r ++ [(48 + n mod 10)%N]). now split.
  Qed.
  Lemma digit_opener c : is_digit c = true -> opener c = true.
  Proof.
    intros H. unfold opener. cbn [existsb].
    destruct (c =? 61)%N eqn:E1; [apply N.eqb_eq in E1 as ->; discriminate H|].
    destruct (c =? 62)%N eqn:E2; [apply N.eqb_eq in E2 as ->; discriminate H|].
    destruct (c =? 46)%N eqn:E3; [apply N.eqb_eq in E3 as ->; discriminate H|]. reflexivity.
  Qed.
  Lemma ndec_head n : exists c r, ndec n = c :: r /\ is_digit c = true.
  Proof. apply digits_head. lia. Qed.

  Lemma good_int z : exists ts, good (PLit (LInt z)) ts.
  Proof.
    destruct z as [|p|p].
    - exists [TNum 0]. constructor.
      + intros rest A. apply (lex_ndec 0 rest A).
      + exists 48%N, []. split; reflexivity.
      + intros k r K St. apply (descends 13); try lia; try exact St; try exact I. 
        eapply p_primary; [apply a_num|]. apply stops_trailers. apply (stops_le k); [lia|exact St].
      + discriminate.
      + intros r R. exact I.
      + first [exact I | reflexivity].
    - exists [TNum (Npos p)]. constructor.
      + intros rest A. apply (lex_ndec (Npos p) rest A).
      + destruct (ndec_head (Npos p)) as (c & r & E & D). exists c, r. split; [exact E|now apply digit_opener].
      + intros k r K St. apply (descends 13); try lia; try exact St; try exact I.
        eapply p_primary; [apply a_num|]. apply stops_trailers. apply (stops_le k); [lia|exact St].
      + discriminate.
      + intros r R. exact I.
      + first [exact I | reflexivity].
    - exists [TBin (T "-"); TNum (Npos p)]. constructor.
      + intros rest A. change (print (PLit (LInt (Zneg p))) ++ rest) with (T "-" ++ ndec (Npos p) ++ rest).
        destruct (ndec_head (Npos p)) as (c & r & E & D). 
        pose proof (lex_ndec (Npos p) rest A) as L. rewrite E in *. cbn [app] in *.
        rewrite (lex_const_op (T "-") [] 45 (TBin (T "-"))); [|reflexivity|cbn; auto|reflexivity|now apply digit_opener].
        rewrite L, prepend_app. reflexivity.
      + exists 45%N, (ndec (Npos p)). split; reflexivity.
      + intros k r K St. apply (descends 11); try lia; try exact St; try exact I; try exact (le_n 11).
        change (tree (PLit (LInt (Zneg p)))) with (AUnary (T "-") (ANum (Npos p))).
        apply o_unary; [reflexivity|]. apply (descends 13); try lia; try exact I.
        * eapply p_primary; [apply a_num|]. apply stops_trailers. apply (stops_le k); [lia|exact St].
        * apply (stops_le k); [lia|exact St].
      + discriminate.
      + intros r R. exact I.
      + first [exact I | reflexivity].
  Qed.
  Lemma good_lit l : readable (PLit l) = true -> exists ts, good (PLit l) ts.
  Proof.
    destruct l as [|b|z|s]; intros R.
    - exists [TConst (T "None")]. apply mk_good; [reflexivity| |exists 78%N; eexists; split; reflexivity|exact I|].
      + intros rest A. apply (lex_word (T "None") rest true eq_refl A).
      + intros r b r' Tr. eapply p_primary; [apply a_const|exact Tr].
    - destruct b.
      + exists [TConst (T "True")]. apply mk_good; [reflexivity| |exists 84%N; eexists; split; reflexivity|exact I|].
        * intros rest A. apply (lex_word (T "True") rest true eq_refl A).
        * intros r b r' Tr. eapply p_primary; [apply a_const|exact Tr].
      + exists [TConst (T "False")]. apply mk_good; [reflexivity| |exists 70%N; eexists; split; reflexivity|exact I|].
        * intros rest A. apply (lex_word (T "False") rest true eq_refl A).
        * intros r b r' Tr. eapply p_primary; [apply a_const|exact Tr].
    - apply good_int.
    - exists [TStr s]. apply mk_good; [reflexivity| | |exact I|].
      + intros rest A. apply (lex_repr printable s rest true PO R A).
      + change (print (PLit (LStr s))) with (py_repr printable s). unfold py_repr.
        pose proof (quote_in s) as Q.
        eexists _, _. split; [reflexivity|]. destruct Q as [E|[E|[]]]; rewrite <- E; reflexivity.
      + intros r b r' Tr. eapply p_primary; [apply a_str|exact Tr].
  Qed.

  (** *** helpers for compound code *)
  Ltac lx :=
    repeat first
      [ rewrite <- app_assoc
      | match goal with
        | G : good ?e ?ts |- context [lex Start (print ?e ++ ?rest)] =>
            rewrite (g_lex e ts G rest) by
              first [exact I | reflexivity | assumption
                    | apply after_false; first [exact I | reflexivity | assumption]]
        end
      | rewrite prepend_app ].
  Ltac cst := match goal with |- context [lex Start (T ?s ++ ?rest)] =>
    let x := eval vm_compute in (run Start (T s)) in
    match x with Some (?ts, Start) => rewrite (lex_const (T s) ts rest) by reflexivity end end.

  Lemma g_expr e ts r : good e ts -> stops 0 r -> P 0 (ts ++ r) (tree e) r.
  Proof. intros G. apply G. lia. Qed.
  Lemma stops_closing t r k : opens t = false -> stops k (t :: r).
  Proof. destruct t; try discriminate; intros _; exact I. Qed.

  (** elements of a display, separated by commas *)
  Lemma more_elements cl tail l tss r acc :
    In cl [RPar; RBr; RBrace] -> tail = [cl] \/ tail = [Comma; cl] ->
    Forall2 good l tss -> PMore cl acc (seps Comma tss ++ tail ++ r) (acc ++ map tree l) r.
  Proof.
    intros C TL F. revert acc; induction F as [|e ts l tss G F IH]; intros acc; cbn [seps flat_map map app].
    - rewrite app_nil_r. destruct TL as [-> | ->]; [apply m_end|apply m_comma_end]; exact C.
    - rewrite <- app_assoc. eapply m_more.
      + apply (g_expr e); [exact G|].
        destruct F; [destruct TL as [-> | ->]; [destruct C as [<-|[<-|[<-|[]]]]|]; exact I|exact I].
      + replace (acc ++ tree e :: map tree l) with ((acc ++ [tree e]) ++ map tree l) by now rewrite <- app_assoc.
        apply IH.
  Qed.

  Fixpoint kwt (kws : list text) (tss : list (list token)) : list (list token) :=
    match kws, tss with k :: ks, t :: ts => (TName k :: Assign :: t) :: kwt ks ts | _, _ => [] end.
  Lemma kw_args kws : forall vs tss x v tv pos ks r,
    good v tv -> Forall2 good vs tss -> length kws = length vs ->
    distinct (x :: kws) = true ->
    (forall y, In y (x :: kws) -> existsb (fun kw => teqb y (fst kw)) ks = false) ->
    PArgs pos ks (TName x :: Assign :: tv ++ seps Comma (kwt kws tss) ++ RPar :: r)
          pos (ks ++ (x, tree v) :: combine kws (map tree vs)) r.
  Proof.
    induction kws as [|k kws IH]; intros vs tss x v tv pos ks r G F L D N.
    - destruct vs; [|discriminate L]. inversion F; subst. cbn [kwt seps flat_map app combine map].
      apply c_kw_last; [apply N; now left|]. apply g_expr; [exact G|exact I].
    - destruct vs as [|w vs]; [discriminate L|]. inversion F as [|? tw ? tss' Gw F']; subst.
      cbn [kwt combine map]. rewrite seps_cons, <- app_comm_cons.
      eapply c_kw; [apply N; now left|apply g_expr; [exact G|exact I]|].
      replace (ks ++ (x, tree v) :: (k, tree w) :: combine kws (map tree vs))
        with ((ks ++ [(x, tree v)]) ++ (k, tree w) :: combine kws (map tree vs)) by now rewrite <- app_assoc.
      match goal with |- PArgs _ _ ?t _ _ _ =>
        replace t with (TName k :: Assign :: tw ++ seps Comma (kwt kws tss') ++ RPar :: r)
          by (now rewrite <- app_assoc) end.
      apply IH; auto.
      + cbn [distinct] in D. now apply andb_true_iff in D as [_ D].
      + intros y Hy. rewrite existsb_app. rewrite N by (now right). cbn [existsb fst orb].
        rewrite orb_false_r. cbn [distinct] in D. apply andb_true_iff in D as [D _].
        apply negb_true_iff in D. unfold teqb. destruct (text_eq_dec y x) as [->|]; [|reflexivity].
        exfalso. assert (E : existsb (teqb x) (k :: kws) = true); [|congruence].
        apply existsb_exists. exists x. split; [exact Hy|]. unfold teqb. destruct (text_eq_dec x x); congruence.
  Qed.
  Lemma all_args kws : forall ps pts vs tss pos r,
    Forall2 good ps pts -> Forall2 good vs tss -> length kws = length vs ->
    distinct kws = true ->
    match pts ++ kwt kws tss with
    | [] => PArgs pos [] (RPar :: r) (pos ++ map tree ps) (combine kws (map tree vs)) r
    | a :: l => PArgs pos [] (a ++ seps Comma l ++ RPar :: r) (pos ++ map tree ps) (combine kws (map tree vs)) r
    end.
  Proof.
    intros ps pts vs tss pos r F. revert pos; induction F as [|p tp ps pts G F IH]; intros pos Fv L D.
    - cbn [app map]. rewrite app_nil_r. destruct kws as [|k kws]; cbn [kwt].
      + apply c_end.
      + destruct vs as [|w vs]; [discriminate L|]. inversion Fv as [|? tw ? tss' Gw F']; subst.
        cbn [combine map]. apply (kw_args kws vs tss' k w tw pos []); auto.
    - cbn [app map]. specialize (IH (pos ++ [tree p]) Fv L D).
      replace (pos ++ tree p :: map tree ps) with ((pos ++ [tree p]) ++ map tree ps) by now rewrite <- app_assoc.
      destruct (pts ++ kwt kws tss) as [|a l] eqn:E; cbn [seps flat_map app].
      + destruct pts; [|discriminate E]. inversion F; subst. cbn [app] in E.
        destruct kws as [|k kws].
        * cbn [map combine app] in *. rewrite app_nil_r. apply c_pos_last; [apply G; exact I|].
          apply g_expr; [exact G|exact I].
        * destruct vs as [|w vs]; [discriminate L|]. inversion Fv; subst. discriminate E.
      + eapply c_pos; [apply G; exact I|apply g_expr; [exact G|exact I]|]. rewrite <- app_assoc. exact IH.
  Qed.
  Lemma lex_kwt kws : forall vs tss,
    forallb ident kws = true -> Forall2 good vs tss -> Forall2 lexes (zip_kw kws (map print vs)) (kwt kws tss).
  Proof.
    induction kws as [|k kws IH]; intros vs tss K F; [constructor|].
    destruct F as [|v tv vs tss G F]; cbn [map zip_kw kwt]; [constructor|].
    cbn [forallb] in K. apply andb_true_iff in K as [K1 K2].
    constructor; [|apply IH; auto].
    intros rest A. destruct (ident_token k K1) as [W E].
    rewrite <- !app_assoc. destruct (g_head _ _ G) as (c & r & Hp & Oc).
    assert (R : run Start (k ++ T "=") = Some ([TName k], InOp 61)).
    { apply (run_app _ _ _ [] _ [TName k] _ (run_word k W)). change (T "=") with [61%N]. cbn [run step].
      change (is_ident 61%N) with false. change (is_quote 61%N) with false. cbv iota. rewrite E. reflexivity. }
    rewrite app_assoc. rewrite (good_op v tv (k ++ T "=") [TName k] 61 Assign); auto; [|cbn; auto].
    rewrite (good_lexes v tv G rest A). apply prepend_app.
  Qed.

  Lemma good_all l : Forall (fun e => readable e = true -> exists ts, good e ts) l ->
    forallb readable l = true -> exists tss, Forall2 good l tss.
  Proof.
    induction 1 as [|e l H _ IH]; intros R; [exists []; constructor|].
    cbn [forallb] in R. apply andb_true_iff in R as [R1 R2].
    destruct (H R1) as [ts G]. destruct (IH R2) as [tss F]. exists (ts :: tss). now constructor.
  Qed.
  Lemma good_lexes_all l tss : Forall2 good l tss -> Forall2 lexes (map print l) tss.
  Proof. induction 1; constructor; auto using good_lexes. Qed.

  (** arguments in parentheses: (a,b,k=c) *)
  Definition arg_toks (tss : list (list token)) : list token :=
    match tss with [] => [] | a :: l => a ++ seps Comma l end.
  Lemma lex_arglist l tss rest :
    Forall2 lexes l tss -> after false rest ->
    lex Start (intersperse (T ",") l ++ rest) = prepend (arg_toks tss) (lex Start rest).
  Proof.
    intros F A. destruct F as [|t ts l tss H F]; [now rewrite prepend_nil|].
    destruct sep_comma. apply lex_joined; assumption.
  Qed.
  Lemma lex_args l tss rest :
    Forall2 lexes l tss ->
    lex Start (T "(" ++ intersperse (T ",") l ++ T ")" ++ rest) = prepend (LPar :: arg_toks tss ++ [RPar]) (lex Start rest).
  Proof.
    intros F. cst. rewrite (lex_arglist l tss) by (auto; reflexivity). cst. rewrite !prepend_app. reflexivity.
  Qed.
  Lemma call_trail kws ps pts vs tss a r b r' :
    Forall2 good ps pts -> Forall2 good vs tss -> length kws = length vs -> distinct kws = true ->
    PTrail (ACall a (map tree ps) (combine kws (map tree vs))) r b r' ->
    PTrail a (LPar :: arg_toks (pts ++ kwt kws tss) ++ RPar :: r) b r'.
  Proof.
    intros Fp Fv L D Tr. eapply t_call; [|exact Tr].
    pose proof (all_args kws ps pts vs tss [] r Fp Fv L D) as H. cbn [app] in H.
    unfold arg_toks. destruct (pts ++ kwt kws tss); [exact H|]. rewrite <- app_assoc. exact H.
  Qed.
  (** f(a,b,...) where f is a name *)
  Lemma name_call f ps pts r b r' :
    Forall2 good ps pts -> PTrail (ACall (AName f) (map tree ps) []) r b r' ->
    P 13 (TName f :: LPar :: arg_toks pts ++ RPar :: r) b r'.
  Proof.
    intros F Tr. eapply p_primary; [apply a_name|].
    pose proof (call_trail [] ps pts [] [] (AName f) r b r' F) as H. rewrite app_nil_r in H.
    apply H; auto.
  Qed.

  (** *** parenthesised code *)
  Lemma good_paren e t its :
    is_int e = false -> print e = T "(" ++ t ++ T ")" -> lexes t its ->
    (forall r, P 0 (its ++ RPar :: r) (tree e) (RPar :: r)) ->
    good e (LPar :: its ++ [RPar]).
  Proof.
    intros I Pe L Pr. apply mk_good; [exact I| | |exact Logic.I|].
    - intros rest A. rewrite Pe, <- !app_assoc. cst. rewrite L by reflexivity. cst.
      rewrite !prepend_app. reflexivity.
    - rewrite Pe. eexists _, _. split; [reflexivity|reflexivity].
    - intros r b r' Tr. eapply p_primary; [apply a_paren|exact Tr]. rewrite <- app_assoc. apply Pr.
  Qed.
  Lemma not_first e ts t (r : list token) k j : good e ts ->
    match (ts ++ t) ++ r with KNot :: _ => j <= 3 \/ 3 < k | _ => True end.
  Proof.
    intros G. pose proof (g_tok _ _ G) as H. destruct ts as [|u us]; [contradiction|].
    cbn [app]. destruct u; auto; contradiction.
  Qed.
  Lemma not_first0 e ts (r : list token) k j : good e ts ->
    match ts ++ r with KNot :: _ => j <= 3 \/ 3 < k | _ => True end.
  Proof.
    intros G. pose proof (g_tok _ _ G) as H. destruct ts as [|u us]; [contradiction|].
    cbn [app]. destruct u; auto; contradiction.
  Qed.
  Lemma not_bin e ts (r : list token) j : good e ts -> j <= 11 ->
    match ts ++ r with TBin _ :: _ => j <= 11 | _ => True end.
  Proof.
    intros G J. destruct (ts ++ r) as [|u us]; auto. destruct u; auto.
  Qed.
  Lemma down e ts r a r' k j : good e ts -> k <= j -> j <= 11 -> P j (ts ++ r) a r' -> stops k r' -> P k (ts ++ r) a r'.
  Proof.
    intros G K J H St. apply (descends j); auto; try lia.
    - eapply not_first0; exact G.
    - eapply not_bin; [exact G|lia].
  Qed.

  Lemma compares_in o : compares o = true ->
    In o (map T ["is"; "is not"; "in"; "not in"; "!="; ">"; ">="; "<"; "<="; "=="]%string).
  Proof.
    unfold compares. intros H. apply existsb_exists in H as (x & I & E). unfold teqb in E.
    destruct (text_eq_dec o x) as [->|]; [exact I|discriminate].
  Qed.
  Lemma computes_in o : computes o = true -> In o (map T ["+"; "*"; "-"; "/"; "%"; "//"]%string).
  Proof.
    unfold computes. intros H. apply existsb_exists in H as (x & I & E). unfold teqb in E.
    destruct (text_eq_dec o x) as [->|]; [exact I|discriminate].
  Qed.
  (** tokens of an operator *)
  Lemma cmp_toks o : compares o = true ->
    exists u us, run Start (T " " ++ o ++ T " ") = Some (u :: us, Start) /\
      (forall r, comparison_op (u :: us ++ r) = Some (o, r) \/ (o = T "is" /\ u = KIs /\ us = [])) /\
      (forall r, stops 5 (u :: us ++ r)) /\ opens u = true.
  Proof.
    intros H. apply compares_in in H. cbn [map In] in H.
    destruct H as [<-|[<-|[<-|[<-|[<-|[<-|[<-|[<-|[<-|[<-|[]]]]]]]]]]];
      (eexists _, _; split; [vm_compute; reflexivity|]; split; [|split; [|reflexivity]]);
      intros r; try (left; reflexivity); try (right; repeat split; reflexivity); try exact I; cbn; lia.
  Qed.
  Lemma cmp_op o e ts r : compares o = true -> good e ts ->
    exists u us, run Start (T " " ++ o ++ T " ") = Some (u :: us, Start) /\
      comparison_op (u :: us ++ ts ++ r) = Some (o, ts ++ r) /\ (forall r, stops 5 (u :: us ++ r)).
  Proof.
    intros H G. destruct (cmp_toks o H) as (u & us & R & C & S & _). exists u, us.
    split; [exact R|]. split; [|exact S].
    destruct (C (ts ++ r)) as [E|(-> & -> & ->)]; [exact E|].
    cbn [app]. pose proof (g_tok _ _ G) as K. destruct ts as [|w ws]; [contradiction|].
    cbn [app]. destruct w; try reflexivity. contradiction.
  Qed.
  Lemma bin_toks o : computes o = true ->
    run Start (T " " ++ o ++ T " ") = Some ([TBin o], Start) /\ 9 <= bin_level o <= 10 /\ compares o = false.
  Proof.
    intros H. apply computes_in in H. cbn [map In] in H.
    destruct H as [<-|[<-|[<-|[<-|[<-|[<-|[]]]]]]]; (split; [reflexivity|split; [cbn; lia|reflexivity]]).
  Qed.

  Ltac two F := let a := fresh "a" in let ta := fresh "ta" in
    inversion F as [|a ta ? ? ? F']; subst; clear F.

  Lemma good_bin o l tss :
    compares o || computes o = true -> length l = 2 -> Forall2 good l tss -> exists ts, good (POp (OBin o) l) ts.
  Proof.
    intros O L F. destruct l as [|a [|b [|? ?]]]; try discriminate L.
    inversion F as [|? ta ? ? Ga F1]; subst. inversion F1 as [|? tb ? ? Gb F2]; subst. inversion F2; subst.
    assert (Pe : print (POp (OBin o) [a; b]) = T "(" ++ (print a ++ (T " " ++ o ++ T " ") ++ print b) ++ T ")").
    { cbn [Model_Code.print map op_text]. unfold nth_t. cbn [nth]. rewrite <- !app_assoc. reflexivity. }
    destruct (compares o) eqn:C.
    - assert (X : exists u us, run Start (T " " ++ o ++ T " ") = Some (u :: us, Start) /\
                  (forall r, comparison_op (u :: us ++ tb ++ r) = Some (o, tb ++ r)) /\ (forall r, stops 5 (u :: us ++ r))).
      { destruct (cmp_op o b tb [] C Gb) as (u & us & R & _ & S). exists u, us. split; [exact R|]. split; [|exact S].
        intros r. destruct (cmp_op o b tb r C Gb) as (u' & us' & R' & E & _). rewrite R in R'. injection R' as <- <-. exact E. }
      destruct X as (u & us & R & E & S).
      eexists. apply (good_paren (POp (OBin o) [a; b]) _ (ta ++ (u :: us) ++ tb) eq_refl Pe).
      + intros rest A. rewrite <- !app_assoc.
        rewrite (good_lexes a ta Ga) by reflexivity.
        rewrite !app_assoc, <- (app_assoc (T " ")), <- (app_assoc (_ ++ _ ++ _)).
        rewrite (lex_const _ _ _ R). rewrite (good_lexes b tb Gb) by exact A. now rewrite !prepend_app.
      + intros r. rewrite <- !app_assoc. apply (down a ta) with 4; auto; try lia; [|exact I].
        cbn [Spec_Tree.tree op_tree map]. rewrite C. unfold nth_a. cbn [nth].
        change (ACompare (tree a) [(o, tree b)]) with (of_compare (tree a) ([] ++ [(o, tree b)])).
        eapply o_cmp.
        * apply Ga; [lia|]. apply S.
        * eapply cmp_more; [apply E| |].
          -- apply Gb; [lia|exact I].
          -- apply cmp_end. exact I.
    - destruct (bin_toks o O) as (R & Lv & _).
      eexists. apply (good_paren (POp (OBin o) [a; b]) _ (ta ++ [TBin o] ++ tb) eq_refl Pe).
      + intros rest A. rewrite <- !app_assoc.
        rewrite (good_lexes a ta Ga) by reflexivity.
        rewrite !app_assoc, <- (app_assoc (T " ")), <- (app_assoc (_ ++ _ ++ _)).
        rewrite (lex_const _ _ _ R). rewrite (good_lexes b tb Gb) by exact A. now rewrite !prepend_app.
      + intros r. rewrite <- !app_assoc. apply (down a ta) with (bin_level o); auto; try lia; [|exact I].
        cbn [Spec_Tree.tree op_tree map]. rewrite C. unfold nth_a. cbn [nth].
        apply o_bin with (tb ++ RPar :: r); [lia| | |exact I].
        * apply Ga; [lia|]. cbn [app stops power]. rewrite bin_not_pow by lia.
          destruct (Nat.eqb (bin_level o) 0) eqn:Z; [apply Nat.eqb_eq in Z; lia|lia].
        * apply Gb; [lia|exact I].
  Qed.
  Lemma good_not a ta : good a ta -> good (POp ONot [a]) (LPar :: (KNot :: ta) ++ [RPar]).
  Proof.
    intros G. apply good_paren with (T "not " ++ print a); [reflexivity| | |].
    - cbn [Model_Code.print map op_text]. unfold nth_t. cbn [nth]. rewrite <- !app_assoc. reflexivity.
    - intros rest A. rewrite <- app_assoc. cst. rewrite (good_lexes a ta G) by exact A. now rewrite prepend_app.
    - intros r. apply (descends 3); try lia; try exact I; [|cbn; lia].
      apply o_not. apply G; [lia|exact I].
  Qed.
  Lemma good_neg a ta : good a ta -> good (POp ONeg [a]) (LPar :: (TBin (T "-") :: ta) ++ [RPar]).
  Proof.
    intros G. apply good_paren with (T "-" ++ print a); [reflexivity| | |].
    - cbn [Model_Code.print map op_text]. unfold nth_t. cbn [nth]. rewrite <- !app_assoc. reflexivity.
    - intros rest A. rewrite <- app_assoc.
      rewrite (good_op a ta (T "-") [] 45 (TBin (T "-"))); auto; [|cbn; auto].
      rewrite (good_lexes a ta G) by exact A. now rewrite prepend_app.
    - intros r. apply (descends 11); try lia; try exact I; try exact (le_n 11).
      apply o_unary; [reflexivity|]. apply G; [lia|exact I].
  Qed.
  Lemma good_if c t f tc tt tf : good c tc -> good t tt -> good f tf ->
    good (PIf c t f) (LPar :: (tt ++ KIf :: tc ++ KElse :: tf) ++ [RPar]).
  Proof.
    intros Gc Gt Gf. apply good_paren with (print t ++ T " if " ++ print c ++ T " else " ++ print f); [reflexivity| | |].
    - cbn [Model_Code.print]. rewrite <- !app_assoc. reflexivity.
    - intros rest A. rewrite <- !app_assoc.
      rewrite (good_lexes t tt Gt) by reflexivity. cst.
      rewrite (good_lexes c tc Gc) by reflexivity. cst.
      rewrite (good_lexes f tf Gf) by exact A. rewrite !prepend_app.
      f_equal. rewrite <- !app_assoc. reflexivity.
    - intros r. rewrite <- app_assoc. cbn [app]. rewrite <- app_assoc. cbn [app].
      eapply o_if; [apply Gt; [lia|cbn; lia]|apply Gc; [lia|exact I]|apply Gf; [lia|exact I]].
  Qed.
  Lemma bool_elements (o : bool) l tss r acc :
    Forall2 good l tss -> PBools o acc (seps (if o then KOr else KAnd) tss ++ RPar :: r) (acc ++ map tree l) (RPar :: r).
  Proof.
    intros F. revert acc; induction F as [|e ts l tss G F IH]; intros acc.
    - cbn [map]. rewrite app_nil_r. apply b_end. exact I.
    - rewrite seps_cons, <- app_comm_cons, <- app_assoc. eapply b_more.
      + apply G; [destruct o; lia|]. destruct F; [exact I|]. rewrite seps_cons. destruct o; cbn; lia.
      + replace (acc ++ map tree (e :: l)) with ((acc ++ [tree e]) ++ map tree l) by now rewrite <- app_assoc.
        apply IH.
  Qed.
  Lemma good_bool (o : bool) l tss :
    Forall2 good l tss -> 2 <= length l -> exists ts, good (PBool o l) ts.
  Proof.
    intros F L. destruct F as [|a ta l tss Ga F]; [cbn in L; lia|].
    destruct F as [|b tb l tss Gb F]; [cbn in L; lia|].
    assert (F2 : Forall2 good (b :: l) (tb :: tss)) by now constructor.
    set (s := if o then T " or " else T " and ").
    assert (R : run Start s = Some ([if o then KOr else KAnd], Start)) by (destruct o; reflexivity).
    assert (Sc : exists c r, s = c :: r /\ sep false c = true) by (destruct o; eexists _, _; split; reflexivity).
    eexists. apply (good_paren _ (intersperse s (map print (a :: b :: l))) (ta ++ seps (if o then KOr else KAnd) (tb :: tss)));
      [reflexivity|reflexivity| |].
    - intros rest A. apply lex_joined; auto; [now apply good_lexes|]. exact (good_lexes_all _ _ F2).
    - intros r. rewrite <- app_assoc. apply (down a ta) with (if o then 1 else 2); try (destruct o; lia); auto; [|exact I].
      change (tree (PBool o (a :: b :: l))) with (of_bool o ([tree a] ++ map tree (b :: l))).
      eapply o_bool; [|apply bool_elements; exact F2].
      apply Ga; [destruct o; lia|]. rewrite seps_cons. destruct o; cbn; lia.
  Qed.
  Lemma eq_elements l tss r acc :
    Forall2 good l tss ->
    PCmp acc (seps (TBin (T "==")) tss ++ RPar :: r) (acc ++ map (fun b => (T "==", b)) (map tree l)) (RPar :: r).
  Proof.
    intros F. revert acc; induction F as [|e ts l tss G F IH]; intros acc.
    - cbn [map]. rewrite app_nil_r. apply cmp_end. exact I.
    - rewrite seps_cons, <- app_comm_cons, <- app_assoc. eapply cmp_more; [reflexivity| |].
      + apply G; [lia|]. destruct F; [exact I|]. rewrite seps_cons. cbn. lia.
      + cbn [map]. replace (acc ++ (T "==", tree e) :: map (fun b => (T "==", b)) (map tree l))
          with ((acc ++ [(T "==", tree e)]) ++ map (fun b => (T "==", b)) (map tree l)) by now rewrite <- app_assoc.
        apply IH.
  Qed.
  Lemma good_eqs l tss : Forall2 good l tss -> 2 <= length l -> exists ts, good (PEqs l) ts.
  Proof.
    intros F L. destruct F as [|a ta l tss Ga F]; [cbn in L; lia|].
    destruct F as [|b tb l tss Gb F]; [cbn in L; lia|].
    assert (F2 : Forall2 good (b :: l) (tb :: tss)) by now constructor.
    eexists. apply (good_paren _ (intersperse (T " == ") (map print (a :: b :: l))) (ta ++ seps (TBin (T "==")) (tb :: tss)));
      [reflexivity|reflexivity| |].
    - intros rest A. apply lex_joined; auto; [|now apply good_lexes|exact (good_lexes_all _ _ F2)].
      eexists _, _. split; reflexivity.
    - intros r. rewrite <- app_assoc. apply (down a ta) with 4; try lia; auto; [|exact I].
      change (tree (PEqs (a :: b :: l))) with
        (of_compare (tree a) ([] ++ map (fun x => (T "==", x)) (map tree (b :: l)))).
      eapply o_cmp; [|apply eq_elements; exact F2].
      apply Ga; [lia|]. rewrite seps_cons. cbn. lia.
  Qed.
  Lemma good_attach a b ta tb : good a ta -> good b tb -> exists ts, good (PAttach a b) ts.
  Proof.
    intros Ga Gb. eexists.
    apply (good_paren _ (print a ++ T " and None or " ++ print b) (ta ++ [KAnd; TConst (T "None"); KOr] ++ tb)); [reflexivity| | |].
    - cbn [Model_Code.print]. rewrite <- !app_assoc. reflexivity.
    - intros rest A. rewrite <- !app_assoc. rewrite (good_lexes a ta Ga) by reflexivity. cst.
      rewrite (good_lexes b tb Gb) by exact A. rewrite !prepend_app. f_equal. rewrite <- !app_assoc. reflexivity.
    - intros r. rewrite <- !app_assoc. apply (down a ta) with 1; try lia; auto; [|exact I].
      change (tree (PAttach a b)) with (of_bool true ([of_bool false ([tree a] ++ [AConst (T "None")])] ++ [tree b])).
      apply (o_bool true _ (of_bool false ([tree a] ++ [AConst (T "None")])) ([KOr] ++ tb ++ RPar :: r)).
      + apply (o_bool false _ (tree a) ([KAnd; TConst (T "None"); KOr] ++ tb ++ RPar :: r)).
        * apply Ga; [lia|cbn; lia].
        * apply (b_more false _ _ (AConst (T "None")) (KOr :: tb ++ RPar :: r)); [|apply b_end; cbn; lia].
          apply (descends 13); try lia; try exact I; [|cbn; lia].
          eapply p_primary; [apply a_const|apply stops_trailers; cbn; lia].
      + apply (b_more true _ _ (tree b) (RPar :: r)); [apply Gb; [lia|exact I]|apply b_end; exact I].
  Qed.

  Ltac fin := rewrite ?prepend_app; f_equal; rewrite ?seps_nil, ?app_nil_r; repeat (rewrite <- app_assoc || rewrite <- app_comm_cons); reflexivity.
  Ltac prn := cbn [Model_Code.print map op_text comp_text]; unfold nth_t; cbn [nth]; rewrite <- ?app_assoc.

  (** *** lookups and calls on a base *)
  Lemma base_head a ta t : good a ta -> exists c r, print a ++ t = c :: r /\ opener c = true.
  Proof. intros G. destruct (g_head _ _ G) as (c & r & -> & O). exists c, (r ++ t). now split. Qed.
  Lemma base_tok a ta t : good a ta -> is_int a = false ->
    match ta ++ t with [] | KNot :: _ | TBin _ :: _ => False | _ => True end.
  Proof.
    intros G I. pose proof (g_tok _ _ G) as H. destruct ta as [|u us]; [contradiction|].
    cbn [app]. destruct u; auto; congruence.
  Qed.
  Lemma good_item a i ta ti : good a ta -> good i ti -> is_int a = false -> good (POp OItem [a; i]) (ta ++ LBr :: ti ++ [RBr]).
  Proof.
    intros Ga Gi I. apply mk_good_gen; [reflexivity| | | | |].
    - intros rest A. prn. rewrite (good_lexes a ta Ga) by reflexivity. cst.
      rewrite (good_lexes i ti Gi) by reflexivity. cst. fin.
    - prn. now apply base_head with ta.
    - now apply base_tok with a.
    - intros r R. rewrite <- app_assoc. apply Ga. exact Logic.I.
    - intros r b r' Tr. rewrite <- app_assoc. cbn [app]. apply (g_prim _ _ Ga I).
      rewrite <- app_assoc. eapply t_sub; [apply g_expr; [exact Gi|exact Logic.I]|exact Tr].
  Qed.
  Lemma lex_dot n rest : wordy n = true -> lex Start (T "." ++ n ++ rest) = prepend [Dot] (lex Start (n ++ rest)).
  Proof.
    intros W. rewrite (lex_run Start (T ".") (n ++ rest) [] (InOp 46) eq_refl), prepend_nil.
    destruct n as [|c n]; [discriminate W|]. cbn [wordy] in W. apply andb_true_iff in W as [W _].
    cbn [app]. apply lex_op; [| |reflexivity].
    - unfold op_pair. cbn [existsb fst snd]. destruct (c =? 46)%N eqn:E; [apply N.eqb_eq in E as ->; discriminate W|].
      reflexivity.
    - rewrite N.eqb_refl. cbn [andb]. destruct (is_digit c) eqn:E; [|reflexivity].
      exfalso. unfold is_alpha, is_digit in *. apply andb_true_iff in E as [E1 E2].
      apply N.leb_le in E1, E2. repeat (apply orb_true_iff in W as [W|W]).
      + apply andb_true_iff in W as [W _]. apply N.leb_le in W. lia.
      + apply andb_true_iff in W as [W _]. apply N.leb_le in W. lia.
      + apply N.eqb_eq in W. lia.
  Qed.
  Lemma good_attr a n ta : good a ta -> is_int a = false -> ident n = true -> good (POp (OAttr n) [a]) (ta ++ [Dot; TName n]).
  Proof.
    intros Ga I Id. destruct (ident_token n Id) as [W _]. apply mk_good_gen; [reflexivity| | | | |].
    - intros rest A. prn. rewrite (g_lex a ta Ga) by (rewrite I; reflexivity).
      rewrite lex_dot by exact W. rewrite (lex_ident n rest true Id A). fin.
    - prn. now apply base_head with ta.
    - now apply base_tok with a.
    - intros r R. rewrite <- app_assoc. apply Ga. exact Logic.I.
    - intros r b r' Tr. rewrite <- app_assoc. apply (g_prim _ _ Ga I). apply t_attr. exact Tr.
  Qed.
  Lemma Forall2_firstn_skipn {A B} (R : A -> B -> Prop) n l m :
    Forall2 R l m -> Forall2 R (firstn n l) (firstn n m) /\ Forall2 R (skipn n l) (skipn n m).
  Proof.
    intros F. revert n; induction F as [|a b l m H F IH]; intros [|n]; cbn [firstn skipn]; auto.
    destruct (IH n). auto.
  Qed.
  Lemma good_call f np kws l tf tss :
    good f tf -> is_int f = false -> Forall2 good l tss -> length l = np + length kws ->
    forallb ident kws = true -> distinct kws = true ->
    good (POp (OCall np kws) (f :: l)) (tf ++ LPar :: arg_toks (firstn np tss ++ kwt kws (skipn np tss)) ++ [RPar]).
  Proof.
    intros Gf I F L K D.
    destruct (Forall2_firstn_skipn good np l tss F) as [F1 F2].
    assert (Ls : length kws = length (skipn np l)) by (rewrite skipn_length; lia).
    apply mk_good_gen; [reflexivity| | | | |].
    - intros rest A. prn. rewrite (good_lexes f tf Gf) by reflexivity.
      cbn [tl]. rewrite firstn_map, skipn_map.
      rewrite (lex_args _ (firstn np tss ++ kwt kws (skipn np tss))); [fin|].
      apply Forall2_app; [now apply good_lexes_all|]. now apply lex_kwt.
    - prn. now apply base_head with tf.
    - now apply base_tok with f.
    - intros r R. rewrite <- app_assoc. apply Gf. exact Logic.I.
    - intros r b r' Tr. rewrite <- app_assoc. cbn [app]. apply (g_prim _ _ Gf I).
      rewrite <- app_assoc. cbn [app].
      apply (call_trail kws (firstn np l) _ (skipn np l)); auto.
      cbn [Spec_Tree.tree op_tree map] in Tr. unfold nth_a in Tr. cbn [nth tl] in Tr.
      rewrite firstn_map, skipn_map in Tr. exact Tr.
  Qed.

  (** *** calls of known functions *)
  Lemma good_getattr a i ta ti : good a ta -> good i ti -> exists ts, good (POp OGetattr [a; i]) ts.
  Proof.
    intros Ga Gi. exists (TName (T "getattr") :: LPar :: arg_toks [ta; ti] ++ [RPar]).
    apply mk_good; [reflexivity| |eexists _, _; split; reflexivity|exact I|].
    - intros rest A. prn. cst. rewrite (good_lexes a ta Ga) by reflexivity. cst.
      rewrite (good_lexes i ti Gi) by reflexivity. cst.
      cbn [arg_toks]. rewrite seps_cons. fin.
    - intros r b r' Tr. cbn [app]. rewrite <- app_assoc.
      apply (name_call (T "getattr") [a; i]); [auto|exact Tr].
  Qed.
  Lemma good_slice a b c ta tb tc : good a ta -> good b tb -> good c tc -> exists ts, good (POp OSlice [a; b; c]) ts.
  Proof.
    intros Ga Gb Gc. eexists.
    apply (good_paren (POp OSlice [a; b; c])
             (T "slice(" ++ print a ++ T ", " ++ print b ++ T ", " ++ print c ++ T ")")
             (TName (T "slice") :: LPar :: arg_toks [ta; tb; tc] ++ [RPar])); [reflexivity| | |].
    - prn. reflexivity.
    - intros rest A. rewrite <- !app_assoc. cst. rewrite (good_lexes a ta Ga) by reflexivity. cst.
      rewrite (good_lexes b tb Gb) by reflexivity. cst. rewrite (good_lexes c tc Gc) by reflexivity. cst.
      cbn [arg_toks]. rewrite !seps_cons. fin.
    - intros r. apply (descends 13); try lia; try exact I. cbn [app]. rewrite <- app_assoc.
      apply (name_call (T "slice") [a; b; c]); [auto|]. apply stops_trailers. exact I.
  Qed.
  Definition sorted_toks (ta tb tc : list token) : list token :=
    TName (T "sorted") :: LPar :: arg_toks ([ta] ++ kwt [T "key"; T "reverse"] [tb; tc]) ++ [RPar].
  Lemma lex_sorted a b c ta tb tc rest : good a ta -> good b tb -> good c tc ->
    lex Start (T "sorted(" ++ print a ++ T ", key=" ++ print b ++ T ",reverse=" ++ print c ++ T ")" ++ rest)
    = prepend (sorted_toks ta tb tc) (lex Start rest).
  Proof.
    intros Ga Gb Gc. cst. rewrite (good_lexes a ta Ga) by reflexivity.
    rewrite (good_op b tb (T ", key=") [Comma; TName (T "key")] 61 Assign); [|exact Gb|reflexivity|cbn; auto|reflexivity].
    rewrite (good_lexes b tb Gb) by reflexivity.
    rewrite (good_op c tc (T ",reverse=") [Comma; TName (T "reverse")] 61 Assign); [|exact Gc|reflexivity|cbn; auto|reflexivity].
    rewrite (good_lexes c tc Gc) by reflexivity. cst. unfold sorted_toks. cbn [kwt app arg_toks].
    rewrite !seps_cons. fin.
  Qed.
  Definition sorted_tree (a b c : px) : ast :=
    ACall (AName (T "sorted")) [tree a] [(T "key", tree b); (T "reverse", tree c)].
  Lemma p_sorted a b c ta tb tc r x r' : good a ta -> good b tb -> good c tc ->
    PTrail (sorted_tree a b c) r x r' -> P 13 (sorted_toks ta tb tc ++ r) x r'.
  Proof.
    intros Ga Gb Gc Tr. unfold sorted_toks. cbn [app]. rewrite <- app_assoc.
    eapply p_primary; [apply a_name|].
    apply (call_trail [T "key"; T "reverse"] [a] [ta] [b; c] [tb; tc]); auto.
  Qed.
  Lemma good_sorted_list a b c ta tb tc : good a ta -> good b tb -> good c tc -> exists ts, good (POp OSortedList [a; b; c]) ts.
  Proof.
    intros Ga Gb Gc. exists (sorted_toks ta tb tc).
    apply mk_good; [reflexivity| |eexists _, _; split; reflexivity|exact I|].
    - intros rest A. prn. now apply lex_sorted.
    - intros r x r' Tr. apply (p_sorted a b c ta tb tc r x r' Ga Gb Gc). exact Tr.
  Qed.
  (** f(expression) *)
  Lemma p_call1 f ts e r b r' :
    (forall r, match r with Assign :: _ => False | _ => True end -> positional (ts ++ r)) ->
    (forall r, P 0 (ts ++ RPar :: r) e (RPar :: r)) ->
    PTrail (ACall (AName f) [e] []) r b r' -> P 13 (TName f :: LPar :: ts ++ RPar :: r) b r'.
  Proof.
    intros Ps He Tr. eapply p_primary; [apply a_name|]. eapply t_call; [|exact Tr].
    apply (c_pos_last []); [apply Ps; exact I|apply He].
  Qed.
  Lemma good_sorted_in f o a b c ta tb tc : good a ta -> good b tb -> good c tc ->
    (o = OSortedTuple /\ f = "tuple"%string) \/ (o = OSortedDict /\ f = "OrderedDict"%string) ->
    exists ts, good (POp o [a; b; c]) ts.
  Proof.
    intros Ga Gb Gc O. exists (TName (T f) :: LPar :: sorted_toks ta tb tc ++ [RPar]).
    assert (Pe : print (POp o [a; b; c]) =
      T f ++ T "(" ++ T "sorted(" ++ print a ++ T ", key=" ++ print b ++ T ",reverse=" ++ print c ++ T ")" ++ T ")").
    { destruct O as [[-> ->]|[-> ->]]; prn; reflexivity. }
    assert (If : ident (T f) = true) by (destruct O as [[_ ->]|[_ ->]]; reflexivity).
    apply mk_good; [reflexivity| | |exact I|].
    - intros rest A. rewrite Pe, <- !app_assoc. rewrite (lex_ident (T f) _ false If) by reflexivity. cst.
      rewrite (lex_sorted a b c ta tb tc) by assumption. cst. fin.
    - rewrite Pe. apply wordy_head. now apply ident_token.
    - intros r x r' Tr. cbn [app]. rewrite <- app_assoc. cbn [app].
      apply p_call1 with (sorted_tree a b c).
      + intros q _. exact I.
      + intros q. apply (descends 13); try lia; try exact I.
        apply (p_sorted a b c); auto. apply stops_trailers. exact I.
      + destruct O as [[-> ->]|[-> ->]]; exact Tr.
  Qed.

  (** *** displays *)
  Lemma good_tuple l tss : Forall2 good l tss -> length l <> 0 -> exists ts, good (POp OTuple l) ts.
  Proof.
    intros F L. destruct F as [|a ta l tss Ga F]; [cbn in L; lia|].
    exists (LPar :: (ta ++ seps Comma tss) ++ [Comma; RPar]).
    destruct sep_comma as [Rc Sc].
    apply mk_good; [reflexivity| |eexists _, _; split; reflexivity|exact I|].
    - intros rest A.
      change (print (POp OTuple (a :: l))) with (T "(" ++ intersperse (T ",") (print a :: map print l) ++ T ",)").
      rewrite <- !app_assoc. cst.
      rewrite (lex_joined (T ",") Comma _ ta _ tss); auto; [cst; fin|now apply good_lexes|now apply good_lexes_all|reflexivity].
    - intros r b r' Tr. rewrite <- !app_assoc. eapply p_primary; [|exact Tr].
      assert (E : exists q, seps Comma tss ++ [Comma; RPar] ++ r = Comma :: q).
      { destruct tss; [|rewrite seps_cons]; eexists; reflexivity. }
      destruct E as [q E]. pose proof (more_elements RPar [Comma; RPar] l tss r [tree a]) as M. cbn [app] in M.
      apply (a_tuple _ (tree a) q).
      + change (ta ++ seps Comma tss ++ [Comma; RPar] ++ r) with (ta ++ (seps Comma tss ++ [Comma; RPar] ++ r)). rewrite E. apply g_expr; [exact Ga|exact I].
      + rewrite <- E. apply M; auto. cbn; auto.
  Qed.
  Lemma good_list l tss : Forall2 good l tss -> exists ts, good (POp OList l) ts.
  Proof.
    intros F. destruct F as [|a ta l tss Ga F].
    { exists [LBr; RBr]. apply mk_good; [reflexivity| |eexists _, _; split; reflexivity|exact I|].
      - intros rest A. change (print (POp OList [])) with (T "[]"). now cst.
      - intros r b r' Tr. eapply p_primary; [apply a_nil|exact Tr]. }
    exists (LBr :: (ta ++ seps Comma tss) ++ [RBr]).
    destruct sep_comma as [Rc Sc].
    apply mk_good; [reflexivity| |eexists _, _; split; reflexivity|exact I|].
    - intros rest A.
      change (print (POp OList (a :: l))) with (T "[" ++ intersperse (T ",") (print a :: map print l) ++ T "]").
      rewrite <- !app_assoc. cst.
      rewrite (lex_joined (T ",") Comma _ ta _ tss); auto; [cst; fin|now apply good_lexes|now apply good_lexes_all|reflexivity].
    - intros r b r' Tr. rewrite <- !app_assoc. eapply p_primary; [|exact Tr].
      eapply a_list.
      + apply g_expr; [exact Ga|]. destruct tss; exact I.
      + apply (more_elements RBr [RBr] l tss r [tree a]); auto. cbn; auto.
  Qed.
  Lemma good_set l tss : Forall2 good l tss -> length l <> 0 -> exists ts, good (POp OSet l) ts.
  Proof.
    intros F L. destruct F as [|a ta l tss Ga F]; [cbn in L; lia|].
    exists (LBrace :: (ta ++ seps Comma tss) ++ [RBrace]).
    destruct sep_comma as [Rc Sc].
    apply mk_good; [reflexivity| |eexists _, _; split; reflexivity|exact I|].
    - intros rest A.
      change (print (POp OSet (a :: l))) with (T "{" ++ intersperse (T ",") (print a :: map print l) ++ T "}").
      rewrite <- !app_assoc. cst.
      rewrite (lex_joined (T ",") Comma _ ta _ tss); auto; [cst; fin|now apply good_lexes|now apply good_lexes_all|reflexivity].
    - intros r b r' Tr. rewrite <- !app_assoc. eapply p_primary; [|exact Tr].
      eapply a_set.
      + apply g_expr; [exact Ga|]. destruct tss; exact I.
      + apply (more_elements RBrace [RBrace] l tss r [tree a]); auto. cbn; auto.
  Qed.
  Fixpoint pair_toks (tss : list (list token)) : list (list token) :=
    match tss with a :: b :: r => (a ++ Colon :: b) :: pair_toks r | _ => [] end.
  Lemma two_ind {A} (Q : list A -> Prop) : Q [] -> (forall a, Q [a]) -> (forall a b l, Q l -> Q (a :: b :: l)) -> forall l, Q l.
  Proof.
    intros H0 H1 H2. fix IH 1. intros [|a [|b l]]; [exact H0|apply H1|apply H2, IH].
  Qed.
  Lemma lex_pair a b ta tb : good a ta -> good b tb -> lexes (print a ++ T ":" ++ print b) (ta ++ Colon :: tb).
  Proof.
    intros Ga Gb rest A. rewrite <- !app_assoc. rewrite (good_lexes a ta Ga) by reflexivity.
    rewrite (good_op b tb (T ":") [] 58 Colon); auto; [|cbn; auto].
    rewrite (good_lexes b tb Gb) by exact A. fin.
  Qed.
  Lemma lex_pairs l : forall tss, Forall2 good l tss -> Forall2 lexes (pairs (T ":") (map print l)) (pair_toks tss).
  Proof.
    induction l as [|a|a b l IH] using two_ind; intros tss F.
    - inversion F; constructor.
    - inversion F as [|? ? ? ? G F1]; subst. inversion F1; subst. constructor.
    - inversion F as [|? ta ? ? Ga F1]; subst. inversion F1 as [|? tb ? ? Gb F2]; subst.
      cbn [map pairs pair_toks]. constructor; [now apply lex_pair|now apply IH].
  Qed.
  Lemma more_dict l : forall tss r acc, Forall2 good l tss -> Nat.even (length l) = true ->
    PPairs acc (seps Comma (pair_toks tss) ++ RBrace :: r) (acc ++ two_by_two (map tree l)) r.
  Proof.
    induction l as [|a|a b l IH] using two_ind; intros tss r acc F E.
    - inversion F; subst. cbn [map two_by_two]. rewrite app_nil_r. apply mp_end.
    - discriminate E.
    - inversion F as [|? ta ? ? Ga F1]; subst. inversion F1 as [|? tb ? ? Gb F2]; subst.
      cbn [map two_by_two pair_toks]. rewrite seps_cons, <- app_comm_cons, <- !app_assoc.
      eapply mp_more; [apply g_expr; [exact Ga|exact I]| |].
      + apply g_expr; [exact Gb|]. destruct (pair_toks l'0); exact I.
      + replace (acc ++ (tree a, tree b) :: two_by_two (map tree l))
          with ((acc ++ [(tree a, tree b)]) ++ two_by_two (map tree l)) by now rewrite <- app_assoc.
        apply IH; auto.
  Qed.
  Lemma good_dict l tss : Forall2 good l tss -> Nat.even (length l) = true -> exists ts, good (POp ODict l) ts.
  Proof.
    intros F E. destruct F as [|a ta l tss Ga F].
    { exists [LBrace; RBrace]. apply mk_good; [reflexivity| |eexists _, _; split; reflexivity|exact I|].
      - intros rest A. change (print (POp ODict [])) with (T "{}"). now cst.
      - intros r b r' Tr. eapply p_primary; [apply a_dict0|exact Tr]. }
    destruct F as [|b tb l tss Gb F]; [discriminate E|].
    exists (LBrace :: ((ta ++ Colon :: tb) ++ seps Comma (pair_toks tss)) ++ [RBrace]).
    destruct sep_comma as [Rc Sc].
    apply mk_good; [reflexivity| |eexists _, _; split; reflexivity|exact I|].
    - intros rest A.
      change (print (POp ODict (a :: b :: l))) with
        (T "{" ++ intersperse (T ",") ((print a ++ T ":" ++ print b) :: pairs (T ":") (map print l)) ++ T "}").
      rewrite <- !app_assoc. cst.
      rewrite (lex_joined (T ",") Comma _ (ta ++ Colon :: tb) _ (pair_toks tss)); auto;
        [cst; fin|now apply lex_pair|now apply lex_pairs|reflexivity].
    - intros r x r' Tr. rewrite <- !app_assoc. eapply p_primary; [|exact Tr].
      eapply a_dict.
      + apply g_expr; [exact Ga|exact I].
      + apply g_expr; [exact Gb|]. destruct (pair_toks tss); exact I.
      + apply (more_dict l tss r [(tree a, tree b)]); auto.
  Qed.

  (** *** labels *)
  Lemma lex_label n rest dot : forallb label_char (label n) = true -> after dot rest ->
    lex Start ([39%N] ++ label n ++ [39%N] ++ rest) = prepend [TStr (label n)] (lex Start rest).
  Proof.
    intros L A. apply (lex_quoted 39 (label n) (label n) rest dot); [cbn; auto| |exact A].
    apply (run_plain 39 [] (label n)). exact L.
  Qed.
  Lemma p_str s r : stops 0 r -> P 0 (TStr s :: r) (AStr s) r.
  Proof.
    intros St. apply (descends 13); try lia; try exact I; [|exact St].
    eapply p_primary; [apply a_str|]. apply stops_trailers. apply (stops_le 0); [lia|exact St].
  Qed.
  Lemma good_add n e te : forallb label_char (label n) = true -> good e te -> exists ts, good (PAdd n e) ts.
  Proof.
    intros L G. exists (TName (T "add_label_") :: LPar :: TStr (label n) :: Comma :: te ++ [RPar]).
    apply mk_good; [reflexivity| |eexists _, _; split; reflexivity|exact I|].
    - intros rest A.
      change (print (PAdd n e)) with
        ((T "add_label_(" ++ [39%N]) ++ label n ++ ([39%N] ++ T ", ") ++ print e ++ T ")").
      rewrite <- !app_assoc. cst. rewrite (lex_label n _ true L) by reflexivity. cst.
      rewrite (good_lexes e te G) by reflexivity. cst. fin.
    - intros r b r' Tr. cbn [app]. rewrite <- app_assoc. eapply p_primary; [apply a_name|].
      eapply t_call; [|exact Tr].
      eapply (c_pos []); [exact I|apply p_str; exact I|].
      apply (c_pos_last [AStr (label n)]); [apply G; exact I|apply g_expr; [exact G|exact I]].
  Qed.
  Lemma good_get n : forallb label_char (label n) = true -> exists ts, good (PGet n) ts.
  Proof.
    intros L. exists (TName (T "get_by_label_") :: LPar :: [TStr (label n)] ++ [RPar]).
    apply mk_good; [reflexivity| |eexists _, _; split; reflexivity|exact I|].
    - intros rest A.
      change (print (PGet n)) with ((T "get_by_label_(" ++ [39%N]) ++ label n ++ ([39%N] ++ T ")")).
      rewrite <- !app_assoc. cst. rewrite (lex_label n _ true L) by reflexivity. cst. fin.
    - intros r b r' Tr. cbn [app]. eapply p_primary; [apply a_name|].
      eapply t_call; [|exact Tr]. apply (c_pos_last []); [exact I|apply p_str; exact I].
  Qed.

  (** *** comprehensions *)
  Definition if_toks (co : option (list token)) : list token :=
    match co with Some tc => KIf :: tc | None => [] end.
  Definition for_toks (x : text) (tit : list token) (co : option (list token)) : list token :=
    KFor :: TName x :: KIn :: tit ++ if_toks co.
  Definition for_text (x : text) (it : px) (co : option px) : text :=
    T " for " ++ x ++ T " in " ++ print it ++ match co with Some c => T " if " ++ print c | None => [] end.
  Definition good_opt (co : option px) (tc : option (list token)) : Prop :=
    match co, tc with Some c, Some t => good c t | None, None => True | _, _ => False end.
  Definition tree_opt (co : option px) : option ast := match co with Some c => Some (tree c) | None => None end.
  Lemma lex_for x it co tit tc : ident x = true -> good it tit -> good_opt co tc ->
    lexes (for_text x it co) (for_toks x tit tc).
  Proof.
    intros Ix Gi Gc rest A. unfold for_text, for_toks. rewrite <- !app_assoc. cst.
    rewrite (lex_ident x _ false Ix) by reflexivity. cst.
    destruct co as [c|], tc as [tc|]; try contradiction; cbn [good_opt if_toks] in *.
    - rewrite <- app_assoc. rewrite (good_lexes it tit Gi) by reflexivity. cst.
      rewrite (good_lexes c tc Gc) by exact A. fin.
    - cbn [app]. rewrite (good_lexes it tit Gi) by exact A. fin.
  Qed.
  Lemma p_for x it co tit tc cl r : good it tit -> good_opt co tc -> opens cl = false ->
    PFor (for_toks x tit tc ++ cl :: r) x (tree it) (tree_opt co) (cl :: r).
  Proof.
    intros Gi Gc C. unfold for_toks. cbn [app]. rewrite <- app_assoc.
    destruct co as [c|], tc as [tc|]; try contradiction; cbn [good_opt if_toks tree_opt] in *.
    - eapply f_for_if; [apply Gi; [lia|cbn; lia]|]. apply Gc; [lia|]. now apply stops_closing.
    - apply f_for; [apply Gi; [lia|now apply stops_closing]|]. destruct cl; try discriminate C; exact I.
  Qed.
  Lemma print_cond (co : option px) :
    match (match co with Some c => Some (print c) | None => None end) with Some c => T " if " ++ c | None => [] end
    = match co with Some c => T " if " ++ print c | None => [] end.
  Proof. destruct co; reflexivity. Qed.

  Lemma good_comp k elts x it co tss tit tc :
    wf_comp k (length elts) = true -> ident x = true -> Forall2 good elts tss -> good it tit -> good_opt co tc ->
    exists ts, good (PComp k elts x it co) ts.
  Proof.
    intros W Ix F Gi Gc.
    assert (Lf := lex_for x it co tit tc Ix Gi Gc).
    assert (Pf : forall cl r, opens cl = false -> PFor (for_toks x tit tc ++ cl :: r) x (tree it) (tree_opt co) (cl :: r))
      by (intros; now apply p_for).
    assert (Cp : print (PComp k elts x it co) = comp_text k (map print elts) x (print it)
               (match co with Some c => Some (print c) | None => None end)) by reflexivity.
    assert (Ct : tree (PComp k elts x it co) = comp_tree k (map tree elts) x (tree it) (tree_opt co)) by reflexivity.
    assert (Af : forall r, after false (for_text x it co ++ r)) by (intros; reflexivity).
    assert (Fk : forall cl r, exists q, for_toks x tit tc ++ cl :: r = KFor :: q) by (intros; eexists; reflexivity).
    destruct k; cbn [wf_comp] in W; apply Nat.eqb_eq in W.
    - (* list *)
      destruct elts as [|e [|? ?]]; try discriminate W. inversion F as [|? te ? ? Ge F1]; subst. inversion F1; subst.
      exists (LBr :: (te ++ for_toks x tit tc) ++ [RBr]).
      assert (Pe : print (PComp KList [e] x it co) = T "[" ++ print e ++ for_text x it co ++ T "]").
      { rewrite Cp. cbn [comp_text map]. unfold nth_t, for_text. cbn [nth]. rewrite print_cond, <- !app_assoc. reflexivity. }
      apply mk_good; [reflexivity| |rewrite Pe; eexists _, _; split; reflexivity|exact I|].
      + intros rest A. rewrite Pe, <- !app_assoc. cst. rewrite (good_lexes e te Ge) by apply Af.
        rewrite Lf by reflexivity. cst. fin.
      + intros r b r' Tr. rewrite Ct in Tr. rewrite <- !app_assoc. cbn [app]. eapply p_primary; [|exact Tr].
        destruct (Fk RBr r) as [q E]. rewrite E.
        eapply a_listcomp; [apply g_expr; [exact Ge|exact I]|rewrite <- E; now apply Pf].
    - (* tuple *)
      destruct elts as [|e [|? ?]]; try discriminate W. inversion F as [|? te ? ? Ge F1]; subst. inversion F1; subst.
      exists (TName (T "tuple") :: LPar :: (te ++ for_toks x tit tc) ++ [RPar]).
      assert (Pe : print (PComp KTuple [e] x it co) = T "tuple(" ++ print e ++ for_text x it co ++ T ")").
      { rewrite Cp. cbn [comp_text map]. unfold nth_t, for_text. cbn [nth]. rewrite print_cond, <- !app_assoc. reflexivity. }
      apply mk_good; [reflexivity| |rewrite Pe; eexists _, _; split; reflexivity|exact I|].
      + intros rest A. rewrite Pe, <- !app_assoc. cst. rewrite (good_lexes e te Ge) by apply Af.
        rewrite Lf by reflexivity. cst. fin.
      + intros r b r' Tr. rewrite Ct in Tr. cbn [app]. rewrite <- !app_assoc. cbn [app].
        eapply p_primary; [apply a_name|]. eapply t_call; [|exact Tr].
        destruct (Fk RPar r) as [q E]. rewrite E.
        eapply c_gen; [apply Ge; exact I|apply g_expr; [exact Ge|exact I]|rewrite <- E; now apply Pf].
    - (* set *)
      destruct elts as [|e [|? ?]]; try discriminate W. inversion F as [|? te ? ? Ge F1]; subst. inversion F1; subst.
      exists (LBrace :: (te ++ for_toks x tit tc) ++ [RBrace]).
      assert (Pe : print (PComp KSet [e] x it co) = T "{" ++ print e ++ for_text x it co ++ T "}").
      { rewrite Cp. cbn [comp_text map]. unfold nth_t, for_text. cbn [nth]. rewrite print_cond, <- !app_assoc. reflexivity. }
      apply mk_good; [reflexivity| |rewrite Pe; eexists _, _; split; reflexivity|exact I|].
      + intros rest A. rewrite Pe, <- !app_assoc. cst. rewrite (good_lexes e te Ge) by apply Af.
        rewrite Lf by reflexivity. cst. fin.
      + intros r b r' Tr. rewrite Ct in Tr. rewrite <- !app_assoc. cbn [app]. eapply p_primary; [|exact Tr].
        destruct (Fk RBrace r) as [q E]. rewrite E.
        eapply a_setcomp; [apply g_expr; [exact Ge|exact I]|rewrite <- E; now apply Pf].
    - (* dict *)
      destruct elts as [|e [|v [|? ?]]]; try discriminate W.
      inversion F as [|? te ? ? Ge F1]; subst. inversion F1 as [|? tv ? ? Gv F2]; subst. inversion F2; subst.
      exists (LBrace :: (te ++ Colon :: tv ++ for_toks x tit tc) ++ [RBrace]).
      assert (Pe : print (PComp KDict [e; v] x it co) = T "{" ++ print e ++ T ": " ++ print v ++ for_text x it co ++ T "}").
      { rewrite Cp. cbn [comp_text map]. unfold nth_t, for_text. cbn [nth]. rewrite print_cond, <- !app_assoc. reflexivity. }
      apply mk_good; [reflexivity| |rewrite Pe; eexists _, _; split; reflexivity|exact I|].
      + intros rest A. rewrite Pe, <- !app_assoc. cst. rewrite (good_lexes e te Ge) by reflexivity. cst.
        rewrite (good_lexes v tv Gv) by apply Af. rewrite Lf by reflexivity. cst. fin.
      + intros r b r' Tr. rewrite Ct in Tr. rewrite <- app_assoc. cbn [app]. rewrite <- app_assoc. cbn [app].
        rewrite <- app_assoc. cbn [app].
        eapply p_primary; [|exact Tr]. destruct (Fk RBrace r) as [q E]. rewrite E.
        eapply a_dictcomp; [apply g_expr; [exact Ge|exact I]|apply g_expr; [exact Gv|exact I]|rewrite <- E; now apply Pf].
    - (* source of sorted *)
      destruct elts as [|e [|? ?]]; try discriminate W. inversion F as [|? te ? ? Ge F1]; subst. inversion F1; subst.
      exists (LPar :: (te ++ for_toks x tit tc) ++ [RPar]).
      assert (Pe : print (PComp KSrc [e] x it co) = T "(" ++ print e ++ for_text x it co ++ T ")").
      { rewrite Cp. cbn [comp_text map]. unfold nth_t, for_text. cbn [nth]. rewrite print_cond, <- !app_assoc. reflexivity. }
      apply mk_good; [reflexivity| |rewrite Pe; eexists _, _; split; reflexivity|exact I|].
      + intros rest A. rewrite Pe, <- !app_assoc. cst. rewrite (good_lexes e te Ge) by apply Af.
        rewrite Lf by reflexivity. cst. fin.
      + intros r b r' Tr. rewrite Ct in Tr. rewrite <- !app_assoc. cbn [app]. eapply p_primary; [|exact Tr].
        destruct (Fk RPar r) as [q E]. rewrite E.
        eapply a_gen; [apply g_expr; [exact Ge|exact I]|rewrite <- E; now apply Pf].
    - (* pairs *)
      destruct elts as [|e [|v [|? ?]]]; try discriminate W.
      inversion F as [|? te ? ? Ge F1]; subst. inversion F1 as [|? tv ? ? Gv F2]; subst. inversion F2; subst.
      exists (LPar :: (LPar :: te ++ Comma :: tv ++ RPar :: for_toks x tit tc) ++ [RPar]).
      assert (Pe : print (PComp KSrcPair [e; v] x it co) =
                   T "((" ++ print e ++ T ", " ++ print v ++ T ")" ++ for_text x it co ++ T ")").
      { rewrite Cp. cbn [comp_text map]. unfold nth_t, for_text. cbn [nth]. rewrite print_cond, <- !app_assoc. reflexivity. }
      apply mk_good; [reflexivity| |rewrite Pe; eexists _, _; split; reflexivity|exact I|].
      + intros rest A. rewrite Pe, <- !app_assoc. cst. rewrite (good_lexes e te Ge) by reflexivity. cst.
        rewrite (good_lexes v tv Gv) by reflexivity. cst. rewrite Lf by reflexivity. cst. fin.
      + intros r b r' Tr. rewrite Ct in Tr.
        match goal with |- P 13 ?t _ _ =>
          replace t with (LPar :: LPar :: te ++ Comma :: tv ++ RPar :: for_toks x tit tc ++ RPar :: r)
            by (repeat (rewrite <- app_assoc || rewrite <- app_comm_cons); reflexivity) end.
        eapply p_primary; [|exact Tr]. destruct (Fk RPar r) as [q E]. rewrite E.
        eapply a_gen; [|rewrite <- E; now apply Pf].
        apply (descends 13); try lia; try exact I; try exact Logic.I.
        eapply p_primary; [|apply stops_trailers; exact I].
        change (ATuple (map tree [e; v])) with (ATuple ([tree e] ++ [tree v])).
        eapply a_tuple; [apply g_expr; [exact Ge|exact I]|].
        eapply m_more; [apply g_expr; [exact Gv|exact I]|]. apply m_end. cbn; auto.
  Qed.

  (** *** calls of helper functions *)
  Lemma good_helper e f l tss : is_int e = false -> print e = f ++ T "(" ++ intersperse (T ",") (map print l) ++ T ")" ->
    tree e = ACall (AName f) (map tree l) [] -> ident f = true -> Forall2 good l tss ->
    good e (TName f :: LPar :: arg_toks tss ++ [RPar]).
  Proof.
    intros I Pe Te If F. apply mk_good; [exact I| | |exact Logic.I|].
    - intros rest A. rewrite Pe, <- !app_assoc. rewrite (lex_ident f _ false If) by reflexivity.
      rewrite (lex_args _ tss) by now apply good_lexes_all. fin.
    - rewrite Pe. apply wordy_head. now apply ident_token.
    - intros r b r' Tr. cbn [app]. rewrite <- app_assoc. rewrite Te in Tr. now apply (name_call f l).
  Qed.
  Lemma good_items f k l ps ls tss : ident f = true -> Forall2 good l tss -> exists ts, good (PItems f k l ps ls) ts.
  Proof.
    intros If F. exists (TName (kind_text k) :: LPar :: (TName f :: LPar :: arg_toks tss ++ [RPar]) ++ [RPar]).
    assert (Ik : ident (kind_text k) = true) by (destruct k; reflexivity).
    assert (Pe : print (PItems f k l ps ls) =
                 kind_text k ++ T "(" ++ f ++ T "(" ++ intersperse (T ",") (map print l) ++ T ")" ++ T ")") by reflexivity.
    apply mk_good; [reflexivity| | |exact I|].
    - intros rest A. rewrite Pe, <- !app_assoc. rewrite (lex_ident _ _ false Ik) by reflexivity. cst.
      rewrite (lex_ident f _ false If) by reflexivity.
      rewrite (lex_args _ tss) by now apply good_lexes_all. cst. fin.
    - rewrite Pe. apply wordy_head. now apply ident_token.
    - intros r b r' Tr. cbn [app]. rewrite <- !app_assoc. cbn [app].
      apply p_call1 with (ts := TName f :: LPar :: arg_toks tss ++ [RPar]) (e := ACall (AName f) (map tree l) []) (r := r) in Tr.
      + cbn [app] in Tr. rewrite <- app_assoc in Tr. exact Tr.
      + intros q _. exact I.
      + intros q. apply (descends 13); try lia; try exact I. cbn [app]. rewrite <- app_assoc.
        apply (name_call f l); auto. apply stops_trailers. exact I.
  Qed.

  (** *** all code *)
  Lemma op_good o l tss : op_ok o l = true -> Forall2 good l tss -> exists ts, good (POp o l) ts.
  Proof.
    unfold op_ok. intros H F. apply andb_true_iff in H as [W O].
    destruct o; cbn [wf_op] in W; try apply Nat.eqb_eq in W.
    - destruct l as [|a [|b [|? ?]]]; try discriminate W.
      inversion F as [|? ta ? ? Ga F1]; subst. inversion F1 as [|? tb ? ? Gb F2]; subst.
      cbn [base_int] in O. apply negb_true_iff in O. eexists. exact (good_item a b ta tb Ga Gb O).
    - destruct l as [|a [|? ?]]; try discriminate W. inversion F as [|? ta ? ? Ga F1]; subst.
      apply andb_true_iff in O as [O1 O2]. cbn [base_int] in O2. apply negb_true_iff in O2. eexists. exact (good_attr a n ta Ga O2 O1).
    - destruct l as [|a [|b [|? ?]]]; try discriminate W.
      inversion F as [|? ta ? ? Ga F1]; subst. inversion F1 as [|? tb ? ? Gb F2]; subst. now apply (good_getattr a b ta tb).
    - destruct l as [|f l]; [discriminate W|]. inversion F as [|? tf ? tl Gf F1]; subst.
      apply andb_true_iff in O as [O O3]. apply andb_true_iff in O as [O1 O2].
      cbn [base_int] in O1. apply negb_true_iff in O1. cbn [length] in W.
      eexists. apply good_call; [exact Gf|exact O1|exact F1|lia|exact O2|exact O3].
    - now apply good_bin with tss.
    - destruct l as [|a [|? ?]]; try discriminate W. inversion F; subst. eexists. apply good_not. eassumption.
    - destruct l as [|a [|? ?]]; try discriminate W. inversion F; subst. eexists. apply good_neg. eassumption.
    - destruct l as [|a [|b [|c [|? ?]]]]; try discriminate W.
      inversion F as [|? ta ? ? Ga F1]; subst. inversion F1 as [|? tb ? ? Gb F2]; subst. inversion F2 as [|? tc ? ? Gc F3]; subst.
      now apply (good_slice a b c ta tb tc).
    - apply good_tuple with tss; auto. intros E. rewrite E in W. discriminate W.
    - now apply good_list with tss.
    - apply good_set with tss; auto. intros E. rewrite E in W. discriminate W.
    - now apply good_dict with tss.
    - destruct l as [|a [|b [|c [|? ?]]]]; try discriminate W.
      inversion F as [|? ta ? ? Ga F1]; subst. inversion F1 as [|? tb ? ? Gb F2]; subst. inversion F2 as [|? tc ? ? Gc F3]; subst.
      now apply (good_sorted_list a b c ta tb tc).
    - destruct l as [|a [|b [|c [|? ?]]]]; try discriminate W.
      inversion F as [|? ta ? ? Ga F1]; subst. inversion F1 as [|? tb ? ? Gb F2]; subst. inversion F2 as [|? tc ? ? Gc F3]; subst.
      apply (good_sorted_in "tuple" OSortedTuple a b c ta tb tc); auto.
    - destruct l as [|a [|b [|c [|? ?]]]]; try discriminate W.
      inversion F as [|? ta ? ? Ga F1]; subst. inversion F1 as [|? tb ? ? Gb F2]; subst. inversion F2 as [|? tc ? ? Gc F3]; subst.
      apply (good_sorted_in "OrderedDict" OSortedDict a b c ta tb tc); auto.
  Qed.
  Lemma readable_good e : readable e = true -> exists ts, good e ts.
  Proof.
    induction e as [x|l|g|o l H|i l H|l H|c t f Hc Ht Hf|a b Ha Hb|n e He|n|k l x it co Hl Hi Hc|f l b Hl Hb|f k l ps ls Hl|f l ps ss Hl]
      using px_ind'; intros R; cbn [Spec_Tree.readable] in R.
    - eexists. now apply good_name.
    - now apply good_lit.
    - eexists. now apply good_glob.
    - apply andb_true_iff in R as [R1 R2]. destruct (good_all l H R2) as [tss F]. now apply op_good with tss.
    - apply andb_true_iff in R as [R1 R2]. destruct (good_all l H R2) as [tss F].
      apply Nat.leb_le in R1. now apply good_bool with tss.
    - apply andb_true_iff in R as [R1 R2]. destruct (good_all l H R2) as [tss F].
      apply Nat.leb_le in R1. now apply good_eqs with tss.
    - apply andb_true_iff in R as [R R3]. apply andb_true_iff in R as [R1 R2].
      destruct (Hc R1) as [tc Gc], (Ht R2) as [tt Gt], (Hf R3) as [tf Gf]. eexists. apply good_if; eassumption.
    - apply andb_true_iff in R as [R1 R2]. destruct (Ha R1) as [ta Ga], (Hb R2) as [tb Gb]. now apply good_attach with ta tb.
    - apply andb_true_iff in R as [R1 R2]. destruct (He R2) as [te Ge]. now apply good_add with te.
    - now apply good_get.
    - apply andb_true_iff in R as [R R5]. apply andb_true_iff in R as [R R4]. apply andb_true_iff in R as [R R3].
      apply andb_true_iff in R as [R1 R2].
      destruct (good_all l Hl R3) as [tss F]. destruct (Hi R4) as [ti Gi].
      assert (C : exists tc, good_opt co tc).
      { destruct co as [c|]; [|exists None; exact I]. destruct (Hc R5) as [tc Gc]. exists (Some tc). exact Gc. }
      destruct C as [tc Gc]. now apply good_comp with tss ti tc.
    - apply andb_true_iff in R as [R R3]. apply andb_true_iff in R as [R1 R2].
      destruct (good_all l Hl R2) as [tss F]. eexists. now apply good_helper with (l := l) (tss := tss).
    - apply andb_true_iff in R as [R R3]. apply andb_true_iff in R as [R1 R2].
      destruct (good_all l Hl R2) as [tss F]. now apply good_items with tss.
    - apply andb_true_iff in R as [R R3]. apply andb_true_iff in R as [R1 R2].
      destruct (good_all l Hl R2) as [tss F]. eexists. now apply good_helper with (l := l) (tss := tss).
  Qed.
  Lemma good_reads e ts : good e ts -> reads (print e) (tree e).
  Proof.
    intros G. destruct (g_level _ _ G 0 [] ltac:(lia) I) as [n H]. exists ts, n. split.
    - unfold tokenize. rewrite <- (app_nil_r (print e)). rewrite (good_lexes e ts G) by exact I.
      cbn. now rewrite app_nil_r.
    - now rewrite app_nil_r in H.
  Qed.
  Theorem readable_reads e : readable e = true -> reads (print e) (tree e).
  Proof. intros R. destruct (readable_good e R) as [ts G]. exact (good_reads e ts G). Qed.
End Tree.
