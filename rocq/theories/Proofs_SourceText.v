(** The texts of helper functions and converters read as the functions they should define. *)
From Coq Require Import String Ascii List NArith ZArith Bool Arith Lia.
From Verif Require Import Model_Code Model_Eval Model_Converter Model_Source Spec_Frag
  Spec_Syntax Spec_Tree Spec_Source Spec_Module Proofs_Code Proofs_Lex Proofs_Grammar Proofs_Tree Proofs_Meaning Proofs_Sourced.
Import ListNotations.

(** *** no line breaks in expressions *)
Definition flat (t : text) : bool := forallb (fun c => negb (N.eqb c 10)) t.
Lemma flat_app a b : flat (a ++ b) = flat a && flat b.
Proof. apply forallb_app. Qed.
Definition sane (s : lstate) : bool :=
  match s with InStr q _ | Esc q _ | Hex q _ _ _ | EmptyStr q => is_quote q | _ => true end.
Lemma first_10 : first 10 = None. Proof. reflexivity. Qed.
Lemma step_10 s : sane s = true -> step s 10 = None.
Proof.
  destruct s as [|acc|n z|c|c d|q acc|q acc|q acc k v|q]; cbn [step sane]; intros H; try reflexivity.
  - destruct (op_pair c 10) eqn:E.
    + exfalso. unfold op_pair in E. apply existsb_exists in E as ([a b] & I & E). apply andb_true_iff in E as [_ E].
      apply N.eqb_eq in E. cbn [snd] in E. subst b. cbn [In] in I. repeat (destruct I as [I|I]; [discriminate I|]). exact I.
    + destruct ((c =? 46)%N && is_digit 10); [reflexivity|]. unfold emit. destruct (op_token c); reflexivity.
  - destruct (op_triple c d 10); [reflexivity|]. unfold emit. destruct (op2_token c d); reflexivity.
  - destruct (10 =? q)%N eqn:E; [|reflexivity]. apply N.eqb_eq in E as <-. discriminate H.
  - destruct (10 =? q)%N eqn:E; reflexivity.
Qed.
Lemma first_sane c l s : first c = Some (l, s) -> sane s = true.
Proof.
  unfold first. destruct (c =? 32)%N; [intros H; inversion H; reflexivity|].
  destruct (is_alpha c); [intros H; inversion H; reflexivity|].
  destruct (is_digit c); [intros H; inversion H; reflexivity|].
  destruct (is_quote c) eqn:E; [intros H; inversion H; subst; exact E|].
  destruct (bracket c); [intros H; inversion H; reflexivity|].
  destruct (op_char c); [intros H; inversion H; reflexivity|discriminate].
Qed.
Lemma emit_sane t c l s : emit t c = Some (l, s) -> sane s = true.
Proof.
  unfold emit. destruct t; [|discriminate]. destruct (first c) as [[l0 s0]|] eqn:E; [|discriminate].
  intros H. inversion H; subst. eapply first_sane; eassumption.
Qed.
Lemma step_sane s c l s' : sane s = true -> step s c = Some (l, s') -> sane s' = true.
Proof.
  destruct s as [|acc|n z|c0|c0 d|q acc|q acc|q acc k v|q]; cbn [step sane]; intros Q H.
  - eapply first_sane; eassumption.
  - destruct (is_ident c); [inversion H; reflexivity|]. destruct (is_quote c); [discriminate|]. eapply emit_sane; eassumption.
  - destruct (is_digit c); [destruct z; [discriminate|inversion H; reflexivity]|].
    destruct (_ || _); [discriminate|]. eapply emit_sane; eassumption.
  - destruct (op_pair c0 c); [inversion H; reflexivity|]. destruct (_ && _); [discriminate|]. eapply emit_sane; eassumption.
  - destruct (op_triple c0 d c); [discriminate|]. eapply emit_sane; eassumption.
  - destruct (c =? q)%N; [destruct acc; inversion H; subst; auto|].
    destruct (c =? 92)%N; [inversion H; subst; auto|]. destruct (_ || _); [discriminate|]. inversion H; subst; auto.
  - unfold escape in H. repeat match type of H with (if ?b then _ else _) = _ => destruct b end; inversion H; subst; auto.
  - destruct (hex_value c); [|discriminate]. destruct k as [|[|k]]; [discriminate| |inversion H; subst; auto].
    destruct (_ <=? _)%N; inversion H; subst; auto.
  - destruct (c =? q)%N; [discriminate|]. eapply emit_sane; eassumption.
Qed.
Lemma lex_flat t : forall s ts, sane s = true -> lex s t = Some ts -> flat t = true.
Proof.
  induction t as [|c t IH]; intros s ts Q H; [reflexivity|]. cbn [lex] in H. cbn [flat forallb].
  destruct (N.eqb c 10) eqn:E.
  - apply N.eqb_eq in E as ->. rewrite step_10 in H by exact Q. discriminate.
  - cbn [negb andb]. destruct (step s c) as [[l s']|] eqn:E2; [|discriminate].
    destruct (lex s' t) as [ts'|] eqn:E3; [|discriminate]. eapply IH; [eapply step_sane; eassumption|eassumption].
Qed.
Lemma reads_flat t a : reads t a -> flat t = true.
Proof. intros (ts & n & L & _). eapply lex_flat; [|exact L]. reflexivity. Qed.
Lemma ident_char x : ident x = true -> forallb is_ident x = true.
Proof.
  unfold ident. destruct x as [|c x]; [discriminate|]. intros H. apply andb_true_iff in H as [H _].
  apply andb_true_iff in H as [H1 H2]. cbn [forallb]. unfold is_ident at 1. rewrite H1. exact H2.
Qed.
Lemma ident_flat x : ident x = true -> flat x = true.
Proof.
  intros H. apply ident_char in H. unfold flat. rewrite forallb_forall in *. intros c I. specialize (H c I).
  destruct (N.eqb c 10) eqn:E; [|reflexivity]. apply N.eqb_eq in E as ->. discriminate H.
Qed.

(** *** lines *)
Lemma lines_line a t : flat a = true -> lines (a ++ nl ++ t) = a :: lines t.
Proof.
  induction a as [|c a IH]; intros F; [reflexivity|]. cbn [flat forallb] in F. apply andb_true_iff in F as [F1 F2].
  apply negb_true_iff in F1. cbn [app lines]. rewrite F1. unfold nl in *. cbn [app] in *. rewrite IH by exact F2. reflexivity.
Qed.
Lemma lines_last a : flat a = true -> lines a = [a].
Proof.
  induction a as [|c a IH]; intros F; [reflexivity|]. cbn [flat forallb] in F. apply andb_true_iff in F as [F1 F2].
  apply negb_true_iff in F1. cbn [lines]. rewrite F1. rewrite IH by exact F2. reflexivity.
Qed.
Lemma lines_join a ls t : forallb flat (a :: ls) = true -> lines (intersperse nl (a :: ls) ++ nl ++ t) = a :: ls ++ lines t.
Proof.
  revert a; induction ls as [|b ls IH]; intros a F; cbn [forallb] in F; apply andb_true_iff in F as [F1 F2].
  - cbn [intersperse app]. now apply lines_line.
  - change (intersperse nl (a :: b :: ls)) with (a ++ nl ++ intersperse nl (b :: ls)).
    rewrite <- !app_assoc. rewrite lines_line by exact F1. f_equal. apply IH. exact F2.
Qed.

Lemma indented_T k s t : forallb (N.eqb 32) s = true -> length s = 4 * k ->
  match t with c :: _ => c <> 32%N | [] => False end -> indented k (s ++ t) t.
Proof.
  intros F L H. split; [|exact H]. f_equal. rewrite <- L. clear L H. induction s as [|c s IH]; [reflexivity|].
  cbn [forallb] in F. apply andb_true_iff in F as [F1 F2]. apply N.eqb_eq in F1 as <-. cbn. f_equal. auto.
Qed.
Lemma ident_head x t : ident x = true -> match x ++ t with c :: _ => c <> 32%N | [] => False end.
Proof.
  destruct x as [|c x]; [discriminate|]. intros H. apply ident_char in H. cbn [forallb app] in *.
  apply andb_true_iff in H as [H _]. intros ->. discriminate H.
Qed.

Section Text.
  Variable printable : N -> bool.
  Variable gname : nat -> text.
  Variable pnum : list nat -> nat.
  Hypothesis PO : printable_ok printable.
  Notation srepr := (py_repr printable).
  Notation print := (print srepr gname pnum).
  Notation tree := (tree gname pnum).
  Notation readable := (readable gname pnum).
  Notation good := (good printable gname pnum).
  Notation helper_text := (helper_text srepr gname pnum).
  Notation hfunc := (hfunc gname pnum).

  Lemma print_flat e : readable e = true -> flat (print e) = true.
  Proof. intros H. eapply reads_flat. apply readable_reads; auto. Qed.

  (** the first character of an expression is no space *)
  Definition black (t : text) : Prop := match t with c :: _ => c <> 32%N | [] => False end.
  Lemma black_app a b : black a -> black (a ++ b).
  Proof. destruct a; [intros []|auto]. Qed.
  Lemma black_ident x t : ident x = true -> black (x ++ t).
  Proof. apply ident_head. Qed.
  Lemma digits_black f n : 0 < f -> black (digits f n).
  Proof.
    intros F. destruct (digits_head f n F) as (c & r & -> & D). cbn. intros ->. discriminate D.
  Qed.
  Lemma print_black e : readable e = true -> black (print e).
  Proof.
    induction e using px_ind2; intros R; cbn [Spec_Tree.readable] in R; ands; cbn [Model_Code.print].
    - rewrite <- (app_nil_r x). now apply black_ident.
    - destruct l as [|[]|z|s]; cbn [lit_text]; try discriminate.
      + destruct z as [|p|p]; cbn [zrepr]; try discriminate; unfold ndec; apply digits_black; lia.
      + unfold py_repr. destruct (_ && _); discriminate.
    - rewrite <- (app_nil_r (gname g)). now apply black_ident.
    - unfold op_ok in H0. ands.
      assert (HB : match o with OItem | OAttr _ | OCall _ _ => black (nth_t (map print l) 0) | _ => True end).
      { destruct l as [|a l]; [destruct o; try exact I; discriminate|].
        inversion H; subst. cbn [forallb] in *. ands. destruct o; try exact I; unfold nth_t; cbn [map nth]; auto. }
      destruct o; cbn [op_text]; try discriminate; now apply black_app.
    - discriminate.
    - discriminate.
    - discriminate.
    - discriminate.
    - discriminate.
    - discriminate.
    - destruct k; discriminate.
    - now apply black_ident.
    - destruct k; discriminate.
    - now apply black_ident.
  Qed.

  (** *** statements *)
  Ltac cst := match goal with |- context [lex Start (T ?s ++ ?rest)] =>
    let x := eval vm_compute in (run Start (T s)) in
    match x with Some (?ts, Start) => rewrite (lex_const (T s) ts rest) by reflexivity end end.

  Lemma good_data : good (PName (T "data_")) [TName (T "data_")].
  Proof. apply good_name; auto. Qed.
  Lemma call_reads s l tss t :
    Forall2 good l tss -> ident (T s) = true ->
    (forall rest, after false rest -> lex Start (t ++ rest) = prepend (TName (T s) :: LPar :: arg_toks tss ++ [RPar]) (lex Start rest)) ->
    reads t (call s (map tree l)).
  Proof.
    intros F I L.
    assert (H : Proofs_Grammar.P 0 (TName (T s) :: LPar :: arg_toks tss ++ [RPar]) (call s (map tree l)) []).
    { apply (descends 13); try lia; try exact Logic.I. eapply name_call; [exact F|]. apply stops_trailers. exact Logic.I. }
    destruct H as [n H]. exists (TName (T s) :: LPar :: arg_toks tss ++ [RPar]), n. split; [|exact H].
    unfold tokenize. rewrite <- (app_nil_r t), L by exact Logic.I. cbn. now rewrite app_nil_r.
  Qed.

  Lemma setattr_reads a b : readable a = true -> readable b = true ->
    reads (T "setattr(data_, " ++ print a ++ T ", " ++ print b ++ T ")") (call "setattr" [dat; tree a; tree b]).
  Proof.
    intros Ra Rb. destruct (readable_good printable gname pnum PO a Ra) as [ta Ga], (readable_good printable gname pnum PO b Rb) as [tb Gb].
    apply (call_reads "setattr" [PName (T "data_"); a; b] [[TName (T "data_")]; ta; tb]).
    - auto using good_data.
    - reflexivity.
    - intros rest A. rewrite <- !app_assoc. cst. rewrite (good_lexes printable gname pnum a ta Ga) by reflexivity. cst.
      rewrite (good_lexes printable gname pnum b tb Gb) by reflexivity. cst.
      rewrite !prepend_app. f_equal. cbn [arg_toks seps flat_map app]. rewrite app_nil_r, <- ?app_assoc. reflexivity.
  Qed.
  Lemma delattr_reads a : readable a = true ->
    reads (T "delattr(data_, " ++ print a ++ T ")") (call "delattr" [dat; tree a]).
  Proof.
    intros Ra. destruct (readable_good printable gname pnum PO a Ra) as [ta Ga].
    apply (call_reads "delattr" [PName (T "data_"); a] [[TName (T "data_")]; ta]).
    - auto using good_data.
    - reflexivity.
    - intros rest A. rewrite <- !app_assoc. cst. rewrite (good_lexes printable gname pnum a ta Ga) by reflexivity. cst.
      rewrite !prepend_app. f_equal. cbn [arg_toks seps flat_map app]. rewrite app_nil_r, <- ?app_assoc. reflexivity.
  Qed.
  Lemma pop_reads a : readable a = true ->
    reads (T "data_.pop(" ++ print a ++ T ")") (ACall (AAttr dat (T "pop")) [tree a] []).
  Proof.
    intros Ra. pose (e := POp (OCall 1 []) [POp (OAttr (T "pop")) [PName (T "data_")]; a]).
    assert (R : readable e = true) by (cbn; rewrite Ra; reflexivity).
    pose proof (readable_reads printable gname pnum PO e R) as H. cbn in H. exact H.
  Qed.
  Lemma setitem_reads a : readable a = true -> reads (T "data_[" ++ print a ++ T "]") (ASub dat (tree a)).
  Proof.
    intros Ra. pose (e := POp OItem [PName (T "data_"); a]).
    assert (R : readable e = true) by (cbn; rewrite Ra; reflexivity).
    pose proof (readable_reads printable gname pnum PO e R) as H. cbn in H. exact H.
  Qed.

  (** *** helper functions *)
  Definition hfine (h : helper) : Prop :=
    match h with
    | HDefault _ b => readable b = true
    | HItems ps ls =>
        ls <> [] /\ Forall (fun x => ident x = true) (T "data_" :: ps) /\ NoDup (T "data_" :: ps) /\
        Forall (fun l => match fst l with Some c => readable c = true | None => True end /\ readable (snd l) = true) ls
    | HTap ps ss =>
        Forall (fun x => ident x = true) (T "data_" :: ps) /\ NoDup (T "data_" :: ps) /\
        Forall (fun s => stmt_ok s = true /\ forallb readable (snd s) = true) ss
    end.

  Lemma join_flat l : forallb flat l = true -> flat (intersperse (T ", ") l) = true.
  Proof.
    destruct l as [|a l]; [reflexivity|]. cbn [forallb]. intros H. ands. rewrite intersperse_cons, flat_app, H. cbn [andb].
    induction l as [|b l IH]; [reflexivity|]. cbn [forallb flat_map] in *. ands. rewrite !flat_app, H0, IH by assumption. reflexivity.
  Qed.
  Lemma def_flat f ps : ident f = true -> forallb flat ps = true -> flat (def_line f ps) = true.
  Proof. intros I F. unfold def_line. rewrite !flat_app, (ident_flat f I), join_flat by exact F. reflexivity. Qed.
  Lemma idents_flat ps : Forall (fun x => ident x = true) ps -> forallb flat ps = true.
  Proof. intros H. apply forallb_forall. rewrite Forall_forall in H. intros x I. apply ident_flat; auto. Qed.

  Lemma global_block k ls b : k = 1 -> block k ls b -> block k (global_line :: ls) (glob2 :: b).
  Proof.
    intros -> H. eapply b_simple with (t := T "global add_label_, get_by_label_"); [split; [reflexivity|discriminate]| |exact H].
    apply (s_global [T "add_label_"; T "get_by_label_"]); [repeat constructor|discriminate].
  Qed.
  Lemma return_block k s e a ls b : forallb (N.eqb 32) s = true -> length s = 4 * k -> reads e a ->
    block k ls b -> block k ((s ++ T "return " ++ e) :: ls) (SReturn a :: b).
  Proof.
    intros F L R B. eapply b_simple; [apply indented_T; [exact F|exact L|discriminate]|now constructor|exact B].
  Qed.
  Lemma yield_block k s e a ls b : forallb (N.eqb 32) s = true -> length s = 4 * k -> reads e a ->
    block k ls b -> block k ((s ++ T "yield " ++ e) :: ls) (SYield a :: b).
  Proof.
    intros F L R B. eapply b_simple; [apply indented_T; [exact F|exact L|discriminate]|now constructor|exact B].
  Qed.
  Lemma blank_end k l : blank l = true -> block k [l] [].
  Proof. intros H. apply b_blank; [exact H|constructor]. Qed.

  Lemma default_reads f over b : ident f = true -> readable b = true ->
    reads_function (helper_text f (HDefault over b)) f (hfunc (HDefault over b)).
  Proof.
    intros If Rb. pose proof (print_flat b Rb) as Fb.
    exists [[]], [global_line; T "    try:"; T "        return " ++ print b;
                  T "    except (TypeError, KeyError, IndexError, AttributeError):"; T "        return default_"; []].
    repeat split; try assumption.
    - unfold Model_Source.helper_text. change (lines (nl ++ ?t)) with ([] :: lines t). cbn [app]. f_equal.
      rewrite lines_line by (apply def_flat; [exact If|destruct over; reflexivity]).
      f_equal; [cbn [Proofs_Meaning.hfunc f_params f_kwonly]; rewrite app_nil_r; reflexivity|].
      rewrite lines_line by reflexivity. f_equal.
      rewrite lines_line by reflexivity. f_equal.
      rewrite (app_assoc _ (print b)).
      rewrite lines_line by (rewrite flat_app, Fb; reflexivity). f_equal.
    - destruct over; repeat constructor.
    - destruct over; apply distinct_NoDup; reflexivity.
    - cbn [Proofs_Meaning.hfunc f_body]. apply global_block; [reflexivity|].
      apply (b_try 1 (T "    try:") [T "        return " ++ print b] [SReturn (tree b)]
               (T "    except (TypeError, KeyError, IndexError, AttributeError):") [T "        return default_"]
               [SReturn (AName (T "default_"))] [[]] []).
      + apply (indented_T 1 (T "    ") (T "try:")); [reflexivity|reflexivity|discriminate].
      + apply (return_block 2 (T "        ")); [reflexivity|reflexivity| |constructor]. now apply readable_reads.
      + discriminate.
      + apply (indented_T 1 (T "    ") (T "except (TypeError, KeyError, IndexError, AttributeError):")); [reflexivity|reflexivity|discriminate].
      + apply (return_block 2 (T "        ") (T "default_")); [reflexivity|reflexivity| |constructor].
        apply (readable_reads printable gname pnum PO (PName (T "default_"))). reflexivity.
      + discriminate.
      + now apply blank_end.
    - discriminate.
  Qed.

  Lemma items_block ls : forall tail, Forall (fun l => match fst l with Some c => readable c = true | None => True end /\ readable (snd l) = true) ls ->
    block 1 tail [] -> block 1 (flat_map (item_lines srepr gname pnum) ls ++ tail) (map (item_stmt gname pnum) ls).
  Proof.
    induction ls as [|[co v] ls IH]; intros tail F B; [exact B|]. inversion F as [|? ? [Hc Hv] F']; subst. cbn [fst snd] in *.
    cbn [flat_map map]. unfold item_lines at 1, item_stmt at 1. cbn [fst snd]. destruct co as [c|].
    - change (([T "    if " ++ print c ++ T ":"; T "        yield " ++ print v] ++ flat_map (item_lines srepr gname pnum) ls) ++ tail)
        with ((T "    if " ++ print c ++ T ":") :: [T "        yield " ++ print v] ++ (flat_map (item_lines srepr gname pnum) ls ++ tail)).
      eapply (b_if 1 _ (T "if " ++ print c ++ T ":") (print c)); [|reflexivity| | | |].
      + apply (indented_T 1 (T "    ")); [reflexivity|reflexivity|discriminate].
      + now apply readable_reads.
      + apply (yield_block 2 (T "        ")); [reflexivity|reflexivity| |constructor]. now apply readable_reads.
      + discriminate.
      + now apply IH.
    - cbn [app]. apply (yield_block 1 (T "    ")); [reflexivity|reflexivity|now apply readable_reads|now apply IH].
  Qed.
  Lemma items_flat ls : Forall (fun l => match fst l with Some c => readable c = true | None => True end /\ readable (snd l) = true) ls ->
    forallb flat (flat_map (item_lines srepr gname pnum) ls) = true.
  Proof.
    induction 1 as [|[co v] ls [Hc Hv] F IH]; [reflexivity|]. cbn [flat_map]. rewrite forallb_app, IH, andb_true_r.
    unfold item_lines. cbn [fst snd] in *. destruct co as [c|]; cbn [forallb]; rewrite !flat_app, ?(print_flat c), (print_flat v) by assumption; reflexivity.
  Qed.
  Lemma items_reads f ps ls : ident f = true -> hfine (HItems ps ls) ->
    reads_function (helper_text f (HItems ps ls)) f (hfunc (HItems ps ls)).
  Proof.
    intros If (Ne & Ip & Np & Hl).
    exists [[]], (flat_map (item_lines srepr gname pnum) ls ++ [T "        "]).
    repeat split; auto.
    - unfold Model_Source.helper_text. change (lines (nl ++ ?t)) with ([] :: lines t). cbn [app]. f_equal.
      rewrite lines_line by (apply def_flat; [exact If|now apply idents_flat]).
      f_equal; [cbn [Proofs_Meaning.hfunc f_params f_kwonly]; rewrite app_nil_r; reflexivity|].
      pose proof (items_flat ls Hl) as Fl.
      destruct (flat_map (item_lines srepr gname pnum) ls) as [|a r] eqn:E.
      + exfalso. destruct ls as [|[co v] ls]; [congruence|]. cbn [flat_map] in E. unfold item_lines in E.
        cbn [fst] in E. destruct co; discriminate.
      + rewrite lines_join by exact Fl. rewrite lines_last by reflexivity. reflexivity.
    - cbn [Proofs_Meaning.hfunc f_params f_kwonly]. now rewrite app_nil_r.
    - cbn [Proofs_Meaning.hfunc f_params f_kwonly]. now rewrite app_nil_r.
    - cbn [Proofs_Meaning.hfunc f_body]. apply items_block; [exact Hl|]. now apply blank_end.
    - cbn [Proofs_Meaning.hfunc f_body]. destruct ls; [congruence|discriminate].
  Qed.

  Lemma stmt_block s ls b : stmt_ok s = true -> forallb readable (snd s) = true -> block 1 ls b ->
    block 1 (stmt_line srepr gname pnum s :: ls) (mut_stmt gname pnum s :: b).
  Proof.
    intros O R B. destruct s as [k l]. unfold stmt_ok in O. cbn [fst snd] in *. unfold stmt_line, mut_stmt. cbn [fst snd].
    destruct k; destruct l as [|a [|a2 [|]]]; try discriminate O; cbn [forallb] in R; ands; cbn [nth].
    - eapply b_simple; [apply (indented_T 1 ind); [reflexivity|reflexivity|discriminate]| |exact B].
      replace (T "data_[" ++ print a ++ T "] = " ++ print a2) with ((T "data_[" ++ print a ++ T "]") ++ T " = " ++ print a2)
        by (rewrite <- !app_assoc; reflexivity).
      apply s_setitem; [now apply setitem_reads|now apply readable_reads].
    - eapply b_simple; [apply (indented_T 1 ind); [reflexivity|reflexivity|discriminate]| |exact B].
      apply s_expr. now apply setattr_reads.
    - eapply b_simple; [apply (indented_T 1 ind); [reflexivity|reflexivity|discriminate]| |exact B].
      apply s_expr. now apply pop_reads.
    - eapply b_simple; [apply (indented_T 1 ind); [reflexivity|reflexivity|discriminate]| |exact B].
      apply s_expr. now apply delattr_reads.
    - eapply b_simple; [apply (indented_T 1 ind); [reflexivity|reflexivity|now apply print_black]| |exact B].
      apply s_expr. now apply readable_reads.
  Qed.
  Lemma stmt_flat s : stmt_ok s = true -> forallb readable (snd s) = true -> flat (stmt_line srepr gname pnum s) = true.
  Proof.
    intros O R. destruct s as [k l]. unfold stmt_ok in O. cbn [fst snd] in *. unfold stmt_line. cbn [fst snd].
    destruct k; destruct l as [|a [|a2 [|]]]; try discriminate O; cbn [forallb] in R; ands; cbn [nth];
      rewrite !flat_app, !print_flat by assumption; reflexivity.
  Qed.
  Lemma stmts_block ss tail b : Forall (fun s => stmt_ok s = true /\ forallb readable (snd s) = true) ss ->
    block 1 tail b -> block 1 (map (stmt_line srepr gname pnum) ss ++ tail) (map (mut_stmt gname pnum) ss ++ b).
  Proof. induction 1 as [|s ss [O R] F IH]; intros B; [exact B|]. cbn [map app]. apply stmt_block; auto. Qed.
  Lemma tap_reads f ps ss : ident f = true -> hfine (HTap ps ss) ->
    reads_function (helper_text f (HTap ps ss)) f (hfunc (HTap ps ss)).
  Proof.
    intros If (Ip & Np & Hs).
    exists [[]], ((match map (stmt_line srepr gname pnum) ss with [] => [[]] | l => l end) ++ [T "    return data_"; []]).
    assert (Fl : forallb flat (map (stmt_line srepr gname pnum) ss) = true).
    { apply forallb_forall. intros x I. apply in_map_iff in I as (s & <- & I). rewrite Forall_forall in Hs.
      destruct (Hs s I). now apply stmt_flat. }
    repeat split; auto.
    - unfold Model_Source.helper_text. change (lines (nl ++ ?t)) with ([] :: lines t). cbn [app]. f_equal.
      rewrite lines_line by (apply def_flat; [exact If|now apply idents_flat]).
      f_equal; [cbn [Proofs_Meaning.hfunc f_params f_kwonly]; rewrite app_nil_r; reflexivity|].
      destruct (map (stmt_line srepr gname pnum) ss) as [|a r]; [reflexivity|].
      rewrite lines_join by exact Fl. reflexivity.
    - cbn [Proofs_Meaning.hfunc f_params f_kwonly]. now rewrite app_nil_r.
    - cbn [Proofs_Meaning.hfunc f_params f_kwonly]. now rewrite app_nil_r.
    - cbn [Proofs_Meaning.hfunc f_body].
      assert (B : block 1 [T "    return data_"; []] [SReturn dat]).
      { apply (return_block 1 (T "    ") (T "data_")); [reflexivity|reflexivity| |now apply blank_end].
        apply (readable_reads printable gname pnum PO (PName (T "data_"))). reflexivity. }
      destruct ss as [|s ss].
      + cbn [map app]. apply b_blank; [reflexivity|exact B].
      + apply (stmts_block (s :: ss)); auto.
    - cbn [Proofs_Meaning.hfunc f_body]. destruct ss; discriminate.
  Qed.
  Lemma helper_reads f h : ident f = true -> hfine h -> reads_function (helper_text f h) f (hfunc h).
  Proof. destruct h; intros If Hf; [now apply default_reads|now apply items_reads|now apply tap_reads]. Qed.
End Text.
