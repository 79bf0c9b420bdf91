(** Generated code of operator conversions is what the user wrote; code inside
    helper functions is well-formed too. *)
From Coq Require Import String Ascii List NArith ZArith Bool Arith Lia.
From Verif Require Import Model_Code Spec_Frag Spec_Syntax Spec_Tree Spec_Writable Spec_Meant Spec_Converter Proofs_Code Proofs_Lex
  Proofs_Writable.
Import ListNotations.

(** *** expressions inside helpers *)
Section Full.
  Variable Q : px -> Prop.
  Definition oQ (o : option px) : Prop := match o with Some e => Q e | None => True end.
  Hypothesis Hname : forall x, Q (PName x).
  Hypothesis Hlit : forall l, Q (PLit l).
  Hypothesis Hglob : forall g, Q (PGlob g).
  Hypothesis Hop : forall o l, Forall Q l -> Q (POp o l).
  Hypothesis Hbool : forall b l, Forall Q l -> Q (PBool b l).
  Hypothesis Heqs : forall l, Forall Q l -> Q (PEqs l).
  Hypothesis Hif : forall c t f, Q c -> Q t -> Q f -> Q (PIf c t f).
  Hypothesis Hatt : forall a b, Q a -> Q b -> Q (PAttach a b).
  Hypothesis Hadd : forall n e, Q e -> Q (PAdd n e).
  Hypothesis Hget : forall n, Q (PGet n).
  Hypothesis Hcomp : forall k l x it co, Forall Q l -> Q it -> oQ co -> Q (PComp k l x it co).
  Hypothesis Hdef : forall f l b, Forall Q l -> Q b -> Q (PDefault f l b).
  Hypothesis Hitems : forall f k l ps ls, Forall Q l -> Forall (fun p => oQ (fst p) /\ Q (snd p)) ls -> Q (PItems f k l ps ls).
  Hypothesis Htap : forall f l ps ls, Forall Q l -> Forall (fun p => Forall Q (snd p)) ls -> Q (PTap f l ps ls).
  Fixpoint px_full (e : px) : Q e :=
    let lst := fix lst (l : list px) : Forall Q l :=
      match l with [] => Forall_nil _ | e :: r => Forall_cons _ (px_full e) (lst r) end in
    let op (o : option px) : oQ o := match o with Some e => px_full e | None => I end in
    match e with
    | PName x => Hname x
    | PLit l => Hlit l
    | PGlob g => Hglob g
    | POp o l => Hop o l (lst l)
    | PBool i l => Hbool i l (lst l)
    | PEqs l => Heqs l (lst l)
    | PIf c t f => Hif c t f (px_full c) (px_full t) (px_full f)
    | PAttach a b => Hatt a b (px_full a) (px_full b)
    | PAdd n e => Hadd n e (px_full e)
    | PGet n => Hget n
    | PComp k l x it co => Hcomp k l x it co (lst l) (px_full it) (op co)
    | PDefault f l b => Hdef f l b (lst l) (px_full b)
    | PItems f k l ps ls => Hitems f k l ps ls (lst l)
        ((fix go ls : Forall (fun p => oQ (fst p) /\ Q (snd p)) ls :=
            match ls with
            | [] => Forall_nil _
            | (o, e) :: r => Forall_cons (o, e) (conj (op o) (px_full e)) (go r)
            end) ls)
    | PTap f l ps ls => Htap f l ps ls (lst l)
        ((fix go ls : Forall (fun p => Forall Q (snd p)) ls :=
            match ls with
            | [] => Forall_nil _
            | (k, l) :: r => Forall_cons (k, l) (lst l) (go r)
            end) ls)
    end.
End Full.

Section Helpers.
  Variable gname : nat -> text.
  Variable pnum : list nat -> nat.
  Notation readable := (readable gname pnum).
  Definition inside (e : px) : Prop := readable e = true -> Forall (fun b => readable b = true) (helpers e).

  Lemma inside_list l : Forall inside l -> forallb readable l = true -> Forall (fun b => readable b = true) (flat_map helpers l).
  Proof.
    induction 1 as [|e l H F IH]; cbn [forallb flat_map]; [constructor|]. intros R. ands. apply Forall_app; split; auto.
  Qed.
  Lemma forallb_Forall {A} (f : A -> bool) l : forallb f l = true -> Forall (fun x => f x = true) l.
  Proof. rewrite forallb_forall, Forall_forall. auto. Qed.

  Lemma helpers_readable e : inside e.
  Proof.
    unfold inside. induction e using px_full; cbn [Spec_Tree.readable helpers]; intros R; ands; auto using inside_list;
      try constructor.
    - repeat (apply Forall_app; split); auto.
    - apply Forall_app; split; auto.
    - repeat (apply Forall_app; split); auto using inside_list. destruct co; [now apply H0|constructor].
    - apply Forall_app; split; auto using inside_list.
    - apply Forall_app; split; auto using inside_list.
      match goal with R : forallb (fun l => _ && _) ls = true |- _ => revert R end. revert H0. clear.
      induction 1 as [|[o e] ls [Ho He] F IH]; cbn [forallb flat_map fst snd] in *; [constructor|]. intros R. ands.
      apply Forall_app; split; [|auto]. apply Forall_app; split; [|constructor; auto].
      destruct o as [c|]; [|constructor]. constructor; auto.
    - apply Forall_app; split; auto using inside_list.
      match goal with R : forallb (fun l => forallb _ _) ls = true |- _ => revert R end. revert H0. clear.
      induction 1 as [|[k l] ls Hl F IH]; cbn [forallb flat_map fst snd] in *; [constructor|]. intros R. ands.
      apply Forall_app; split; [|auto]. apply Forall_app; split; [now apply forallb_Forall|now apply inside_list].
  Qed.
End Helpers.

(** *** operators *)
Lemma map_two (f : ast -> ast) (l : list ast) : two_by_two (map f l) = map (fun p => (f (fst p), f (snd p))) (two_by_two l).
Proof.
  revert l; fix IH 1; intros [|a [|b l]]; [reflexivity|reflexivity|].
  cbn [two_by_two map fst snd]. now rewrite <- IH.
Qed.
Lemma nth_map f l i : f (AConst []) = AConst [] -> nth_a (map f l) i = f (nth_a l i).
Proof. intros H. unfold nth_a. rewrite <- H at 1. apply map_nth. Qed.
Lemma map_combine {A} (f : ast -> ast) (ks : list A) (vs : list ast) :
  map (fun p => (fst p, f (snd p))) (combine ks vs) = combine ks (map f vs).
Proof. revert vs; induction ks as [|k ks IH]; intros [|v vs]; cbn [combine map fst snd]; auto. now rewrite IH. Qed.
Lemma map_tl {A B} (f : A -> B) l : map f (tl l) = tl (map f l).
Proof. destruct l; reflexivity. Qed.

Lemma desugar_op o l : (forall n, o <> OAttr n) -> desugar (op_tree o l) = op_tree o (map desugar l).
Proof.
  intros H. destruct o; cbn [op_tree]; unfold call; cbn [desugar map]; rewrite ?nth_map by reflexivity; try reflexivity.
  - now destruct (H n).
  - rewrite map_combine, <- firstn_map, <- skipn_map, map_tl. reflexivity.
  - destruct (compares o); cbn [desugar map fst snd]; rewrite ?nth_map by reflexivity; reflexivity.
  - now rewrite map_two.
Qed.
Lemma desugar_comp k l x it co :
  desugar (comp_tree k l x it co) =
  comp_tree k (map desugar l) x (desugar it) (match co with Some c => Some (desugar c) | None => None end).
Proof. destruct k; reflexivity. Qed.
Lemma desugar_lit l : desugar (lit_tree l) = lit_tree l.
Proof. destruct l as [|[]|z|s]; try reflexivity. cbn [lit_tree]. destruct (z <? 0)%Z; reflexivity. Qed.

Section Meant.
  Variable wordch : N -> bool.
  Variable srepr : text -> text.
  Variable gname : nat -> text.
  Variable pnum : list nat -> nat.
  Variable pname : text -> text.
  Variable hname : list nat -> text.
  Hypothesis NP : names_plain gname pname hname.
  Hypothesis WC : forall c, (c < 128)%N -> wordch c = (ascii_alpha c || (N.leb 48 c && N.leb c 57) || N.eqb c 95).
  Notation gen := (gen wordch srepr gname pnum pname hname).
  Notation gens := (gens wordch srepr gname pnum pname hname).
  Notation print := (print srepr gname pnum).
  Notation tree := (tree gname pnum).
  Notation meant := (meant gname pname).

  Lemma is_ident_word c : is_ident c = true -> wordch c = true.
  Proof.
    intros H. assert (L : (c < 128)%N).
    { unfold is_ident, is_alpha, is_digit in H. 
      repeat (apply orb_true_iff in H as [H|H]); ands; rewrite ?N.leb_le, ?N.eqb_eq in *; lia. }
    rewrite WC by exact L. unfold ascii_alpha. unfold is_ident, is_alpha, is_digit in H.
    destruct ((65 <=? c)%N && (c <=? 90)%N || (97 <=? c)%N && (c <=? 122)%N); [reflexivity|].
    destruct ((48 <=? c)%N && (c <=? 57)%N), (c =? 95)%N; auto.
  Qed.
  Lemma ident_simple x : ident x = true -> simple wordch x = true.
  Proof.
    unfold ident. intros H. ands. destruct x as [|c x]; [discriminate|]. ands.
    assert (A : forallb is_ident (c :: x) = true).
    { cbn [forallb]. unfold is_ident at 1. now rewrite H, H1. }
    unfold simple. replace (strip_parens (c :: x)) with (c :: x).
    - apply forallb_forall. intros d D. rewrite forallb_forall in A. now rewrite (is_ident_word d (A d D)).
    - unfold strip_parens. destruct (N.eqb_spec c 40); [subst; discriminate|reflexivity].
  Qed.
  Lemma fin_ident fed x r : ident x = true -> fin wordch srepr gname pnum fed (PName x) r = r.
  Proof. intros H. destruct fed; [|reflexivity]. cbn [fin]. apply attach_simple. now apply ident_simple. Qed.

  Definition meets (c : cv) : Prop := forall fed q x, operators c = true -> ident x = true ->
    desugar (tree (gen fed q c (PName x))) = meant x c.
  Lemma gens_meets l : Forall meets l -> forallb operators l = true -> forall q j x, ident x = true ->
    map desugar (map tree (gens q j l (PName x))) = map (meant x) l.
  Proof.
    induction 1 as [|c l H F IH]; intros O q j x I; [reflexivity|]. cbn [forallb] in O. ands.
    cbn [Proofs_Code.gens map]. f_equal; [now apply H|now apply IH].
  Qed.
  Lemma opt_meets o q x : optP meets o -> optb operators o = true -> ident x = true ->
    desugar (tree (fed_opt wordch srepr gname pnum pname hname q o (PName x))) =
    match o with Some c => meant x c | None => AName x end.
  Proof. destruct o as [c|]; cbn [optP optb fed_opt]; auto. Qed.
  Lemma attr_code_meets a n : desugar (tree (attr_code a n)) = call "getattr" [desugar (tree a); desugar (tree n)].
  Proof. destruct (attr_code_cases a n) as [(s & -> & ->) | ->]; reflexivity. Qed.
  Lemma map_eq_nil_tree l : map tree l = [] -> l = [].
  Proof. destruct l; [auto|discriminate]. Qed.

  Theorem gen_meets c : meets c.
  Proof.
    destruct NP as (Ng & Np & Nh).
    induction c using cv_ind'; intros fed q xx O Hx; try discriminate O.
    - cbn [Model_Code.gen]. destruct fed; [|reflexivity]. rewrite attach_simple by now apply ident_simple. reflexivity.
    - change (gen fed q (CLit l) (PName xx)) with (fin wordch srepr gname pnum fed (PName xx) (PLit l)).
      rewrite fin_ident by exact Hx. apply desugar_lit.
    - change (gen fed q (CGlob g) (PName xx)) with (fin wordch srepr gname pnum fed (PName xx) (PGlob g)).
      rewrite fin_ident by exact Hx. reflexivity.
    - change (gen fed q (CArg x) (PName xx)) with (fin wordch srepr gname pnum fed (PName xx) (PName x)).
      rewrite fin_ident by exact Hx. reflexivity.
    - rewrite gen_COp, fin_ident by exact Hx. cbn [Spec_Tree.tree Spec_Meant.meant].
      rewrite desugar_op.
      + rewrite gens_meets; auto. destruct o; try exact O. discriminate.
      + intros n ->. discriminate.
    - rewrite gen_CAttr, fin_ident by exact Hx. cbn [operators] in O. ands. cbn [Spec_Meant.meant].
      rewrite attr_code_meets, IHc1, IHc2 by assumption. reflexivity.
    - rewrite gen_CBool, fin_ident by exact Hx. cbn [Spec_Tree.tree Spec_Meant.meant desugar].
      rewrite gens_meets; auto.
    - rewrite gen_CEqs, fin_ident by exact Hx. cbn [Spec_Tree.tree Spec_Meant.meant operators] in *.
      pose proof (gens_meets l H O q 0 xx Hx) as E.
      destruct (map tree (gens q 0 l (PName xx))) as [|a r], (map (meant xx) l) as [|b s]; try discriminate E; [reflexivity|].
      cbn [map] in E. injection E as <- <-. cbn [desugar]. f_equal. rewrite !map_map. reflexivity.
    - rewrite gen_CIf, fin_ident by exact Hx. cbn [Spec_Tree.tree Spec_Meant.meant desugar operators] in *. ands.
      assert (S1 : if_cond_input wordch srepr gname pnum nc q (PName xx) = PName xx).
      { unfold if_cond_input. cbn [Model_Code.print]. now rewrite ident_simple. }
      assert (S2 : if_branch_input wordch srepr gname pnum nc q (PName xx) = PName xx).
      { unfold if_branch_input. cbn [Model_Code.print]. now rewrite ident_simple. }
      rewrite S1, S2, !opt_meets by assumption. reflexivity.
    - rewrite gen_CComp, fin_ident by exact Hx. cbn [Spec_Tree.tree Spec_Meant.meant operators] in *. ands.
      cbn [Model_Code.print]. rewrite desugar_comp, gens_meets by auto. f_equal. 
      destruct co as [c|]; [|reflexivity]. f_equal. apply H0; auto.
  Qed.
End Meant.
