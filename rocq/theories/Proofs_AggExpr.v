(** The expressions in the statements of reducers, with any code in the places of
    the parts, are read as the trees of Spec_AggProgram.v. *)
From Coq Require Import String Ascii List NArith ZArith Bool Arith Lia.
From Verif Require Import Model_Reducers Model_Code Spec_Syntax Spec_Stmt Spec_AggProgram
  Proofs_Syntax Proofs_Grammar Proofs_Lex Proofs_Tree.
Import ListNotations.

(** *** tokens of an operand *)
Definition plain (ts : list token) : Prop := match ts with [] | KNot :: _ => False | _ => True end.
Record unit (ts : list token) (a : ast) : Prop := {
  u_level : forall k r, k <= 11 -> stops k r -> P k (ts ++ r) a r;
  u_plain : plain ts;
  u_pos : forall r, match r with Assign :: _ => False | _ => True end -> positional (ts ++ r) }.
Record primary (ts : list token) (a : ast) : Prop := {
  u_prim : forall r b r', PTrail a r b r' -> P 13 (ts ++ r) b r';
  u_head : match ts with [] | KNot :: _ | TBin _ :: _ => False | _ => True end;
  u_pos' : forall r, match r with Assign :: _ => False | _ => True end -> positional (ts ++ r) }.
Lemma primary_unit ts a : primary ts a -> unit ts a.
Proof.
  intros G. pose proof (u_head _ _ G) as H. constructor.
  - intros k r K St. apply (descends 13); try lia.
    + apply G. apply stops_trailers. apply (stops_le k); [lia|exact St].
    + exact St.
    + destruct ts as [|u us]; [contradiction|]. cbn [app]. destruct u; auto; contradiction.
    + destruct ts as [|u us]; [contradiction|]. cbn [app]. destruct u; auto; contradiction.
  - destruct ts as [|u us]; [contradiction|]. destruct u; auto; contradiction.
  - apply G.
Qed.
Lemma head_app (ts us : list token) : match ts with [] | KNot :: _ | TBin _ :: _ => False | _ => True end ->
  match ts ++ us with [] | KNot :: _ | TBin _ :: _ => False | _ => True end.
Proof. destruct ts as [|u ts]; [contradiction|]. cbn [app]. destruct u; auto. Qed.
Lemma plain_app ts us : plain ts -> plain (ts ++ us).
Proof. unfold plain. destruct ts as [|u ts]; [contradiction|]. cbn [app]. destruct u; auto. Qed.
(** from level 4 *)
Lemma level_down j k ts a r : j <= 11 -> k <= j -> 3 < j -> P j ts a r -> plain ts -> stops k r -> P k ts a r.
Proof.
  intros J K J3 H Pl St. apply (descends j); try lia; auto.
  - destruct ts as [|u us]; [contradiction|]. destruct u; auto. contradiction.
  - destruct ts as [|u us]; [contradiction|]. destruct u; auto.
Qed.

Lemma name_primary x : primary [TName x] (AName x).
Proof.
  constructor; [|exact I|].
  - intros r b r' Tr. eapply p_primary; [apply a_name|exact Tr].
  - intros r R. cbn [app positional]. destruct r as [|[] r]; auto.
Qed.
Lemma const_primary x : primary [TConst x] (AConst x).
Proof.
  constructor; [|exact I|].
  - intros r b r' Tr. eapply p_primary; [apply a_const|exact Tr].
  - intros r R. exact I.
Qed.
Lemma num_unit n : unit [TNum n] (ANum n).
Proof.
  apply primary_unit. constructor; [|exact I|].
  - intros r b r' Tr. eapply p_primary; [apply a_num|exact Tr].
  - intros r R. exact I.
Qed.
Lemma sub_primary ts a is i : primary ts a -> unit is i -> primary (ts ++ LBr :: is ++ [RBr]) (ASub a i).
Proof.
  intros G U. constructor.
  - intros r b r' Tr. rewrite <- app_assoc. apply G. cbn [app]. rewrite <- app_assoc. eapply t_sub; [|exact Tr].
    apply U; [lia|exact I].
  - apply head_app, G.
  - intros r R. rewrite <- app_assoc. apply G. exact I.
Qed.
Lemma attr_primary ts a x : primary ts a -> primary (ts ++ [Dot; TName x]) (AAttr a x).
Proof.
  intros G. constructor.
  - intros r b r' Tr. rewrite <- app_assoc. apply G. cbn [app]. now apply t_attr.
  - apply head_app, G.
  - intros r R. rewrite <- app_assoc. apply G. exact I.
Qed.
(** the arguments of a call *)
Lemma args_units l tss : Forall2 (fun a ts => unit ts a) l tss -> forall pos r,
  match tss with
  | [] => PArgs pos [] (RPar :: r) (pos ++ l) [] r
  | t :: rest => PArgs pos [] (t ++ seps Comma rest ++ RPar :: r) (pos ++ l) [] r
  end.
Proof.
  induction 1 as [|a ts l tss U F IH]; intros pos r.
  - rewrite app_nil_r. apply c_end.
  - specialize (IH (pos ++ [a]) r).
    replace (pos ++ a :: l) with ((pos ++ [a]) ++ l) by now rewrite <- app_assoc.
    destruct tss as [|t2 tss]; cbn [seps flat_map app].
    + inversion F; subst. rewrite app_nil_r. apply c_pos_last; [apply U; exact I|]. apply U; [lia|exact I].
    + eapply c_pos; [apply U; exact I|apply U; [lia|exact I]|]. rewrite <- app_assoc. exact IH.
Qed.
Definition comma_tokens (tss : list (list token)) : list token :=
  match tss with [] => [] | t :: r => t ++ seps Comma r end.
Lemma call_primary ts f l tss : primary ts f -> Forall2 (fun a ts => unit ts a) l tss ->
  primary (ts ++ LPar :: comma_tokens tss ++ [RPar]) (ACall f l []).
Proof.
  intros G F. constructor.
  - intros r b r' Tr. rewrite <- app_assoc. apply G. cbn [app]. rewrite <- app_assoc. cbn [app].
    eapply t_call; [|exact Tr]. pose proof (args_units l tss F [] r) as H. cbn [app] in H.
    destruct tss as [|t tss]; cbn [comma_tokens app]; [exact H|]. rewrite <- app_assoc. exact H.
  - apply head_app, G.
  - intros r R. rewrite <- app_assoc. apply G. exact I.
Qed.
Lemma call1_primary ts f is i : primary ts f -> unit is i -> primary (ts ++ LPar :: is ++ [RPar]) (ACall f [i] []).
Proof.
  intros G U. pose proof (call_primary ts f [i] [is] G (Forall2_cons _ _ U (Forall2_nil _))) as H.
  cbn [comma_tokens] in H. rewrite seps_nil, app_nil_r in H. exact H.
Qed.

(** *** operators *)
Inductive op_tokens : string -> list token -> Prop :=
| op_is : op_tokens "is" [KIs]
| op_is_not : op_tokens "is not" [KIs; KNot]
| op_not_in : op_tokens "not in" [KNot; KIn]
| op_gt : op_tokens ">" [TBin (T ">")]
| op_lt : op_tokens "<" [TBin (T "<")]
| op_eq : op_tokens "==" [TBin (T "==")]
| op_ne : op_tokens "!=" [TBin (T "!=")]
| op_ge : op_tokens ">=" [TBin (T ">=")]
| op_le : op_tokens "<=" [TBin (T "<=")]
| op_in : op_tokens "in" [KIn].
(** a comparison as an operand of and, or *)
Lemma cmp_level o os as_ a bs b : op_tokens o os -> unit as_ a -> unit bs b ->
  forall k r, k <= 4 -> stops k r -> P k (as_ ++ os ++ bs ++ r) (cmp o a b) r.
Proof.
  intros O A B k r K St. apply (level_down 4); try lia; auto.
  - unfold cmp. change (ACompare a [(T o, b)]) with (of_compare a [(T o, b)]). eapply o_cmp.
    + apply A; [lia|]. destruct O; cbn; lia.
    + assert (C : comparison_op (os ++ bs ++ r) = Some (T o, bs ++ r)).
      { destruct O; try reflexivity. cbn [app comparison_op]. pose proof (u_plain _ _ B) as N.
        destruct bs as [|t bs]; [contradiction|]. cbn [app]. destruct t; try reflexivity. contradiction. }
      eapply cmp_more; [exact C| |apply cmp_end].
      * apply B; [lia|]. apply (stops_le k); [lia|exact St].
      * apply (stops_le k); [lia|exact St].
  - apply plain_app, A.
Qed.
Lemma plus_level as_ a bs b : unit as_ a -> unit bs b ->
  forall r, stops 0 r -> P 0 (as_ ++ TBin (T "+") :: bs ++ r) (ABin (T "+") a b) r.
Proof.
  intros A B r St. apply (level_down 9); try lia; auto.
  - apply (o_bin (T "+") _ _ (bs ++ r)).
    + discriminate.
    + apply A; [cbn; lia|]. cbn. lia.
    + apply B; [cbn; lia|]. apply (stops_le 0); [cbn; lia|exact St].
    + apply (stops_le 0); [cbn; lia|exact St].
  - apply plain_app, A.
Qed.
(** x or y; x and y *)
Lemma or_level as_ a bs b : (forall r, stops 2 r -> P 2 (as_ ++ r) a r) -> (forall r, stops 2 r -> P 2 (bs ++ r) b r) -> plain as_ ->
  forall k r, k <= 1 -> stops k r -> P k (as_ ++ KOr :: bs ++ r) (either a b) r.
Proof.
  intros A B Pl k r K St.
  assert (H : P 1 (as_ ++ KOr :: bs ++ r) (either a b) r).
  { unfold either. change (ABool true [a; b]) with (of_bool true [a; b]). eapply (o_bool true).
    - apply A. cbn. lia.
    - eapply (b_more true [a]); [apply B; apply (stops_le k); [lia|exact St]|].
      apply b_end. apply (stops_le k); [lia|exact St]. }
  apply (descends 1); try lia; auto.
  - pose proof (plain_app as_ (KOr :: bs ++ r) Pl) as N. unfold plain in N.
    destruct (as_ ++ KOr :: bs ++ r) as [|t l]; [exact Logic.I|]. destruct t; auto.
  - destruct (as_ ++ KOr :: bs ++ r) as [|t l]; [exact Logic.I|]. destruct t; auto. lia.
Qed.
Lemma and_level as_ a bs b : (forall r, stops 3 r -> P 3 (as_ ++ r) a r) -> (forall r, stops 3 r -> P 3 (bs ++ r) b r) -> plain as_ ->
  forall k r, k <= 2 -> stops k r -> P k (as_ ++ KAnd :: bs ++ r) (both a b) r.
Proof.
  intros A B Pl k r K St.
  assert (H : P 2 (as_ ++ KAnd :: bs ++ r) (both a b) r).
  { unfold both. change (ABool false [a; b]) with (of_bool false [a; b]). eapply (o_bool false).
    - apply A. cbn. lia.
    - eapply (b_more false [a]); [apply B; apply (stops_le k); [lia|exact St]|].
      apply b_end. apply (stops_le k); [lia|exact St]. }
  apply (descends 2); try lia; auto.
  - pose proof (plain_app as_ (KAnd :: bs ++ r) Pl) as N. unfold plain in N.
    destruct (as_ ++ KAnd :: bs ++ r) as [|t l]; [exact Logic.I|]. destruct t; auto.
  - destruct (as_ ++ KAnd :: bs ++ r) as [|t l]; [exact Logic.I|]. destruct t; auto. lia.
Qed.
Lemma unit_at k ts a : k <= 11 -> unit ts a -> forall r, stops k r -> P k (ts ++ r) a r.
Proof. intros K U r. now apply U. Qed.

(** *** displays *)
Lemma atom_primary ts a : (forall r, PAtom (ts ++ r) a r) ->
  match ts with [] | KNot :: _ | TBin _ :: _ | TName _ :: _ => False | _ => True end -> primary ts a.
Proof.
  intros H N. constructor.
  - intros r b r' Tr. eapply p_primary; [apply H|exact Tr].
  - destruct ts as [|u us]; [contradiction|]. destruct u; auto.
  - intros r R. destruct ts as [|u us]; [contradiction|]. destruct u; try contradiction; exact I.
Qed.
Lemma paren_primary ts a : (forall r, stops 0 r -> P 0 (ts ++ r) a r) -> primary (LPar :: ts ++ [RPar]) a.
Proof.
  intros H. apply atom_primary; [|exact I]. intros r. cbn [app]. apply a_paren. rewrite <- app_assoc. apply H. exact I.
Qed.
Lemma set_primary ts a : unit ts a -> primary (LBrace :: ts ++ [RBrace]) (ASet [a]).
Proof.
  intros U. apply atom_primary; [|exact I]. intros r. cbn [app]. rewrite <- app_assoc. eapply a_set.
  - apply U; [lia|exact I].
  - apply m_end. cbn; auto.
Qed.
Lemma list_primary ts a : unit ts a -> primary (LBr :: ts ++ [RBr]) (AList [a]).
Proof.
  intros U. apply atom_primary; [|exact I]. intros r. cbn [app]. rewrite <- app_assoc. eapply a_list.
  - apply U; [lia|exact I].
  - apply m_end. cbn; auto.
Qed.
Lemma dict_primary ks k vs v : unit ks k -> unit vs v -> primary (LBrace :: ks ++ Colon :: vs ++ [RBrace]) (ADict [(k, v)]).
Proof.
  intros K U. apply atom_primary; [|exact I]. intros r. cbn [app]. rewrite <- app_assoc. cbn [app]. rewrite <- app_assoc. eapply a_dict.
  - apply K; [lia|exact I].
  - apply U; [lia|exact I].
  - apply mp_end.
Qed.
Lemma tuple_primary l tss t a (tail : list token) : unit t a -> Forall2 (fun a ts => unit ts a) l tss ->
  tail = [RPar] /\ tss <> [] \/ tail = [Comma; RPar] -> primary (LPar :: t ++ seps Comma tss ++ tail) (ATuple (a :: l)).
Proof.
  intros U F TL. apply atom_primary; [|exact I]. intros r. cbn [app]. rewrite <- !app_assoc.
  assert (M : forall acc, PMore RPar acc (seps Comma tss ++ tail ++ r) (acc ++ l) r).
  { clear U t a. induction F as [|b ts l tss Ub F IH]; intros acc.
    - rewrite app_nil_r. destruct TL as [[_ N]|TL]; [contradiction|subst]. apply m_comma_end. cbn; auto.
    - rewrite seps_cons. cbn [app]. rewrite <- app_assoc. eapply m_more.
      + apply Ub; [lia|]. destruct F; [|exact I]. destruct TL as [[-> _] | ->]; exact I.
      + replace (acc ++ b :: l) with ((acc ++ [b]) ++ l) by now rewrite <- app_assoc.
        destruct F; [|apply IH; destruct TL as [[-> _] | ->]; [left; split; [reflexivity|discriminate]|now right]].
        rewrite app_nil_r. destruct TL as [[-> _] | ->]; [apply m_end|apply m_comma_end]; cbn; auto. }
  specialize (M [a]). cbn [app] in M.
  assert (C : exists ts', seps Comma tss ++ tail ++ r = Comma :: ts').
  { destruct tss; [destruct TL as [[_ N]| ->]; [contradiction|]; eexists; reflexivity|eexists; reflexivity]. }
  destruct C as [ts' C]. rewrite C in *. eapply a_tuple; [|exact M]. apply U; [lia|exact I].
Qed.

(** *** texts *)
(** a text that is read as an operator of level [n] or higher *)
Definition lv (n : nat) (t : text) (a : ast) : Prop :=
  exists ts, (forall rest, after false rest -> lex Start (t ++ rest) = prepend ts (lex Start rest)) /\
    (forall k r, k <= n -> stops k r -> P k (ts ++ r) a r) /\ plain ts.
(** an operand; [dot]: it can be followed by a dot or an index *)
Record cr (dot : bool) (t : text) (a : ast) (ts : list token) : Prop := {
  c_lex : forall rest, after dot rest -> lex Start (t ++ rest) = prepend ts (lex Start rest);
  c_unit : unit ts a;
  c_prim : dot = true -> primary ts a }.
Definition code (dot : bool) (t : text) (a : ast) : Prop := exists ts, cr dot t a ts.

Lemma reads_of t ts a : lex Start t = Some ts -> P 0 ts a [] -> reads t a.
Proof. intros L [n H]. exists ts, n. split; [exact L|exact H]. Qed.
Lemma lv_reads n t a : lv n t a -> reads t a.
Proof.
  intros (ts & L & H & _). specialize (L [] I). rewrite app_nil_r in L. specialize (H 0 [] ltac:(lia) I).
  rewrite app_nil_r in H. apply (reads_of t ts a); [|exact H]. rewrite L. cbn. now rewrite app_nil_r.
Qed.
Lemma code_weaken t a : code true t a -> code false t a.
Proof. intros (ts & G). exists ts. constructor; [|apply G|discriminate]. intros rest A. apply G. now apply after_false. Qed.
Lemma code_any d t a : code d t a -> code false t a.
Proof. destruct d; auto. apply code_weaken. Qed.
Lemma code_lv d n t a : n <= 11 -> code d t a -> lv n t a.
Proof.
  intros N (ts & G). exists ts. split; [|split].
  - intros rest A. apply G. now apply after_false.
  - intros k r K. apply G. lia.
  - apply G.
Qed.
Lemma code_reads d t a : code d t a -> reads t a.
Proof. intros G. exact (lv_reads 0 t a (code_lv d 0 t a ltac:(lia) G)). Qed.
Lemma lv_weaken m n t a : m <= n -> lv n t a -> lv m t a.
Proof. intros N (ts & L & H & Pl). exists ts. split; [exact L|split; [|exact Pl]]. intros k r K. apply H. lia. Qed.
Lemma lv_eq n t t' a : lv n t a -> t = t' -> lv n t' a. Proof. now intros H <-. Qed.
Lemma code_eq d t t' a : code d t a -> t = t' -> code d t' a. Proof. now intros H <-. Qed.
Lemma reads_eq t t' a : reads t a -> t = t' -> reads t' a. Proof. now intros H <-. Qed.

Ltac lext :=
  repeat first
    [ rewrite <- app_assoc
    | match goal with
      | G : cr ?d ?t ?a ?ts |- context [lex Start (?t ++ ?rest)] =>
          rewrite (c_lex d t a ts G rest) by
            first [exact I | reflexivity | assumption | apply after_false; first [exact I | reflexivity | assumption]]
      | H : (forall rest, after false rest -> lex Start (?t ++ rest) = prepend _ (lex Start rest)) |- context [lex Start (?t ++ ?rest)] =>
          rewrite (H rest) by first [exact I | reflexivity | assumption]
      | |- context [lex Start (T ?s ++ ?rest)] =>
          let x := eval vm_compute in (run Start (T s)) in
          match x with Some (?ts, Start) => rewrite (lex_const (T s) ts rest) by reflexivity end
      end
    | rewrite prepend_app ].

(** *** small codes *)
Lemma ident_code x : ident x = true -> code true x (AName x).
Proof.
  intros Ix. exists [TName x]. constructor.
  - intros rest A. apply (lex_ident x rest true Ix A).
  - apply primary_unit, name_primary.
  - intros _. apply name_primary.
Qed.
Lemma ndec_code n : code false (ndec n) (ANum n).
Proof. exists [TNum n]. constructor; [|apply num_unit|discriminate]. intros rest A. now apply lex_ndec. Qed.
Lemma none_code : code true (T "None") none.
Proof.
  exists [TConst (T "None")]. constructor; [|apply primary_unit, const_primary|intros _; apply const_primary].
  intros rest A. exact (lex_word (T "None") rest true eq_refl A).
Qed.
Lemma sub_code V v d E e : code true V v -> code d E e -> code true (V ++ T "[" ++ E ++ T "]") (ASub v e).
Proof.
  intros (vs & GV) (es & GE). exists (vs ++ LBr :: es ++ [RBr]).
  assert (Pr : primary (vs ++ LBr :: es ++ [RBr]) (ASub v e)) by (apply sub_primary; [apply GV; reflexivity|apply GE]).
  constructor; [|now apply primary_unit|intros _; exact Pr].
  intros rest A. lext. reflexivity.
Qed.

Lemma append_code V v d E e : code true V v -> code d E e -> code true (V ++ T ".append(" ++ E ++ T ")") (ACall (AAttr v (T "append")) [e] []).
Proof.
  intros (vs & GV) (es & GE). exists ((vs ++ [Dot; TName (T "append")]) ++ LPar :: es ++ [RPar]).
  assert (Pr : primary ((vs ++ [Dot; TName (T "append")]) ++ LPar :: es ++ [RPar]) (ACall (AAttr v (T "append")) [e] []))
    by (apply call1_primary; [apply attr_primary, GV; reflexivity|apply GE]).
  constructor; [|now apply primary_unit|intros _; exact Pr].
  intros rest A. lext. rewrite <- ?app_assoc. reflexivity.
Qed.
Lemma add_code V v d E e : code true V v -> code d E e -> code true (V ++ T ".add(" ++ E ++ T ")") (ACall (AAttr v (T "add")) [e] []).
Proof.
  intros (vs & GV) (es & GE). exists ((vs ++ [Dot; TName (T "add")]) ++ LPar :: es ++ [RPar]).
  assert (Pr : primary ((vs ++ [Dot; TName (T "add")]) ++ LPar :: es ++ [RPar]) (ACall (AAttr v (T "add")) [e] []))
    by (apply call1_primary; [apply attr_primary, GV; reflexivity|apply GE]).
  constructor; [|now apply primary_unit|intros _; exact Pr].
  intros rest A. lext. rewrite <- ?app_assoc. reflexivity.
Qed.
Lemma code_of_primary (t : text) a ts :
  (forall rest, after true rest -> lex Start (t ++ rest) = prepend ts (lex Start rest)) -> primary ts a -> code true t a.
Proof. intros L Pr. exists ts. constructor; [exact L|now apply primary_unit|intros _; exact Pr]. Qed.
Lemma paren_code n t a : lv n t a -> code true (T "(" ++ t ++ T ")") a.
Proof.
  intros (ts & L & H & _). apply (code_of_primary _ _ (LPar :: ts ++ [RPar])).
  - intros rest A. lext. reflexivity.
  - apply paren_primary. intros r. apply H. lia.
Qed.
Lemma set_code d E e : code d E e -> code true (T "{ " ++ E ++ T " }") (ASet [e]).
Proof.
  intros (es & G). apply (code_of_primary _ _ (LBrace :: es ++ [RBrace])).
  - intros rest A. lext. reflexivity.
  - apply set_primary, G.
Qed.
Lemma list_code d E e : code d E e -> code true (T "[" ++ E ++ T "]") (AList [e]).
Proof.
  intros (es & G). apply (code_of_primary _ _ (LBr :: es ++ [RBr])).
  - intros rest A. lext. reflexivity.
  - apply list_primary, G.
Qed.
Lemma dict_code d E e d' X x : code d E e -> code d' X x -> code true (T "{ " ++ E ++ T ": " ++ X ++ T " }") (ADict [(e, x)]).
Proof.
  intros (es & G) (xs & GX). apply (code_of_primary _ _ (LBrace :: es ++ Colon :: xs ++ [RBrace])).
  - intros rest A. lext. reflexivity.
  - apply dict_primary; [apply G|apply GX].
Qed.
Lemma pair_code d E e d' X x : code d E e -> code d' X x -> code true (T "(" ++ E ++ T ", " ++ X ++ T ")") (ATuple [e; x]).
Proof.
  intros (es & G) (xs & GX). apply (code_of_primary _ _ (LPar :: es ++ seps Comma [xs] ++ [RPar])).
  - intros rest A. lext. cbn [seps flat_map app]. rewrite <- ?app_assoc. cbn [app]. rewrite <- ?app_assoc. reflexivity.
  - apply tuple_primary; [apply G|repeat constructor; apply GX|]. left. split; [reflexivity|discriminate].
Qed.
(** several codes *)
Lemma codes_tokens l la : Forall2 (fun t a => exists d, code d t a) l la ->
  exists tss, Forall2 lexes l tss /\ Forall2 (fun a ts => unit ts a) la tss.
Proof.
  induction 1 as [|t a l la [d [ts G]] F IH]; [exists []; split; constructor|].
  destruct IH as (tss & F1 & F2). exists (ts :: tss). split; constructor; auto; [|apply G].
  intros rest A. apply G. now apply after_false.
Qed.
Lemma tuple_code t a l la : (exists d, code d t a) -> Forall2 (fun t a => exists d, code d t a) l la ->
  code true (T "(" ++ intersperse (T ",") (t :: l) ++ T ",)") (ATuple (a :: la)).
Proof.
  intros [d (ts & G)] F. destruct (codes_tokens l la F) as (tss & F1 & F2).
  apply (code_of_primary _ _ (LPar :: ts ++ seps Comma tss ++ [Comma; RPar])).
  - intros rest A. rewrite <- !app_assoc. rewrite (lex_const (T "(") [LPar]) by reflexivity.
    rewrite (lex_joined (T ",") Comma t ts l tss).
    + change (T ",)" ++ rest) with ((T "," ++ T ")") ++ rest). rewrite <- app_assoc.
      rewrite (lex_const (T ",") [Comma]), (lex_const (T ")") [RPar]) by reflexivity.
      rewrite !prepend_app. f_equal. rewrite <- ?app_assoc. cbn [app]. rewrite <- ?app_assoc. reflexivity.
    + apply sep_comma.
    + apply sep_comma.
    + intros r B. apply G. now apply after_false.
    + exact F1.
    + reflexivity.
  - apply tuple_primary; [apply G|exact F2|now right].
Qed.
Lemma call_code f l la : ident f = true -> Forall2 (fun t a => exists d, code d t a) l la ->
  code true (f ++ T "(" ++ intersperse (T ",") l ++ T ")") (ACall (AName f) la []).
Proof.
  intros If F. destruct (codes_tokens l la F) as (tss & F1 & F2).
  apply (code_of_primary _ _ ([TName f] ++ LPar :: comma_tokens tss ++ [RPar])).
  - intros rest A. rewrite <- !app_assoc. rewrite (lex_ident f _ true If) by reflexivity.
    rewrite (lex_const (T "(") [LPar]) by reflexivity.
    destruct F1 as [|t ts l tss L1 F1].
    + change (intersperse (T ",") []) with (@nil N). cbn [app comma_tokens].
      rewrite (lex_const (T ")") [RPar]) by reflexivity. rewrite !prepend_app. reflexivity.
    + rewrite (lex_joined (T ",") Comma t ts l tss).
      * rewrite (lex_const (T ")") [RPar]) by reflexivity. rewrite !prepend_app.
        cbn [comma_tokens app]. rewrite <- ?app_assoc. reflexivity.
      * apply sep_comma.
      * apply sep_comma.
      * exact L1.
      * exact F1.
      * reflexivity.
  - apply call_primary; [apply name_primary|exact F2].
Qed.
Lemma call0_attr_code x m : ident x = true -> ident m = true ->
  code true (x ++ T "." ++ m ++ T "()") (ACall (AAttr (AName x) m) [] []).
Proof.
  intros Ix Im. apply (code_of_primary _ _ (([TName x] ++ [Dot; TName m]) ++ LPar :: comma_tokens [] ++ [RPar])).
  - intros rest A. rewrite <- !app_assoc. rewrite (lex_ident x _ true Ix) by reflexivity.
    rewrite lex_dot by (apply ident_token; exact Im). rewrite (lex_ident m _ true Im) by reflexivity.
    rewrite (lex_const (T "()") [LPar; RPar]) by reflexivity. rewrite !prepend_app. reflexivity.
  - apply call_primary; [|constructor]. apply attr_primary, name_primary.
Qed.
Lemma attr_code x m : ident x = true -> ident m = true -> code true (x ++ T "." ++ m) (AAttr (AName x) m).
Proof.
  intros Ix Im. apply (code_of_primary _ _ ([TName x] ++ [Dot; TName m])).
  - intros rest A. rewrite <- !app_assoc. rewrite (lex_ident x _ true Ix) by reflexivity.
    rewrite lex_dot by (apply ident_token; exact Im). rewrite (lex_ident m _ true Im A).
    rewrite !prepend_app. reflexivity.
  - apply attr_primary, name_primary.
Qed.

(** *** operators *)
Definition op_text_of (o : string) : text := T " " ++ T o ++ T " ".
Lemma cmp_lv o os d E e d' X x : op_tokens o os -> code d E e -> code d' X x -> lv 4 (E ++ op_text_of o ++ X) (cmp o e x).
Proof.
  intros O (es & G) (xs & GX). exists (es ++ os ++ xs). split; [|split].
  - intros rest A. rewrite <- app_assoc. rewrite (c_lex _ _ _ _ G) by (now apply after_false).
    rewrite <- app_assoc. rewrite (lex_const (op_text_of o) os) by (destruct O; reflexivity).
    rewrite (c_lex _ _ _ _ GX) by (now apply after_false). rewrite !prepend_app, <- ?app_assoc. reflexivity.
  - intros k r K St. rewrite <- !app_assoc. apply cmp_level; auto; [apply G|apply GX].
  - apply plain_app, G.
Qed.
Lemma and_lv A a B b : lv 3 A a -> lv 3 B b -> lv 2 (A ++ T " and " ++ B) (both a b).
Proof.
  intros (es & L & H & Pl) (xs & L' & H' & Pl'). exists (es ++ KAnd :: xs). split; [|split].
  - intros rest Af. lext. rewrite <- ?app_assoc. reflexivity.
  - intros k r K St. rewrite <- app_assoc. cbn [app]. apply and_level; auto.
  - now apply plain_app.
Qed.
Lemma or_lv A a B b : lv 2 A a -> lv 2 B b -> lv 1 (A ++ T " or " ++ B) (either a b).
Proof.
  intros (es & L & H & Pl) (xs & L' & H' & Pl'). exists (es ++ KOr :: xs). split; [|split].
  - intros rest Af. lext. rewrite <- ?app_assoc. reflexivity.
  - intros k r K St. rewrite <- app_assoc. cbn [app]. apply or_level; auto.
  - now apply plain_app.
Qed.
Lemma plus_lv d E e d' X x : code d E e -> code d' X x -> lv 0 (E ++ T " + " ++ X) (ABin (T "+") e x).
Proof.
  intros (es & G) (xs & GX). exists (es ++ TBin (T "+") :: xs). split; [|split].
  - intros rest A. lext. rewrite <- ?app_assoc. reflexivity.
  - intros k r K St. replace k with 0 in * by lia. rewrite <- app_assoc. cbn [app]. apply plus_level; auto; [apply G|apply GX].
  - apply plain_app, G.
Qed.
