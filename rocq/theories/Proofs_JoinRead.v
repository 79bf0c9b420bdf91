(** The source text of a join is read as the function whose execution Proofs_JoinCall.v
    follows. *)
From Coq Require Import String Ascii List NArith ZArith Bool Arith Lia Permutation.
From Verif Require Proofs_Code Proofs_Sourced Proofs_AggHash Proofs_Meaning.
From Verif Require Import Model_PyVal Model_Join Model_Labels Model_JoinLazy Model_Reducers Model_Code Model_Source Spec_Syntax Spec_Source Spec_Tree
  Proofs_Syntax Proofs_Grammar Proofs_Lex Proofs_Tree Proofs_SourceText Proofs_AggExpr Proofs_AggFinish Proofs_AggOutput
  Model_JoinText Model_JoinFuncs Spec_GenRun Spec_JoinText Proofs_Join Proofs_JoinCond Proofs_JoinScope Proofs_JoinRows Proofs_JoinSimLeft Proofs_JoinStages Proofs_JoinExpr.
Import ListNotations.

Lemma join_op_code o d E e d' X x : is_operator o = true -> code d E e -> code d' X x ->
  code true (T "(" ++ E ++ T " " ++ T o ++ T " " ++ X ++ T ")") (op_tree (OBin (T o)) [e; x]).
Proof.
  unfold is_operator. intros O C C'. apply existsb_exists in O as (p & I & Q). apply String.eqb_eq in Q. subst p.
  assert (B : forall p os, op_tokens p os -> compares (T p) = true ->
    code true (T "(" ++ E ++ T " " ++ T p ++ T " " ++ X ++ T ")") (op_tree (OBin (T p)) [e; x])).
  { intros p os OT N. cbn [op_tree]. rewrite N. unfold nth_a. cbn [nth].
    eapply code_eq; [apply (paren_code 4); eapply (cmp_lv p); eauto|]. unfold op_text_of. repeat (rewrite <- ?app_assoc; cbn [app]). reflexivity. }
  unfold operators in I. cbn [In] in I.
  destruct I as [<-|[<-|I]]; [eapply B; [constructor|reflexivity]|eapply B; [constructor|reflexivity]|].
  eapply bin_code; eauto. unfold operator. apply in_map. cbn [In]. tauto.
Qed.

Section Read.
  Variable printable : N -> bool.
  Hypothesis PO : printable_ok printable.
  Notation srepr := (py_repr printable).

  Lemma lit_code v : literal v = true -> code (negb (is_num (JConst v))) (lit_text srepr (lit_of v)) (lit_tree (lit_of v)).
  Proof.
    intros L. assert (R : readable (fun _ => []) (fun _ => 0) (PLit (lit_of v)) = true).
    { destruct v; try discriminate L; try reflexivity. cbn. unfold is_str. apply forallb_forall. intros c I.
      pose proof (T_small s) as H. rewrite forallb_forall in H. specialize (H c I). apply N.ltb_lt in H. apply N.leb_le. lia. }
    destruct (readable_good printable (fun _ => []) (fun _ => 0) PO _ R) as [ts G].
    assert (C : code (negb (is_int (PLit (lit_of v)))) (lit_text srepr (lit_of v)) (lit_tree (lit_of v))).
    { exists ts. constructor.
      - apply G.
      - constructor; [apply G| |apply G]. pose proof (g_tok _ _ _ _ _ G) as H. unfold plain. destruct ts as [|[] ts]; auto.
      - intros E. apply negb_true_iff in E. constructor; [now apply G| |apply G].
        pose proof (g_tok _ _ _ _ _ G) as H. destruct ts as [|[] ts]; auto. congruence. }
    destruct v; try discriminate L; exact C.
  Qed.

  Section Cond.
    Variable NT : option (text * text).
    Variable NA : option (ast * ast).
    Variable IT : text.
    Variable IA : ast.
    Definition sides_code : Prop :=
      match NT, NA with
      | Some (l, r), Some (la, ra) => code true l la /\ code true r ra
      | None, None => code true IT IA
      | _, _ => False
      end.
    Hypothesis SC : sides_code.
    Notation tx := (jtext srepr NT IT).
    Notation tr := (jast NA IA).
    Lemma conds_codes l : Forall (fun e => textual e = true -> code (negb (is_num e)) (tx e) (tr e)) l -> forallb textual l = true ->
      Forall2 (fun t a => exists d, code d t a) (map tx l) (map tr l).
    Proof.
      induction 1 as [|e l H F IH]; intros TX; cbn [map forallb] in *; [constructor|]. apply andb_true_iff in TX as [T1 T2].
      constructor; [eexists; now apply H|now apply IH].
    Qed.
    Lemma cond_code e : textual e = true -> code (negb (is_num e)) (tx e) (tr e).
    Proof.
      induction e using jx_ind'; intros TX; try discriminate TX.
      - unfold sides_code in SC. cbn. destruct NT as [[l r]|], NA as [[la ra]|]; tauto.
      - unfold sides_code in SC. cbn. destruct NT as [[l r]|], NA as [[la ra]|]; tauto.
      - now apply ident_code.
      - now apply lit_code.
      - cbn [textual] in TX. apply andb_true_iff in TX as [TX T2]. apply andb_true_iff in TX as [T0 T1]. cbn [jtext jast is_num negb].
        eapply sub_code; [|now apply IHe2]. rewrite <- T0. now apply IHe1.
      - cbn [textual] in TX. apply andb_true_iff in TX as [L TX]. apply Nat.leb_le in L. pose proof (conds_codes l H TX) as C.
        destruct l as [|a l]; [cbn in L; lia|]. cbn [jtext jast map is_num negb] in *. inversion C; subst. apply eqs_code; auto. rewrite map_length. cbn in L. lia.
      - cbn [textual] in TX. apply andb_true_iff in TX as [L TX]. apply Nat.leb_le in L. pose proof (conds_codes l H TX) as C.
        apply (bool_code false); [now rewrite map_length|exact C].
      - cbn [textual] in TX. apply andb_true_iff in TX as [L TX]. apply Nat.leb_le in L. pose proof (conds_codes l H TX) as C.
        apply (bool_code true); [now rewrite map_length|exact C].
      - cbn [textual] in TX. apply andb_true_iff in TX as [L TX]. pose proof (conds_codes l H TX) as C. cbn [jtext jast is_num negb].
        destruct (is_operator s) eqn:O.
        + apply Nat.eqb_eq in L. destruct l as [|a [|b [|? ?]]]; try discriminate L. cbn [map] in *.
          inversion C as [|? ? ? ? [d1 C1] C']; subst. inversion C' as [|? ? ? ? [d2 C2] _]; subst. eapply join_op_code; eauto.
        + destruct (String.eqb s "not").
          * apply Nat.eqb_eq in L. destruct l as [|a [|? ?]]; try discriminate L. cbn [map] in *. inversion C as [|? ? ? ? [d1 C1] _]; subst. eapply not_lv; eauto.
          * now apply call_code.
    Qed.
    Lemma conds_code l : forallb textual l = true -> Forall2 (fun t a => exists d, code d t a) (map tx l) (map tr l).
    Proof. intros TX. apply conds_codes; auto. apply Forall_forall. intros e _. apply cond_code. Qed.
    Lemma all_code l : l <> [] -> forallb textual l = true -> exists d, code d (all_text srepr NT IT l) (all_ast NA IA l).
    Proof.
      intros NE TX. pose proof (conds_code l TX) as C. destruct l as [|a [|b l]]; [contradiction| |].
      - eexists. apply cond_code. cbn in TX. now apply andb_true_iff in TX.
      - exists true. apply (bool_code false); [cbn; lia|exact C].
    Qed.
  End Cond.
  Lemma key_code IT IA l : code true IT IA -> l <> [] -> forallb textual l = true -> exists d, code d (key_text srepr IT l) (key_ast IA l).
  Proof.
    intros C0 NE TX. pose proof (conds_code None None IT IA C0 l TX) as C. destruct l as [|a [|b l]]; [contradiction| |].
    - eexists. apply (cond_code None None IT IA C0). cbn in TX. now apply andb_true_iff in TX.
    - exists true. cbn [map] in C. inversion C; subst. cbn [key_text key_ast map]. now apply tuple_code.
  Qed.

  Variable wordch : N -> bool.
  Hypothesis WC : forall c, (c < 128)%N -> wordch c = (ascii_alpha c || (N.leb 48 c && N.leb c 57) || N.eqb c 95).
  Variable N : jnames.
  Variable h : Model_Join.how.
  Variable cond : option jx.
  Hypothesis CL : clean N cond.
  Hypothesis TX : match cond with Some e => textual e = true | None => True end.
  Notation cs := (cs_of h cond).
  Notation simple := (simple wordch).

  Lemma idents x : In x (reserved N) -> ident x = true.
  Proof. destruct CL as (_ & F & _). rewrite Forall_forall in F. apply F. Qed.
  Lemma part_textual l : Forall (fine cond) l -> forallb textual l = true.
  Proof. intros F. apply forallb_forall. rewrite Forall_forall in F. intros e I. now apply F. Qed.

  (** *** which texts count as simple *)
  Lemma okc40 : Proofs_Code.okc wordch 40 = false. Proof. rewrite Proofs_Code.okc_ascii by (auto; lia). reflexivity. Qed.
  Ltac badc n := apply (Proofs_Code.simple_char wordch _ n); [|rewrite Proofs_Code.okc_ascii; [reflexivity|exact WC|reflexivity]|discriminate|discriminate].
  Lemma in_mid (c : BinNums.N) a b : In c (a ++ c :: b). Proof. apply in_app_iff. right. now left. Qed.
  Lemma in_sep (sep : text) c a b l : In c sep -> In c (intersperse sep (a :: b :: l)).
  Proof. intros I. cbn [intersperse]. apply in_app_iff. right. apply in_app_iff. now left. Qed.
  Lemma key_simple ks : ks <> [] -> Forall (fun e => dep_left e = true) ks -> forallb textual ks = true ->
    simple (key_text srepr (T "(left_item)") ks) = bare ks.
  Proof.
    intros NE DL TK. destruct ks as [|e [|e' ks]]; [contradiction| |].
    - inversion DL as [|? ? D _]; subst. cbn [forallb] in TK. rewrite andb_true_r in TK. cbn [key_text].
      destruct e; try discriminate D; try discriminate TK.
      + cbn [jtext bare]. unfold Model_Code.simple. change (strip_parens (T "(left_item)")) with (T "left_item"). apply forallb_forall. intros c I.
        assert (c < 128)%N by (cbn in I; intuition (subst; lia)). rewrite WC by assumption. cbn in I. intuition (subst; reflexivity).
      + cbn [bare jtext]. badc 91%N. apply in_app_iff. right. now left.
      + cbn [bare jtext]. cbn [textual] in TK. apply andb_true_iff in TK as [L _]. destruct l as [|a [|b l]]; try discriminate L. badc 32%N.
        apply in_app_iff. right. apply in_app_iff. left. cbn [map]. apply in_sep. now left.
      + cbn [bare jtext]. cbn [textual] in TK. apply andb_true_iff in TK as [L _]. destruct l as [|a [|b l]]; try discriminate L. badc 32%N.
        apply in_app_iff. right. apply in_app_iff. left. cbn [map]. apply in_sep. now left.
      + cbn [bare jtext]. cbn [textual] in TK. apply andb_true_iff in TK as [L _]. destruct l as [|a [|b l]]; try discriminate L. badc 32%N.
        apply in_app_iff. right. apply in_app_iff. left. cbn [map]. apply in_sep. now left.
      + cbn [bare jtext]. cbn [textual] in TK. apply andb_true_iff in TK as [L _]. destruct (is_operator name).
        * badc 32%N. unfold op_text. apply in_app_iff. right. apply in_app_iff. right. apply in_app_iff. left. now left.
        * destruct (String.eqb name "not"); [badc 32%N; cbn; tauto|]. apply Proofs_Code.simple_call; [exact WC|]. left. intros E. rewrite E in L. discriminate L.
    - destruct e; cbn [bare key_text]; badc 44%N; (apply in_app_iff; right; apply in_app_iff; right; now left).
  Qed.
  Lemma get_complex k : simple (get_text k) = false.
  Proof.
    replace (get_text k) with (T "get_by_label_" ++ T "(" ++ ([39%N] ++ k ++ [39%N]) ++ T ")") by (unfold get_text; rewrite <- !app_assoc; reflexivity).
    apply Proofs_Code.simple_call; [exact WC|]. left. discriminate.
  Qed.
  Lemma cache_complex k e : simple (cache_text k e) = false.
  Proof. badc 32%N. unfold cache_text. apply in_app_iff. right. apply in_app_iff. right. now left. Qed.
  Lemma no_paren a b : In 40%N a -> ident b = true -> contains a b = false.
  Proof.
    intros I B. destruct (contains a b) eqn:C; [|reflexivity]. apply Proofs_Code.contains_Sub in C. pose proof (Proofs_Code.Sub_in _ _ _ C I) as J.
    apply ident_char in B. rewrite forallb_forall in B. specialize (B _ J). discriminate B.
  Qed.
  Lemma attach_name a x : simple a = false -> In 40%N a -> ident x = true -> tattach wordch a x = T "(" ++ a ++ T " and None or " ++ x ++ T ")".
  Proof. intros S I X. unfold tattach. rewrite S, no_paren by auto. reflexivity. Qed.
  Lemma attach_sub a r : Proofs_Code.Sub a r -> tattach wordch a r = r.
  Proof. intros S. apply Proofs_Code.contains_Sub in S. unfold tattach. now rewrite S, andb_false_r. Qed.

  (** *** the parts of the function *)
  Lemma cached_plain : forallb label_char (cached N) = true.
  Proof.
    unfold cached. rewrite forallb_app. apply andb_true_iff. split; [reflexivity|]. apply forallb_forall. intros c I. apply Proofs_AggHash.ndec_digits in I.
    unfold label_char. assert (X : forall d, (d < 48 \/ 57 < d)%N -> N.eqb c d = false) by (intros d D; apply N.eqb_neq; lia).
    rewrite !X by lia. unfold surrogate. rewrite (proj2 (N.leb_gt _ _)) by lia. reflexivity.
  Qed.
  Lemma filter_code z d I i l : ident z = true -> l <> [] -> forallb textual l = true -> code d I i ->
    code true (filter_text srepr z I l) (filter_ast z i l).
  Proof.
    intros Z NE TL C. destruct (all_code None None z (AName z) (ident_code z Z) l NE TL) as [d' A].
    destruct l as [|e l]; [contradiction|]. unfold filter_text, filter_ast.
    eapply code_eq; [apply (gen_code true z (AName z) z I i (T " if " ++ all_text srepr None z (e :: l)) (Some (all_ast None (AName z) (e :: l)))); auto|].
    - now apply ident_code.
    - eapply code_lv; eauto. lia.
    - eexists. split; [reflexivity|]. eapply code_lv; eauto. lia.
    - now rewrite <- !app_assoc.
  Qed.
  Lemma filter_or z I i l : ident z = true -> forallb textual l = true -> code true I i -> code true (filter_text srepr z I l) (filter_ast z i l).
  Proof. intros Z TL C. destruct l as [|e l]; [exact C|]. eapply filter_code; eauto. discriminate. Qed.
  Lemma parts : each_part (fine cond) cs. Proof. now apply parts_fine. Qed.
  Lemma rfilters_textual : forallb textual (rfilters h cond) = true.
  Proof. pose proof parts as F. unfold each_part in F. apply part_textual. unfold rfilters. destruct (swapped h); apply F. Qed.
  Lemma lfilters_textual : forallb textual (lfilters h cond) = true.
  Proof. pose proof parts as F. unfold each_part in F. apply part_textual. unfold lfilters. destruct (swapped h); apply F. Qed.
  Ltac res := apply idents; unfold reserved; cbn; tauto.

  Lemma right_code : code true (right_text srepr N h cond) (right_ast N h cond).
  Proof.
    assert (R : code true (filter_text srepr (n_right N) (T "right") (rfilters h cond)) (filter_ast (n_right N) (nm "right") (rfilters h cond))).
    { apply filter_or; [res|apply rfilters_textual|now apply ident_code]. }
    unfold right_text, right_ast. destruct (how' h); auto.
    eapply code_eq; [apply (call_code (T "list") [filter_text srepr (n_right N) (T "right") (rfilters h cond)]); [reflexivity|]|reflexivity]. constructor; [eauto|constructor].
  Qed.
  Lemma label_code : code true (cache_text (T "right_collection") (right_text srepr N h cond)) (label_ast N h cond).
  Proof. eapply cache_code; [reflexivity|apply right_code]. Qed.
  Lemma arg_ident x : In x (all_args cond) -> ident x = true.
  Proof.
    unfold all_args. destruct cond as [e|]; [|intros []]. clear - TX. induction e using jx_ind'; intros I; try discriminate TX; try (destruct I; fail); cbn [jargs textual] in *.
    - destruct I as [<-|[]]. exact TX.
    - apply andb_true_iff in TX as [TX T2]. apply andb_true_iff in TX as [T0 T1]. apply in_app_iff in I as [I|I]; auto.
    - apply andb_true_iff in TX as [_ TX]. apply in_flat_map in I as (e & J & I). rewrite forallb_forall in TX. rewrite Forall_forall in H. eapply H; eauto.
    - apply andb_true_iff in TX as [_ TX]. apply in_flat_map in I as (e & J & I). rewrite forallb_forall in TX. rewrite Forall_forall in H. eapply H; eauto.
    - apply andb_true_iff in TX as [_ TX]. apply in_flat_map in I as (e & J & I). rewrite forallb_forall in TX. rewrite Forall_forall in H. eapply H; eauto.
    - apply andb_true_iff in TX as [_ TX]. apply in_flat_map in I as (e & J & I). rewrite forallb_forall in TX. rewrite Forall_forall in H. eapply H; eauto.
  Qed.
  Lemma index_idents : Forall (fun x => ident x = true) (index_args h cond).
  Proof.
    apply Forall_forall. intros x I. unfold index_args, sorted_args in I. apply Proofs_Code.in_sort, nodup_In, in_flat_map in I as (e & J & I).
    pose proof parts as F. unfold each_part in F. destruct F as (_ & _ & _ & _ & _ & _ & F & _). rewrite Forall_forall in F. apply arg_ident. now apply (F e J).
  Qed.
  Definition hash_text (inp : text) : text := cache_text (T "hash_to_items") (n_agg N ++ T "(" ++ intersperse (T ",") (inp :: index_args h cond) ++ T ")").
  Lemma names_codes l : Forall (fun x => ident x = true) l -> Forall2 (fun t a => exists d, code d t a) l (map AName l).
  Proof. induction 1 as [|x l H F IH]; constructor; auto. exists true. now apply ident_code. Qed.
  Lemma hash_code d inp i : code d inp i -> code true (hash_text inp) (hash_ast N h cond i).
  Proof.
    intros C. eapply cache_code; [reflexivity|]. apply call_code; [res|]. constructor; [eauto|]. apply names_codes, index_idents.
  Qed.
  Lemma head_code : code true (match left_hash cs with [] => cache_text (T "right_collection") (right_text srepr N h cond) | _ => hash_text (cache_text (T "right_collection") (right_text srepr N h cond)) end)
    (head_ast N h cond).
  Proof. unfold head_ast. destruct (left_hash cs); [apply label_code|]. eapply hash_code. apply label_code. Qed.

  Lemma left_text_is : left_text wordch srepr N h cond =
    filter_text srepr (n_left N) (T "(" ++ (match left_hash cs with [] => cache_text (T "right_collection") (right_text srepr N h cond) | _ => hash_text (cache_text (T "right_collection") (right_text srepr N h cond)) end)
      ++ T " and None or " ++ T "left" ++ T ")") (lfilters h cond).
  Proof.
    assert (F : forall z a l, l <> [] -> tattach wordch a (filter_text srepr z a l) = filter_text srepr z a l).
    { intros z a l NE. apply attach_sub. destruct l; [contradiction|]. unfold filter_text. do 5 apply Proofs_Code.Sub_r. apply Proofs_Code.Sub_l, Proofs_Code.Sub_refl. }
    assert (A : forall k e, tattach wordch (cache_text k e) (T "left") = T "(" ++ cache_text k e ++ T " and None or " ++ T "left" ++ T ")").
    { intros k e. apply attach_name; [apply cache_complex| |reflexivity]. now left. }
    assert (H : forall a, tattach wordch a (hash_text a) = hash_text a).
    { intros a. apply attach_sub. unfold hash_text, cache_text, add_text. rewrite <- !app_assoc. do 6 apply Proofs_Code.Sub_r. apply Proofs_Code.Sub_l. apply Proofs_Code.Sub_intersperse. now left. }
    unfold left_text, stages. cbn [app nest]. rewrite (attach_sub _ _ (Proofs_Code.Sub_refl _)).
    destruct (left_hash cs) as [|k ks] eqn:LH; cbn [app nest].
    - rewrite A. destruct (lfilters h cond) as [|e l] eqn:LF; cbn [nest]; [reflexivity|]. apply F. discriminate.
    - fold (hash_text (cache_text (T "right_collection") (right_text srepr N h cond))). rewrite H. unfold hash_text at 1. rewrite A. fold (hash_text (cache_text (T "right_collection") (right_text srepr N h cond))).
      destruct (lfilters h cond) as [|e l] eqn:LF; cbn [nest]; [reflexivity|]. apply F. discriminate.
  Qed.
  Lemma left_code : code true (left_text wordch srepr N h cond) (left_ast N h cond).
  Proof.
    rewrite left_text_is. apply filter_or; [res|apply lfilters_textual|]. eapply after_code; [apply head_code|]. now apply ident_code.
  Qed.

  Lemma right_items_code : code true (right_items_text wordch srepr N h cond) (ri_ast N h cond).
  Proof.
    pose proof parts as F. unfold each_part in F. destruct F as (_ & _ & _ & F & _). apply part_textual in F.
    pose proof (parts_sides (how' h) cond TX) as (_ & D & _). change (from_condition (how' h) cond) with cs in D.
    unfold right_items_text, ri_ast, row_key. destruct (left_hash cs) as [|k ks] eqn:LH; [now apply get_code|].
    assert (NE : k :: ks <> []) by discriminate. revert NE F D. clear LH. generalize (k :: ks) as l. clear k ks. intros ks NE F D.
    rewrite (key_simple ks NE D F).
    assert (LI : code true (T "(left_item)") (nm "left_item")).
    { apply (paren_code 1 (T "left_item")). apply (code_lv true); [lia|]. now apply ident_code. }
    destruct (key_code (T "(left_item)") (nm "left_item") ks LI NE F) as [d K].
    assert (G : forall kv v kc c kn n dv dc dn, code dv kv v -> code dc kc c -> code dn kn n ->
      code true (T "(" ++ index_text ++ T "[" ++ kv ++ T "] if (" ++ kc ++ T " in " ++ index_text ++ T ") else " ++ kn ++ T ")")
        (AIf (ACompare c [(T "in", get_ast (T "hash_to_items"))]) (ASub (get_ast (T "hash_to_items")) v) n)).
    { intros kv v kc c kn n dv dc dn Cv Cc Cn.
      assert (Ci : code true index_text (get_ast (T "hash_to_items"))) by now apply get_code.
      eapply code_eq; [apply (paren_code 0), (if_lv (T "(" ++ (kc ++ op_text_of "in" ++ index_text) ++ T ")") (ACompare c [(T "in", get_ast (T "hash_to_items"))]) (index_text ++ T "[" ++ kv ++ T "]") (ASub (get_ast (T "hash_to_items")) v) kn n)|].
      - eapply code_lv; [lia|]. eapply sub_code; eauto.
      - eapply code_lv; [lia|]. eapply (paren_code 4), (cmp_lv "in"); eauto. constructor.
      - eapply code_lv; [lia|eauto].
      - unfold op_text_of. repeat (rewrite <- ?app_assoc; cbn [app]). reflexivity. }
    unfold key_first, key_again, no_items. destruct (bare ks).
    - eapply G; eauto. apply ident_code. res.
    - eapply G; [apply get_code, cached_plain|eapply cache_code; [apply cached_plain|exact K]|].
      rewrite attach_name; [|apply get_complex|unfold get_text; apply in_app_iff; left; cbn; tauto|res].
      eapply after_code; [apply get_code, cached_plain|apply ident_code; res].
  Qed.
  Lemma if_code : opt_if (if_text srepr h cond) (if_ast h cond).
  Proof.
    pose proof (loop_fine h cond TX) as F. apply part_textual in F. unfold if_text, if_ast, item_names.
    destruct (loop_conds h cond) as [|e l]; [reflexivity|]. assert (NE : e :: l <> []) by discriminate.
    set (NT := if swapped h then (T "right_item", T "left_item") else (T "left_item", T "right_item")).
    set (NA := if swapped h then (nm "right_item", nm "left_item") else (nm "left_item", nm "right_item")).
    destruct (all_code (Some NT) (Some NA) [] none_ast) with (l := e :: l) as [d C]; auto.
    - unfold NT, NA, sides_code. destruct (swapped h); split; now apply ident_code.
    - cbn [opt_if]. eexists. split; [reflexivity|]. eapply code_lv; [lia|exact C].
  Qed.
  Definition made_ast (le : ast) : ast :=
    match how' h with
    | Inner => AComp2 (ATuple [nm "left_item"; nm "right_item"]) (T "left_item") le (T "right_item") (ri_ast N h cond) (if_ast h cond)
    | _ => rows_ast N h cond le
    end.
  Lemma last_code d le la : code d le la -> code true (last_stage wordch srepr N h cond le) (made_ast la).
  Proof.
    intros C. assert (L : lv 1 le la) by (eapply code_lv; [lia|exact C]).
    assert (R : lv 1 (right_items_text wordch srepr N h cond) (ri_ast N h cond)) by (eapply code_lv; [lia|apply right_items_code]).
    assert (X : how' h <> Inner -> last_stage wordch srepr N h cond le = T "((left_item, (right_item for right_item in " ++ right_items_text wordch srepr N h cond ++ if_text srepr h cond ++
        T ")) for left_item in " ++ le ++ T ")" /\ made_ast la = rows_ast N h cond la).
    { intros NE. unfold last_stage, made_ast. destruct (how' h); auto. contradiction. }
    assert (D : how' h = Inner \/ how' h <> Inner) by (destruct (how' h); auto; right; discriminate).
    destruct D as [E|E].
    - unfold last_stage, made_ast. rewrite E. eapply code_eq; [apply (paren_code 1); eapply code_lv; [lia|]; eapply (gen2_code true _ _ (T "left_item") le la (T "right_item")); [|reflexivity|exact L|reflexivity|exact R|apply if_code]|].
      + eapply (pair_code true (T "left_item") _ true (T "right_item")); now apply ident_code.
      + repeat (rewrite <- ?app_assoc; cbn [app]). reflexivity.
    - destruct (X E) as [-> ->]. unfold rows_ast, ones_ast.
      eapply code_eq; [eapply (gen_code true _ _ (T "left_item") le la [] None); [|reflexivity|exact L|reflexivity]|].
      + eapply (pair_code true (T "left_item") (nm "left_item") true); [now apply ident_code|].
        eapply (gen_code true (T "right_item") (nm "right_item") (T "right_item")); [now apply ident_code|reflexivity|exact R|apply if_code].
      + repeat (rewrite <- ?app_assoc; cbn [app]). reflexivity.
  Qed.
  Lemma pipe_code : code true (pipe_text wordch srepr N h cond) (made_ast (left_ast N h cond)).
  Proof.
    unfold pipe_text. cbn [nest]. rewrite attach_sub; [eapply last_code, left_code|].
    unfold last_stage. destruct (how' h); repeat (first [apply Proofs_Code.Sub_l, Proofs_Code.Sub_refl|apply Proofs_Code.Sub_r]).
  Qed.
  Lemma call1_code f d X x : ident f = true -> code d X x -> code true (f ++ T "(" ++ X ++ T ")") (ACall (AName f) [x] []).
  Proof. intros If C. apply (call_code f [X] [x] If). constructor; [eauto|constructor]. Qed.
  Lemma full_code : code true (full_text wordch srepr N h cond) (full_ast N h cond).
  Proof.
    pose proof pipe_code as C. unfold full_text, joined_text, full_ast, last_ast, made_ast in *. destruct (how' h).
    - exact C.
    - eapply call1_code; [res|exact C].
    - eapply call1_code; [res|exact C].
    - eapply code_eq; [eapply (kwcall_code (n_adder N) true _ _ (T "get_by_label_") (T "get_by_label_")); [res| |reflexivity|reflexivity]|].
      + eapply (call1_code (n_joiner N)); [res|exact C].
      + repeat (rewrite <- ?app_assoc; cbn [app]). reflexivity.
  Qed.

  (** *** the statements *)
  Fixpoint statements (ls : list (text * text)) (last : text) (b : list Spec_Source.stmt) : Prop :=
    match ls, b with
    | [], [SReturn a] => reads last a
    | (x, t) :: ls, SAssign y a :: b => x = y /\ ident x = true /\ reads t a /\ statements ls last b
    | _, _ => False
    end.
  Lemma statements_flat ls last b : statements ls last b ->
    forallb flat (map (fun l => ind ++ fst l ++ T " = " ++ snd l) ls ++ [T "    return " ++ last]) = true.
  Proof.
    revert b. induction ls as [|[x t] ls IH]; intros b S.
    - destruct b as [|[] [|]]; try contradiction S. cbn [statements] in S. cbn [map app forallb]. rewrite flat_app, (reads_flat _ _ S). reflexivity.
    - destruct b as [|[] b]; try contradiction S. cbn [statements] in S. destruct S as (_ & I & R & S). cbn [map app forallb fst snd]. rewrite (IH _ S), !flat_app, (ident_flat _ I), (reads_flat _ _ R). reflexivity.
  Qed.
  Lemma statements_block ls last b : statements ls last b ->
    block 1 (map (fun l => ind ++ fst l ++ T " = " ++ snd l) ls ++ [T "    return " ++ last; []]) b.
  Proof.
    revert b. induction ls as [|[x t] ls IH]; intros b S.
    - destruct b as [|[] [|]]; try contradiction S. cbn [statements] in S. cbn [map app]. apply (return_block 1 (T "    ")); [reflexivity|reflexivity|exact S|now apply blank_end].
    - destruct b as [|[] b]; try contradiction S. cbn [statements] in S. destruct S as (-> & I & R & S). cbn [map app fst snd]. eapply b_simple; [| |apply IH; exact S].
      + apply (indented_T 1 ind); [reflexivity|reflexivity|]. now apply ident_head.
      + now apply s_assign.
  Qed.
  Lemma pipe_ident k : k < 5 -> ident (n_pipe N k) = true.
  Proof. intros L. apply idents. unfold reserved. rewrite !in_app_iff. right. right. unfold stage_names. apply in_map. apply in_seq. lia. Qed.
  Lemma body_reads : statements (fst (body wordch srepr N h cond)) (snd (body wordch srepr N h cond)) (body_stmts N h cond).
  Proof.
    unfold body, body_stmts. pose proof parts as F. unfold each_part in F. destruct F as (_ & _ & _ & _ & _ & _ & _ & F). apply part_textual in F.
    assert (NM : forall k, k < 5 -> code true (n_pipe N k) (AName (n_pipe N k))) by (intros k L; now apply ident_code, pipe_ident).
    destruct (pre cs) as [|e l].
    - destruct (how' h) eqn:HW; try (cbn [fst snd statements]; eapply code_reads, full_code).
      assert (LAST : forall k, k < 5 -> reads (last_stage wordch srepr N h cond (n_pipe N k)) (last_ast N h cond (AName (n_pipe N k)))).
      { intros k L. pose proof (last_code _ _ _ (NM k L)) as C. unfold made_ast, last_ast in *. rewrite HW in *. eapply code_reads, C. }
      unfold pipe_stmts, stages. cbn [app assigns].
      assert (LEFT : forall k, k < 4 -> let '(ls, last) := assigns N k [] ([fun _ => T "left"] ++ match lfilters h cond with [] => [] | _ => [fun inp => filter_text srepr (n_left N) inp (lfilters h cond)] end) in
        statements ls (last_stage wordch srepr N h cond last) (left_stmts N h cond k)).
      { intros k L. unfold left_stmts. pose proof lfilters_textual as TL. destruct (lfilters h cond) as [|e l]; cbn [app assigns statements].
        - split; [reflexivity|]. split; [apply pipe_ident; lia|]. split; [eapply code_reads; now apply ident_code|apply LAST; lia].
        - split; [reflexivity|]. split; [apply pipe_ident; lia|]. split; [eapply code_reads; now apply ident_code|].
          split; [reflexivity|]. split; [apply pipe_ident; lia|]. split; [|apply LAST; lia].
          eapply code_reads, filter_or; [res|exact TL|]. apply NM. lia. }
      destruct (left_hash cs) as [|k ks] eqn:LH; cbn [app assigns].
      + specialize (LEFT 2 ltac:(lia)). cbn [app assigns] in LEFT. destruct (assigns N 3 _ _) as [ls last]. cbn [fst snd statements].
        split; [reflexivity|]. split; [apply pipe_ident; lia|]. split; [eapply code_reads, label_code|].
        split; [reflexivity|]. split; [apply pipe_ident; lia|]. split; [eapply code_reads, NM; lia|]. exact LEFT.
      + specialize (LEFT 3 ltac:(lia)). cbn [app assigns] in LEFT. destruct (assigns N 4 _ _) as [ls last]. cbn [fst snd statements].
        split; [reflexivity|]. split; [apply pipe_ident; lia|]. split; [eapply code_reads, label_code|].
        split; [reflexivity|]. split; [apply pipe_ident; lia|]. split; [eapply code_reads, NM; lia|].
        split; [reflexivity|]. split; [apply pipe_ident; lia|]. split; [|exact LEFT]. eapply code_reads, hash_code, NM. lia.
    - destruct (all_code None None (T "data_") (nm "data_") (ident_code (T "data_") eq_refl) (e :: l)) as [d C]; [discriminate|exact F|].
      assert (G : reads (T "(" ++ full_text wordch srepr N h cond ++ T " if " ++ all_text srepr None (T "data_") (e :: l) ++ T " else [])") (AIf (all_ast None (nm "data_") (e :: l)) (full_ast N h cond) (AList []))).
      { eapply code_reads. eapply code_eq; [apply (paren_code 0), (if_lv (all_text srepr None (T "data_") (e :: l)) (all_ast None (nm "data_") (e :: l)) (full_text wordch srepr N h cond) (full_ast N h cond) (T "[]") (AList []))|].
        - eapply code_lv; [lia|apply full_code].
        - eapply code_lv; [lia|exact C].
        - eapply code_lv; [lia|]. apply (list_shape [] []). constructor.
        - repeat (rewrite <- ?app_assoc; cbn [app]). reflexivity. }
      destruct (how' h); exact G.
  Qed.

  Lemma join_reads fd : f_params fd = T "left" :: T "right" :: cond_args cond -> f_kwonly fd = [] ->
    f_body fd = Proofs_Meaning.glob2 :: body_stmts N h cond ->
    reads_function (join_text wordch srepr N h cond) (n_fn N) fd.
  Proof.
    intros FP FK FB. pose proof body_reads as B. unfold join_text. destruct (body wordch srepr N h cond) as [ls last]. cbn [fst snd] in *.
    set (lns := map (fun l : text * text => ind ++ fst l ++ T " = " ++ snd l) ls ++ [T "    return " ++ last]).
    assert (Fl : forallb flat lns = true) by exact (statements_flat _ _ _ B).
    assert (FN : ident (n_fn N) = true) by res.
    assert (ID : Forall (fun x => ident x = true) (T "left" :: T "right" :: cond_args cond)).
    { constructor; [reflexivity|]. constructor; [reflexivity|]. apply Forall_forall. intros x I. apply arg_ident.
      unfold cond_args, all_args in *. destruct cond as [e|]; [|destruct I]. unfold sorted_args in I. apply Proofs_Code.in_sort, nodup_In in I. cbn [flat_map] in I. now rewrite app_nil_r in I. }
    assert (ND : NoDup (T "left" :: T "right" :: cond_args cond)).
    { assert (A : forall x, In x (cond_args cond) -> ~ In x (reserved N)).
      { intros x I. destruct CL as (_ & _ & A & _). apply A. unfold cond_args, all_args in *. destruct cond as [e|]; [|destruct I]. unfold sorted_args in I. apply Proofs_Code.in_sort, nodup_In in I. cbn [flat_map] in I. now rewrite app_nil_r in I. }
      constructor; [|constructor].
      - intros [E|I]; [discriminate E|]. apply (A _ I). now left.
      - intros I. apply (A _ I). right. now left.
      - unfold cond_args. destruct cond as [e|]; [|constructor]. unfold sorted_args. eapply Permutation_NoDup; [apply Permutation_sym, Proofs_Sourced.sort_perm|]. apply NoDup_nodup. }
    exists [[]], (global_line :: lns ++ [[]]). rewrite FP, FK, FB, !app_nil_r. repeat split; auto.
    - change (lines (nl ++ ?t)) with ([] :: lines t). cbn [app]. f_equal.
      rewrite lines_line by (apply def_flat; [exact FN|now apply idents_flat]). f_equal.
      rewrite lines_line by reflexivity. f_equal. change (lines (intersperse nl lns ++ nl) = lns ++ [[]]).
      assert (Hne : exists a r, lns = a :: r).
      { unfold lns. destruct (map _ ls); [eexists _, []; reflexivity|eexists _, _; reflexivity]. }
      destruct Hne as (a & r & El). rewrite El in Fl |- *.
      replace (intersperse nl (a :: r) ++ nl) with (intersperse nl (a :: r) ++ nl ++ []) by (rewrite app_nil_r; reflexivity).
      rewrite lines_join by exact Fl. reflexivity.
    - apply global_block; [reflexivity|]. unfold lns. rewrite <- app_assoc. now apply statements_block.
    - discriminate.
  Qed.
End Read.
