(** The texts of a converter and its helper functions, run by Python, compute the converter. *)
From Coq Require Import String Ascii List NArith ZArith Bool Arith Lia.
From Verif Require Import Model_Code Model_Eval Model_Converter Model_Source Spec_Frag Spec_Eval Spec_Converter
  Spec_Syntax Spec_Tree Spec_Source Spec_Writable Spec_Module Proofs_Code Proofs_Eval Proofs_Den Proofs_Scope
  Proofs_Lex Proofs_Tree Proofs_Writable Proofs_Converter Proofs_Meaning Proofs_Sourced Proofs_SourceText.
Import ListNotations.
Notation crun := Model_Converter.run.

Lemma params_incl c x : In x (kwargs_of c) -> In x (args_of c).
Proof. unfold kwargs_of. intros H. apply filter_In in H as [H _]. now apply in_params. Qed.
Lemma kwargs_NoDup c : NoDup (kwargs_of c).
Proof. apply NoDup_filter, params_NoDup. Qed.
Lemma stages_writable c : forall ii, writable ii c = true -> Forall (fun s => exists i, writable i s = true) (stages c).
Proof.
  induction c; intros ii W; cbn [stages]; try (constructor; [eauto|constructor]).
  cbn [writable] in W. ands. apply Forall_app. split; [eauto|]. constructor; [eauto|constructor].
Qed.
Lemma labels_stages c : forall s, In s (stages c) -> forall n, In n (labels_in s) -> In n (labels_in c).
Proof.
  induction c; intros s0 Hs y Hy; cbn [stages] in Hs; try (destruct Hs as [<-|[]]; exact Hy).
  apply in_app_or in Hs. cbn [labels_in]. apply in_or_app. destruct Hs as [Hs|[<-|[]]]; eauto.
Qed.

(** all but the last of the stages can be read by themselves; the last one, too,
    unless it is a generator ([u]) *)
Fixpoint sourced_to (u : bool) (l : list cv) : bool :=
  match l with
  | [] => true
  | s :: r => match r with [] => sourced u s | _ => sourced false s && sourced_to u r end
  end.
Lemma sourced_to_false l : forallb (sourced false) l = true -> sourced_to false l = true.
Proof.
  induction l as [|s [|s2 l] IH]; intros H; [reflexivity| |]; cbn [forallb] in H; ands; [assumption|].
  change (sourced false s && sourced_to false (s2 :: l) = true). apply andb_true_iff. split; [assumption|].
  apply IH. cbn [forallb]. apply andb_true_iff. auto.
Qed.

Section Fine.
  Variable key : text -> lname.
  Variable gname : nat -> text.
  Variable pnum : list nat -> nat.
  Variable loc fnm : text -> bool.
  Notation src := (src key pnum loc fnm).
  Notation readable := (readable gname pnum).
  Notation hfine := (hfine gname pnum).
  Definition fine_def (d : text * helper) : Prop := ident (fst d) = true /\ fnm (fst d) = true /\ hfine (snd d).
  Definition Fine (e : px) : Prop := forall inner bd, src inner bd e = true -> readable e = true -> Forall fine_def (defs e).

  Lemma fine_list l : Forall Fine l -> forall bd, forallb (src false bd) l = true -> forallb readable l = true ->
    Forall fine_def (flat_map defs l).
  Proof.
    induction 1 as [|e l He F IH]; intros bd S R; [constructor|]. cbn [forallb flat_map] in *. ands.
    apply Forall_app. split; eauto.
  Qed.
  Lemma fixed_defs l : forallb fixed l = true -> flat_map defs l = [].
  Proof.
    induction l as [|e l IH]; intros H; [reflexivity|]. cbn [forallb flat_map] in *. ands. rewrite IH by assumption.
    destruct e; try discriminate; reflexivity.
  Qed.
  Lemma plocal_params f l : plocal loc fnm f l = true ->
    Forall (fun x => ident x = true) l /\ NoDup l /\ fnm f = true.
  Proof.
    intros H. unfold plocal in H. ands. repeat split; auto.
    - apply Forall_forall. now apply forallb_forall.
    - now apply distinct_NoDup.
  Qed.

  Lemma all_fine e : Fine e.
  Proof.
    induction e using px_ind2; intros inner bd S R; cbn [Proofs_Meaning.src Spec_Tree.readable defs] in *; ands; try constructor; eauto.
    - destruct (is_sort o) eqn:Eo.
      + assert (HS : match l with a :: r => src true bd a && forallb fixed r | [] => false end = true).
        { destruct o; try discriminate Eo; assumption. }
        destruct l as [|a r]; [discriminate|]. cbn [forallb flat_map] in *. ands. rewrite fixed_defs, app_nil_r by assumption.
        inversion H; subst. eauto.
      + eapply fine_list; eauto. destruct o; try discriminate Eo; eassumption.
    - eapply fine_list; eauto.
    - eapply fine_list; eauto.
    - repeat (apply Forall_app; split); eauto.
    - apply Forall_app; split; eauto.
    - repeat (apply Forall_app; split); eauto.
      + eapply fine_list; eauto.
      + destruct co as [c|]; [|constructor]. cbn in H0. eapply H0; eauto.
    - match goal with Q : plocal _ _ _ _ = true |- _ => destruct (plocal_params _ _ Q) as (Hi & Hn & Hf) end.
      repeat (apply Forall_app; split); eauto.
      + eapply fine_list; eauto.
      + constructor; [|constructor]. repeat split; auto.
    - match goal with Q : plocal _ _ _ _ = true |- _ => destruct (plocal_params _ _ Q) as (Hi & Hn & Hf) end.
      repeat (apply Forall_app; split); eauto.
      + eapply fine_list; eauto.
      + match goal with Q : forallb (fun l => _ && src _ _ (snd l)) ls = true |- _ => revert Q end.
        match goal with Q : forallb (fun l => _ && readable (snd l)) ls = true |- _ => revert Q end. clear - H0.
        induction H0 as [|[co v] ls [Hc Hv] F IH]; intros Rl Sl; [constructor|]. cbn [forallb flat_map fst snd] in *. ands.
        apply Forall_app. split; [|auto]. apply Forall_app. split; [eauto|]. destruct co as [c|]; [|constructor].
        cbn in Hc. eauto.
      + constructor; [|constructor]. repeat split; auto.
        * intros ->. discriminate.
        * apply Forall_forall. intros l0 I.
          match goal with Q : forallb (fun l => _ && readable (snd l)) ls = true |- _ => rewrite forallb_forall in Q; specialize (Q l0 I) end.
          ands. split; [destruct (fst l0); auto|assumption].
    - match goal with Q : plocal _ _ _ _ = true |- _ => destruct (plocal_params _ _ Q) as (Hi & Hn & Hf) end.
      repeat (apply Forall_app; split); eauto.
      + eapply fine_list; eauto.
      + match goal with Q : forallb (fun s => stmt_ok s && _) ls = true |- _ => revert Q end.
        match goal with Q : forallb (fun s => forallb readable (snd s)) ls = true |- _ => revert Q end. clear - H0.
        induction H0 as [|s ls Hs F IH]; intros Rl Sl; [constructor|]. cbn [forallb flat_map] in *. ands.
        apply Forall_app. split; [|auto]. eapply fine_list; eauto.
      + constructor; [|constructor]. repeat split; auto.
        apply Forall_forall. intros s I.
        match goal with Q : forallb (fun s => stmt_ok s && _) ls = true |- _ => rewrite forallb_forall in Q; specialize (Q s I) end.
        match goal with Q : forallb (fun s => forallb readable (snd s)) ls = true |- _ => rewrite forallb_forall in Q; specialize (Q s I) end.
        ands. auto.
  Qed.
End Fine.

Lemma find_none (tab : table) x : (forall f fd, In (f, fd) tab -> f <> x) -> find_def tab x = None.
Proof.
  induction tab as [|[g fd] tab IH]; intros H; [reflexivity|]. cbn [find_def].
  destruct (teqb x g) eqn:E; [apply teqb_eq in E; subst; exfalso; eapply H; [now left|reflexivity]|].
  apply IH. intros f fd' I. eapply H. right. exact I.
Qed.
Lemma find_rev {B} (g : B -> func) (l : list (text * B)) f b :
  (forall b', In (f, b') l -> b' = b) -> In (f, b) l ->
  find_def (rev (map (fun d => (fst d, g (snd d))) l)) f = Some (g b).
Proof.
  intros U I.
  assert (H : forall t : table, (forall fd, In (f, fd) t -> fd = g b) -> In f (map fst t) -> find_def t f = Some (g b)).
  { induction t as [|[h fd] t IH]; intros Ut It; [destruct It|]. cbn [find_def].
    destruct (teqb f h) eqn:E.
    - apply teqb_eq in E; subst. f_equal. apply Ut. now left.
    - apply teqb_ne in E. apply IH; [intros fd' J; apply Ut; now right|].
      destruct It as [J|J]; [cbn in J; congruence|exact J]. }
  apply H.
  - intros fd J. apply in_rev in J. apply in_map_iff in J as ([f' b'] & E & J). inversion E; subst. f_equal. now apply U.
  - rewrite map_rev. apply -> in_rev. rewrite map_map. apply in_map_iff. exists (f, b). split; auto.
Qed.

Section Assembly.
  Context {V W X : Type}.
  Variable pr : prims V W X.
  Variable glob : text -> option V.
  Variable key : text -> lname.
  Variable printable : N -> bool.
  Variables (wordch : N -> bool) (gname : nat -> text) (pnum : list nat -> nat)
            (pname : text -> text) (hname : list nat -> text) (tname : text -> text).
  Variable name : text.
  Variable c : cv.
  Variable role_of : text -> role.
  Notation srepr := (py_repr printable).
  Notation gen := (gen wordch srepr gname pnum pname hname).
  Notation body := (body wordch srepr gname pnum pname hname tname).
  Notation converter := (converter wordch srepr gname pnum pname hname tname).
  Notation print := (print srepr gname pnum).
  Notation tree := (tree gname pnum).
  Notation readable := (readable gname pnum).
  Notation hfunc := (hfunc gname pnum).
  Notation label := (label_text pnum).
  Notation env := (list (text * V)).
  Notation M := (@M V W X).
  Definition loc (x : text) : bool := role_eqb (role_of x) Local.
  Definition fnm (x : text) : bool := role_eqb (role_of x) Helper.
  Notation src := (src key pnum loc fnm).

  Hypothesis PO : printable_ok printable.
  Hypothesis NA : names_apart gname pname hname tname name (args_of c) role_of.
  Hypothesis NP : names_plain gname pname hname.
  Hypothesis Hname : ident name = true.
  Hypothesis Ht : forall t, ident (tname t) = true.
  Hypothesis Hw : writable false c = true.
  Variable u : bool.
  Hypothesis Hs : sourced_to u (stages c) = true.
  Hypothesis Hdata : ~ In (T "data_") (args_of c).
  Hypothesis HP : forall q, key (label (P q)) = P q.
  Hypothesis HL : forall n, In n (labels_in c) -> key (label n) = n.
  Notation cdefs := (converter_defs wordch srepr gname pnum pname hname tname c).
  Hypothesis NC : forall f h h', In (f, h) cdefs -> In (f, h') cdefs -> h = h'.

  Lemma loc_role x : loc x = true <-> role_of x = Local.
  Proof. unfold loc. destruct (role_of x); cbn; split; congruence. Qed.
  Lemma fnm_role x : fnm x = true <-> role_of x = Helper.
  Proof. unfold fnm. destruct (role_of x); cbn; split; congruence. Qed.

  Fixpoint stmts_src (bd : list text) (ls : list (text * px)) (last : px) : Prop :=
    match ls with
    | [] => src u bd last = true
    | (x, e) :: r => src false bd e = true /\ loc x = true /\ stmts_src (x :: bd) r last
    end.
  Definition stage_ok (bd : list text) (s : cv) : Prop :=
    okl pnum key s /\ okn loc bd s /\ exists i, writable i s = true.
  Lemma stage_ok_more bd x s : stage_ok bd s -> stage_ok (x :: bd) s.
  Proof. intros (B & C & D). repeat split; auto; try apply C; auto. right. now apply C. Qed.

  Lemma body_src l : forall i x bd, Forall (stage_ok bd) l -> sourced_to u l = true -> In x bd ->
    stmts_src bd (fst (body i x l)) (snd (body i x l)).
  Proof.
    assert (HX : forall x bd, In x bd -> src false bd (PName x) = true) by (intros x bd I; cbn [Proofs_Meaning.src]; now apply mem_in).
    induction l as [|s l IH]; intros i x bd F SO I; cbn [Model_Converter.body fst snd stmts_src]; [apply src_any; auto|].
    inversion F as [|? ? (S2 & S3 & _) F']; subst.
    assert (G : forall u', sourced u' s = true -> src u' bd (gen false [i] s (PName x)) = true).
    { intros u' S1. apply gen_src; auto; try discriminate.
      - intros y J. apply loc_role, (na_params _ _ _ _ _ _ _ NA), J.
      - intros t. apply loc_role, (na_p _ _ _ _ _ _ _ NA).
      - intros q. apply fnm_role, (na_h _ _ _ _ _ _ _ NA). }
    destruct l as [|s2 l]; [apply G; exact SO|].
    assert (SO' : sourced false s = true /\ sourced_to u (s2 :: l) = true) by (now apply andb_true_iff). destruct SO' as [SO1 SO2].
    specialize (IH (S i) (tname x) (tname x :: bd)).
    destruct (body (S i) (tname x) (s2 :: l)) as [ls last] eqn:E. cbn [fst snd stmts_src] in *.
    repeat split; auto.
    - apply loc_role, (na_t _ _ _ _ _ _ _ NA).
    - apply IH; [|exact SO2|now left]. eapply Forall_impl; [|exact F']. intros a. apply stage_ok_more.
  Qed.
  Definition line_readable (l : text * px) : Prop := ident (fst l) = true /\ readable (snd l) = true.
  Lemma body_readable l : forall i x bd, Forall (stage_ok bd) l -> ident x = true ->
    Forall line_readable (fst (body i x l)) /\ readable (snd (body i x l)) = true.
  Proof.
    induction l as [|s l IH]; intros i x bd F I; cbn [Model_Converter.body fst snd]; [split; [constructor|exact I]|].
    inversion F as [|? ? (_ & _ & ii & S4) F']; subst.
    assert (G : readable (gen false [i] s (PName x)) = true).
    { apply (gen_readable wordch srepr gname pnum pname hname NP s false [i] (PName x) ii); auto. discriminate. }
    destruct l as [|s2 l]; [split; [constructor|exact G]|].
    specialize (IH (S i) (tname x) bd F' (Ht x)).
    destruct (body (S i) (tname x) (s2 :: l)) as [ls last] eqn:E. cbn [fst snd] in *. destruct IH as [IH1 IH2].
    split; [constructor; [split; [apply Ht|exact G]|exact IH1]|exact IH2].
  Qed.

  Definition bd0 : list text := T "data_" :: args_of c.
  Lemma stages_ok : Forall (stage_ok bd0) (stages c).
  Proof.
    apply Forall_forall. intros s I. repeat split.
    - intros n J. apply HL. eapply labels_stages; eauto.
    - right. eapply args_stages; eauto.
    - apply loc_role, (na_args _ _ _ _ _ _ _ NA). eapply args_stages; eauto.
    - pose proof (args_ident c false Hw) as A. rewrite Forall_forall in A. apply A. eapply args_stages; eauto.
    - intros ->. apply Hdata. eapply args_stages; eauto.
    - pose proof (stages_writable c false Hw) as A. rewrite Forall_forall in A. now apply A.
  Qed.
  Lemma conv_src : stmts_src bd0 (fst (converter c)) (snd (converter c)).
  Proof. apply body_src; [apply stages_ok|exact Hs|now left]. Qed.
  Lemma conv_readable : Forall line_readable (fst (converter c)) /\ readable (snd (converter c)) = true.
  Proof. apply body_readable with bd0; [apply stages_ok|reflexivity]. Qed.

  Lemma conv_fine : Forall (fine_def gname pnum fnm) cdefs.
  Proof.
    unfold converter_defs. destruct conv_readable as [R1 R2]. pose proof conv_src as S. revert R1 R2 S.
    generalize bd0. destruct (converter c) as [ls last]. cbn [fst snd].
    induction ls as [|[x e] ls IH]; intros bd R1 R2 S; cbn [flat_map stmts_src fst snd app] in *.
    - eapply all_fine; eauto.
    - destruct S as (S1 & S2 & S3). inversion R1 as [|? ? [R3 R4] R5]; subst. rewrite <- app_assoc. apply Forall_app. split.
      + eapply all_fine; eauto.
      + eapply IH; eauto.
  Qed.

  (** *** the functions defined *)
  Definition conv_func : func :=
    {| f_params := [T "data_"]; f_kwonly := kwargs_of c;
       f_body := glob2 :: map (fun l => SAssign (fst l) (tree (snd l))) (fst (converter c)) ++
                 [SReturn (tree (snd (converter c)))] |}.
  Definition helper_table : table := rev (map (fun d => (fst d, hfunc (snd d))) cdefs).
  Definition module_table : table := (name, conv_func) :: helper_table.

  Lemma kwargs_ident : Forall (fun x => ident x = true) (T "data_" :: kwargs_of c).
  Proof.
    constructor; [reflexivity|]. pose proof (args_ident c false Hw) as A. rewrite Forall_forall in *. intros x I.
    apply A. now apply params_incl.
  Qed.
  Lemma kwargs_nodup : NoDup (T "data_" :: kwargs_of c).
  Proof. constructor; [|apply kwargs_NoDup]. intros I. now apply Hdata, params_incl. Qed.

  Lemma conv_reads : reads_function (converter_text wordch srepr gname pnum pname hname tname name c) name conv_func.
  Proof.
    destruct conv_readable as [R1 R2]. unfold converter_text, converter_source.
    set (lns := map (fun l : text * px => ind ++ fst l ++ T " = " ++ print (snd l)) (fst (converter c)) ++
                [T "    return " ++ print (snd (converter c))]).
    exists [[]], (global_line :: lns ++ [[]]).
    assert (Fl : forallb flat lns = true).
    { unfold lns. rewrite forallb_app. apply andb_true_iff. split.
      - apply forallb_forall. intros t I. apply in_map_iff in I as (l & <- & I). rewrite Forall_forall in R1.
        destruct (R1 l I) as [H1 H2]. rewrite !flat_app, (ident_flat _ H1), print_flat by auto. reflexivity.
      - cbn [forallb]. rewrite flat_app, print_flat by auto. reflexivity. }
    repeat split; auto.
    - change (lines (nl ++ ?t)) with ([] :: lines t). cbn [app]. f_equal.
      rewrite lines_line.
      2:{ apply def_flat; [exact Hname|]. unfold signature_params. pose proof (idents_flat _ kwargs_ident) as K.
          cbn [forallb] in *. apply andb_true_iff in K as [K1 K2]. rewrite K1. cbn [andb].
          destruct (kwargs_of c); [reflexivity|]. exact K2. }
      f_equal; [cbn [f_params f_kwonly conv_func]; unfold def_line, signature_params; destruct (kwargs_of c); reflexivity|].
      rewrite lines_line by reflexivity. f_equal. change (lines (intersperse nl lns ++ nl) = lns ++ [[]]).
      assert (Hne : exists a r, lns = a :: r).
      { unfold lns. destruct (map _ (fst (converter c))); [eexists _, []; reflexivity|eexists _, _; reflexivity]. }
      destruct Hne as (a & r & El). rewrite El in Fl |- *.
      replace (intersperse nl (a :: r) ++ nl) with (intersperse nl (a :: r) ++ nl ++ []) by (rewrite app_nil_r; reflexivity).
      rewrite lines_join by exact Fl. reflexivity.
    - exact kwargs_ident.
    - exact kwargs_nodup.
    - apply global_block; [reflexivity|]. unfold lns. rewrite <- app_assoc. clear Fl. clearbody lns || idtac.
      induction R1 as [|[x e] ls [H1 H2] F IH].
      + cbn [map app]. apply (return_block 1 (T "    ")); [reflexivity|reflexivity|now apply readable_reads|now apply blank_end].
      + cbn [map app fst snd]. eapply b_simple; [| |exact IH].
        * apply (indented_T 1 ind); [reflexivity|reflexivity|]. now apply ident_head.
        * apply s_assign; [exact H1|now apply readable_reads].
    - discriminate.
  Qed.

  Lemma module_defines : defines (module_texts wordch srepr gname pnum pname hname tname name c) module_table.
  Proof.
    unfold module_texts, module_table. apply d_more; [|apply conv_reads].
    unfold helper_texts, helper_table. pose proof conv_fine as F.
    revert F. generalize cdefs as l0. intros l0. induction l0 as [|d l IH] using rev_ind; intros F; [constructor|].
    apply Forall_app in F as [F1 F2]. inversion F2 as [|? ? (I & _ & H) _]; subst.
    rewrite !map_app, rev_app_distr. cbn [map rev app]. apply d_more; [now apply IH|]. now apply helper_reads.
  Qed.

  (** *** what they compute *)
  Lemma helper_names f fd : In (f, fd) helper_table -> role_of f = Helper.
  Proof.
    unfold helper_table. intros I. apply in_rev in I. apply in_map_iff in I as ([g h] & E & I). inversion E; subst.
    pose proof conv_fine as F. rewrite Forall_forall in F. destruct (F _ I) as (_ & H & _). now apply fnm_role.
  Qed.
  Lemma not_defined x : role_of x <> Helper -> role_of x <> Converter -> find_def module_table x = None.
  Proof.
    intros H1 H2. apply find_none. intros f fd [E|I] <-.
    - inversion E; subst. apply H2, (na_name _ _ _ _ _ _ _ NA).
    - apply H1. eapply helper_names. exact I.
  Qed.
  Lemma module_known : known module_table gname pnum cdefs.
  Proof.
    intros f h I. unfold module_table. cbn [find_def]. destruct (teqb f name) eqn:E.
    - exfalso. apply teqb_eq in E. subst. pose proof conv_fine as F. rewrite Forall_forall in F.
      destruct (F _ I) as (_ & H & _). apply fnm_role in H. cbn [fst] in H. rewrite (na_name _ _ _ _ _ _ _ NA) in H. discriminate.
    - apply find_rev; auto. intros h' J. eapply NC; eauto.
  Qed.

  Hypothesis Hglob : forall g, glob (gname g) = Some (globv pr g).
  Hypothesis Hb : builtins_ok pr glob.
  Hypothesis Hpy : py_ok pr.
  Hypothesis Htests : tests_ok pr.
  Notation comp := (comp pr glob key module_table).

  Lemma main e : Main pr glob key module_table gname pnum loc fnm e.
  Proof.
    apply all_main; auto.
    - intros x L. apply loc_role in L. repeat split.
      + intros I. apply (na_reserved _ _ _ _ _ _ _ NA) in I. congruence.
      + intros g E. pose proof (na_g _ _ _ _ _ _ _ NA g). congruence.
      + apply not_defined; congruence.
    - intros g. pose proof (na_g _ _ _ _ _ _ _ NA g) as G. repeat split; auto.
      + apply not_defined; congruence.
      + intros E. rewrite E, (na_reserved _ _ _ _ _ _ _ NA) in G by now left. discriminate.
      + intros E. rewrite E, (na_reserved _ _ _ _ _ _ _ NA) in G by (right; now left). discriminate.
    - intros x I. apply (na_reserved _ _ _ _ _ _ _ NA) in I. apply not_defined; congruence.
    - apply Hpy.
  Qed.

  Hypothesis Hself : ~ In (T "self") (args_of c).
  Hypothesis Hcls : ~ In (T "cls") (args_of c).
  Lemma kwargs_args x : In x (kwargs_of c) <-> In x (args_of c).
  Proof.
    split; [apply params_incl|]. intros I. unfold kwargs_of. apply filter_In. split; [now apply in_params|].
    apply negb_true_iff, orb_false_iff. split; apply teqb_ne; intros ->; contradiction.
  Qed.
  Lemma assigned_lines ls last :
    assigned (glob2 :: map (fun l : text * px => SAssign (fst l) (tree (snd l))) ls ++ [SReturn last]) = map fst ls.
  Proof.
    unfold assigned. cbn [flat_map app glob2]. induction ls as [|l ls IH]; [reflexivity|].
    cbn [map flat_map app]. now rewrite IH.
  Qed.
  Lemma locals_scoped : scoped loc bd0 (locals conv_func).
  Proof.
    split.
    - intros x [<-|I]; [now left|]. unfold locals. cbn [f_params f_kwonly conv_func app]. right. apply in_or_app. left. now apply kwargs_args.
    - intros x I. apply loc_role. unfold locals in I. cbn [f_params f_kwonly f_body conv_func] in I. rewrite assigned_lines in I. cbn [app] in I.
      destruct I as [<-|I]; [apply (na_params _ _ _ _ _ _ _ NA); now left|].
      apply in_app_or in I as [I|I]; [apply (na_args _ _ _ _ _ _ _ NA); now apply kwargs_args|].
      pose proof conv_src as S. revert S I. generalize bd0. destruct (converter c) as [ls last]. cbn [fst snd].
      induction ls as [|[y e] ls IH]; intros bd S I; [destruct I|]. cbn [stmts_src map fst] in *.
      destruct S as (_ & S2 & S3). destruct I as [<-|I]; [now apply loc_role|eauto].
  Qed.
  Lemma assigned_local l : In l (fst (converter c)) -> In (fst l) (locals conv_func).
  Proof.
    intros I. unfold locals. cbn [f_params f_kwonly f_body conv_func]. rewrite assigned_lines. apply in_or_app. right.
    apply in_or_app. right. now apply in_map.
  Qed.
  Lemma not_generator : is_generator conv_func = false.
  Proof.
    unfold is_generator. cbn [f_body conv_func existsb yields glob2 orb]. rewrite existsb_app. cbn [existsb yields orb].
    rewrite orb_false_r. generalize (fst (converter c)). intros ls. induction ls as [|l ls IH]; [reflexivity|]. exact IH.
  Qed.
  Lemma args_bound (v : V) args : (forall x, In x (args_of c) <-> In x (map fst args)) -> bound bd0 ((T "data_", v) :: args).
  Proof.
    intros HA x [<-|I].
    - exists v. cbn [lookup]. destruct (text_eq_dec _ _); congruence.
    - apply HA in I. apply in_map_iff in I as ([y w] & <- & I). cbn [lookup fst].
      destruct (text_eq_dec y (T "data_")); [eauto|]. destruct (lookup_in y w args I) as [w' U]. eauto.
  Qed.
  Lemma kwargs_passed {B} (args : list (text * B)) : (forall x, In x (args_of c) <-> In x (map fst args)) ->
    forallb (fun k => mem k (map fst args)) (kwargs_of c) && forallb (fun k => mem (fst k) (kwargs_of c)) args = true.
  Proof.
    intros HA. apply andb_true_iff. split; apply forallb_forall.
    - intros x I. apply mem_in, HA. now apply kwargs_args.
    - intros k I. apply mem_in, kwargs_args, HA. now apply in_map.
  Qed.

  Hypothesis Hu : u = false.
  Lemma exec_like last : forall ls sc bd, scoped loc bd sc -> (forall l, In l ls -> In (fst l) sc) ->
    stmts_src bd ls last -> known module_table gname pnum (flat_map (fun l => defs (snd l)) ls ++ defs last) ->
    exists n0, forall n, n0 <= n -> exists m,
      exec pr (comp n sc) (map (fun l => SAssign (fst l) (tree (snd l))) ls ++ [SReturn (tree last)]) = Some m /\
      forall E, bound bd E -> meq (m E) (crun pr E ls last).
  Proof.
    induction ls as [|[x e] ls IH]; intros sc bd Sc HI S K; cbn [stmts_src flat_map fst snd map app] in *.
    - rewrite Hu in S. destruct (main last sc bd Sc S K) as [n0 N]. exists n0. intros n Hn. destruct (N n Hn) as (m & Em & Lm).
      exists m. split; [exact Em|exact Lm].
    - destruct S as (S1 & S2 & S3). rewrite <- app_assoc in K. apply known_app in K as [K1 K2].
      destruct (main e sc bd Sc S1 K1) as [n1 N1].
      destruct (IH sc (x :: bd)) as [n2 N2]; auto.
      { destruct Sc as [A B]. split; [|exact B]. intros y [<-|J]; [apply (HI (x, e)); now left|now apply A]. }
      { intros l I. apply HI. now right. }
      exists (Nat.max n1 n2). intros n Hn. destruct (N1 n ltac:(lia)) as (m1 & E1 & L1), (N2 n ltac:(lia)) as (m2 & E2 & L2).
      cbn [exec]. rewrite E1, E2. eexists. split; [reflexivity|]. intros E B. cbn [crun].
      apply bind_meq; [now apply L1|]. intros v. apply L2. now apply bound_more.
  Qed.

  Theorem module_runs :
    exists n0, forall n, n0 <= n -> forall v args,
      (forall x, In x (args_of c) <-> In x (map fst args)) -> exists m,
      call_function pr glob key module_table n conv_func [v] args = Some m /\
      meq m (call_converter wordch srepr gname pnum pname hname tname pr c args v).
  Proof.
    destruct (exec_like (snd (converter c)) (fst (converter c)) (locals conv_func) bd0 locals_scoped assigned_local conv_src module_known)
      as [n0 N].
    exists n0. intros n Hn v args HA. destruct (N n Hn) as (m & Em & Lm).
    exists (m ((T "data_", v) :: args)). split; [|apply Lm, args_bound, HA].
    unfold call_function. rewrite not_generator. change (f_params conv_func) with [T "data_"]. change (f_kwonly conv_func) with (kwargs_of c).
    cbn [length Nat.eqb negb andb]. rewrite (kwargs_passed args HA).
    change (exec pr (comp n (locals conv_func)) (f_body conv_func)) with
      (exec pr (comp n (locals conv_func)) (map (fun l => SAssign (fst l) (tree (snd l))) (fst (converter c)) ++
         [SReturn (tree (snd (converter c)))])).
    rewrite Em. reflexivity.
  Qed.
End Assembly.
