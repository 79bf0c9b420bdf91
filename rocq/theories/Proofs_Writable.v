(** Generated code is well-formed. *)
From Coq Require Import String Ascii List NArith ZArith Bool Arith Lia.
From Verif Require Import Model_Code Spec_Frag Spec_Syntax Spec_Tree Spec_Writable Proofs_Code Proofs_Lex.
Import ListNotations.

Ltac ands := repeat match goal with H : _ && _ = true |- _ => apply andb_true_iff in H as [? ?] end.

Section Writable.
  Variable wordch : N -> bool.
  Variable srepr : text -> text.
  Variable gname : nat -> text.
  Variable pnum : list nat -> nat.
  Variable pname : text -> text.
  Variable hname : list nat -> text.
  Hypothesis NP : names_plain gname pname hname.
  Notation gen := (gen wordch srepr gname pnum pname hname).
  Notation gens := (gens wordch srepr gname pnum pname hname).
  Notation print := (print srepr gname pnum).
  Notation attach := (attach wordch srepr gname pnum).
  Notation fin := (fin wordch srepr gname pnum).
  Notation readable := (readable gname pnum).
  Notation label := (label_text pnum).

  Lemma digits_plain f n : forallb label_char (digits f n) = true.
  Proof.
    assert (D : forall d, (d < 10)%N -> label_char (48 + d) = true).
    { intros d H. assert (E : (d = 0 \/ d = 1 \/ d = 2 \/ d = 3 \/ d = 4 \/ d = 5 \/ d = 6 \/ d = 7 \/ d = 8 \/ d = 9)%N) by lia.
      destruct E as [->|[->|[->|[->|[->|[->|[->|[->|[->| ->]]]]]]]]]; reflexivity. }
    revert n; induction f as [|f IH]; intros n; [reflexivity|]. cbn [digits].
    destruct (n <? 10)%N eqn:E.
    - apply N.ltb_lt in E. cbn [forallb]. now rewrite D.
    - rewrite forallb_app, IH. cbn [forallb]. rewrite D; [reflexivity|]. apply N.mod_lt. discriminate.
  Qed.
  Lemma label_plain n : lab_ok n = true -> forallb label_char (label n) = true.
  Proof.
    destruct n; cbn [lab_ok label_text]; [auto| |]; intros _; rewrite forallb_app; unfold ndec; rewrite digits_plain; reflexivity.
  Qed.

  Lemma attach_readable a r : readable a = true -> readable r = true -> readable (attach a r) = true.
  Proof.
    intros A R. destruct (attach_cases wordch srepr gname pnum a r) as [-> | ->]; auto.
    cbn [Spec_Tree.readable]. now rewrite A, R.
  Qed.
  Lemma attach_int a r : is_int (attach a r) = true -> is_int r = true.
  Proof. destruct (attach_cases wordch srepr gname pnum a r) as [-> | ->]; auto. discriminate. Qed.
  Lemma fin_readable fed a r : readable a = true -> readable r = true -> readable (fin fed a r) = true.
  Proof. destruct fed; cbn [Proofs_Code.fin]; auto using attach_readable. Qed.
  Lemma fin_int fed a r : is_int (fin fed a r) = true -> is_int r = true.
  Proof. destruct fed; cbn [Proofs_Code.fin]; eauto using attach_int. Qed.

  Lemma attr_code_int a n : is_int (attr_code a n) = false.
  Proof. destruct (attr_code_cases a n) as [(s & -> & ->) | ->]; reflexivity. Qed.

  Lemma gen_int fed q c : forall inp ii, (is_int inp = true -> ii = true) ->
    is_int (gen fed q c inp) = true -> intlike ii c = true.
  Proof.
    revert fed q; induction c using cv_ind'; intros fed q inp ii Hi Hg;
      try (apply fin_int in Hg; try discriminate Hg).
    - exact (Hi Hg).
    - destruct l; try discriminate Hg; reflexivity.
    - rewrite attr_code_int in Hg. discriminate.
    - rewrite gen_CPipe in Hg. apply attach_int in Hg. cbn [intlike].
      eapply IHc2; [|exact Hg]. intros Ha. eapply IHc1; [exact Hi|exact Ha].
  Qed.

  Definition okc (c : cv) : Prop := forall fed q inp ii,
    writable ii c = true -> readable inp = true -> (is_int inp = true -> ii = true) ->
    readable (gen fed q c inp) = true.

  Lemma gens_readable l ii inp : Forall okc l -> forallb (writable ii) l = true -> readable inp = true ->
    (is_int inp = true -> ii = true) -> forall q j, forallb readable (gens q j l inp) = true.
  Proof.
    intros F W R I. induction F as [|c l H F IH]; intros q j; [reflexivity|].
    cbn [forallb] in W. ands. cbn [Proofs_Code.gens forallb].
    rewrite (H false (j :: q) inp ii) by assumption. now apply IH.
  Qed.
  Lemma opt_readable o ii inp q : optP okc o -> optb (writable ii) o = true -> readable inp = true ->
    (is_int inp = true -> ii = true) -> readable (match o with None => inp | Some c => gen true q c inp end) = true.
  Proof. destruct o as [c|]; cbn [optP optb]; auto. intros H W R I. now apply (H true q inp ii). Qed.
  Lemma gens_head l ii inp q j : (is_int inp = true -> ii = true) ->
    negb (match l with a :: _ => intlike ii a | [] => false end) = true ->
    negb (base_int (gens q j l inp)) = true.
  Proof.
    intros I H. destruct l as [|c l]; [reflexivity|]. cbn [Proofs_Code.gens base_int].
    destruct (is_int (gen false (j :: q) c inp)) eqn:E; [|reflexivity].
    apply (gen_int false (j :: q) c inp ii I) in E. rewrite E in H. discriminate.
  Qed.
  Lemma valid_attr_wordy s : valid_attr s = true -> wordy s = true.
  Proof.
    destruct s as [|c s]; [discriminate|]. cbn [valid_attr wordy]. intros H. ands.
    apply andb_true_iff; split.
    - unfold is_alpha. unfold ascii_alpha in H. now rewrite H.
    - revert H0. clear. induction s as [|d s IH]; [reflexivity|]. cbn [forallb]. intros H. ands.
      rewrite IH by assumption. rewrite andb_true_r. unfold is_ident, is_alpha, is_digit. unfold ascii_alpha in H.
      destruct ((65 <=? d)%N && (d <=? 90)%N || (97 <=? d)%N && (d <=? 122)%N); [reflexivity|].
      destruct (48 <=? d)%N, (d <=? 57)%N, (d =? 95)%N; auto.
  Qed.
  (** the code of an attribute name *)
  Definition name_code (n : px) : Prop := forall s, n = PLit (LStr s) -> keyword s = false.
  Lemma name_code_gen q n inp : name_ok n = true -> name_code (gen false q n inp).
  Proof.
    intros W s E. destruct n; try discriminate W; try discriminate E.
    - injection E as ->. cbn [name_ok] in W. now apply negb_true_iff in W.
    - exfalso. cbn in E. revert E. match goal with |- attr_code ?a ?n = _ -> _ => 
        destruct (attr_code_cases a n) as [(t & -> & ->) | ->] end; discriminate.
  Qed.
  Lemma attr_code_readable a n : readable a = true -> is_int a = false -> readable n = true -> name_code n ->
    readable (attr_code a n) = true.
  Proof.
    intros Ra Ia Rn Nn.
    assert (G : readable (POp OGetattr [a; n]) = true) by (cbn [Spec_Tree.readable forallb]; rewrite Ra, Rn; reflexivity).
    unfold attr_code. destruct n as [x|l|g|o l|k l|l|c t f|b d|m e|m|k es x it co|f l b|f k l ps ls|f l ps ls]; try exact G.
    destruct l as [|b|z|s]; try exact G. destruct (valid_attr s) eqn:V; [|exact G].
    cbn [Spec_Tree.readable forallb op_ok wf_op length base_int]. unfold op_ok. cbn [wf_op length base_int Nat.eqb].
    rewrite Ra, Ia. unfold ident. rewrite (Nn s eq_refl). pose proof (valid_attr_wordy s V) as W. unfold wordy in W.
    rewrite W. reflexivity.
  Qed.
  Lemma path_readable at_ idx b :
    forallb readable idx = true -> (at_ = true -> Forall name_code idx) -> readable b = true -> is_int b = false ->
    readable (path_code at_ idx b) = true.
  Proof.
    revert b; induction idx as [|n idx IH]; intros b R N Rb Ib; [exact Rb|].
    cbn [forallb] in R. ands. unfold path_code. cbn [fold_left]. apply IH; auto.
    - intros E. specialize (N E). now inversion N.
    - destruct at_.
      + apply attr_code_readable; auto. specialize (N eq_refl). now inversion N.
      + cbn [Spec_Tree.readable forallb]. unfold op_ok. cbn [wf_op length base_int Nat.eqb]. rewrite Ib, Rb, H. reflexivity.
    - destruct at_; [apply attr_code_int|reflexivity].
  Qed.
  Lemma gens_names q idx inp j : forallb name_ok idx = true -> Forall name_code (gens q j idx inp).
  Proof.
    revert j; induction idx as [|n idx IH]; intros j H; [constructor|]. cbn [forallb] in H. ands.
    cbn [Proofs_Code.gens]. constructor; [now apply (name_code_gen _ n inp)|now apply IH].
  Qed.

  (** input arguments are identifiers *)
  Lemma args_ident c : forall ii, writable ii c = true -> Forall (fun x => ident x = true) (args_of c).
  Proof.
    assert (FM : forall l ii, Forall (fun c => forall ii, writable ii c = true -> Forall (fun x => ident x = true) (args_of c)) l ->
                 forallb (writable ii) l = true -> Forall (fun x => ident x = true) (flat_map args_of l)).
    { intros l ii F. induction F as [|c0 l H F IH]; intros W; [constructor|]. cbn [forallb flat_map] in *. ands.
      apply Forall_app; split; eauto. }
    assert (OP : forall o ii, optP (fun c => forall ii, writable ii c = true -> Forall (fun x => ident x = true) (args_of c)) o ->
                 optb (writable ii) o = true ->
                 Forall (fun x => ident x = true) (match o with Some c => args_of c | None => [] end)).
    { intros [c0|] ii H W; [eapply H; exact W|constructor]. }
    induction c using cv_ind'; intros ii W; cbn [writable args_of] in *; ands; try constructor; eauto;
      try (repeat (apply Forall_app; split); eauto; fail).
    - induction H as [|[co c0] ls [H1 H2] H IH]; cbn [flat_map fst snd forallb] in *; [constructor|]. ands. cbn [fst snd] in *. 
      apply Forall_app; split; [apply Forall_app; split|]; eauto.
    - apply Forall_app; split; eauto.
      match goal with W : forallb (fun l => _ && _) ls = true |- _ => revert W end. clear - H.
      induction H as [|[m c'] ls H1 H IH]; cbn [flat_map fst snd forallb] in *; [constructor|]. intros W. ands.
      apply Forall_app; split; eauto.
    - apply Forall_app; split; eauto.
      match goal with W : forallb (fun m => forallb _ _) ms = true |- _ => revert W end. revert H. clear - FM. intros H.
      induction H as [|[m c'] ls H2 H IH]; cbn [flat_map fst snd forallb] in *; [constructor|]. intros W. ands.
      apply Forall_app; split; eauto.
  Qed.
  Lemma params_readable c ii : writable ii c = true -> forallb readable (map PName (params_of c)) = true.
  Proof.
    intros W. apply args_ident in W. apply forallb_forall. intros e E. apply in_map_iff in E as (x & <- & I).
    apply in_params in I. rewrite Forall_forall in W. exact (W x I).
  Qed.

  Theorem gen_readable c : okc c.
  Proof.
    destruct NP as (Ng & Np & Nh).
    induction c using cv_ind'; intros fed q inp ii W R I.
    - apply fin_readable; auto.
    - apply fin_readable; auto; destruct l; exact W || reflexivity.
    - apply fin_readable; auto; apply Ng.
    - apply fin_readable; auto.
    - apply fin_readable; auto; now apply label_plain.
    - rewrite gen_COp. cbn [writable] in W. ands. apply fin_readable; auto.
      cbn [Spec_Tree.readable]. rewrite (gens_readable l ii inp) by assumption. rewrite andb_true_r.
      unfold op_ok. rewrite gens_length, H0. cbn [andb].
      destruct o; auto; ands; rewrite ?(gens_head l ii inp) by assumption; auto.
      + rewrite H2. reflexivity.
      + cbn [andb]. now rewrite H4, H3.
    - rewrite gen_CAttr. cbn [writable] in W. ands. apply fin_readable; auto.
      apply attr_code_readable.
      + now apply (IHc1 false (0 :: q) inp ii).
      + destruct (is_int (gen false (0 :: q) c1 inp)) eqn:E; [|reflexivity].
        apply (gen_int false (0 :: q) c1 inp ii I) in E. rewrite E in H. discriminate.
      + now apply (IHc2 false (1 :: q) inp ii).
      + now apply (name_code_gen _ c2 inp).
    - rewrite gen_CBool. cbn [writable] in W. ands. apply fin_readable; auto.
      cbn [Spec_Tree.readable]. rewrite gens_length, H0. now apply (gens_readable l ii inp).
    - rewrite gen_CEqs. cbn [writable] in W. ands. apply fin_readable; auto.
      cbn [Spec_Tree.readable]. rewrite gens_length, H0. now apply (gens_readable l ii inp).
    - rewrite gen_CIf. cbn [writable] in W. ands. apply fin_readable; auto.
      assert (Lq : forallb label_char (label (P q)) = true) by now apply label_plain.
      assert (Rc : readable (if_cond_input wordch srepr gname pnum nc q inp) = true).
      { unfold if_cond_input. destruct (_ || nc); [exact R|]. cbn [Spec_Tree.readable forallb length Nat.leb].
        rewrite Lq, R. reflexivity. }
      assert (Ic : is_int (if_cond_input wordch srepr gname pnum nc q inp) = true -> ii = true).
      { unfold if_cond_input. destruct (_ || nc); [exact I|discriminate]. }
      assert (Rb : readable (if_branch_input wordch srepr gname pnum nc q inp) = true).
      { unfold if_branch_input. destruct (_ || nc); [exact R|exact Lq]. }
      assert (Ib : is_int (if_branch_input wordch srepr gname pnum nc q inp) = true -> ii = true).
      { unfold if_branch_input. destruct (_ || nc); [exact I|discriminate]. }
      cbn [Spec_Tree.readable]. unfold fed_opt.
      rewrite (opt_readable c ii), (opt_readable t ii), (opt_readable f ii) by assumption. reflexivity.
    - rewrite gen_CDefault. cbn [writable] in W. ands. apply fin_readable; auto.
      cbn [Spec_Tree.readable]. rewrite Nh. cbn [andb].
      assert (Rs : readable (self_code wordch srepr gname pnum pname hname q s inp) = true).
      { unfold self_code. destruct s as [s|]; [|exact R]. now apply (H false (0 :: q) inp ii). }
      rewrite forallb_app. cbn [forallb]. rewrite (IHc false (1 :: q) inp ii) by assumption.
      assert (R2 : forallb readable (if over_self s then [self_code wordch srepr gname pnum pname hname q s inp; inp] else [inp]) = true).
      { destruct (over_self s); cbn [forallb]; rewrite ?Rs, R; reflexivity. }
      rewrite R2. cbn [andb]. apply path_readable.
      + apply (gens_readable idx false (PName (T "obj_"))); auto; try reflexivity; discriminate.
      + intros ->. apply gens_names. exact H2.
      + destruct (over_self s); reflexivity.
      + destruct (over_self s); reflexivity.
    - rewrite gen_CComp. cbn [writable] in W. ands. apply fin_readable; auto.
      cbn [Spec_Tree.readable]. rewrite gens_length, H1, Np, R. cbn [andb].
      rewrite (gens_readable elts false (PName (pname (print inp)))); auto; try (cbn [Spec_Tree.readable]; apply Np); try discriminate.
      cbn [andb]. destruct co as [c|]; [|reflexivity].
      apply (H0 false (0 :: q) (PName (pname (print inp))) false); auto; try (cbn [Spec_Tree.readable]; apply Np); discriminate.
    - rewrite gen_CItems. apply fin_readable; auto.
      cbn [Spec_Tree.readable]. rewrite Nh. cbn [andb forallb]. rewrite R, (params_readable _ ii) by exact W. cbn [andb].
      cbn [writable] in W. generalize 0. induction H as [|[co c] ls [H1 H2] H IH]; intros j; [reflexivity|].
      cbn [forallb fst snd] in W. ands. cbn [gen_lines forallb fst snd].
      cbn [fst snd] in H1, H2. rewrite (H2 false _ (PName (T "data_")) false); auto; try discriminate.
      assert (Rc : match (match co with Some c => Some (gen false (0 :: j :: q) c (PName (T "data_"))) | None => None end) with
                   | Some c => readable c | None => true end = true).
      { destruct co as [d|]; [|reflexivity]. apply (H1 false _ (PName (T "data_")) false); auto; discriminate. }
      rewrite Rc. cbn [andb]. now apply IH.
    - rewrite gen_CCache. cbn [writable] in W. ands. apply fin_readable; auto.
      cbn [Spec_Tree.readable]. apply andb_true_iff; split.
      + cbn [length Nat.leb]. destruct ls as [|[? ?] ?]; reflexivity.
      + cbn [forallb Spec_Tree.readable]. rewrite (label_plain n) by assumption.
        rewrite (IHc false (0 :: q) inp ii) by assumption. cbn [andb].
        generalize 1. clear IHc.
        induction H as [|[m d] ls Hd H IH]; intros j.
        * cbn [gen_labels forallb Spec_Tree.readable]. now rewrite (label_plain n).
        * cbn [forallb fst snd] in *. ands. cbn [gen_labels forallb Spec_Tree.readable].
          rewrite (label_plain m) by assumption.
          rewrite (Hd false (j :: q) (PGet n) false); auto; try (now apply label_plain); try discriminate.
          cbn [andb]. now apply IH.
    - rewrite gen_CPipe. cbn [writable] in W. ands.
      assert (Ra : readable (gen fed (0 :: q) c1 inp) = true) by now apply (IHc1 fed (0 :: q) inp ii).
      apply attach_readable; [exact Ra|].
      apply (IHc2 false (1 :: q) _ (intlike ii c1)); auto. intros E. eapply gen_int; [exact I|exact E].
    - rewrite gen_CTap. apply fin_readable; auto.
      cbn [Spec_Tree.readable]. rewrite Nh. cbn [andb forallb]. rewrite (params_readable _ ii) by exact W.
      cbn [writable] in W. ands. rewrite (IHc false (0 :: q) inp ii) by assumption. cbn [andb].
      clear IHc. generalize 1. induction H as [|[m l] ms Hl H IH]; intros j; [reflexivity|].
      cbn [forallb snd] in *. ands. cbn [gen_stmts forallb snd].
      rewrite (gens_readable l false (PName (T "data_"))); auto; try reflexivity; try discriminate. now apply IH.
  Qed.
End Writable.
