(** Generated code is covered by the meaning of source text (Proofs_Meaning.v). *)
From Coq Require Import String Ascii List NArith ZArith Bool Arith Lia.
From Verif Require Import Model_Code Model_Eval Model_Converter Model_Source Spec_Frag Spec_Eval Spec_Converter
  Spec_Syntax Spec_Tree Spec_Source Spec_Module Proofs_Code Proofs_Eval Proofs_Den Proofs_Scope Proofs_Meaning.
From Coq Require Import Permutation.
Import ListNotations.

Ltac ands := repeat match goal with H : _ && _ = true |- _ => apply andb_true_iff in H as [? ?] end.

Lemma distinct_NoDup l : distinct l = true <-> NoDup l.
Proof.
  induction l as [|x l IH]; cbn [distinct].
  - split; [constructor|reflexivity].
  - rewrite andb_true_iff, negb_true_iff, IH. split.
    + intros [H1 H2]. constructor; auto. apply mem_not. exact H1.
    + intros H. inversion H; subst. split; auto. now apply mem_not in H2.
Qed.
Lemma tinsert_perm x l : Permutation (tinsert x l) (x :: l).
Proof.
  induction l as [|y l IH]; cbn [tinsert]; [auto|]. destruct (tleb x y); [auto|].
  eapply perm_trans; [apply perm_skip, IH|apply perm_swap].
Qed.
Lemma sort_perm l : Permutation (sort_names l) l.
Proof.
  induction l as [|x l IH]; cbn [sort_names fold_right]; [auto|].
  eapply perm_trans; [apply tinsert_perm|]. now apply perm_skip.
Qed.
Lemma params_NoDup c : NoDup (params_of c).
Proof. eapply Permutation_NoDup; [apply Permutation_sym, sort_perm|apply NoDup_nodup]. Qed.

Section Sourced.
  Variable wordch : N -> bool.
  Variable srepr : text -> text.
  Variable gname : nat -> text.
  Variable pnum : list nat -> nat.
  Variable pname : text -> text.
  Variable hname : list nat -> text.
  Variable key : text -> lname.
  Variable loc : text -> bool.
  Variable fnm : text -> bool.
  Notation gen := (gen wordch srepr gname pnum pname hname).
  Notation gens := (gens wordch srepr gname pnum pname hname).
  Notation print := (print srepr gname pnum).
  Notation attach := (attach wordch srepr gname pnum).
  Notation fin := (fin wordch srepr gname pnum).
  Notation label := (label_text pnum).
  Notation src := (src key pnum loc fnm).
  Notation lab_known := (lab_known key pnum).

  Hypothesis Hparams : forall x, In x (map T ["data_"; "self_"; "obj_"; "default_"]%string) -> loc x = true.
  Hypothesis Hp : forall t, loc (pname t) = true.
  Hypothesis Hh : forall q, fnm (hname q) = true.
  Hypothesis HP : forall q, key (label (P q)) = P q.

  Lemma src_under e bd : src false bd e = true -> src true bd e = true.
  Proof. destruct e; auto. apply src_inner. Qed.
  Lemma src_any e i bd : src false bd e = true -> src i bd e = true.
  Proof. destruct i; auto using src_under. Qed.

  Lemma attach_src a r bd : src false bd a = true -> src false bd r = true -> src false bd (attach a r) = true.
  Proof.
    intros A R. destruct (attach_cases wordch srepr gname pnum a r) as [-> | ->]; auto.
    cbn [Proofs_Meaning.src]. now rewrite A, R.
  Qed.
  Lemma fin_src fed a r bd : src false bd a = true -> src false bd r = true -> src false bd (fin fed a r) = true.
  Proof. destruct fed; cbn [Proofs_Code.fin]; auto using attach_src. Qed.
  Lemma fin_under u (fed : bool) a r bd : (u = true -> fed = false) -> src false bd a = true -> src u bd r = true -> src u bd (fin fed a r) = true.
  Proof. intros Hu A R. destruct fed; cbn [Proofs_Code.fin]; auto. destruct u; [discriminate Hu; reflexivity|]. now apply attach_src. Qed.

  Lemma attr_src a n bd : src false bd a = true -> src false bd n = true -> src false bd (attr_code a n) = true.
  Proof.
    intros A N. destruct (attr_code_cases a n) as [(s & -> & ->) | ->]; cbn [Proofs_Meaning.src wf_op length Nat.eqb forallb andb];
      rewrite A; auto. now rewrite N.
  Qed.
  Lemma path_src at_ idx bd : forall b, forallb (src false bd) idx = true -> src false bd b = true ->
    src false bd (path_code at_ idx b) = true.
  Proof.
    induction idx as [|n idx IH]; intros b H B; [exact B|]. cbn [forallb] in H. ands. unfold path_code. cbn [fold_left].
    apply IH; auto. destruct at_; [now apply attr_src|]. cbn [Proofs_Meaning.src wf_op length Nat.eqb forallb andb]. now rewrite B, H.
  Qed.

  Definition okx (x : text) : Prop := loc x = true /\ ident x = true /\ x <> T "data_".
  Definition okl (c : cv) : Prop := forall n, In n (labels_in c) -> key (label n) = n.
  Definition okn (bd : list text) (c : cv) : Prop := forall x, In x (args_of c) -> In x bd /\ okx x.
  Definition SrcP (c : cv) : Prop := forall u (fed : bool) q inp bd, sourced u c = true -> (u = true -> fed = false) ->
    okl c -> okn bd c -> src false bd inp = true -> src u bd (gen fed q c inp) = true.

  Lemma known_lab n : key (label n) = n -> lab_known n = true.
  Proof. intros H. unfold Proofs_Meaning.lab_known. rewrite H. destruct (lname_eq_dec n n); congruence. Qed.

  Lemma gens_src l : Forall SrcP l -> forall q i inp bd, forallb (sourced false) l = true ->
    (forall n, In n (flat_map labels_in l) -> key (label n) = n) ->
    (forall x, In x (flat_map args_of l) -> In x bd /\ okx x) ->
    src false bd inp = true -> forallb (src false bd) (gens q i l inp) = true.
  Proof.
    induction 1 as [|c l Hc F IH]; intros q i inp bd Hs HL HN Hi; [reflexivity|].
    cbn [forallb flat_map Proofs_Code.gens] in *. ands.
    rewrite (Hc false false); auto; try discriminate.
    - cbn [andb]. apply IH; auto; intros y I; [apply HL|apply HN]; apply in_or_app; now right.
    - intros y I. apply HL, in_or_app. now left.
    - intros y I. apply HN, in_or_app. now left.
  Qed.
  Lemma const_fixed fed q c inp : const c = true -> fed = false -> fixed (gen fed q c inp) = true.
  Proof. destruct c; try discriminate; intros _ ->; reflexivity. Qed.
  Lemma consts_fixed l : forall q i inp, forallb const l = true -> forallb fixed (gens q i l inp) = true.
  Proof.
    induction l as [|c l IH]; intros q i inp H; [reflexivity|]. cbn [forallb Proofs_Code.gens] in *. ands.
    rewrite const_fixed; auto. cbn [andb]. now apply IH.
  Qed.
  Lemma opt_src o : optP SrcP o -> forall q inp bd, optb (sourced false) o = true ->
    (forall n, In n (match o with Some c => labels_in c | None => [] end) -> key (label n) = n) ->
    (forall x, In x (match o with Some c => args_of c | None => [] end) -> In x bd /\ okx x) ->
    src false bd inp = true -> src false bd (fed_opt wordch srepr gname pnum pname hname q o inp) = true.
  Proof. destruct o as [c|]; cbn; intros H q inp bd Hs HL HN Hi; auto. Qed.

  Lemma params_local q c bd : (forall x, In x (params_of c) -> In x bd /\ okx x) ->
    plocal loc fnm (hname q) (T "data_" :: params_of c) = true.
  Proof.
    intros H. unfold plocal. cbn [forallb]. rewrite Hparams by now left.
    assert (L : forallb loc (params_of c) = true) by (apply forallb_forall; intros x I; apply H, I).
    assert (J : forallb ident (params_of c) = true) by (apply forallb_forall; intros x I; apply H, I).
    rewrite L, J, Hh. rewrite !andb_true_r. cbn [andb]. change (ident (T "data_")) with true. apply distinct_NoDup. constructor; [|apply params_NoDup].
    intros I. apply H in I. destruct I as (_ & _ & _ & I). congruence.
  Qed.
  Lemma names_src ps bd : (forall x, In x ps -> In x bd /\ okx x) -> forallb (src false bd) (map PName ps) = true.
  Proof.
    intros H. apply forallb_forall. intros e E. apply in_map_iff in E as (x & <- & I). apply mem_in. now apply H.
  Qed.

  Lemma gen_src c : SrcP c.
  Proof.
    induction c as [|l|g|ax|n|o l IH|a n IHa IHn|i l IH|l IH|nc co t f IHc IHt IHf
                    |a s idx d IHs IHi IHd|k es co IHe IHc|k ls IH|n c ls IHc IHl|a b IHa IHb|o ms IHo IHm]
      using cv_ind'; intros u fed q A bd Hs Hu HL HN Hi.
    - change (gen fed q CThis A) with (fin fed A A). apply src_any. now apply fin_src.
    - change (gen fed q (CLit l) A) with (fin fed A (PLit l)). apply src_any. now apply fin_src.
    - change (gen fed q (CGlob g) A) with (fin fed A (PGlob g)). apply src_any. now apply fin_src.
    - change (gen fed q (CArg ax) A) with (fin fed A (PName ax)). apply src_any. apply fin_src; auto.
      apply mem_in. now apply (HN ax); left.
    - change (gen fed q (CLabel n) A) with (fin fed A (PGet n)). apply src_any. apply fin_src; auto.
      apply known_lab, HL. now left.
    - rewrite gen_COp. cbn [sourced] in Hs. apply andb_true_iff in Hs as [Hw Hs]. apply fin_under; auto.
      cbn [Proofs_Meaning.src]. rewrite gens_length, Hw. cbn [andb].
      destruct (is_sort o) eqn:Eo.
      + assert (HS : match gens q 0 l A with a :: r => src true bd a && forallb fixed r | [] => false end = true).
        { destruct l as [|c1 l1]; [destruct o; try discriminate Eo; discriminate Hs|].
          assert (Hs' : sourced true c1 && forallb const l1 = true) by (destruct o; try discriminate Eo; exact Hs).
          ands. cbn [Proofs_Code.gens]. inversion IH; subst. rewrite consts_fixed by auto. rewrite andb_true_r.
          apply H3; auto; try discriminate; intros y I; [apply HL|apply HN]; cbn [labels_in args_of flat_map]; apply in_or_app; now left. }
        destruct o; try discriminate Eo; exact HS.
      + assert (HS : forallb (src false bd) (gens q 0 l A) = true).
        { apply gens_src; auto. destruct o; try discriminate Eo; exact Hs. }
        destruct o; try discriminate Eo; exact HS.
    - rewrite gen_CAttr. cbn [sourced] in Hs. ands. apply src_any. apply fin_src; auto. apply attr_src.
      + apply IHa; auto; try discriminate; intros y I; [apply HL|apply HN]; cbn [labels_in args_of]; apply in_or_app; now left.
      + apply IHn; auto; try discriminate; intros y I; [apply HL|apply HN]; cbn [labels_in args_of]; apply in_or_app; now right.
    - rewrite gen_CBool. cbn [sourced] in Hs. ands. apply src_any, fin_src; auto. cbn [Proofs_Meaning.src].
      rewrite gens_length, H. apply gens_src; auto.
    - rewrite gen_CEqs. cbn [sourced] in Hs. ands. apply src_any, fin_src; auto. cbn [Proofs_Meaning.src].
      rewrite gens_length, H. apply gens_src; auto.
    - rewrite gen_CIf. cbn [sourced] in Hs. ands. apply src_any, fin_src; auto. cbn [Proofs_Meaning.src].
      assert (Hic : src false bd (if_cond_input wordch srepr gname pnum nc q A) = true).
      { unfold if_cond_input. destruct (_ || _); auto. cbn [Proofs_Meaning.src length Nat.leb forallb andb].
        rewrite known_lab by apply HP. now rewrite Hi. }
      assert (Hib : src false bd (if_branch_input wordch srepr gname pnum nc q A) = true).
      { unfold if_branch_input. destruct (_ || _); auto. cbn [Proofs_Meaning.src]. now rewrite known_lab by apply HP. }
      rewrite !opt_src; auto; intros y I; try apply HL; try apply HN; cbn [labels_in args_of]; rewrite !in_app_iff; tauto.
    - rewrite gen_CDefault. cbn [sourced] in Hs. ands. apply src_any, fin_src; auto. cbn [Proofs_Meaning.src].
      assert (Hself : src false bd (self_code wordch srepr gname pnum pname hname q s A) = true).
      { unfold self_code. destruct s as [s|]; [|exact Hi]. apply IHs; auto; try discriminate;
          intros y I; [apply HL|apply HN]; cbn [labels_in args_of]; apply in_or_app; now left. }
      assert (Hd : src false bd (gen false (1 :: q) d A) = true).
      { apply IHd; auto; try discriminate; intros y I; [apply HL|apply HN]; cbn [labels_in args_of]; rewrite !in_app_iff; tauto. }
      set (over := over_self s). set (args := _ ++ [gen false (1 :: q) d A]).
      assert (Hover : Nat.eqb (length args) 3 = over) by (subst args; destruct over; reflexivity).
      rewrite Hover.
      assert (Hlen : Nat.eqb (length args) 2 || over = true) by (subst args; destruct over; reflexivity).
      rewrite Hlen. cbn [andb].
      assert (Hargs : forallb (src false bd) args = true).
      { subst args. rewrite forallb_app. cbn [forallb]. rewrite Hd. destruct over; cbn [forallb]; rewrite ?Hself, Hi; reflexivity. }
      rewrite Hargs. cbn [andb]. apply andb_true_iff. split.
      + apply path_src.
        * apply gens_src.
          -- exact IHi.
          -- apply forallb_forall. intros y I. rewrite forallb_forall in H0. specialize (H0 y I). ands. assumption.
          -- intros n I. apply HL. cbn [labels_in]. rewrite !in_app_iff. tauto.
          -- intros x I. exfalso. apply in_flat_map in I as (c & I & J). rewrite forallb_forall in H0. specialize (H0 c I). ands.
             destruct (args_of c); [destruct J|discriminate].
          -- cbn [Proofs_Meaning.src]. apply mem_in. destruct over; cbn [default_params In]; tauto.
        * cbn [Proofs_Meaning.src]. apply mem_in. destruct over; cbn [default_params In]; tauto.
      + unfold plocal. rewrite Hh. destruct over; cbn [default_params forallb]; rewrite !Hparams by (cbn [map In]; tauto); reflexivity.
    - rewrite gen_CComp. cbn [sourced] in Hs. ands. apply fin_under; auto. cbn [Proofs_Meaning.src].
      rewrite gens_length, H, H2, Hp, Hi. cbn [andb].
      set (x := pname (print A)).
      assert (HN' : okn (x :: bd) (CComp k es co)) by (intros y I; destruct (HN y I); split; auto; now right).
      assert (Hx : src false (x :: bd) (PName x) = true) by (cbn [Proofs_Meaning.src]; apply mem_in; now left).
      rewrite gens_src; auto.
      + cbn [andb]. destruct co as [c|]; [|reflexivity]. apply IHc; auto; try discriminate;
          intros y I; [apply HL|apply HN']; cbn [labels_in args_of]; apply in_or_app; now right.
      + intros y I. apply HL. cbn [labels_in]. apply in_or_app. now left.
      + intros y I. apply HN'. cbn [args_of]. apply in_or_app. now left.
    - rewrite gen_CItems. cbn [sourced] in Hs. ands. apply src_any, fin_src; auto. cbn [Proofs_Meaning.src].
      set (ps := params_of (CItems k ls)).
      assert (Hps : forall x, In x ps -> In x bd /\ okx x) by (intros x I; apply HN; now apply in_params).
      rewrite H. cbn [length map]. rewrite map_length, Nat.eqb_refl. cbn [andb forallb]. rewrite Hi, names_src by exact Hps.
      assert (Hpl : plocal loc fnm (hname q) (T "data_" :: ps) = true) by (eapply params_local; exact Hps). rewrite Hpl, ?andb_true_r. cbn [andb].
      apply andb_true_iff. split; [destruct ls as [|[? ?] ?]; [discriminate|reflexivity]|].
      assert (HN' : forall x, In x (args_of (CItems k ls)) -> In x (T "data_" :: ps) /\ okx x).
      { intros x I. split; [right; now apply in_params|now apply HN]. }
      clearbody ps. clear HN Hps H1 Hpl.
      assert (HD : src false (T "data_" :: ps) (PName (T "data_")) = true) by (cbn [Proofs_Meaning.src]; apply mem_in; now left).
      unfold okl in HL. cbn [args_of labels_in] in *. generalize 0. revert H0 HL HN'.
      induction IH as [|[co v] ls [H1 H2] IHls IH']; intros Hs HL HN' j; [reflexivity|].
      cbn [forallb fst snd flat_map gen_lines] in *. ands.
      apply andb_true_iff. split.
      + apply andb_true_iff. split.
        * destruct co as [c|]; [|reflexivity]. apply H1; auto; try discriminate;
            intros y I; [apply HL|apply HN']; rewrite !in_app_iff; tauto.
        * apply H2; auto; try discriminate; intros y I; [apply HL|apply HN']; rewrite !in_app_iff; tauto.
      + apply IH'; auto; intros y I; [apply HL|apply HN']; rewrite !in_app_iff; tauto.
    - rewrite gen_CCache. cbn [sourced] in Hs. ands. apply src_any, fin_src; auto. cbn [Proofs_Meaning.src].
      apply andb_true_iff. split; [destruct ls as [|[? ?] ?]; reflexivity|].
      cbn [forallb Proofs_Meaning.src].
      assert (Kn : lab_known n = true) by (apply known_lab, HL; now left). rewrite Kn. cbn [andb].
      rewrite IHc; auto; try discriminate.
      2:{ intros y I. apply HL. cbn [labels_in]. right. apply in_or_app. now left. }
      2:{ intros y I. apply HN. cbn [args_of]. apply in_or_app. now left. }
      cbn [andb]. unfold okl, okn in *. cbn [labels_in args_of] in *.
      assert (HL' : forall m, In m (flat_map (fun l => fst l :: labels_in (snd l)) ls) -> key (label m) = m).
      { intros m I. apply HL. right. apply in_or_app. now right. }
      assert (HN' : forall x, In x (flat_map (fun l => args_of (snd l)) ls) -> In x bd /\ okx x).
      { intros m I. apply HN. apply in_or_app. now right. }
      clear HL HN IHc H. generalize 1. revert H0 HL' HN'.
      induction IHl as [|[m d] ls Hd IHls IH']; intros Hs HL' HN' j.
      + cbn [gen_labels forallb Proofs_Meaning.src]. now rewrite Kn.
      + cbn [forallb fst snd flat_map gen_labels Proofs_Meaning.src] in *. ands.
        rewrite known_lab by (apply HL'; now left). cbn [andb]. apply andb_true_iff. split.
        * apply Hd; auto; try discriminate.
          -- intros y I. apply HL'. right. apply in_or_app. now left.
          -- intros y I. apply HN'. apply in_or_app. now left.
        * apply IH'; auto; intros y I.
          -- apply HL'. right. apply in_or_app. now right.
          -- apply HN'. apply in_or_app. now right.
    - rewrite gen_CPipe. cbn [sourced] in Hs. ands. apply src_any.
      assert (Ha : src false bd (gen fed (0 :: q) a A) = true).
      { apply IHa; auto; try discriminate; intros y I; [apply HL|apply HN]; cbn [labels_in args_of]; apply in_or_app; now left. }
      apply attach_src; auto.
      apply IHb; auto; try discriminate; intros y I; [apply HL|apply HN]; cbn [labels_in args_of]; apply in_or_app; now right.
    - rewrite gen_CTap. cbn [sourced] in Hs. ands. apply src_any, fin_src; auto. cbn [Proofs_Meaning.src].
      set (ps := params_of (CTap o ms)).
      assert (Hps : forall x, In x ps -> In x bd /\ okx x) by (intros x I; apply HN; now apply in_params).
      cbn [length map]. rewrite map_length, Nat.eqb_refl. cbn [andb forallb]. rewrite names_src by exact Hps.
      assert (Hpl : plocal loc fnm (hname q) (T "data_" :: ps) = true) by (eapply params_local; exact Hps). rewrite Hpl, ?andb_true_r. cbn [andb].
      rewrite IHo; auto; try discriminate.
      2:{ intros y I. apply HL. cbn [labels_in]. apply in_or_app. now left. }
      2:{ intros y I. apply HN. cbn [args_of]. apply in_or_app. now left. }
      cbn [andb].
      assert (HN' : forall x, In x (flat_map (fun m => flat_map args_of (snd m)) ms) -> In x (T "data_" :: ps) /\ okx x).
      { intros x I. split.
        - right. apply in_params. cbn [args_of]. apply in_or_app. now right.
        - apply HN. cbn [args_of]. apply in_or_app. now right. }
      assert (HL' : forall n, In n (flat_map (fun m => flat_map labels_in (snd m)) ms) -> key (label n) = n).
      { intros x I. apply HL. cbn [labels_in]. apply in_or_app. now right. }
      clearbody ps. clear HN HL Hps Hpl IHo H.
      assert (HD : src false (T "data_" :: ps) (PName (T "data_")) = true) by (cbn [Proofs_Meaning.src]; apply mem_in; now left).
      generalize 1. revert H0 HL' HN'.
      induction IHm as [|[mk l] ms Hl IHms IH']; intros Hs HL' HN' j; [reflexivity|].
      cbn [forallb fst snd flat_map gen_stmts] in *. ands.
      apply andb_true_iff. split; [apply andb_true_iff; split|].
      + unfold mutation_ok in H. cbn [fst snd] in H. unfold stmt_ok. cbn [fst snd].
        destruct mk; destruct l as [|c1 [|c2 [|]]]; try discriminate H; try reflexivity.
        cbn [Proofs_Code.gens]. now apply const_fixed.
      + apply gens_src; auto; intros y I; [apply HL'|apply HN']; apply in_or_app; now left.
      + apply IH'; auto; intros y I; [apply HL'|apply HN']; apply in_or_app; now right.
  Qed.
End Sourced.
