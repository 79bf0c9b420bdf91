(** When helper functions get different names at different places, no name is
    defined twice with different code. *)
From Coq Require Import String Ascii List NArith ZArith Bool Arith Lia.
From Verif Require Import Model_Code Model_Eval Model_Converter Model_Source Spec_Frag Spec_Eval Proofs_Code Proofs_Eval.
Import ListNotations.

Section Unique.
  Variables (wordch : N -> bool) (srepr : text -> text) (gname : nat -> text) (pnum : list nat -> nat)
            (pname : text -> text) (hname : list nat -> text) (tname : text -> text).
  Hypothesis Hinj : forall p q, hname p = hname q -> p = q.
  Notation gen := (gen wordch srepr gname pnum pname hname).
  Notation gens := (gens wordch srepr gname pnum pname hname).
  Notation fin := (fin wordch srepr gname pnum).
  Notation attach := (attach wordch srepr gname pnum).
  Notation dl := (list (text * helper)).

  Definition nc (L : dl) : Prop := forall f h h', In (f, h) L -> In (f, h') L -> h = h'.
  Definition own (S : list nat -> Prop) (I L : dl) : Prop :=
    forall f h, In (f, h) L -> In (f, h) I \/ exists p, S p /\ f = hname p.
  Definition fresh (S : list nat -> Prop) (I : dl) : Prop := forall p h, S p -> ~ In (hname p, h) I.
  Definition Good S I L : Prop := own S I L /\ nc L.

  Definition sub (q p : list nat) : Prop := exists r, p = r ++ q.
  Definition from (k : nat) (q p : list nat) : Prop := exists j r, k <= j /\ p = r ++ j :: q.
  Definition at_ (k : nat) (q p : list nat) : Prop := exists r, p = r ++ k :: q.

  Lemma at_sub k q p : at_ k q p -> sub q p.
  Proof. intros [r ->]. exists (r ++ [k]). now rewrite <- app_assoc. Qed.
  Lemma from_sub k q p : from k q p -> sub q p.
  Proof. intros (j & r & _ & ->). exists (r ++ [j]). now rewrite <- app_assoc. Qed.
  Lemma at_from k q p : at_ k q p -> from k q p.
  Proof. intros [r ->]. exists k, r. auto. Qed.
  Lemma from_le k j q p : j <= k -> from k q p -> from j q p.
  Proof. intros H (i & r & A & B). exists i, r. split; [lia|exact B]. Qed.
  Lemma at_of k q p : sub (k :: q) p -> at_ k q p.
  Proof. auto. Qed.
  Lemma same_tail (r r' : list nat) j k q : r ++ j :: q = r' ++ k :: q -> j = k.
  Proof.
    intros H. change (j :: q) with ([j] ++ q) in H. change (k :: q) with ([k] ++ q) in H. rewrite !app_assoc in H.
    apply app_inv_tail in H. apply app_inj_tail in H. apply H.
  Qed.
  Lemma at_not_from k j q p : k < j -> at_ k q p -> from j q p -> False.
  Proof. intros H [r ->] (i & r' & A & B). apply same_tail in B. lia. Qed.
  Lemma at_not_at k j q p : k <> j -> at_ k q p -> at_ j q p -> False.
  Proof. intros H [r ->] [r' B]. apply same_tail in B. lia. Qed.
  Lemma longer (r : list nat) j q : r ++ j :: q <> q.
  Proof. intros H. apply (f_equal (@length nat)) in H. rewrite app_length in H. cbn in H. lia. Qed.

  Lemma good_mono (S S' : list nat -> Prop) I L : (forall p, S p -> S' p) -> Good S I L -> Good S' I L.
  Proof. intros H [A B]. split; [|exact B]. intros f h J. destruct (A f h J) as [?|(p & C & D)]; eauto. Qed.
  Lemma good_incl S I L L' : incl L' L -> Good S I L -> Good S I L'.
  Proof. intros H [A B]. split; [intros f h J; apply A, H, J|intros f h h1 J K; apply (B f); apply H; assumption]. Qed.
  Lemma good_base S I : nc I -> Good S I I.
  Proof. intros H. split; [intros f h J; now left|exact H]. Qed.
  Lemma good_nil S I : Good S I [].
  Proof. split; [intros f h []|intros f h h' []]. Qed.
  Lemma good_weak S I L : Good S [] L -> Good S I L.
  Proof. intros [A B]. split; [|exact B]. intros f h J. destruct (A f h J) as [[]|?]. now right. Qed.
  Lemma good_join (S1 S2 S : list nat -> Prop) I L1 L2 : nc I -> fresh S I ->
    (forall p, S1 p -> S p) -> (forall p, S2 p -> S p) -> (forall p, S1 p -> S2 p -> False) ->
    Good S1 I L1 -> Good S2 I L2 -> Good S I (L1 ++ L2).
  Proof.
    intros HI Hf H1 H2 Hd G1 G2.
    assert (C : forall f h h', In (f, h) L1 -> In (f, h') L2 -> h = h').
    { intros f h h' J1 J2. destruct G1 as [A1 B1], G2 as [A2 B2].
      destruct (A1 _ _ J1) as [K1|(p & Sp & ->)], (A2 _ _ J2) as [K2|(p' & Sp' & E)].
      - eapply HI; eauto.
      - subst. exfalso. eapply Hf; eauto.
      - exfalso. eapply Hf; [|exact K2]; auto.
      - apply Hinj in E. subst. exfalso. eauto. }
    split.
    - intros f h J. apply in_app_or in J as [J|J].
      + destruct (proj1 G1 f h J) as [?|(p & ? & ?)]; eauto.
      + destruct (proj1 G2 f h J) as [?|(p & ? & ?)]; eauto.
    - intros f h h' J J'. apply in_app_or in J as [J|J]; apply in_app_or in J' as [J'|J'].
      + eapply (proj2 G1); eauto.
      + eauto.
      + symmetry. eauto.
      + eapply (proj2 G2); eauto.
  Qed.
  (** with the definitions of the input itself *)
  Lemma good_with_base S I L : nc I -> fresh S I -> Good S I L -> Good S I (I ++ L).
  Proof.
    intros HI Hf G. apply good_join with (S1 := fun _ => False) (S2 := S); auto; try tauto. apply good_base, HI.
  Qed.
  Lemma good_one q h : Good (fun p => p = q) [] [(hname q, h)].
  Proof.
    split.
    - intros f h' [E|[]]. inversion E; subst. right. eauto.
    - intros f h1 h2 [E|[]] [E'|[]]. congruence.
  Qed.

  Definition Uniq (c : cv) : Prop := forall fed q inp, nc (defs inp) -> fresh (sub q) (defs inp) ->
    Good (sub q) (defs inp) (defs (gen fed q c inp)).

  Lemma fresh_sub (S S' : list nat -> Prop) I : (forall p, S p -> S' p) -> fresh S' I -> fresh S I.
  Proof. intros H F p h Sp. apply F. auto. Qed.
  Lemma fresh_nil S : fresh S [].
  Proof. intros p h _ []. Qed.
  Lemma nc_nil : nc [].
  Proof. intros f h h' []. Qed.
  Hint Resolve fresh_nil nc_nil at_sub from_sub at_from good_nil good_base : core.

  Lemma attach_defs a r : incl (defs (attach a r)) (defs a ++ defs r).
  Proof.
    destruct (attach_cases wordch srepr gname pnum a r) as [-> | ->].
    - apply incl_appr, incl_refl.
    - apply incl_refl.
  Qed.
  Lemma fin_good fed q inp r : nc (defs inp) -> fresh (sub q) (defs inp) ->
    Good (sub q) (defs inp) (defs r) -> Good (sub q) (defs inp) (defs (fin fed inp r)).
  Proof.
    intros N F G. destruct fed; [|exact G]. eapply good_incl; [apply attach_defs|]. now apply good_with_base.
  Qed.

  Lemma child k q inp c : Uniq c -> nc (defs inp) -> fresh (sub q) (defs inp) -> forall fed,
    Good (at_ k q) (defs inp) (defs (gen fed (k :: q) c inp)).
  Proof.
    intros U N F fed. apply U; auto. eapply fresh_sub; [|exact F]. intros p. apply at_sub.
  Qed.
  Lemma children l : Forall Uniq l -> forall i q inp, nc (defs inp) -> fresh (sub q) (defs inp) ->
    Good (from i q) (defs inp) (flat_map defs (gens q i l inp)).
  Proof.
    induction 1 as [|c l U F IH]; intros i q inp N Fr; cbn [Proofs_Code.gens flat_map]; [auto|].
    apply good_join with (S1 := at_ i q) (S2 := from (S i) q); auto.
    - eapply fresh_sub; [|exact Fr]. apply from_sub.
    - intros p. apply from_le. lia.
    - intros p. apply at_not_from. lia.
    - now apply child.
  Qed.
  Lemma path_defs b idx : forall a0, incl (defs (path_code b idx a0)) (defs a0 ++ flat_map defs idx).
  Proof.
    induction idx as [|n idx IH]; intros a0; [cbn; rewrite app_nil_r; apply incl_refl|].
    unfold path_code in *. cbn [fold_left flat_map]. eapply incl_tran; [apply IH|].
    rewrite app_assoc. apply incl_app; [|apply incl_appr, incl_refl]. apply incl_appl.
    destruct b.
    - destruct (attr_code_cases a0 n) as [(s & -> & ->) | ->]; cbn [defs flat_map]; rewrite ?app_nil_r.
      + apply incl_refl.
      + apply incl_refl.
    - cbn [defs flat_map]. rewrite app_nil_r. apply incl_refl.
  Qed.

  Lemma own_join q I L h : nc I -> fresh (sub q) I -> Good (from 0 q) I L -> Good (sub q) I (L ++ [(hname q, h)]).
  Proof.
    intros N F G. apply good_join with (S1 := from 0 q) (S2 := fun p => p = q); auto.
    - apply from_sub.
    - intros p ->. exists []. reflexivity.
    - intros p (j & r & _ & ->) E. now apply longer in E.
    - apply good_weak, good_one.
  Qed.
  Lemma names_defs ps : flat_map defs (map PName ps) = [].
  Proof. induction ps as [|x ps IH]; [reflexivity|exact IH]. Qed.

  Lemma uniq c : Uniq c.
  Proof.
    induction c as [|l|g|ax|n|o l IH|a n IHa IHn|i l IH|l IH|nc' co t f IHc IHt IHf
                    |a s idx d IHs IHi IHd|k es co IHe IHc|k ls IH|n c ls IHc IHl|a b IHa IHb|o ms IHo IHm]
      using cv_ind'; intros fed q A N F.
    - change (gen fed q CThis A) with (fin fed A A). apply fin_good; auto.
    - change (gen fed q (CLit l) A) with (fin fed A (PLit l)). apply fin_good; auto.
    - change (gen fed q (CGlob g) A) with (fin fed A (PGlob g)). apply fin_good; auto.
    - change (gen fed q (CArg ax) A) with (fin fed A (PName ax)). apply fin_good; auto.
    - change (gen fed q (CLabel n) A) with (fin fed A (PGet n)). apply fin_good; auto.
    - rewrite gen_COp. apply fin_good; auto. cbn [defs]. eapply good_mono; [apply from_sub|]. now apply children.
    - rewrite gen_CAttr. apply fin_good; auto.
      apply good_incl with (L := defs (gen false (0 :: q) a A) ++ defs (gen false (1 :: q) n A)).
      + destruct (attr_code_cases (gen false (0 :: q) a A) (gen false (1 :: q) n A)) as [(s & E & ->) | ->]; cbn [defs flat_map]; rewrite ?app_nil_r.
        * apply incl_appl, incl_refl.
        * apply incl_refl.
      + apply good_join with (S1 := at_ 0 q) (S2 := at_ 1 q); eauto using child. intros p. now apply at_not_at.
    - rewrite gen_CBool. apply fin_good; auto. cbn [defs]. eapply good_mono; [apply from_sub|]. now apply children.
    - rewrite gen_CEqs. apply fin_good; auto. cbn [defs]. eapply good_mono; [apply from_sub|]. now apply children.
    - rewrite gen_CIf. apply fin_good; auto. cbn [defs].
      assert (HO : forall k o inp', optP Uniq o -> (defs inp' = defs A \/ defs inp' = []) ->
        Good (at_ k q) (defs A) (defs (fed_opt wordch srepr gname pnum pname hname (k :: q) o inp'))).
      { intros k o inp' U [E|E].
        - destruct o as [c|]; cbn [fed_opt].
          + rewrite <- E. apply child; auto; rewrite E; auto.
          + rewrite E. auto.
        - apply good_weak. destruct o as [c|]; cbn [fed_opt].
          + rewrite <- E. apply child; auto; rewrite E; auto.
          + rewrite E. auto. }
      assert (E1 : defs (if_cond_input wordch srepr gname pnum nc' q A) = defs A).
      { unfold if_cond_input. destruct (_ || _); cbn [defs flat_map]; rewrite ?app_nil_r; reflexivity. }
      assert (E2 : defs (if_branch_input wordch srepr gname pnum nc' q A) = defs A \/ defs (if_branch_input wordch srepr gname pnum nc' q A) = []).
      { unfold if_branch_input. destruct (_ || _); cbn [defs]; auto. }
      apply good_join with (S1 := at_ 0 q) (S2 := from 1 q); try (intros ? ?; solve [eauto]); auto.
      + intros p. apply at_not_from. lia.
      + apply good_join with (S1 := at_ 1 q) (S2 := at_ 2 q); try (intros ? ?; solve [eauto]); auto.
        * intros p H. apply from_le with 2; auto.
        * intros p. now apply at_not_at.
    - rewrite gen_CDefault. apply fin_good; auto. cbn [defs]. rewrite app_assoc. apply own_join; auto.
      set (X := defs (self_code wordch srepr gname pnum pname hname q s A)).
      apply good_incl with (L := (defs A ++ X) ++ defs (gen false (1 :: q) d A) ++ flat_map defs (gens q 2 idx (PName (T "obj_")))).
      { apply incl_app.
        - rewrite flat_map_app. cbn [flat_map]. rewrite app_nil_r. apply incl_app; [|apply incl_appr, incl_appl, incl_refl].
          apply incl_appl. destruct (over_self s); cbn [flat_map]; rewrite ?app_nil_r; fold X.
          + apply incl_app; [apply incl_appr, incl_refl|apply incl_appl, incl_refl].
          + apply incl_appl, incl_refl.
        - apply incl_appr, incl_appr. eapply incl_tran; [apply path_defs|]. apply incl_refl. }
      apply good_join with (S1 := at_ 0 q) (S2 := from 1 q); try (intros ? ?; solve [eauto]); auto.
      + intros p H. eapply from_le; [|exact H]. lia.
      + intros p. apply at_not_from. lia.
      + apply good_with_base; auto.
        * eapply fresh_sub; [|exact F]. apply at_sub.
        * subst X. unfold self_code. destruct s as [s|]; [|auto]. now apply child.
      + apply good_join with (S1 := at_ 1 q) (S2 := from 2 q); try (intros ? ?; solve [eauto]); auto.
        * intros p H. eapply from_le; [|exact H]. lia.
        * intros p. apply at_not_from. lia.
        * now apply child.
        * apply good_weak. apply (children idx IHi 2 q (PName (T "obj_"))); auto.
    - rewrite gen_CComp. apply fin_good; auto. cbn [defs]. set (x := PName (pname _)).
      apply good_with_base; auto.
      apply good_join with (S1 := from 1 q) (S2 := at_ 0 q); try (intros ? ?; solve [eauto]); auto.
      + intros p H H'. eapply at_not_from; eauto.
      + apply good_weak. apply (children es IHe 1 q x); auto.
      + apply good_weak. destruct co as [c|]; [|auto]. apply (child 0 q x c); auto.
    - rewrite gen_CItems. apply fin_good; auto. cbn [defs flat_map]. rewrite names_defs, app_nil_r.
      rewrite app_assoc. apply own_join; auto. apply good_with_base; auto.
      { eapply fresh_sub; [|exact F]. apply from_sub. }
      apply good_weak. generalize 0. induction IH as [|[co v] ls [H1 H2] IHls IH']; intros j; [apply good_nil|].
      cbn [gen_lines flat_map fst snd].
      apply good_join with (S1 := at_ j q) (S2 := from (S j) q); try (intros ? ?; solve [eauto]); auto.
      + intros p. apply from_le. lia.
      + intros p. apply at_not_from. lia.
      + apply good_join with (S1 := at_ 1 (j :: q)) (S2 := at_ 0 (j :: q)); try (intros ? ?; solve [eauto]); auto.
        * intros p H. apply at_of. eapply at_sub; eauto.
        * intros p H. apply at_of. eapply at_sub; eauto.
        * intros p. now apply at_not_at.
        * apply (child 1 (j :: q) (PName (T "data_")) v); auto.
        * destruct co as [c|]; [|auto]. apply (child 0 (j :: q) (PName (T "data_")) c); auto.
    - rewrite gen_CCache. apply fin_good; auto. cbn [defs flat_map].
      apply good_join with (S1 := at_ 0 q) (S2 := from 1 q); try (intros ? ?; solve [eauto]); auto.
      + intros p. apply at_not_from. lia.
      + apply (child 0 q A c); auto.
      + apply good_weak. generalize 1. induction IHl as [|[m d] ls Hd IHls IH']; intros j; [apply good_nil|].
        cbn [gen_labels flat_map fst snd defs].
        apply good_join with (S1 := at_ j q) (S2 := from (S j) q); try (intros ? ?; solve [eauto]); auto.
        * intros p. apply from_le. lia.
        * intros p. apply at_not_from. lia.
        * apply (child j q (PGet n) d); auto.
    - rewrite gen_CPipe. set (code := gen fed (0 :: q) a A).
      assert (Ga : Good (at_ 0 q) (defs A) (defs code)) by (apply child; auto).
      assert (Fc : fresh (at_ 1 q) (defs code)).
      { intros p h Hp J. destruct (proj1 Ga _ _ J) as [K|(p' & Hp' & E)].
        - eapply F; [|exact K]. now apply at_sub with 1.
        - apply Hinj in E. subst. eapply at_not_at; [|exact Hp'|exact Hp]. lia. }
      assert (Gb : Good (at_ 1 q) (defs code) (defs (gen false (1 :: q) b code))).
      { apply IHb; auto. apply Ga. }
      assert (G : Good (at_ 1 q) (defs code) (defs code ++ defs (gen false (1 :: q) b code))).
      { apply good_with_base; auto. apply Ga. }
      eapply good_incl; [apply attach_defs|]. split; [|apply G].
      intros f h J. destruct (proj1 G f h J) as [K|(p & Hp & ->)].
      + destruct (proj1 Ga f h K) as [?|(p & Hp & ->)]; eauto.
      + right. exists p. split; eauto.
    - rewrite gen_CTap. apply fin_good; auto. cbn [defs flat_map]. rewrite names_defs, app_nil_r.
      rewrite app_assoc. apply own_join; auto.
      apply good_join with (S1 := at_ 0 q) (S2 := from 1 q); try (intros ? ?; solve [eauto]); auto.
      + intros p H. eapply from_le; [|exact H]. lia.
      + intros p. apply at_not_from. lia.
      + apply child; auto.
      + apply good_weak. generalize 1. induction IHm as [|[mk l] ms Hl IHms IH']; intros j; [apply good_nil|].
        cbn [gen_stmts flat_map fst snd].
        apply good_join with (S1 := at_ j q) (S2 := from (S j) q); try (intros ? ?; solve [eauto]); auto.
        * intros p. apply from_le. lia.
        * intros p. apply at_not_from. lia.
        * eapply good_mono; [|apply (children l Hl 0 (j :: q) (PName (T "data_"))); auto]. intros p H. apply at_of. eapply from_sub; eauto.
  Qed.

  Lemma body_uniq l : forall i x,
    Good (from i []) [] (flat_map (fun l => defs (snd l)) (fst (body wordch srepr gname pnum pname hname tname i x l)) ++
                         defs (snd (body wordch srepr gname pnum pname hname tname i x l))).
  Proof.
    induction l as [|c l IH]; intros i x; cbn [body]; [apply good_nil|].
    assert (G : Good (at_ i []) [] (defs (gen false [i] c (PName x)))) by (apply (child i [] (PName x) c (uniq c)); auto).
    destruct l as [|c2 l]; [eapply good_mono; [apply at_from|exact G]|].
    specialize (IH (S i) (tname x)).
    destruct (body wordch srepr gname pnum pname hname tname (S i) (tname x) (c2 :: l)) as [ls last].
    cbn [fst snd flat_map] in *. rewrite <- app_assoc.
    apply good_join with (S1 := at_ i []) (S2 := from (S i) []); try (intros ? ?; solve [eauto]); auto.
    - intros p. apply from_le. lia.
    - intros p. apply at_not_from. lia.
  Qed.
  Theorem names_unique c f h h' :
    In (f, h) (converter_defs wordch srepr gname pnum pname hname tname c) ->
    In (f, h') (converter_defs wordch srepr gname pnum pname hname tname c) -> h = h'.
  Proof. apply (proj2 (body_uniq (stages c) 0 (T "data_"))). Qed.
End Unique.
