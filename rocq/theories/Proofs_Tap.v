From Coq Require Import String List ZArith NArith Bool Arith.
From Verif Require Import Model_Code Model_Eval Spec_Eval Spec_Tap.
Import ListNotations.

Section P.
  Context {V W X : Type}.
  Variable pr : prims V W X.
  Variable args : list (text * V).
  Notation den := (den pr args).
  Notation st := (@st V W).
  Notation D u := (fun c => den c u).
  Definition one (u : V) (m : mkind * list cv) : @M V W X V :=
    match fst m, snd m with
    | MSetItem, [n; v] => bind (den v u) (fun vv => bind (den n u) (fun vn => mutM pr MSetItem [u; vn; vv]))
    | k, l => bind (mapM (D u) l) (fun vs => mutM pr k (u :: vs))
    end.
  Lemma stmts_cons u m l s : stmtsM pr (D u) u (m :: l) s = bind (one u m) (fun _ => stmtsM pr (D u) u l) s.
  Proof.
    destruct m as [k ls]. cbn [stmtsM]. unfold one. cbn [fst snd].
    destruct k; try reflexivity. destruct ls as [|? [|? [|? ?]]]; reflexivity.
  Qed.
  Lemma vals_mapM u l s s1 xs : vals pr args u l s s1 xs -> mapM (D u) l s = (s1, Val xs).
  Proof. induction 1; cbn [mapM]; [reflexivity|]. unfold bind. rewrite H, IHvals. reflexivity. Qed.
  Lemma vals_fail_mapM u l s s1 e : vals_fail pr args u l s s1 e -> mapM (D u) l s = (s1, Exc e).
  Proof. induction 1; cbn [mapM]; unfold bind; [now rewrite H|]. now rewrite H, IHvals_fail. Qed.
  Lemma mapM_cases u l : forall s, (exists s1 xs, vals pr args u l s s1 xs) \/ (exists s1 e, vals_fail pr args u l s s1 e).
  Proof.
    induction l as [|c l IH]; intros s; [left; do 2 eexists; constructor|].
    destruct (den c u s) as [s1 [x|e]] eqn:E; [|right; do 2 eexists; eapply F_here; eauto].
    destruct (IH s1) as [(s2 & xs & H)|(s2 & e & H)]; [left|right]; do 2 eexists; [eapply V_cons|eapply F_later]; eauto.
  Qed.
  Lemma vals_len u l s s1 xs : vals pr args u l s s1 xs -> length xs = length l.
  Proof. induction 1; cbn; congruence. Qed.

  Lemma one_ok u m s s' : mutates pr args u m s s' -> exists r, one u m s = (s', Val r).
  Proof.
    intros H. inversion H; subst; clear H; apply vals_mapM in H0; unfold one; cbn [fst snd].
    - cbn [mapM] in H0. unfold bind in *. destruct (den v u s) as [s2 [x|]]; [|discriminate].
      destruct (den n u s2) as [s3 [y|]]; [|discriminate]. injection H0 as <- <- <-.
      cbn [mutM]. unfold prim. rewrite H1. eauto.
    - unfold bind. rewrite H0. cbn [mutM]. unfold prim. rewrite H1. eauto.
    - unfold bind. rewrite H0. cbn [mutM]. unfold prim. rewrite H1. eauto.
    - unfold bind. rewrite H0. cbn [mutM]. unfold prim. rewrite H1. eauto.
    - unfold bind. rewrite H0. cbn [mutM]. eexists. reflexivity.
  Qed.
  Lemma one_fail u m s s' e : shape m -> mutation_fails pr args u m s s' e -> one u m s = (s', Exc e).
  Proof.
    intros Hs H. inversion H; subst; clear H.
    - destruct k; cbn in Hs.
      + destruct l as [|n [|v [|? ?]]]; try destruct Hs. cbn [rev app] in H0. apply vals_fail_mapM in H0.
        unfold one. cbn [fst snd]. cbn [mapM] in H0. unfold bind in *.
        destruct (den v u s) as [s2 [x|]]; [|congruence].
        destruct (den n u s2) as [s3 [y|]]; [discriminate|congruence].
      + apply vals_fail_mapM in H0. destruct l as [|n [|v [|? ?]]]; try destruct Hs. unfold one. cbn [fst snd]. unfold bind at 1. now rewrite H0.
      + apply vals_fail_mapM in H0. unfold one. cbn [fst snd]. unfold bind at 1. now rewrite H0.
      + apply vals_fail_mapM in H0. unfold one. cbn [fst snd]. unfold bind at 1. now rewrite H0.
      + apply vals_fail_mapM in H0. unfold one. cbn [fst snd]. unfold bind at 1. now rewrite H0.
    - apply vals_mapM in H0. unfold one. cbn [fst snd]. cbn [mapM] in H0. unfold bind in *. destruct (den v u s) as [s2 [x|]]; [|discriminate].
      destruct (den n u s2) as [s3 [y|]]; [|discriminate]. injection H0 as <- <- <-.
      cbn [mutM]. unfold prim. now rewrite H1.
    - apply vals_mapM in H0. unfold one. cbn [fst snd]. unfold bind. rewrite H0. cbn [mutM]. unfold prim. now rewrite H1.
    - apply vals_mapM in H0. unfold one. cbn [fst snd]. unfold bind. rewrite H0. cbn [mutM]. unfold prim. now rewrite H1.
    - apply vals_mapM in H0. unfold one. cbn [fst snd]. unfold bind. rewrite H0. cbn [mutM]. unfold prim. now rewrite H1.
  Qed.
  Lemma one_cases u m s : shape m ->
    (exists s', mutates pr args u m s s') \/ (exists s' e, mutation_fails pr args u m s s' e).
  Proof.
    intros Hs. destruct m as [k l].
    destruct (mapM_cases u (match k with MSetItem => rev l | _ => l end) s) as [(s1 & xs & H)|(s1 & e & H)].
    2: { right. exists s1, e. apply MF_operands. exact H. }
    assert (HL := vals_len _ _ _ _ _ H).
    destruct k; cbn in Hs; destruct l as [|n [|v [|? ?]]]; try destruct Hs; cbn in HL;
      destruct xs as [|x [|y [|? ?]]]; try discriminate HL; cbn [rev app] in H.
    - destruct (mut pr MSetItem [u; y; x] (fst s1)) as [w [r|e]] eqn:E; [left; eexists; eapply M_set_item; eauto|right; do 2 eexists; eapply MF_set_item; eauto].
    - destruct (mut pr MSetAttr [u; x; y] (fst s1)) as [w [r|e]] eqn:E; [left; eexists; eapply M_set_attr; eauto|right; do 2 eexists; eapply MF_set_attr; eauto].
    - destruct (mut pr MDelItem [u; x] (fst s1)) as [w [r|e]] eqn:E; [left; eexists; eapply M_del_item; eauto|right; do 2 eexists; eapply MF_del_item; eauto].
    - destruct (mut pr MDelAttr [u; x] (fst s1)) as [w [r|e]] eqn:E; [left; eexists; eapply M_del_attr; eauto|right; do 2 eexists; eapply MF_del_attr; eauto].
    - left. eexists. econstructor; eauto.
  Qed.
  Lemma all_ok u l s s' : mutates_all pr args u l s s' -> stmtsM pr (D u) u l s = (s', Val tt).
  Proof.
    induction 1; [reflexivity|]. rewrite stmts_cons. unfold bind. destruct (one_ok _ _ _ _ H) as [r E]. now rewrite E.
  Qed.
  Lemma some_fails u l m l' s s1 s2 e : shape m -> mutates_all pr args u l s s1 -> mutation_fails pr args u m s1 s2 e ->
    stmtsM pr (D u) u (l ++ m :: l') s = (s2, Exc e).
  Proof.
    intros Hs. induction 1; intros Hf; cbn [app]; rewrite stmts_cons; unfold bind.
    - now rewrite (one_fail _ _ _ _ _ Hs Hf).
    - destruct (one_ok _ _ _ _ H) as [r E]. rewrite E. auto.
  Qed.
  Lemma all_cases u l : Forall shape l -> forall s,
    (exists s', mutates_all pr args u l s s') \/
    (exists l1 m l2 s1 s2 e, l = l1 ++ m :: l2 /\ mutates_all pr args u l1 s s1 /\ mutation_fails pr args u m s1 s2 e).
  Proof.
    induction 1 as [|m l Hm Hl IH]; intros s; [left; eexists; constructor|].
    destruct (one_cases u m s Hm) as [(s1 & H1)|(s1 & e & H1)].
    - destruct (IH s1) as [(s2 & H2)|(l1 & m' & l2 & s2 & s3 & e & -> & H2 & H3)].
      + left. eexists. econstructor; eauto.
      + right. exists (m :: l1), m', l2, s2, s3, e. split; [reflexivity|]. split; [econstructor; eauto|auto].
    - right. exists [], m, l, s, s1, e. split; [reflexivity|]. split; [constructor|auto].
  Qed.
End P.
