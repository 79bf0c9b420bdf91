(** Properties C27, C32, C33 (and the conditional form of C34). *)
From Coq Require Import String List ZArith NArith Bool Lia Permutation.
From Verif Require Import Model_PyVal Proofs_PyVal Model_Reducers Spec_Reducers Proofs_Reducers Proofs_DictReducers
  Model_Aggregate Spec_Aggregate Proofs_Aggregate Proofs_AggLoops.
Import ListNotations.

Lemma results_spec {Row} (vars : list (item Row * nat)) st :
  match results vars st with
  | Ok out => Forall2 (fun iv x => finish (obj (fst iv)) (st (snd iv)) = Ok x) vars out
  | Err e => exists iv, In iv vars /\ finish (obj (fst iv)) (st (snd iv)) = Err e
  end.
Proof.
  induction vars as [|[it v] vars IH]; simpl; auto.
  destruct (finish (obj it) (st v)) eqn:E; simpl; [|exists (it, v); simpl; auto].
  destruct (results vars st); simpl.
  - constructor; auto.
  - destruct IH as (iv & ? & ?). exists iv. auto.
Qed.
Lemma all_results_spec {Row} (vars : list (item Row * nat)) d :
  match all_results vars d with
  | Ok out => Forall2 (fun kst kx => fst kx = fst kst /\ results vars (snd kst) = Ok (snd kx)) d out
  | Err e => exists k st, In (k, st) d /\ results vars st = Err e
  end.
Proof.
  induction d as [|[k st] d IH]; simpl; auto.
  destruct (results vars st) eqn:E; simpl; [|eauto].
  destruct (all_results vars d); simpl.
  - constructor; auto.
  - destruct IH as (k' & st' & ? & ?). eauto.
Qed.

Section Common.
  Context {Row : Type}.
  Variable sem : string -> Row -> res bool.
  Variable its : list (item Row).
  Hypothesis SH : same_code_same_loop sem its.
  Hypothesis HO : declared_honestly its.

  Lemma setup : forall vars ms, index_items its 0 0 [] = (vars, ms) ->
    map fst vars = its /\ wf_blocks (build ms) /\ NoDup (map m_bit (all_members (build ms))) /\
    (forall m, In m (all_members (build ms)) -> In (m_item m) its) /\
    (forall it v, In (it, v) vars -> In it its /\ exists m, In m (all_members (build ms)) /\ m_var m = v /\
       forall rows, run_alone (whole sem (m_item m)) None rows = run_alone (whole sem it) None rows) /\
    (forall i, N.testbit (expected_checksum ms) (N.of_nat i) = true <-> exists m, In m (all_members (build ms)) /\ m_bit m = i).
  Proof.
    intros vars ms E. pose proof (index_spec its 0 0 []) as I. rewrite E in I. destruct I as (A & B & C & D & F).
    pose proof (build_perm ms) as P.
    assert (MI : forall m, In m (all_members (build ms)) <-> In m ms).
    { intros m. split; apply Permutation_in; auto. apply Permutation_sym; auto. }
    split; auto. split.
    { apply build_wf; auto. intros m Hm Hu. apply HO; auto. apply B; auto. }
    split. { eapply Permutation_NoDup; [apply Permutation_map, Permutation_sym; exact P|auto]. }
    split. { intros m Hm. apply B. apply MI; auto. }
    split.
    - intros it v Hin. assert (Hit : In it its) by (rewrite <- A; change it with (fst (it, v)); apply in_map; auto).
      split; auto. destruct (F it v Hin) as [(m & Hm & Em & Eh)|(h & Q)]; [|discriminate].
      exists m. split; [apply MI; auto|]. split; auto. apply SH; auto. apply B; auto.
    - intros i. unfold expected_checksum. rewrite fold_lor_testbit. split.
      + intros [Q|(m & ? & ?)]; [rewrite N.bits_0 in Q; discriminate|]. exists m. rewrite MI. auto.
      + intros (m & Hm & ?). right. exists m. rewrite <- MI. auto.
  Qed.

  Lemma Forall2_vars vars (st : state) out (Q : item Row -> option val -> Prop) :
    map fst vars = its ->
    Forall2 (fun iv x => finish (obj (fst iv)) (st (snd iv)) = Ok x) vars out ->
    (forall it v x, In (it, v) vars -> finish (obj it) (st v) = Ok x -> Q it x) ->
    Forall2 Q its out.
  Proof.
    intros <- F H. clear SH HO. induction F as [|[it v] x vars out E F IH]; simpl; constructor.
    - apply (H it v); simpl; auto.
    - apply IH. intros. eapply H; eauto. right; eauto.
  Qed.
End Common.

Lemma eval_keys_spec {Row} (keys : list (Row -> res val)) r :
  match eval_keys keys r with
  | Ok vs => vs = key_values keys r /\ forall k, In k keys -> exists v, k r = Ok v
  | Err _ => ~ forall k, In k keys -> exists v, k r = Ok v
  end.
Proof.
  induction keys as [|k keys IH]; simpl; [split; auto; contradiction|].
  destruct (k r) as [v|e] eqn:Ek; cbn [bind].
  - destruct (eval_keys keys r) as [vs|e]; cbn [bind].
    + destruct IH as [-> IH]. split; auto. intros k' [<-|H]; eauto.
    + intros H. apply IH. auto.
  - intros H. destruct (H k (or_introl eq_refl)) as (v & Ev). congruence.
Qed.
Lemma signature_spec {Row} (keys : list (Row -> res val)) r :
  match signature keys r with
  | Ok v => v = group_key keys r /\ forall k, In k keys -> exists v, k r = Ok v
  | Err _ => ~ forall k, In k keys -> exists v, k r = Ok v
  end.
Proof.
  pose proof (eval_keys_spec keys r) as H. unfold signature, group_key.
  destruct keys as [|k [|k' keys]].
  - simpl in *. split; auto; tauto.
  - simpl in *. destruct (k r) as [v|e] eqn:Ek; cbn [bind] in *.
    + split; auto. intros k0 [<-|[]]. eauto.
    + intros Q. destruct (Q k (or_introl eq_refl)) as (v & Ev). congruence.
  - destruct (eval_keys (k :: k' :: keys) r) as [vs|e]; cbn [bind]; auto. destruct H as [-> H]. split; auto.
Qed.
Lemma key_fine_good {Row} (keys : list (Row -> res val)) r : key_fine keys r <-> good_key keys r.
Proof.
  unfold key_fine, good_key, sg. pose proof (signature_spec keys r) as H.
  destruct (signature keys r) as [v|e]; [destruct H as [-> H]; tauto|].
  split; [intros [? _]; discriminate|tauto].
Qed.
Lemma good_sg {Row} (keys : list (Row -> res val)) r : good_key keys r -> sg keys r = group_key keys r.
Proof.
  intros [H _]. unfold sg. pose proof (signature_spec keys r) as S.
  destruct (signature keys r) as [v|e]; [apply S|tauto].
Qed.
Lemma rows_of_sg {Row} (keys : list (Row -> res val)) k rows : (forall r, In r rows -> good_key keys r) ->
  rows_of (sg keys) k rows = rows_of (group_key keys) k rows.
Proof. intros H. apply filter_ext_in. intros r Hr. rewrite good_sg; auto. Qed.

Lemma partitions_sg :
  forall (Row : Type) (sem : string -> Row -> res bool) keys its (rows : list Row),
  its <> [] -> same_code_same_loop sem its -> declared_honestly its ->
  match group_by sem keys its rows with
  | None => False
  | Some (Ok out) =>
      (forall r, In r rows -> key_fine keys r) /\
      map fst out = distinct (map (sg keys) rows) /\
      forall k results, In (k, results) out ->
        Forall2 (fun it x => reduce_rows (whole sem it) (rows_of (sg keys) k rows) = Ok x) its results
  | Some (Err e) =>
      (exists r, In r rows /\ ~ key_fine keys r) \/
      (exists it r, In it its /\ In r rows /\
         reduce_rows (whole sem it) (rows_of (sg keys) (sg keys r) rows) = Err e)
  end.
Proof.
  intros Row sem keys its rows Hne SH HO.
  assert (Hg : group_by sem keys its rows =
    (let '(vars, ms) := index_items its 0 0 [] in
     Some (bind (group_loop sem keys (build ms) rows []) (fun d => all_results vars d)))).
  { destruct its; [congruence|reflexivity]. }
  rewrite Hg. destruct (index_items its 0 0 []) as [vars ms] eqn:E.
  destruct (setup sem its SH HO vars ms E) as (A & WF & _ & MI & V & _).
  pose proof (group_loop_spec sem keys (build ms) WF rows [] []) as G.
  assert (G0 : ginv sem keys (build ms) [] []) by (repeat split; simpl; auto; contradiction).
  specialize (G G0). simpl app in G.
  destruct (group_loop sem keys (build ms) rows []) as [d|e]; cbn [bind].
  - destruct G as (G1 & G2 & G3).
    pose proof (all_results_spec vars d) as R.
    destruct (all_results vars d) as [out|e].
    + split; [exact G1|]. split.
      * rewrite <- (G2 : map fst d = distinct (map (sg keys) rows)).
        clear - R. induction R as [|a b l m (Q & _) _ IH]; simpl; congruence.
      * intros k rs Hin.
        assert (exists st, In (k, st) d /\ results vars st = Ok rs) as (st & Hst & Er).
        { clear - R Hin. induction R as [|[a sa] [b xb] l m (Q & Q2) _ IH]; [destruct Hin|].
          destruct Hin as [Hin|Hin]; [|destruct (IH Hin) as (st & ? & ?); exists st; simpl; auto].
          injection Hin as -> ->. simpl in *. subst. eauto. }
        pose proof (results_spec vars st) as F. rewrite Er in F.
        eapply (Forall2_vars sem its SH HO vars st); eauto.
        intros it v x Hv Fx. destruct (V it v Hv) as (_ & m & Hm & <- & Eq).
        unfold reduce_rows. rewrite <- Eq. destruct (G3 k st Hst) as (C & _).
        change (rows_of (sg keys) k rows) with (rows_of (sg keys) k rows). rewrite (C m Hm). exact Fx.
    + destruct R as (k & st & Hst & Er). pose proof (results_spec vars st) as F. rewrite Er in F.
      destruct F as ([it v] & Hv & Fx). cbn [fst snd] in Fx. destruct (V it v Hv) as (Hit & m & Hm & <- & Eq).
      right.
      assert (In k (map (sg keys) rows)) as Hk.
      { apply distinct_incl. rewrite <- G2. change k with (fst (k, st)). apply in_map; auto. }
      apply in_map_iff in Hk as (r & <- & Hr). exists it, r. split; auto. split; auto.
      unfold reduce_rows. rewrite <- Eq. destruct (G3 _ st Hst) as (C & _).
      change (rows_of (sg keys) (sg keys r) rows) with (rows_of (sg keys) (sg keys r) rows).
      rewrite (C m Hm). exact Fx.
  - destruct G as [(r & Hr & N)|(m & r & Hm & Hr & Er)]; [left; exists r; auto|].
    right. exists (m_item m), r. split; auto. split; auto. unfold reduce_rows.
    change (rows_of (sg keys) (sg keys r) rows) with (rows_of (sg keys) (sg keys r) rows).
    rewrite Er. auto.
Qed.

(** ** C27: one result per key, in order of first appearance, each reducer
    fed with the rows of its group.  The converse (a failure has a cause) is the
    third case. *)
Theorem C27_group_by_partitions :
  forall (Row : Type) (sem : string -> Row -> res bool) keys its (rows : list Row),
  its <> [] -> same_code_same_loop sem its -> declared_honestly its ->
  match group_by sem keys its rows with
  | None => False
  | Some (Ok out) =>
      (forall r, In r rows -> good_key keys r) /\
      map fst out = distinct (map (group_key keys) rows) /\
      forall k results, In (k, results) out ->
        Forall2 (fun it x => reduce_rows (whole sem it) (rows_of (group_key keys) k rows) = Ok x) its results
  | Some (Err e) =>
      (exists r, In r rows /\ ~ good_key keys r) \/
      (exists it r, In it its /\ In r rows /\
         reduce_rows (whole sem it) (rows_of (group_key keys) (group_key keys r) rows) = Err e)
  end.
Proof.
  intros Row sem keys its rows Hne SH HO. pose proof (partitions_sg Row sem keys its rows Hne SH HO) as P.
  destruct (group_by sem keys its rows) as [[out|e]|]; auto.
  - destruct P as (P1 & P2 & P3).
    assert (G : forall r, In r rows -> good_key keys r) by (intros; apply key_fine_good; auto).
    split; auto. split.
    + rewrite P2. f_equal. apply map_ext_in. intros; apply good_sg; auto.
    + intros k rs Hin. rewrite <- (rows_of_sg keys k rows G). auto.
  - assert (D : (exists r, In r rows /\ ~ good_key keys r) \/ forall r, In r rows -> good_key keys r).
    { clear. induction rows as [|r rows IH]; [right; contradiction|].
      assert (D : good_key keys r \/ ~ good_key keys r).
      { rewrite <- key_fine_good. unfold key_fine, sg. destruct (signature keys r) as [v|]; [|right; intros [? _]; discriminate].
        destruct (hashable v); [left; auto|right; intros [_ ?]; discriminate]. }
      destruct D as [D|D]; [|left; exists r; simpl; auto].
      destruct IH as [(r' & Hr & N)|IH]; [left; exists r'; simpl; auto|right; intros r' [<-|H]; auto]. }
    destruct D as [D|G]; auto. right. destruct P as [(r & Hr & N)|(it & r & Hit & Hr & E)].
    + destruct N. apply key_fine_good; auto.
    + exists it, r. rewrite <- (rows_of_sg keys _ rows G), <- (good_sg keys r) by auto. auto.
Qed.

(** Rows share a group iff all their key values are equal. *)
Theorem C27_same_group : forall (Row : Type) (keys : list (Row -> res val)) r r',
  py_eq (group_key keys r) (group_key keys r') = true <->
  Forall2 (fun u v => py_eq u v = true) (key_values keys r) (key_values keys r').
Proof.
  intros Row keys r r'. unfold group_key, key_values.
  destruct keys as [|k [|k' keys]]; simpl map.
  - split; constructor.
  - split; [intros; repeat constructor; auto|intros H; inversion H; auto].
  - cbv iota. rewrite py_eq_tuple.
    match goal with |- list_eq ?a ?b = true <-> _ => generalize a b end.
    induction l as [|x l IH]; intros [|y m]; simpl; split; intros H; try discriminate; try constructor; try (inversion H; fail).
    + apply andb_true_iff in H as [H _]; auto.
    + apply IH. apply andb_true_iff in H as [_ H]; auto.
    + inversion H; subst. apply andb_true_iff. split; auto. apply IH; auto.
Qed.

(** Nothing but group keys in the output: the generated class has an empty
    body and compilation fails. *)
Theorem C27_keys_only_refuted :
  forall (Row : Type) (sem : string -> Row -> res bool) keys rows, group_by sem keys [] rows = None.
Proof. reflexivity. Qed.

(** The built-in reducers and user functions satisfy the hypotheses when
    neither unconditional_init nor (for built-ins) initial is overridden. *)
Theorem C27_hypotheses_hold : forall (Row : Type) (its : list (item Row)),
  (forall it, In it its -> user_uncond (obj it) = false /\
     (initial (obj it) = None \/ exists f, red (obj it) = Fun f)) ->
  declared_honestly its.
Proof.
  intros Row its H it Hit U row c E. destruct (H it Hit) as (Uu & Hi).
  unfold uncond in U. rewrite Uu in U. simpl in U. unfold run_init in E.
  destruct (red (obj it)) as [b|f]; [|discriminate].
  destruct Hi as [Hi|(f & Q)]; [|discriminate]. rewrite Hi in E.
  destruct b; simpl in U; try discriminate; simpl in E; unfold bind, need_hash in E;
    repeat match type of E with context [match ?x with _ => _ end] => destruct x; try discriminate end;
    injection E as <-; discriminate.
Qed.

Definition demo_key : list (Z * val -> res val) := [fun r => Ok (VInt (fst r))].
Definition demo (b : builtin) (cond : option string) (h : string) : item (Z * val) :=
  mkItem (plain b (fun r => snd r) (fun r => snd r)) cond h.
Definition demo_sem (t : string) (r : Z * val) : res bool := Ok (Z.ltb 1 (fst r)).
Example C27_case :
  let its := [demo Sum None "s"; demo Max None "m"; demo Count (Some "x>1"%string) "c"] in
  its <> [] /\ same_code_same_loop demo_sem its /\ declared_honestly its /\
  group_by demo_sem demo_key its [(2, VInt 5); (1, VInt 7); (2, VInt 4)]%Z =
    Some (Ok [(VInt 2, [Some (VInt 9); Some (VInt 5); Some (VInt 2)]);
              (VInt 1, [Some (VInt 7); Some (VInt 7); Some (VInt 0)])]).
Proof.
  cbn zeta. split; [discriminate|]. split; [|split; [|reflexivity]].
  - intros a b [<-|[<-|[<-|[]]]] [<-|[<-|[<-|[]]]] Q; try discriminate Q; auto.
  - apply C27_hypotheses_hold. intros it [<-|[<-|[<-|[]]]]; split; simpl; auto.
Qed.

(** ** C32: filter and default.  [unfiltered]: the same reduce, no .filter. *)
Definition unfiltered {Row} (it : item Row) : reduce_obj Row :=
  mkReduce (red (obj it)) (expr (obj it)) (extras (obj it)) None (initial (obj it)) (default (obj it)) (user_uncond (obj it)).

Lemma run_filtered {Row} (sem : string -> Row -> res bool) it (p : Row -> bool) rows : forall c,
  (forall t, ccode it = Some t -> forall r, In r rows -> sem t r = Ok (p r)) ->
  (ccode it = None -> forall r, In r rows -> p r = true) ->
  run_alone (whole sem it) c rows = run_alone (unfiltered it) c (filter p rows).
Proof.
  induction rows as [|r rows IH]; intros c H1 H2; auto.
  cbn [run_alone filter]. rewrite whole_step.
  assert (C : match ccode it with Some t => sem t r | None => Ok true end = Ok (p r)).
  { destruct (ccode it) as [t|] eqn:Q; [apply H1; simpl; auto|rewrite H2; simpl; auto]. }
  rewrite C. cbn [bind].
  assert (IHr : forall c, run_alone (whole sem it) c rows = run_alone (unfiltered it) c (filter p rows)).
  { intros c'. apply IH; intros; [eapply H1; eauto; right; auto|apply H2; auto; right; auto]. }
  destruct (p r); [|cbn [bind]; apply IHr].
  cbn [run_alone]. unfold step_alone at 1. cbn [condition unfiltered bind].
  replace (match c with Some v => run_two (unfiltered it) v r | None => run_init (unfiltered it) r end)
    with (match c with Some v => run_two (obj it) v r | None => run_init (obj it) r end) by (destruct c; reflexivity).
  destruct (match c with Some v => run_two (obj it) v r | None => run_init (obj it) r end); cbn [bind]; auto.
Qed.

Theorem C32_filter_feeds_matching_rows :
  forall (Row : Type) (sem : string -> Row -> res bool) it (p : Row -> bool) (rows : list Row),
  (forall t, ccode it = Some t -> forall r, In r rows -> sem t r = Ok (p r)) ->
  (ccode it = None -> forall r, In r rows -> p r = true) ->
  reduce_rows (whole sem it) rows = reduce_rows (unfiltered it) (filter p rows).
Proof.
  intros. unfold reduce_rows. rewrite (run_filtered sem it p) by auto. reflexivity.
Qed.

(** In a group_by with any list of reducers, each with its own filter: *)
Theorem C32_group_by_filters :
  forall (Row : Type) (sem : string -> Row -> res bool) (truth : string -> Row -> bool) keys its (rows : list Row) out,
  same_code_same_loop sem its -> declared_honestly its ->
  (forall t r, sem t r = Ok (truth t r)) ->
  group_by sem keys its rows = Some (Ok out) ->
  forall k results, In (k, results) out ->
    Forall2 (fun it x =>
       let fed := filter (fun r => match ccode it with Some t => truth t r | None => true end)
                         (rows_of (group_key keys) k rows) in
       reduce_rows (unfiltered it) fed = Ok x /\
       (fed = [] -> forall d, default (obj it) = Some (Ok d) -> x = Some d)) its results.
Proof.
  intros Row sem truth keys its rows out SH HO T E k rs Hin.
  assert (Hne : its <> []) by (intros ->; discriminate).
  pose proof (C27_group_by_partitions Row sem keys its rows Hne SH HO) as G. rewrite E in G.
  destruct G as (_ & _ & G). specialize (G k rs Hin).
  clear E Hin SH HO Hne. induction G as [|it x its rs Hx G IH]; constructor; auto. cbn zeta.
  rewrite (C32_filter_feeds_matching_rows Row sem it
             (fun r => match ccode it with Some t => truth t r | None => true end)) in Hx.
  - split; auto. intros F d Hd. rewrite F in Hx. unfold reduce_rows in Hx. cbn [run_alone bind] in Hx.
    unfold finish in Hx. cbn [unfiltered default] in Hx. rewrite Hd in Hx. cbn [bind] in Hx. congruence.
  - intros t -> r _. apply T.
  - intros -> r _. auto.
Qed.

(** A reducer that found nothing (e.g. Max over Nones) also yields the default. *)
Theorem C32_default_when_nothing_found :
  forall (Row : Type) (o : reduce_obj Row) rows d,
  run_alone o None rows = Ok None -> default o = Some (Ok d) -> reduce_rows o rows = Ok (Some d).
Proof. intros Row o rows d H D. unfold reduce_rows. rewrite H. cbn [bind]. unfold finish. rewrite D. reflexivity. Qed.

(** Two reduces with different filters over the same groups, one with a default. *)
Example C32_case :
  let sem := fun t r => Ok (if String.eqb t "a" then Z.ltb 1 (fst r) else Z.ltb (fst r) 1) in
  let its := [mkItem (mkReduce (Builtin Count) (fun r => Ok (snd r)) [] None None (Some (Ok (VInt 0))) false) (Some "a"%string) "1";
              mkItem (mkReduce (Builtin Sum) (fun r => Ok (snd r)) [] None None (Some (Ok (VInt 77))) false) (Some "b"%string) "2"] in
  same_code_same_loop sem its /\ declared_honestly its /\
  group_by sem [fun _ => Ok VNone] its [(2, VInt 5); (1, VInt 7); (3, VInt 4)]%Z =
    Some (Ok [(VNone, [Some (VInt 2); Some (VInt 77)])]).
Proof.
  cbn zeta. split; [|split; [|reflexivity]].
  - intros a b [<-|[<-|[]]] [<-|[<-|[]]] Q; try discriminate Q; auto.
  - apply C27_hypotheses_hold. intros it [<-|[<-|[]]]; split; simpl; auto.
Qed.

(** ** C33 *)
Lemma rank_sorted {Row} (ms : list (@member Row)) b1 b b2 m :
  build ms = b1 ++ b :: b2 -> In m (all_members b2) ->
  rank (m_item (bhead b)) < rank (m_item m) \/
  (rank (m_item (bhead b)) = rank (m_item m) /\ rank (m_item (bhead b)) <> 2).
Proof.
  intros E Hm.
  assert (S0 : sorted_ok (fold_left add_block ms (mkSorted [] [] [] [])) ([] ++ ms)).
  { apply sorted_fold. repeat split; simpl; auto; contradiction. }
  assert (SU : forall l s, (forall kl x, In kl (conditional s) -> In x (snd kl) -> uncond (obj (m_item x)) = false) ->
                           (forall x, In x (others s) -> uncond (obj (m_item x)) = false) ->
                let s' := fold_left (@add_block Row) l s in
                (forall kl x, In kl (conditional s') -> In x (snd kl) -> uncond (obj (m_item x)) = false) /\
                (forall x, In x (others s') -> uncond (obj (m_item x)) = false)).
  { induction l as [|a l IH]; intros s H1 H2; simpl; auto. apply IH.
    - unfold add_block. destruct (ccode (m_item a)), (uncond (obj (m_item a))) eqn:U; simpl; auto.
      intros kl x Hkl Hx. destruct (dd_add_in _ _ _ _ Hkl) as [|(Ek & F)]; [eauto|].
      destruct (F x Hx) as [->|(l' & Hl' & Hx')]; auto. apply (H1 _ _ Hl' Hx').
    - unfold add_block. destruct (ccode (m_item a)), (uncond (obj (m_item a))) eqn:U; simpl; auto.
      intros x Hx. apply in_app_or in Hx as [|[<-|[]]]; auto. }
  destruct (SU ms (mkSorted [] [] [] [])) as (SU1 & SU2); [simpl; contradiction|simpl; contradiction|]. clear SU.
  destruct S0 as (_ & H1 & H2 & H3 & H4).
  unfold build in E. set (s := fold_left add_block ms (mkSorted [] [] [] [])) in *. clearbody s.
  unfold reduce_blocks in E.
  set (L0 := flat_map (fun kl => map (fun m => mkBlock (Some (fst kl)) m []) (snd kl)) (conditional s)) in *.
  set (L1 := flat_map (fun kl => union_all (Some (fst kl)) (snd kl)) (uncond_conditional s)) in *.
  set (L2 := union_all None (uncond_plain s)) in *.
  set (L3 := map (fun m => mkBlock None m []) (others s)) in *.
  assert (K0 : forall x y, In x L0 -> In y (members x) -> rank (m_item y) = 0).
  { intros x y Hx Hy. apply in_flat_map in Hx as (kl & Hkl & Hx). apply in_map_iff in Hx as (z & <- & Hz).
    destruct Hy as [<-|[]]. unfold rank. cbn [bhead]. rewrite (H1 kl Hkl z Hz), (SU1 kl z Hkl Hz). auto. }
  assert (K1 : forall x y, In x L1 -> In y (members x) -> rank (m_item y) = 1).
  { intros x y Hx Hy. apply in_flat_map in Hx as (kl & Hkl & Hx). destruct (snd kl) as [|z r] eqn:Es; [destruct Hx|].
    destruct Hx as [<-|[]]. destruct (H2 kl Hkl y) as (Q1 & Q2); [rewrite Es; exact Hy|]. unfold rank. rewrite Q1, Q2. auto. }
  assert (K2 : forall x y, In x L2 -> In y (members x) -> rank (m_item y) = 2).
  { intros x y Hx Hy. unfold L2 in Hx. destruct (uncond_plain s) as [|z r] eqn:Es; [destruct Hx|].
    destruct Hx as [<-|[]]. destruct (H3 y) as (Q1 & Q2); [exact Hy|]. unfold rank. rewrite Q1, Q2. auto. }
  assert (K3 : forall x y, In x L3 -> In y (members x) -> rank (m_item y) = 3).
  { intros x y Hx Hy. apply in_map_iff in Hx as (z & <- & Hz). destruct Hy as [<-|[]]. unfold rank. cbn [bhead].
    rewrite (H4 z Hz), (SU2 z Hz). auto. }
  assert (K2' : length L2 <= 1) by (unfold L2; destruct (uncond_plain s); simpl; lia).
  clearbody L0 L1 L2 L3. clear - E Hm K0 K1 K2 K3 K2'.
  apply in_flat_map in Hm as (b' & Hb' & Hm).
  assert (Hh : In (bhead b) (members b)) by (left; auto).
  (* general: split of an append at b *)
  assert (SP : forall (A B b1 : list (@block Row)), A ++ B = b1 ++ b :: b2 ->
     (exists b3, A = b1 ++ b :: b3 /\ b2 = b3 ++ B) \/ (exists b4, B = b4 ++ b :: b2 /\ b1 = A ++ b4)).
  { clear. induction A as [|a A IH]; intros B b1 E; simpl in *; [right; exists b1; auto|].
    destruct b1 as [|c b1]; simpl in *; injection E as -> E.
    - left. exists A. auto.
    - destruct (IH B b1 E) as [(b3 & -> & ->)|(b4 & -> & ->)]; [left|right]; eauto. }
  destruct (SP _ _ _ E) as [(b3 & EA & ->)|(b4 & EB & ->)].
  - assert (rank (m_item (bhead b)) = 0) as -> by (apply (K0 b); auto; rewrite EA; apply in_or_app; simpl; auto).
    rewrite !in_app_iff in Hb'. destruct Hb' as [Hb'|[Hb'|[Hb'|Hb']]].
    + right. rewrite (K0 b' m); auto. rewrite EA. apply in_or_app; simpl; auto.
    + left. rewrite (K1 b' m); auto.
    + left. rewrite (K2 b' m); auto.
    + left. rewrite (K3 b' m); auto.
  - clear E. destruct (SP _ _ _ EB) as [(b3 & EA & ->)|(b5 & EB' & ->)].
    + assert (rank (m_item (bhead b)) = 1) as -> by (apply (K1 b); auto; rewrite EA; apply in_or_app; simpl; auto).
      rewrite !in_app_iff in Hb'. destruct Hb' as [Hb'|[Hb'|Hb']].
      * right. rewrite (K1 b' m); auto. rewrite EA. apply in_or_app; simpl; auto.
      * left. rewrite (K2 b' m); auto.
      * left. rewrite (K3 b' m); auto.
    + clear EB. destruct (SP _ _ _ EB') as [(b3 & EA & ->)|(b6 & EB & ->)].
      * assert (rank (m_item (bhead b)) = 2) as -> by (apply (K2 b); auto; rewrite EA; apply in_or_app; simpl; auto).
        rewrite EA, app_length in K2'. simpl in K2'. destruct b3; [|simpl in K2'; lia].
        left. rewrite (K3 b' m); auto.
      * assert (rank (m_item (bhead b)) = 3) as -> by (apply (K3 b); auto; rewrite EB; apply in_or_app; simpl; auto).
        right. rewrite (K3 b' m); auto. rewrite EB. apply in_or_app; simpl; auto.
Qed.

Section C33.
  Context {Row : Type}.
  Variable sem : string -> Row -> res bool.
  Variable its : list (item Row).
  Hypothesis Hne : its <> [].
  Hypothesis SH : same_code_same_loop sem its.
  Hypothesis HO : declared_honestly its.

  Lemma agg_unfold rows : aggregate sem its rows =
    (let '(vars, ms) := index_items its 0 0 [] in
     Some (bind (phase1 sem (build ms) (expected_checksum ms) rows init_state 0%N) (fun st => results vars st))).
  Proof. destruct its; [congruence|reflexivity]. Qed.
  Lemma bits_init (ms : list (@member Row)) : set_bits ms init_state 0%N.
  Proof. intros i. rewrite N.bits_0. split; [discriminate|]. intros (m & _ & _ & Q). destruct Q; auto. Qed.
End C33.

(** Under [in_step], or when some reducer never gets a value, every reducer
    of c.aggregate gives what it gives alone; failures included.
    Missing from the full property: the remaining inputs, where it is false
    (below). *)
Theorem C33_each_reducer_alone_partial :
  forall (Row : Type) (sem : string -> Row -> res bool) its (rows : list Row),
  its <> [] -> same_code_same_loop sem its -> declared_honestly its ->
  in_step sem its rows \/ (exists it, In it its /\ is_unset sem it rows) ->
  match aggregate sem its rows with
  | None => False
  | Some (Ok out) => Forall2 (fun it x => reduce_rows (whole sem it) rows = Ok x) its out
  | Some (Err e) => exists it, In it its /\ reduce_rows (whole sem it) rows = Err e
  end.
Proof.
  intros Row sem its rows Hne SH HO ST. rewrite agg_unfold by auto.
  destruct (index_items its 0 0 []) as [vars ms] eqn:E.
  destruct (setup sem its SH HO vars ms E) as (A & WF & NDB & MI & V & EX).
  pose proof (phase1_spec sem (build ms) WF NDB _ EX rows [] init_state 0%N
                (uniform_init _) (bits_init _) (fun m _ => eq_refl)) as P.
  simpl app in P.
  assert (NB : forall p q r b1 b b2, broke sem (build ms) [] rows p q r b1 b b2 -> all_members b2 = []).
  { intros p q r b1 b b2 (B1 & B2 & B3 & B4 & B5). simpl app in *.
    destruct (all_members b2) as [|m l] eqn:Em; auto. exfalso.
    assert (Hm : In m (all_members (build ms))).
    { rewrite B2, all_members_app. apply in_or_app. right. cbn [all_members flat_map]. apply in_or_app. right.
      fold (all_members b2). rewrite Em. left; auto. }
    assert (Hh : In (bhead b) (all_members (build ms))).
    { rewrite B2, all_members_app. apply in_or_app. right. simpl. auto. }
    destruct ST as [ST|(it & Hit & U)].
    - destruct (B4 m Hm) as (c & Ec & Nc). destruct c as [v|]; [|destruct Nc; simpl; auto].
      apply (ST (m_item (bhead b)) (m_item m) p (r :: q)); auto.
      + eapply rank_sorted; eauto. rewrite Em. left; auto.
      + exists v; auto.
    - assert (exists v, In (it, v) vars) as (v & Hv).
      { rewrite <- A in Hit. apply in_map_iff in Hit as ([i v] & <- & ?). eauto. }
      destruct (V it v Hv) as (_ & m' & Hm' & _ & Eq).
      assert (Set_ : exists w, run_alone (whole sem it) None (p ++ [r]) = Ok (Some w)).
      { rewrite <- Eq. rewrite B2 in Hm'. replace (b1 ++ b :: b2) with ((b1 ++ [b]) ++ b2) in Hm' by (rewrite <- app_assoc; auto).
        rewrite all_members_app in Hm'. apply in_app_or in Hm' as [Hm'|Hm']; [apply B5; auto|].
        destruct (B4 m') as (c & Ec & Nc).
        { rewrite B2. replace (b1 ++ b :: b2) with ((b1 ++ [b]) ++ b2) by (rewrite <- app_assoc; auto).
          rewrite all_members_app. apply in_or_app; auto. }
        rewrite <- Em in Nc. specialize (Nc Hm'). unfold is_unset in U. rewrite <- Eq, B1 in U.
        replace (p ++ r :: q) with ((p ++ [r]) ++ q) in U by (rewrite <- app_assoc; auto).
        rewrite run_alone_app in U. destruct (run_alone (whole sem (m_item m')) None (p ++ [r])) as [[w|]|] eqn:Q; [eauto| |discriminate].
        rewrite run_alone_app, Ec in Q. cbn [bind] in Q. exfalso.
        apply (run_keeps_set sem _ _ _ _ Q Nc). auto. }
      destruct Set_ as (w & Ew). unfold is_unset in U. rewrite B1 in U.
      replace (p ++ r :: q) with ((p ++ [r]) ++ q) in U by (rewrite <- app_assoc; auto).
      rewrite run_alone_app, Ew in U. cbn [bind] in U.
      apply (run_keeps_set sem _ _ _ _ U); auto. discriminate. }
  assert (FEED : forall p q r b1 b b2 (m : @member Row), broke sem (build ms) [] rows p q r b1 b b2 -> fed [] p q r b2 m rows).
  { intros p q r b1 b b2 m B. pose proof (NB _ _ _ _ _ _ B) as N. destruct B as (B1 & _).
    split; [rewrite N; intros []|]. intros _. auto. }
  destruct (phase1 sem (build ms) (expected_checksum ms) rows init_state 0%N) as [st|e]; cbn [bind].
  - assert (C : forall m, In m (all_members (build ms)) -> run_alone (whole sem (m_item m)) None rows = Ok (st (m_var m))).
    { destruct P as [P|(p & q & r & b1 & b & b2 & B & P)]; auto. intros m Hm. apply P; eauto. }
    pose proof (results_spec vars st) as R. destruct (results vars st) as [out|e].
    + eapply (Forall2_vars sem its SH HO vars st); eauto. intros it v x Hv Fx.
      destruct (V it v Hv) as (_ & m & Hm & <- & Eq). unfold reduce_rows. rewrite <- Eq, (C m Hm). exact Fx.
    + destruct R as ([it v] & Hv & Fx). destruct (V it v Hv) as (Hit & m & Hm & <- & Eq). exists it. split; auto.
      unfold reduce_rows. rewrite <- Eq, (C m Hm). exact Fx.
  - assert (exists m, In m (all_members (build ms)) /\ run_alone (whole sem (m_item m)) None rows = Err e) as (m & Hm & Em).
    { destruct P as [P|(p & q & r & b1 & b & b2 & B & m & Hm & P)]; auto. exists m. split; eauto. }
    exists (m_item m). split; auto. unfold reduce_rows. rewrite Em. auto.
Qed.

(** In general: when the aggregation succeeds, each result is that of the
    reducer alone over all rows, or over all rows but one - the same row for all
    reducers concerned, one they had already started before. *)
Theorem C33_at_most_one_row_missed_partial :
  forall (Row : Type) (sem : string -> Row -> res bool) its (rows : list Row) out,
  same_code_same_loop sem its -> declared_honestly its ->
  aggregate sem its rows = Some (Ok out) ->
  Forall2 (fun it x => reduce_rows (whole sem it) rows = Ok x) its out \/
  exists p r q, rows = p ++ r :: q /\
    Forall2 (fun it x => reduce_rows (whole sem it) rows = Ok x \/
                         (is_set sem it p /\ reduce_rows (whole sem it) (p ++ q) = Ok x)) its out.
Proof.
  intros Row sem its rows out SH HO EA.
  assert (Hne : its <> []) by (intros ->; discriminate).
  rewrite agg_unfold in EA by auto.
  destruct (index_items its 0 0 []) as [vars ms] eqn:E.
  destruct (setup sem its SH HO vars ms E) as (A & WF & NDB & MI & V & EX).
  pose proof (phase1_spec sem (build ms) WF NDB _ EX rows [] init_state 0%N
                (uniform_init _) (bits_init _) (fun m _ => eq_refl)) as P.
  simpl app in P. injection EA as EA.
  destruct (phase1 sem (build ms) (expected_checksum ms) rows init_state 0%N) as [st|e]; cbn [bind] in EA; [|discriminate].
  pose proof (results_spec vars st) as R. rewrite EA in R.
  destruct P as [C|(p & q & r & b1 & b & b2 & B & C)].
  - left. eapply (Forall2_vars sem its SH HO vars st); eauto. intros it v x Hv Fx.
    destruct (V it v Hv) as (_ & m & Hm & <- & Eq). unfold reduce_rows. rewrite <- Eq, (C m Hm). exact Fx.
  - right. exists p, r, q. destruct B as (B1 & B2 & B3 & B4 & B5). simpl app in *. split; auto.
    eapply (Forall2_vars sem its SH HO vars st); eauto. intros it v x Hv Fx.
    destruct (V it v Hv) as (_ & m & Hm & <- & Eq).
    destruct (in_dec Nat.eq_dec (m_var m) (vars_of (all_members b2))) as [D|D].
    + assert (Hm2 : In m (all_members b2)).
      { destruct WF as (ND & _). rewrite B2 in ND, Hm. rewrite all_members_app in *. cbn [all_members flat_map] in *.
        fold (all_members b2) in *. rewrite !vars_app in ND.
        rewrite app_assoc in ND, Hm. destruct (NoDup_app_inv _ _ ND) as (_ & _ & Dis).
        apply in_app_or in Hm as [Hm|Hm]; auto. exfalso. eapply Dis; [|exact D].
        rewrite <- vars_app. apply in_vars; auto. }
      right. split.
      * destruct (B4 m Hm) as (c & Ec & Nc). specialize (Nc Hm2). destruct c as [w|]; [|congruence].
        exists w. rewrite <- Eq. auto.
      * unfold reduce_rows. rewrite <- Eq. rewrite (C m (p ++ q) Hm); [exact Fx|].
        split; auto. tauto.
    + left. unfold reduce_rows. rewrite <- Eq. rewrite (C m rows Hm); [exact Fx|].
      split; [|auto]. intros Q. destruct D. apply in_vars; auto.
Qed.

(** Special case a user can check: no filters, and at most one reducer (Max,
    Min, MaxRow, MinRow, DictMax, DictMin or a function) that may skip rows. *)
Theorem C33_unfiltered_partial :
  forall (Row : Type) (sem : string -> Row -> res bool) its (rows : list Row),
  its <> [] -> same_code_same_loop sem its -> declared_honestly its ->
  (forall it, In it its -> ccode it = None) ->
  (forall x y, In x its -> In y its -> uncond (obj x) = false -> uncond (obj y) = false -> x = y) ->
  match aggregate sem its rows with
  | None => False
  | Some (Ok out) => Forall2 (fun it x => reduce_rows (whole sem it) rows = Ok x) its out
  | Some (Err e) => exists it, In it its /\ reduce_rows (whole sem it) rows = Err e
  end.
Proof.
  intros Row sem its rows Hne SH HO NF ONE. apply C33_each_reducer_alone_partial; auto. left.
  intros x y p q Hx Hy Er Hr (v & Hv) U. unfold is_unset in U.
  assert (Ry : rank y = if uncond (obj y) then 2 else 3) by (unfold rank; rewrite (NF y Hy); auto).
  assert (Rx : rank x = if uncond (obj x) then 2 else 3) by (unfold rank; rewrite (NF x Hx); auto).
  destruct (uncond (obj x)) eqn:Ux.
  - destruct p as [|r p]; [simpl in Hv; discriminate|].
    cbn [run_alone] in U. rewrite whole_step, (NF x Hx) in U. cbn [bind] in U.
    destruct (run_init (obj x) r) as [c|] eqn:Ei; [|discriminate]. cbn [bind] in U.
    exact (run_keeps_set sem _ _ _ _ U (HO x Hx Ux r c Ei) eq_refl).
  - destruct (uncond (obj y)) eqn:Uy; [lia|]. rewrite (ONE x y) in U by auto. congruence.
Qed.

Example C33_case :
  let its := [demo Sum None "s"; demo Max None "m"; demo Count None "c"] in
  its <> [] /\ same_code_same_loop demo_sem its /\ declared_honestly its /\
  (forall it, In it its -> ccode it = None) /\
  (forall x y, In x its -> In y its -> uncond (obj x) = false -> uncond (obj y) = false -> x = y) /\
  aggregate demo_sem its [(1, VNone); (2, VInt 7); (3, VInt 4)]%Z = Some (Ok [Some (VInt 11); Some (VInt 7); Some (VInt 3)]).
Proof.
  cbn zeta. split; [discriminate|]. split; [|split; [|split; [|split; [|reflexivity]]]].
  - intros a b [<-|[<-|[<-|[]]]] [<-|[<-|[<-|[]]]] Q; try discriminate Q; auto.
  - apply C27_hypotheses_hold. intros it [<-|[<-|[<-|[]]]]; split; simpl; auto.
  - intros it [<-|[<-|[<-|[]]]]; reflexivity.
  - intros x y [<-|[<-|[<-|[]]]] [<-|[<-|[<-|[]]]]; intros; try discriminate; auto.
Qed.
Example C33_in_step_case :
  let its := [demo Count (Some "x>1"%string) "c"; demo Sum None "s"] in
  in_step demo_sem its [(2, VInt 1); (1, VInt 2)]%Z /\
  (exists it, In it its /\ is_unset demo_sem it [(1, VInt 1)]%Z).
Proof.
  cbn zeta. split.
  - intros x y p q Hx Hy E Hr (v & Hv).
    destruct p as [|r p]; [discriminate|]. simpl in E. injection E as <- E.
    assert (p = [] \/ p = [(1, VInt 2)]%Z) as Hp.
    { destruct p as [|r p]; auto. simpl in E. injection E as <- E. destruct p; [auto|discriminate]. }
    destruct Hx as [<-|[<-|[]]], Hp as [Hp | Hp]; rewrite Hp; cbv; discriminate.
  - exists (demo Count (Some "x>1"%string) "c"). split; [left; auto|reflexivity].
Qed.

(** Reducers that complete late make the ones after them miss that row:
    c.aggregate((reduce(Count).filter(c.item(0) > 1), reduce(Sum, c.item(1)))). *)
Theorem C33_each_reducer_alone_refuted :
  exists (its : list (item (Z * val))) rows,
    same_code_same_loop demo_sem its /\ declared_honestly its /\
    aggregate demo_sem its rows = Some (Ok [Some (VInt 2); Some (VInt 4)]) /\
    Forall2 (fun it x => reduce_rows (whole demo_sem it) rows = Ok x) its [Some (VInt 2); Some (VInt 6)].
Proof.
  exists [demo Count (Some "x>1"%string) "c"; demo Sum None "s"], [(1, VInt 1); (2, VInt 2); (3, VInt 3)]%Z.
  split; [|split; [|split]].
  - intros a b [<-|[<-|[]]] [<-|[<-|[]]] Q; try discriminate Q; auto.
  - apply C27_hypotheses_hold. intros it [<-|[<-|[]]]; split; simpl; auto.
  - reflexivity.
  - repeat constructor.
Qed.
(** The same without any filter: Max of one column and Min of another. *)
Theorem C33_max_min_refuted :
  exists (its : list (item (val * val))) rows,
    same_code_same_loop (fun _ _ => Ok true) its /\ declared_honestly its /\
    (forall it, In it its -> ccode it = None) /\
    aggregate (fun _ _ => Ok true) its rows = Some (Ok [Some (VInt 8); Some (VInt 5)]) /\
    Forall2 (fun it x => reduce_rows (whole (fun _ _ => Ok true) it) rows = Ok x) its [Some (VInt 8); Some (VInt 2)].
Proof.
  exists [mkItem (plain Max fst fst) None "a"; mkItem (plain Min snd snd) None "b"],
         [(VNone, VInt 5); (VInt 8, VInt 2); (VInt 7, VInt 6)].
  split; [|split; [|split; [|split]]].
  - intros a b [<-|[<-|[]]] [<-|[<-|[]]] Q; try discriminate Q; auto.
  - apply C27_hypotheses_hold. intros it [<-|[<-|[]]]; split; simpl; auto.
  - intros it [<-|[<-|[]]]; reflexivity.
  - reflexivity.
  - repeat constructor.
Qed.
(** A reducer declared unconditional_init that does not always start (e.g. a
    seeded First) restarts the reducers merged with it on every row. *)
Theorem C33_dishonest_unconditional_init_refuted :
  exists (its : list (item Z)) rows,
    same_code_same_loop (fun _ _ => Ok true) its /\
    (forall it, In it its -> user_uncond (obj it) = false) /\
    group_by (fun _ _ => Ok true) [fun _ => Ok VNone] its rows = Some (Ok [(VNone, [Some VNone; Some (VInt 3)])]) /\
    reduce_rows (whole (fun _ _ => Ok true) (nth 1 its (mkItem (plain Sum VInt VInt) None ""))) rows = Ok (Some (VInt 6)).
Proof.
  exists [mkItem (mkReduce (Builtin First) (fun z => Ok (VInt z)) [] None (Some (Ok (VInt 9))) (Some (Ok VNone)) false) None "a";
          mkItem (plain Sum VInt VInt) None "b"], [1; 2; 3]%Z.
  split; [|split; [|split]].
  - intros a b [<-|[<-|[]]] [<-|[<-|[]]] Q; try discriminate Q; auto.
  - intros it [<-|[<-|[]]]; reflexivity.
  - reflexivity.
  - reflexivity.
Qed.

(** C32 for c.aggregate, on the inputs where C33 holds. *)
Theorem C32_aggregate_filters_partial :
  forall (Row : Type) (sem : string -> Row -> res bool) (truth : string -> Row -> bool) its (rows : list Row) out,
  same_code_same_loop sem its -> declared_honestly its ->
  (forall t r, sem t r = Ok (truth t r)) ->
  in_step sem its rows \/ (exists it, In it its /\ is_unset sem it rows) ->
  aggregate sem its rows = Some (Ok out) ->
  Forall2 (fun it x =>
     let fed := filter (fun r => match ccode it with Some t => truth t r | None => true end) rows in
     reduce_rows (unfiltered it) fed = Ok x /\
     (fed = [] -> forall d, default (obj it) = Some (Ok d) -> x = Some d)) its out.
Proof.
  intros Row sem truth its rows out SH HO T ST E.
  assert (Hne : its <> []) by (intros ->; discriminate).
  pose proof (C33_each_reducer_alone_partial Row sem its rows Hne SH HO ST) as G. rewrite E in G.
  clear E SH HO Hne ST. induction G as [|it x its rs Hx G IH]; constructor; auto. cbn zeta.
  rewrite (C32_filter_feeds_matching_rows Row sem it
             (fun r => match ccode it with Some t => truth t r | None => true end)) in Hx.
  - split; auto. intros F d Hd. rewrite F in Hx. unfold reduce_rows in Hx. cbn [run_alone bind] in Hx.
    unfold finish in Hx. cbn [unfiltered default] in Hx. rewrite Hd in Hx. cbn [bind] in Hx. congruence.
  - intros t -> r _. apply T.
  - intros -> r _. auto.
Qed.

Print Assumptions C27_group_by_partitions.
Print Assumptions C27_hypotheses_hold.
Print Assumptions C32_filter_feeds_matching_rows.
Print Assumptions C32_group_by_filters.
Print Assumptions C32_default_when_nothing_found.
Print Assumptions C32_aggregate_filters_partial.
Print Assumptions C33_each_reducer_alone_partial.
Print Assumptions C33_at_most_one_row_missed_partial.
Print Assumptions C33_unfiltered_partial.
Print Assumptions C33_each_reducer_alone_refuted.
Print Assumptions C33_max_min_refuted.
Print Assumptions C33_dishonest_unconditional_init_refuted.
