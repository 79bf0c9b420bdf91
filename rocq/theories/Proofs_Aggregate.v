From Coq Require Import String List ZArith NArith Bool Lia Permutation.
From Verif Require Import Model_PyVal Proofs_PyVal Model_Reducers Spec_Reducers Proofs_Reducers Proofs_DictReducers Model_Aggregate.
Import ListNotations.

Section P.
  Context {Row : Type}.
  Variable sem : string -> Row -> res bool.
  Implicit Type row : Row.
  Implicit Type it : item Row.
  Notation wh := (whole sem).

  Definition vars_of (l : list (@member Row)) : list nat := map m_var l.
  Definition mem_ok (m : @member Row) (st st' : state) row : Prop :=
    step_alone (wh (m_item m)) (st (m_var m)) row = Ok (st' (m_var m)).

  Lemma upd_same st v c : upd st v c v = c.
  Proof. unfold upd. rewrite Nat.eqb_refl. auto. Qed.
  Lemma upd_other st v c w : w <> v -> upd st v c w = st w.
  Proof. unfold upd. intros. apply Nat.eqb_neq in H. rewrite H. auto. Qed.

  (** *** statements of a block *)
  Lemma run_init_none (o : reduce_obj Row) row : run_init_cell o None row = run_init o row.
  Proof.
    unfold run_init_cell, run_init. destruct (red o) as [b|f]; [|reflexivity]. destruct (initial o); [reflexivity|].
    now destruct (init_stmt b _ _) as [[]|].
  Qed.
  Lemma exec_inits_spec l : forall st row, NoDup (vars_of l) ->
    match exec_inits l st row with
    | Ok st' => (forall m, In m l -> run_init_cell (obj (m_item m)) (st (m_var m)) row = Ok (st' (m_var m))) /\
                (forall v, ~ In v (vars_of l) -> st' v = st v)
    | Err e => exists m, In m l /\ run_init_cell (obj (m_item m)) (st (m_var m)) row = Err e
    end.
  Proof.
    induction l as [|m l IH]; intros st row ND; simpl.
    - split; [intros ? []|auto].
    - inversion ND as [|? ? Hni ND']; subst.
      destruct (run_init_cell (obj (m_item m)) (st (m_var m)) row) as [c|e] eqn:E; simpl; [|eauto].
      specialize (IH (upd st (m_var m) c) row ND').
      assert (U : forall m', In m' l -> upd st (m_var m) c (m_var m') = st (m_var m')).
      { intros m' H'. apply upd_other. intros Q. apply Hni. unfold vars_of. rewrite <- Q. apply in_map; auto. }
      destruct (exec_inits l (upd st (m_var m) c) row) as [st'|e].
      + destruct IH as (H1 & H2). split.
        * intros m' [<-|H']; [rewrite E, H2, upd_same; auto|]. rewrite <- U by auto. auto.
        * intros v Hv. rewrite H2 by auto. apply upd_other. intros ->. auto.
      + destruct IH as (m' & ? & ?). exists m'. rewrite U in H0; auto.
  Qed.

  Lemma exec_twos_spec l : forall st row, NoDup (vars_of l) ->
    match exec_twos l st row with
    | Ok st' => (forall m, In m l -> run_two_cell (obj (m_item m)) (st (m_var m)) row = Ok (st' (m_var m))) /\
                (forall v, ~ In v (vars_of l) -> st' v = st v)
    | Err e => exists m, In m l /\ run_two_cell (obj (m_item m)) (st (m_var m)) row = Err e
    end.
  Proof.
    induction l as [|m l IH]; intros st row ND; simpl.
    - split; [intros ? []|auto].
    - inversion ND as [|? ? Hni ND']; subst.
      destruct (run_two_cell (obj (m_item m)) (st (m_var m)) row) as [c|e] eqn:E; simpl; [|eauto].
      specialize (IH (upd st (m_var m) c) row ND').
      assert (U : forall m', In m' l -> upd st (m_var m) c (m_var m') = st (m_var m')).
      { intros m' H'. apply upd_other. intros Q. apply Hni. unfold vars_of. rewrite <- Q. apply in_map; auto. }
      destruct (exec_twos l (upd st (m_var m) c) row) as [st'|e].
      + destruct IH as (H1 & H2). split.
        * intros m' [<-|H']; [rewrite E, H2, upd_same; auto|]. rewrite <- U by auto. auto.
        * intros v Hv. rewrite H2 by auto. apply upd_other. intros ->. auto.
      + destruct IH as (m' & ? & ?). exists m'. rewrite U in H0; auto.
  Qed.

  (** once set, a variable stays set *)
  Lemma reduce_stmt_some b z c E X c' : reduce_stmt b z (Some c) E X = Ok c' -> c' <> None.
  Proof.
    intros H ->. destruct b; simpl in H; unfold iadd, method_add, method_append, set_item, bind in H;
      repeat match type of H with
             | context [match ?x with _ => _ end] => destruct x; try discriminate
             end; try discriminate.
  Qed.
  Lemma run_two_some (o : reduce_obj Row) c row c' : run_two o c row = Ok c' -> c' <> None.
  Proof.
    unfold run_two. destruct (red o); [apply reduce_stmt_some|].
    unfold bind. destruct (expr o row); [|discriminate]. destruct (eval_all _ _); [|discriminate].
    destruct (f _ _ _); [|discriminate]. intros H. injection H as <-. discriminate.
  Qed.

  (** *** a block *)
  Definition always_sets it : Prop := forall row c, run_init (obj it) row = Ok c -> c <> None.

  Definition wf_block (b : @block Row) : Prop :=
    NoDup (vars_of (members b)) /\
    (forall m, In m (members b) -> ccode (m_item m) = bcond b) /\
    (btail b <> [] -> forall m, In m (members b) -> always_sets (m_item m)).
  Definition uniform (st : state) (b : @block Row) : Prop :=
    forall m, In m (members b) -> (st (m_var m) = None <-> st (m_var (bhead b)) = None).

  Lemma whole_step it c row :
    step_alone (wh it) c row =
    bind (match ccode it with None => Ok true | Some t => sem t row end)
         (fun go => if go then match c with None => run_init (obj it) row | Some v => run_two (obj it) v row end
                    else Ok c).
  Proof. unfold step_alone, whole. simpl. destruct (ccode it); reflexivity. Qed.

  Lemma exec_block_spec b st row : wf_block b -> uniform st b ->
    match exec_block sem b st row with
    | Ok st' => (forall m, In m (members b) -> mem_ok m st st' row) /\
                (forall v, ~ In v (vars_of (members b)) -> st' v = st v) /\ uniform st' b
    | Err e => exists m, In m (members b) /\ step_alone (wh (m_item m)) (st (m_var m)) row = Err e
    end.
  Proof.
    intros (ND & HC & HA) U. unfold exec_block, mem_ok.
    assert (T : forall m, In m (members b) ->
      match ccode (m_item m) with None => Ok true | Some t => sem t row end = test sem b row).
    { intros m Hm. rewrite (HC m Hm). reflexivity. }
    assert (Hhead : In (bhead b) (members b)) by (left; auto).
    destruct (test sem b row) as [[|]|e] eqn:Et; cbn [bind].
    - destruct (st (m_var (bhead b))) as [v0|] eqn:E0.
      + pose proof (exec_twos_spec (members b) st row ND) as S.
        destruct (exec_twos (members b) st row) as [st'|e].
        * destruct S as (S1 & S2). split; [|split; auto].
          -- intros m Hm. rewrite whole_step, (T m Hm). simpl.
             specialize (S1 m Hm). destruct (st (m_var m)) eqn:E; auto.
             apply U in E; auto. congruence.
          -- assert (forall m, In m (members b) -> st' (m_var m) <> None) as Hs.
             { intros m Hm. specialize (S1 m Hm). destruct (st (m_var m)) eqn:E; [|apply U in E; auto; congruence].
               simpl in S1. eapply run_two_some; eauto. }
             intros m Hm. pose proof (Hs m Hm). pose proof (Hs _ Hhead). split; intros; congruence.
        * destruct S as (m & Hm & Em). exists m. split; auto. rewrite whole_step, (T m Hm). simpl.
          destruct (st (m_var m)) eqn:E; auto. apply U in E; auto. congruence.
      + pose proof (exec_inits_spec (members b) st row ND) as S.
        destruct (exec_inits (members b) st row) as [st'|e].
        * destruct S as (S1 & S2). split; [|split; auto].
          -- intros m Hm. rewrite whole_step, (T m Hm). simpl. specialize (S1 m Hm).
             destruct (U m Hm) as (_ & U2). rewrite (U2 E0) in *. now rewrite <- run_init_none.
          -- intros m Hm. destruct (btail b) as [|m1 tl] eqn:Eb.
             ++ unfold members in Hm. rewrite Eb in Hm. destruct Hm as [<-|[]]. tauto.
             ++ assert (Hs : forall m, In m (members b) -> st' (m_var m) <> None).
                { intros m' Hm'. apply (HA ltac:(discriminate) m' Hm' row). rewrite <- run_init_none. specialize (S1 m' Hm').
                  destruct (U m' Hm') as (_ & U2). now rewrite (U2 E0) in S1. }
                pose proof (Hs m Hm). pose proof (Hs _ Hhead). split; intros; congruence.
        * destruct S as (m & Hm & Em). exists m. split; auto. rewrite whole_step, (T m Hm). simpl.
          destruct (U m Hm) as (_ & U2). rewrite (U2 E0) in *. now rewrite <- run_init_none.
    - split; [|split; auto]. intros m Hm. rewrite whole_step, (T m Hm). reflexivity.
    - exists (bhead b). split; auto. rewrite whole_step, (T _ Hhead). reflexivity.
  Qed.

  (** *** all blocks *)
  Definition all_members (bs : list (@block Row)) : list member := flat_map members bs.
  Definition wf_blocks (bs : list (@block Row)) : Prop :=
    NoDup (vars_of (all_members bs)) /\ Forall wf_block bs.
  Definition all_uniform st (bs : list (@block Row)) : Prop := Forall (uniform st) bs.

  Lemma vars_app l1 l2 : vars_of (l1 ++ l2) = vars_of l1 ++ vars_of l2.
  Proof. apply map_app. Qed.
  Lemma NoDup_app_inv {A} (l1 l2 : list A) : NoDup (l1 ++ l2) ->
    NoDup l1 /\ NoDup l2 /\ forall x, In x l1 -> In x l2 -> False.
  Proof.
    induction l1 as [|a l1 IH]; simpl; intros H; [split; [constructor|split; auto]|].
    inversion H; subst. destruct (IH H3) as (A1 & A2 & A3). split; [|split; auto].
    - constructor; auto. intros Q. apply H2, in_or_app; auto.
    - intros x [<-|Hx] Hy; [apply H2, in_or_app; auto|eauto].
  Qed.
  Lemma in_vars m l : In m l -> In (m_var m) (vars_of l).
  Proof. apply in_map. Qed.

  Lemma uniform_ext st st' b : (forall v, In v (vars_of (members b)) -> st' v = st v) ->
    uniform st b -> uniform st' b.
  Proof.
    intros H U m Hm. rewrite !H; [apply U; auto| |]; apply in_vars; simpl; auto.
  Qed.
  Lemma all_uniform_ext st st' bs : (forall v, In v (vars_of (all_members bs)) -> st' v = st v) ->
    all_uniform st bs -> all_uniform st' bs.
  Proof.
    unfold all_uniform, all_members. rewrite !Forall_forall. intros H U b Hb.
    eapply uniform_ext; [|apply U; auto]. intros v Hv. apply H.
    unfold vars_of in *. apply in_map_iff in Hv as (m & <- & Hm). apply in_map.
    apply in_flat_map. eauto.
  Qed.

  Lemma exec_blocks_spec bs : forall st row, wf_blocks bs -> all_uniform st bs ->
    match exec_blocks sem bs st row with
    | Ok st' => (forall m, In m (all_members bs) -> mem_ok m st st' row) /\
                (forall v, ~ In v (vars_of (all_members bs)) -> st' v = st v) /\ all_uniform st' bs
    | Err e => exists m, In m (all_members bs) /\ step_alone (wh (m_item m)) (st (m_var m)) row = Err e
    end.
  Proof.
    induction bs as [|b bs IH]; intros st row (ND & WF) U.
    - simpl. split; [intros ? []|split; auto].
    - inversion WF; subst. inversion U; subst. cbn [exec_blocks all_members flat_map] in *.
      rewrite vars_app in *. destruct (NoDup_app_inv _ _ ND) as (ND1 & ND2 & Dis).
      pose proof (exec_block_spec b st row H1 H3) as Sb.
      destruct (exec_block sem b st row) as [st1|e]; cbn [bind].
      2:{ destruct Sb as (m & Hm & E). exists m. split; auto. apply in_or_app; auto. }
      destruct Sb as (B1 & B2 & B3).
      assert (Fr : forall v, In v (vars_of (all_members bs)) -> st1 v = st v).
      { intros v Hv. apply B2. intros Q. eapply Dis; eauto. }
      assert (U1 : all_uniform st1 bs) by (eapply all_uniform_ext; eauto).
      specialize (IH st1 row (conj ND2 H2) U1).
      destruct (exec_blocks sem bs st1 row) as [st2|e].
      + destruct IH as (I1 & I2 & I3). split; [|split].
        * intros m Hm. apply in_app_or in Hm as [Hm|Hm].
          -- unfold mem_ok. rewrite I2; [apply B1; auto|]. intros Q. eapply Dis; eauto. apply in_vars; auto.
          -- specialize (I1 m Hm). unfold mem_ok in *. rewrite Fr in I1; auto. apply in_vars; auto.
        * intros v Hv. rewrite in_app_iff in Hv. rewrite I2, B2; tauto.
        * constructor; auto. eapply uniform_ext; [|exact B3]. intros v Hv. apply I2. intros Q. eapply Dis; eauto.
      + destruct IH as (m & Hm & E). exists m. rewrite Fr in E by (apply in_vars; auto). split; auto. apply in_or_app; auto.
  Qed.

  (** *** the blocks built from the reducers *)
  Lemma dd_add_perm d k (m : @member Row) : Permutation (flat_map snd (dd_add d k m)) (flat_map snd d ++ [m]).
  Proof.
    induction d as [|[k' l] d IH]; simpl; auto. destruct (String.eqb k' k); simpl.
    - rewrite <- !app_assoc. apply Permutation_app_head. apply Permutation_app_comm.
    - rewrite IH, app_assoc. auto.
  Qed.
  Lemma dd_add_in d k (m : @member Row) kl : In kl (dd_add d k m) ->
    In kl d \/ (fst kl = k /\ forall x, In x (snd kl) -> x = m \/ exists l, In (k, l) d /\ In x l).
  Proof.
    induction d as [|[k' l] d IH]; simpl.
    - intros [<-|[]]. right. simpl. split; auto. intros x [->|[]]; auto.
    - destruct (String.eqb_spec k' k) as [->|N]; simpl.
      + intros [<-|H]; auto. right. simpl. split; auto. intros x Hx. apply in_app_or in Hx as [Hx|[->|[]]]; eauto.
      + intros [<-|H]; auto. destruct (IH H) as [|(E & F)]; auto. right. split; auto.
        intros x Hx. destruct (F x Hx) as [|(l' & ? & ?)]; eauto.
  Qed.

  Definition sorted_ok (s : @sorted Row) (ms : list (@member Row)) : Prop :=
    Permutation (flat_map snd (conditional s) ++ flat_map snd (uncond_conditional s) ++ uncond_plain s ++ others s) ms /\
    (forall kl, In kl (conditional s) -> forall m, In m (snd kl) -> ccode (m_item m) = Some (fst kl)) /\
    (forall kl, In kl (uncond_conditional s) -> forall m, In m (snd kl) ->
        ccode (m_item m) = Some (fst kl) /\ uncond (obj (m_item m)) = true) /\
    (forall m, In m (uncond_plain s) -> ccode (m_item m) = None /\ uncond (obj (m_item m)) = true) /\
    (forall m, In m (others s) -> ccode (m_item m) = None).

  Lemma add_block_ok s ms m : sorted_ok s ms -> sorted_ok (add_block s m) (ms ++ [m]).
  Proof.
    intros (P & H1 & H2 & H3 & H4). unfold add_block.
    destruct (ccode (m_item m)) as [t|] eqn:C; destruct (uncond (obj (m_item m))) eqn:Uc; split; cbn [conditional uncond_conditional uncond_plain others] in *.
    - apply Permutation_trans with ((flat_map snd (conditional s) ++ (flat_map snd (uncond_conditional s) ++ [m]) ++ uncond_plain s ++ others s)).
      { apply Permutation_app_head, Permutation_app_tail, dd_add_perm. }
      eapply Permutation_trans; [|apply Permutation_app_tail; exact P].
      rewrite <- !app_assoc. do 2 apply Permutation_app_head. simpl. rewrite app_assoc. apply Permutation_cons_append.
    - split; auto. split; auto. intros kl Hkl x Hx. destruct (dd_add_in _ _ _ _ Hkl) as [|(E & F)]; [eapply H2; eauto|].
      destruct (F x Hx) as [->|(l & Hl & Hx')]; [rewrite E; auto|]. rewrite E. apply (H2 (t, l) Hl x Hx').
    - apply Permutation_trans with ((flat_map snd (conditional s) ++ [m]) ++ flat_map snd (uncond_conditional s) ++ uncond_plain s ++ others s).
      { apply Permutation_app_tail, dd_add_perm. }
      eapply Permutation_trans; [|apply Permutation_app_tail; exact P].
      rewrite <- !app_assoc. apply Permutation_app_head. simpl. rewrite !app_assoc. apply Permutation_cons_append.
    - split; auto. intros kl Hkl x Hx. destruct (dd_add_in _ _ _ _ Hkl) as [|(E & F)]; [eapply H1; eauto|].
      destruct (F x Hx) as [->|(l & Hl & Hx')]; [rewrite E; auto|]. rewrite E. apply (H1 (t, l) Hl x Hx').
    - eapply Permutation_trans; [|apply Permutation_app_tail; exact P].
      rewrite <- !app_assoc. do 3 apply Permutation_app_head. simpl. apply Permutation_cons_append.
    - split; auto. split; auto. split; auto. intros x Hx. apply in_app_or in Hx as [Hx|[<-|[]]]; auto.
    - eapply Permutation_trans; [|apply Permutation_app_tail; exact P]. rewrite <- !app_assoc. auto.
    - split; auto. split; auto. split; auto. intros x Hx. apply in_app_or in Hx as [Hx|[<-|[]]]; auto.
  Qed.
  Lemma sorted_fold l : forall s ms, sorted_ok s ms -> sorted_ok (fold_left add_block l s) (ms ++ l).
  Proof.
    induction l as [|m l IH]; intros s ms H; simpl; [rewrite app_nil_r; auto|].
    replace (ms ++ m :: l) with ((ms ++ [m]) ++ l) by (rewrite <- app_assoc; auto).
    apply IH. apply add_block_ok; auto.
  Qed.

  Lemma members_single_flat c (l : list (@member Row)) : all_members (map (fun m => mkBlock c m []) l) = l.
  Proof. unfold all_members. induction l; simpl; auto. rewrite IHl; auto. Qed.
  Lemma members_union c (l : list (@member Row)) : all_members (union_all c l) = l.
  Proof. unfold all_members. destruct l; simpl; auto. rewrite app_nil_r. auto. Qed.
  Lemma all_members_app (a b : list (@block Row)) : all_members (a ++ b) = all_members a ++ all_members b.
  Proof. apply flat_map_app. Qed.

  Lemma build_perm ms : Permutation (all_members (build ms)) ms.
  Proof.
    destruct (sorted_fold ms (mkSorted [] [] [] []) []) as (P & _).
    { repeat split; simpl; auto; contradiction. }
    rewrite <- P at 2. clear P. unfold build, reduce_blocks. rewrite !all_members_app.
    rewrite members_union, members_single_flat.
    match goal with |- Permutation (?a ++ ?b ++ _) (?c ++ ?d ++ _) => assert (a = c) as ->; [|assert (b = d) as ->] end; auto.
    - unfold all_members. induction (conditional _) as [|[k l] d IH]; simpl; auto.
      rewrite flat_map_app, IH. f_equal. apply members_single_flat.
    - unfold all_members. induction (uncond_conditional _) as [|[k l] d IH]; simpl; auto.
      rewrite flat_map_app, IH. f_equal. apply members_union.
  Qed.

  Definition merging_sound (ms : list (@member Row)) : Prop :=
    forall m, In m ms -> uncond (obj (m_item m)) = true -> always_sets (m_item m).

  Lemma build_wf ms : NoDup (vars_of ms) -> merging_sound ms -> wf_blocks (build ms).
  Proof.
    intros ND MS. split.
    - unfold vars_of. eapply Permutation_NoDup; [|exact ND]. apply Permutation_map, Permutation_sym, build_perm.
    - assert (NDb : forall b, In b (build ms) -> NoDup (vars_of (members b))).
      { intros b Hb. assert (N : NoDup (vars_of (all_members (build ms)))).
        { unfold vars_of. eapply Permutation_NoDup; [|exact ND]. apply Permutation_map, Permutation_sym, build_perm. }
        apply in_split in Hb as (b1 & b2 & E). rewrite E, all_members_app, vars_app in N.
        simpl in N. apply NoDup_app_inv in N as (_ & N & _). unfold all_members in N. simpl in N.
        change (NoDup (vars_of (members b ++ flat_map members b2))) in N. rewrite vars_app in N.
        apply NoDup_app_inv in N. tauto. }
      destruct (sorted_fold ms (mkSorted [] [] [] []) []) as (P & H1 & H2 & H3 & H4).
      { repeat split; simpl; auto; contradiction. }
      simpl app in P.
      assert (Hin : forall m, In m (all_members (build ms)) -> In m ms).
      { intros m. apply Permutation_in, build_perm. }
      apply Forall_forall. intros b Hb. split; [auto|].
      assert (Hsub : forall m, In m (members b) -> In m ms).
      { intros m Hm. apply Hin. apply in_flat_map. eauto. }
      unfold build, reduce_blocks in Hb. rewrite !in_app_iff in Hb. destruct Hb as [Hb|[Hb|[Hb|Hb]]].
      + apply in_flat_map in Hb as (kl & Hkl & Hb). apply in_map_iff in Hb as (m & <- & Hm). simpl. split.
        * intros m' [<-|[]]. apply (H1 kl Hkl m Hm).
        * congruence.
      + apply in_flat_map in Hb as (kl & Hkl & Hb). destruct (snd kl) as [|m r] eqn:Es; [destruct Hb|].
        destruct Hb as [<-|[]].
        assert (K : forall x, In x (m :: r) -> ccode (m_item x) = Some (fst kl) /\ uncond (obj (m_item x)) = true).
        { intros x Hx. apply (H2 kl Hkl). rewrite Es. auto. }
        split; [intros x Hx; apply K; auto|]. intros _ x Hx. apply MS; auto. apply K; auto.
      + destruct (uncond_plain _) as [|m r] eqn:Es; [destruct Hb|]. destruct Hb as [<-|[]].
        split; [intros x Hx; apply (H3 x Hx)|]. intros _ x Hx. apply MS; auto. apply (H3 x Hx).
      + apply in_map_iff in Hb as (m & <- & Hm). simpl. split; [intros m' [<-|[]]; auto|congruence].
  Qed.

  (** *** sharing of identical reducers *)
  Definition sharing_sound (its : list (item Row)) : Prop :=
    forall a b, In a its -> In b its -> hash a = hash b ->
      forall rows, run_alone (wh a) None rows = run_alone (wh b) None rows.

  Lemma index_spec (l : list (item Row)) : forall pos next seen,
    let '(vars, ms) := index_items l pos next seen in
    map fst vars = l /\
    (forall m, In m ms -> In (m_item m) l /\ next <= m_var m < next + length ms /\ pos <= m_bit m /\
                          find (fun p => String.eqb (fst p) (hash (m_item m))) seen = None) /\
    NoDup (vars_of ms) /\ NoDup (map m_bit ms) /\
    (forall it v, In (it, v) vars ->
       (exists m, In m ms /\ m_var m = v /\ hash (m_item m) = hash it) \/
       (exists h, find (fun p => String.eqb (fst p) (hash it)) seen = Some (h, v))).
  Proof.
    induction l as [|it l IH]; intros pos next seen; simpl.
    - repeat split; try constructor; contradiction.
    - destruct (find (fun p => String.eqb (fst p) (hash it)) seen) as [[h v]|] eqn:F.
      + specialize (IH (S pos) next seen). destruct (index_items l (S pos) next seen) as [vars ms].
        destruct IH as (A & B & C & D & E). split; [simpl; congruence|]. split; [|split; [auto|split; [auto|]]].
        * intros m Hm. destruct (B m Hm) as (B1 & B2 & B3 & B4). repeat split; simpl; auto; lia.
        * intros it' v' [Q|Hin]; [|auto]. injection Q as <- <-. right. eauto.
      + specialize (IH (S pos) (S next) (seen ++ [(hash it, next)])).
        destruct (index_items l (S pos) (S next) (seen ++ [(hash it, next)])) as [vars ms].
        destruct IH as (A & B & C & D & E).
        assert (FA : forall h, find (fun p => String.eqb (fst p) h) (seen ++ [(hash it, next)]) =
                    match find (fun p => String.eqb (fst p) h) seen with
                    | Some x => Some x | None => if String.eqb (hash it) h then Some (hash it, next) else None end).
        { intros h. clear. induction seen as [|p seen IH]; simpl.
          - reflexivity. - destruct (String.eqb (fst p) h); auto. }
        split; [simpl; congruence|]. split; [|split; [|split]].
        * intros m [<-|Hm]; simpl; [repeat split; auto; lia|]. destruct (B m Hm) as (B1 & B2 & B3 & B4).
          repeat split; auto; try lia. rewrite FA in B4. destruct (find (fun p => String.eqb (fst p) (hash (m_item m))) seen); congruence.
        * simpl. constructor; auto. intros Q. apply in_map_iff in Q as (m & Em & Hm).
          destruct (B m Hm) as (_ & B2 & _). lia.
        * simpl. constructor; auto. intros Q. apply in_map_iff in Q as (m & Em & Hm).
          destruct (B m Hm) as (_ & _ & B3 & _). lia.
        * intros it' v' [Q|Hin].
          -- injection Q as <- <-. left. exists (mkMember next pos it). simpl. auto.
          -- destruct (E it' v' Hin) as [(m & ? & ? & ?)|(h & Fh)]; [left; exists m; simpl; auto|].
             rewrite FA in Fh. destruct (find (fun p => String.eqb (fst p) (hash it')) seen) as [p|] eqn:F'; [right; exists h; congruence|].
             destruct (String.eqb_spec (hash it) (hash it')) as [Q|]; [|discriminate].
             left. injection Fh as <- <-. exists (mkMember next pos it). simpl. auto.
  Qed.
End P.
