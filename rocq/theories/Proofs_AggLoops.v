From Coq Require Import String List ZArith NArith Bool Lia Permutation.
From Verif Require Import Model_PyVal Proofs_PyVal Model_Reducers Spec_Reducers Proofs_Reducers Proofs_DictReducers Model_Aggregate Proofs_Aggregate.
Import ListNotations.

Section L.
  Context {Row : Type}.
  Variable sem : string -> Row -> res bool.
  Implicit Type row : Row.
  Implicit Type it : item Row.
  Notation wh := (whole sem).

  Lemma uniform_init (bs : list (@block Row)) : all_uniform init_state bs.
  Proof. apply Forall_forall. intros b _ m _. unfold init_state. tauto. Qed.

  Lemma run_alone_snoc (o : reduce_obj Row) rows r c c' :
    run_alone o None rows = Ok c -> step_alone o c r = Ok c' -> run_alone o None (rows ++ [r]) = Ok c'.
  Proof. intros H1 H2. rewrite run_alone_app, H1. simpl. rewrite H2. auto. Qed.
  Lemma run_alone_err (o : reduce_obj Row) rows r rest c e :
    run_alone o None rows = Ok c -> step_alone o c r = Err e -> run_alone o None (rows ++ r :: rest) = Err e.
  Proof. intros H1 H2. rewrite run_alone_app, H1. simpl. rewrite H2. auto. Qed.

  (** ** group_by *)
  Section G.
    Variable keys : list (Row -> res val).
    Variable bs : list (@block Row).
    Hypothesis WF : wf_blocks bs.
    Definition sg row : val := match signature keys row with Ok v => v | Err _ => VNone end.
    Definition key_fine row : Prop := signature keys row = Ok (sg row) /\ hashable (sg row) = true.

    Definition cells_ok (rows : list Row) (st : state) : Prop :=
      (forall m, In m (all_members bs) -> run_alone (wh (m_item m)) None rows = Ok (st (m_var m))) /\
      all_uniform st bs.
    Definition ginv (seen : list Row) (d : list (val * state)) : Prop :=
      (forall r, In r seen -> key_fine r) /\
      map fst d = distinct (map sg seen) /\
      (forall k st, In (k, st) d -> cells_ok (rows_of sg k seen) st).

    Lemma rows_of_eq k k' rows : (forall r, In r rows -> hashable (sg r) = true) ->
      hashable k = true -> hashable k' = true -> py_eq k k' = true -> rows_of sg k rows = rows_of sg k' rows.
    Proof.
      intros H Hk Hk' E. unfold rows_of. apply filter_ext_in. intros r Hr. apply py_eq_subst; auto.
    Qed.
    Lemma cells_ok_nil : cells_ok [] init_state.
    Proof. split; [reflexivity|apply uniform_init]. Qed.

    Lemma cells_step rows st r : cells_ok rows st ->
      match exec_blocks sem bs st r with
      | Ok st' => cells_ok (rows ++ [r]) st'
      | Err e => exists m, In m (all_members bs) /\
          forall rest, run_alone (wh (m_item m)) None (rows ++ r :: rest) = Err e
      end.
    Proof.
      intros (C1 & C2). pose proof (exec_blocks_spec sem bs st r WF C2) as S.
      destruct (exec_blocks sem bs st r) as [st'|e].
      - destruct S as (S1 & _ & S3). split; auto. intros m Hm. eapply run_alone_snoc; eauto. apply S1; auto.
      - destruct S as (m & Hm & E). exists m. split; auto. intros rest. eapply run_alone_err; eauto.
    Qed.

    Lemma group_loop_spec rows : forall seen d, ginv seen d ->
      match group_loop sem keys bs rows d with
      | Ok d' => ginv (seen ++ rows) d'
      | Err e => (exists r, In r rows /\ ~ key_fine r) \/
                 (exists m r, In m (all_members bs) /\ In r rows /\
                    run_alone (wh (m_item m)) None (rows_of sg (sg r) (seen ++ rows)) = Err e)
      end.
    Proof.
      induction rows as [|r rows IH]; intros seen d G.
      - simpl. rewrite app_nil_r. auto.
      - cbn [group_loop]. destruct G as (G1 & G2 & G3).
        destruct (signature keys r) as [s|e] eqn:Es; cbn [bind].
        2:{ left. exists r. split; [left; auto|]. intros (Q & _). congruence. }
        assert (Esg : sg r = s) by (unfold sg; rewrite Es; auto).
        unfold need_hash. destruct (hashable s) eqn:Hs; cbn [bind].
        2:{ left. exists r. split; [left; auto|]. intros (_ & Q). congruence. }
        assert (KF : key_fine r) by (split; rewrite Esg; auto).
        assert (HK : hash_all (map sg seen)).
        { intros x Hx. apply in_map_iff in Hx as (y & <- & Hy). apply G1; auto. }
        assert (HKr : hash_all (map sg (seen ++ [r]))).
        { intros x Hx. rewrite map_app in Hx. apply in_app_or in Hx as [Hx|[<-|[]]]; auto. apply KF. }
        set (st0 := match dfind d s with Some st => st | None => init_state end).
        assert (C0 : cells_ok (rows_of sg s seen) st0).
        { unfold st0. destruct (dfind d s) as [st|] eqn:F.
          - destruct (dfind_split _ _ _ F) as (d1 & k' & d2 & -> & Ek & _).
            assert (hashable k' = true).
            { apply HK. apply distinct_incl. rewrite <- G2, map_app. simpl. apply in_or_app; simpl; auto. }
            rewrite <- (rows_of_eq k' s); auto.
            + apply G3. apply in_or_app; simpl; auto.
            + intros x Hx. apply G1; auto.
          - apply dfind_none in F. rewrite G2, vmem_distinct in F by auto. rewrite vmem_In_false in F.
            replace (rows_of sg s seen) with (@nil Row); [apply cells_ok_nil|].
            symmetry. unfold rows_of. clear - F Hs HK. induction seen as [|a l IHl]; simpl; auto.
            rewrite py_eq_sym by (auto; apply HK; left; auto). rewrite F by (left; auto).
            apply IHl; [intros x Hx; apply HK; right; auto|]. intros y Hy. apply F. right; auto. }
        pose proof (cells_step _ _ r C0) as CS.
        destruct (exec_blocks sem bs st0 r) as [st1|e]; cbn [bind].
        2:{ right. destruct CS as (m & Hm & E). exists m, r. split; auto. split; [left; auto|].
            rewrite Esg. unfold rows_of. rewrite filter_app. simpl. rewrite Esg, py_eq_refl by auto. apply E. }
        assert (Dk : distinct (map sg (seen ++ [r])) = vadd (map fst d) s).
        { rewrite map_app in *. simpl in *. rewrite distinct_snoc by auto. rewrite G2, Esg. auto. }
        assert (RS : forall k, rows_of sg k (seen ++ [r]) = rows_of sg k seen ++ (if py_eq k s then [r] else [])).
        { intros k. unfold rows_of. rewrite filter_app. simpl. rewrite Esg. auto. }
        assert (G' : ginv (seen ++ [r]) (dput d s st1)).
        { split; [|split].
          - intros x Hx. apply in_app_or in Hx as [Hx|[<-|[]]]; auto.
          - rewrite map_fst_dput. auto.
          - intros k st Hin. rewrite RS.
            assert (Hold : forall k st, In (k, st) d -> py_eq k s = false -> cells_ok (rows_of sg k seen ++ (if py_eq k s then [r] else [])) st).
            { intros k2 st2 Hin2 N. rewrite N, app_nil_r. auto. }
            destruct (dfind d s) as [stx|] eqn:F.
            + destruct (dfind_split _ _ _ F) as (d1 & k' & d2 & -> & Ek & P). rewrite P in Hin.
              assert (Hk' : hashable k' = true).
              { apply HK. apply distinct_incl. rewrite <- G2, map_app. simpl. apply in_or_app; simpl; auto. }
              assert (Cs : (k, st) = (k', st1) \/ In (k, st) (d1 ++ d2)).
              { apply in_app_or in Hin as [|[|]]; auto; right; apply in_or_app; auto. }
              destruct Cs as [Cs|Cs].
              * injection Cs as -> ->. rewrite Ek. rewrite (rows_of_eq k' s); auto. intros x Hx. apply G1; auto.
              * assert (In (k, st) (d1 ++ (k', stx) :: d2)) by (apply in_app_or in Cs as [|]; apply in_or_app; simpl; auto).
                apply Hold; auto.
                assert (Ik : In k (map sg seen)).
                { apply distinct_incl. rewrite <- G2. change k with (fst (k, st)). apply in_map; auto. }
                assert (Nk : py_eq k k' = false).
                { rewrite map_app in G2. simpl in G2. eapply distinct_pairwise; [exact HK|symmetry; exact G2|].
                  rewrite <- map_app. change k with (fst (k, st)). apply in_map; auto. }
                destruct (py_eq k s) eqn:Q; auto. rewrite (py_eq_trans k s k') in Nk; auto; try discriminate.
                rewrite py_eq_sym; auto.
            + rewrite dput_new in Hin by auto. apply dfind_none in F.
              apply in_app_or in Hin as [Hin|[Q|[]]].
              * apply Hold; auto. rewrite vmem_In_false in F. apply F. change k with (fst (k, st)). apply in_map; auto.
              * injection Q as <- <-. rewrite py_eq_refl by auto. auto. }
        specialize (IH (seen ++ [r]) (dput d s st1) G').
        destruct (group_loop sem keys bs rows (dput d s st1)) as [d'|e].
        + rewrite <- app_assoc in IH. auto.
        + rewrite <- app_assoc in IH. destruct IH as [(x & Hx & N)|(m & x & Hm & Hx & E)].
          * left. exists x. split; [right|]; auto.
          * right. exists m, x. split; auto. split; [right|]; auto.
    Qed.
  End G.

  (** ** aggregate *)
  Definition set_bits (ms : list (@member Row)) (st : state) (chk : N) : Prop :=
    forall i, N.testbit chk (N.of_nat i) = true <-> exists m, In m ms /\ m_bit m = i /\ st (m_var m) <> None.

  Lemma bit_testbit (m : @member Row) i : N.testbit (bit_of m) (N.of_nat i) = Nat.eqb (m_bit m) i.
  Proof.
    unfold bit_of. rewrite N.shiftl_1_l. destruct (Nat.eqb_spec (m_bit m) i) as [->|Hn].
    - apply N.pow2_bits_true.
    - apply N.pow2_bits_false. lia.
  Qed.
  Lemma fold_lor_testbit (l : list (@member Row)) : forall a i,
    N.testbit (fold_left N.lor (map bit_of l) a) (N.of_nat i) = true <->
    N.testbit a (N.of_nat i) = true \/ exists m, In m l /\ m_bit m = i.
  Proof.
    induction l as [|m l IH]; intros a i; simpl.
    - split; auto. intros [|(m & [] & _)]; auto.
    - rewrite IH, N.lor_spec, orb_true_iff, bit_testbit, Nat.eqb_eq. split.
      + intros [[|]|(x & ? & ?)]; eauto.
      + intros [|(x & [<-|] & ?)]; eauto.
  Qed.
  Lemma flag_testbit (b : @block Row) i :
    N.testbit (flag b) (N.of_nat i) = true <-> exists m, In m (members b) /\ m_bit m = i.
  Proof.
    unfold flag. rewrite fold_lor_testbit, bit_testbit, Nat.eqb_eq. unfold members. split.
    - intros [|(m & ? & ?)]; [exists (bhead b)|exists m]; simpl; auto.
    - intros (m & [<-|] & ?); eauto.
  Qed.

  Lemma exec_agg_cons b r ex st chk row :
    exec_agg sem (b :: r) ex st chk row =
    bind (exec_block sem b st row) (fun st' =>
      match st (m_var (bhead b)), st' (m_var (bhead b)) with
      | None, Some _ => if N.eqb (N.lor chk (flag b)) ex then Ok (st', N.lor chk (flag b), true)
                        else exec_agg sem r ex st' (N.lor chk (flag b)) row
      | _, _ => exec_agg sem r ex st' chk row
      end).
  Proof.
    cbn [exec_agg]. unfold exec_block. destruct (test sem b row) as [[|]|]; cbn [bind]; auto.
    - destruct (st (m_var (bhead b))) eqn:E; cbn [bind].
      + destruct (exec_twos (members b) st row) eqn:E2; auto.
      + destruct (exec_inits (members b) st row) as [st'|] eqn:E2; cbn [bind]; auto.
    - destruct (st (m_var (bhead b))); auto.
  Qed.

  Lemma step_keeps_set it c row c' : step_alone (wh it) c row = Ok c' -> c <> None -> c' <> None.
  Proof.
    rewrite whole_step. intros H Hc. unfold bind in H.
    destruct (match ccode it with Some t => sem t row | None => Ok true end) as [[|]|]; try discriminate.
    - destruct c; [|congruence]. eapply run_two_some; eauto.
    - congruence.
  Qed.
  Lemma run_keeps_set it rows : forall c c', run_alone (wh it) c rows = Ok c' -> c <> None -> c' <> None.
  Proof.
    induction rows as [|r rows IH]; intros c c' H Hc; cbn [run_alone] in H; [congruence|].
    destruct (step_alone (wh it) c r) as [c1|] eqn:E; [|discriminate]. cbn [bind] in H.
    eapply IH; eauto. eapply step_keeps_set; eauto.
  Qed.

  Section A.
    Variable bs : list (@block Row).
    Hypothesis WF : wf_blocks bs.
    Hypothesis NDB : NoDup (map m_bit (all_members bs)).
    Variable ex : N.
    Hypothesis Hex : forall i, N.testbit ex (N.of_nat i) = true <-> exists m, In m (all_members bs) /\ m_bit m = i.

    Lemma bit_inj m m' : In m (all_members bs) -> In m' (all_members bs) -> m_bit m = m_bit m' -> m = m'.
    Proof.
      intros H H' E. clear - NDB H H' E. induction (all_members bs) as [|x l IH]; [destruct H|].
      simpl in NDB. inversion NDB; subst. destruct H as [->|H], H' as [->|H']; auto.
      - destruct H2. rewrite E. apply in_map; auto.
      - destruct H2. rewrite <- E. apply in_map; auto.
    Qed.
    Lemma complete_all_set st : set_bits (all_members bs) st ex ->
      forall m, In m (all_members bs) -> st (m_var m) <> None.
    Proof.
      intros S m Hm. destruct (S (m_bit m)) as (S1 & _).
      destruct S1 as (m' & Hm' & E & N); [apply Hex; eauto|].
      assert (m' = m) as -> by (apply bit_inj; auto). auto.
    Qed.

    Definition frame (l : list (@member Row)) (st st' : state) : Prop :=
      forall v, ~ In v (vars_of l) -> st' v = st v.

    Lemma exec_agg_spec tl : forall pre st chk row, bs = pre ++ tl ->
      all_uniform st bs -> set_bits (all_members bs) st chk ->
      match exec_agg sem tl ex st chk row with
      | Ok (st', chk', false) =>
          (forall m, In m (all_members tl) -> mem_ok sem m st st' row) /\
          frame (all_members tl) st st' /\ all_uniform st' bs /\ set_bits (all_members bs) st' chk'
      | Ok (st', chk', true) =>
          exists b1 b b2, tl = b1 ++ b :: b2 /\
          (forall m, In m (all_members (b1 ++ [b])) -> mem_ok sem m st st' row) /\
          frame (all_members (b1 ++ [b])) st st' /\ all_uniform st' bs /\
          st (m_var (bhead b)) = None /\
          (forall m, In m (all_members bs) -> st' (m_var m) <> None)
      | Err e => exists m, In m (all_members tl) /\ step_alone (wh (m_item m)) (st (m_var m)) row = Err e
      end.
    Proof.
      induction tl as [|b tl IH]; intros pre st chk row E U S.
      - simpl. split; [intros ? []|]. split; [intros ? _; auto|]. auto.
      - rewrite exec_agg_cons.
        destruct WF as (ND & WFb).
        assert (Hb : In b bs) by (rewrite E; apply in_or_app; simpl; auto).
        pose proof WFb as WFb'. rewrite Forall_forall in WFb'.
        pose proof U as U'. unfold all_uniform in U'. rewrite Forall_forall in U'.
        pose proof (exec_block_spec sem b st row (WFb' b Hb) (U' b Hb)) as Sb.
        destruct (exec_block sem b st row) as [st1|e]; cbn [bind].
        2:{ destruct Sb as (m & Hm & Em). exists m. split; auto. cbn [all_members flat_map]. apply in_or_app; auto. }
        destruct Sb as (B1 & B2 & B3).
        rewrite E, all_members_app, vars_app in ND. cbn [all_members flat_map] in ND.
        fold (all_members tl) in ND. rewrite vars_app in ND.
        destruct (NoDup_app_inv _ _ ND) as (NDp & NDr & Dis1).
        destruct (NoDup_app_inv _ _ NDr) as (NDb & NDt & Dis2).
        assert (Hhead : In (bhead b) (members b)) by (left; auto).
        assert (Hother : forall m, In m (all_members bs) -> In m (members b) \/ ~ In (m_var m) (vars_of (members b))).
        { intros m Hm. rewrite E, all_members_app in Hm. cbn [all_members flat_map] in Hm. rewrite !in_app_iff in Hm.
          destruct Hm as [Hm|[Hm|Hm]]; auto; right; intros Q.
          - eapply (Dis1 (m_var m)); [apply in_vars; auto|apply in_or_app; auto].
          - eapply (Dis2 (m_var m)); [exact Q|]. apply in_vars; auto. }
        assert (U1 : all_uniform st1 bs).
        { apply Forall_forall. intros b' Hb'. rewrite E in Hb'. apply in_app_or in Hb' as [Hb'|[<-|Hb']]; auto.
          - eapply uniform_ext; [|apply (U' b'); rewrite E; apply in_or_app; auto].
            intros v Hv. apply B2. intros Q. apply (Dis1 v); [|apply in_or_app; auto].
            apply in_map_iff in Hv as (m & <- & Hm). apply in_vars, in_flat_map. eauto.
          - eapply uniform_ext; [|apply (U' b'); rewrite E; apply in_or_app; simpl; auto].
            intros v Hv. apply B2. intros Q. apply (Dis2 v); auto.
            apply in_map_iff in Hv as (m & <- & Hm). apply in_vars, in_flat_map. eauto. }
        assert (Hinbs : forall m, In m (members b) -> In m (all_members bs)).
        { intros m Hm. apply in_flat_map. eauto. }
        (* checksum after the block *)
        assert (Keep : st (m_var (bhead b)) <> None \/ st1 (m_var (bhead b)) = None -> set_bits (all_members bs) st1 chk).
        { intros C i. rewrite (S i). split; intros (m & Hm & Em & Nm); exists m; (split; [auto|split; [auto|]]).
          - destruct (Hother m Hm) as [Hmb|Hmb]; [|rewrite B2; auto].
            eapply step_keeps_set; [apply B1; auto|auto].
          - destruct (Hother m Hm) as [Hmb|Hmb]; [|rewrite B2 in Nm; auto].
            intros Q. destruct C as [C|C]; [apply C; apply (U' b Hb m Hmb); auto|].
            apply Nm. apply (B3 m Hmb). auto. }
        assert (Grow : st (m_var (bhead b)) = None -> st1 (m_var (bhead b)) <> None ->
                       set_bits (all_members bs) st1 (N.lor chk (flag b))).
        { intros C1 C2 i. rewrite N.lor_spec, orb_true_iff, (S i), flag_testbit. split.
          - intros [(m & Hm & Em & Nm)|(m & Hm & Em)]; exists m.
            + split; auto. split; auto. destruct (Hother m Hm) as [Hmb|Hmb]; [|rewrite B2; auto].
              eapply step_keeps_set; [apply B1; auto|auto].
            + split; auto. split; auto. intros Q. apply C2. apply (B3 m Hm). auto.
          - intros (m & Hm & Em & Nm). destruct (Hother m Hm) as [Hmb|Hmb]; [right; eauto|].
            left. exists m. rewrite B2 in Nm by auto. auto. }
        assert (Cont : forall chk1, set_bits (all_members bs) st1 chk1 ->
          match exec_agg sem tl ex st1 chk1 row with
          | Ok (st', chk', false) =>
              (forall m, In m (all_members (b :: tl)) -> mem_ok sem m st st' row) /\
              frame (all_members (b :: tl)) st st' /\ all_uniform st' bs /\ set_bits (all_members bs) st' chk'
          | Ok (st', chk', true) =>
              exists b1 b' b2, b :: tl = b1 ++ b' :: b2 /\
              (forall m, In m (all_members (b1 ++ [b'])) -> mem_ok sem m st st' row) /\
              frame (all_members (b1 ++ [b'])) st st' /\ all_uniform st' bs /\
              st (m_var (bhead b')) = None /\
              (forall m, In m (all_members bs) -> st' (m_var m) <> None)
          | Err e => exists m, In m (all_members (b :: tl)) /\ step_alone (wh (m_item m)) (st (m_var m)) row = Err e
          end).
        { intros chk1 S1. specialize (IH (pre ++ [b]) st1 chk1 row).
          rewrite <- app_assoc in IH. specialize (IH E U1 S1).
          assert (Ft : forall v, In v (vars_of (all_members tl)) -> st1 v = st v).
          { intros v Hv. apply B2. intros Q. eapply Dis2; eauto. }
          destruct (exec_agg sem tl ex st1 chk1 row) as [[[st2 chk2] [|]]|e].
          - destruct IH as (b1 & b' & b2 & Et & I1 & I2 & I3 & I4 & I5).
            assert (Sub : forall m, In m (all_members (b1 ++ [b'])) -> In m (all_members tl)).
            { intros m Hm. rewrite Et, all_members_app. rewrite all_members_app in Hm. cbn [all_members flat_map] in *.
              rewrite app_nil_r in Hm. rewrite !in_app_iff in *. tauto. }
            exists (b :: b1), b', b2. split; [rewrite Et; auto|]. split; [|split; [|split; [auto|split; [|auto]]]].
            + intros m Hm. cbn [app all_members flat_map] in Hm. apply in_app_or in Hm as [Hm|Hm].
              * unfold mem_ok. rewrite I2; [apply B1; auto|]. intros Q.
                eapply Dis2; [apply in_vars; exact Hm|]. unfold vars_of in Q. apply in_map_iff in Q as (x & <- & Hx).
                apply in_vars. auto.
              * specialize (I1 m Hm). unfold mem_ok in *. rewrite Ft in I1; auto. apply in_vars. auto.
            + intros v Hv. cbn [app all_members flat_map] in Hv. rewrite vars_app, in_app_iff in Hv.
              rewrite I2, B2; tauto.
            + rewrite <- Ft; auto. apply in_vars. apply Sub. rewrite all_members_app. apply in_or_app. right. simpl. auto.
          - destruct IH as (I1 & I2 & I3 & I4). split; [|split; [|split; auto]].
            + intros m Hm. cbn [all_members flat_map] in Hm. apply in_app_or in Hm as [Hm|Hm].
              * unfold mem_ok. rewrite I2; [apply B1; auto|]. intros Q. eapply Dis2; [apply in_vars; exact Hm|]. auto.
              * specialize (I1 m Hm). unfold mem_ok in *. rewrite Ft in I1; auto. apply in_vars. auto.
            + intros v Hv. cbn [all_members flat_map] in Hv. rewrite vars_app, in_app_iff in Hv.
              rewrite I2, B2; tauto.
          - destruct IH as (m & Hm & Em). exists m. rewrite Ft in Em by (apply in_vars; auto). split; auto.
            cbn [all_members flat_map]. apply in_or_app; auto. }
        destruct (st (m_var (bhead b))) eqn:C1; destruct (st1 (m_var (bhead b))) eqn:C2.
        + apply Cont, Keep. left; congruence.
        + apply Cont, Keep. auto.
        + assert (G : set_bits (all_members bs) st1 (N.lor chk (flag b))) by (apply Grow; auto; congruence).
          destruct (N.eqb_spec (N.lor chk (flag b)) ex) as [Q|Q]; [|apply Cont; auto].
          exists [], b, tl. split; auto. split; [|split; [|split; [auto|split; [auto|]]]].
          * intros m Hm. cbn [app all_members flat_map] in Hm. rewrite app_nil_r in Hm. apply B1; auto.
          * intros w Hv. cbn [app all_members flat_map] in Hv. rewrite app_nil_r in Hv. apply B2; auto.
          * rewrite Q in G. apply complete_all_set; auto.
        + apply Cont, Keep. auto.
    Qed.

    Lemma exec_no_init_eq tl : forall pre st row, bs = pre ++ tl -> all_uniform st bs ->
      (forall m, In m (all_members tl) -> st (m_var m) <> None) ->
      exec_no_init sem tl st row = exec_blocks sem tl st row.
    Proof.
      induction tl as [|b tl IH]; intros pre st row E U H; auto.
      cbn [exec_no_init exec_blocks].
      assert (EB : exec_block sem b st row =
        bind (test sem b row) (fun go => if (go : bool) then exec_twos (members b) st row else Ok st)).
      { unfold exec_block. destruct (test sem b row) as [[|]|]; cbn [bind]; auto.
        destruct (st (m_var (bhead b))) eqn:Q; auto. exfalso. apply (H (bhead b)); auto. simpl. auto. }
      rewrite EB.
      assert (Hb : In b bs) by (rewrite E; apply in_or_app; simpl; auto).
      destruct WF as (ND & WFb). rewrite Forall_forall in WFb. pose proof U as U'. unfold all_uniform in U'. rewrite Forall_forall in U'.
      pose proof (exec_block_spec sem b st row (WFb b Hb) (U' b Hb)) as Sb. rewrite EB in Sb.
      destruct (test sem b row) as [go|]; cbn [bind] in *; auto.
      destruct (if go then exec_twos (members b) st row else Ok st) as [st1|]; cbn [bind]; auto.
      destruct Sb as (B1 & B2 & B3).
      rewrite E, all_members_app, vars_app in ND. cbn [all_members flat_map] in ND.
      fold (all_members tl) in ND. rewrite vars_app in ND.
      destruct (NoDup_app_inv _ _ ND) as (NDp & NDr & Dis1).
      destruct (NoDup_app_inv _ _ NDr) as (NDb & NDt & Dis2).
      apply (IH (pre ++ [b])).
      - rewrite <- app_assoc. auto.
      - apply Forall_forall. intros b' Hb'. rewrite E in Hb'. apply in_app_or in Hb' as [Hb'|[<-|Hb']]; auto.
        + eapply uniform_ext; [|apply (U' b'); rewrite E; apply in_or_app; auto].
          intros v Hv. apply B2. intros Q. apply (Dis1 v); [|apply in_or_app; auto].
          apply in_map_iff in Hv as (m & <- & Hm). apply in_vars, in_flat_map. eauto.
        + eapply uniform_ext; [|apply (U' b'); rewrite E; apply in_or_app; simpl; auto].
          intros v Hv. apply B2. intros Q. apply (Dis2 v); auto.
          apply in_map_iff in Hv as (m & <- & Hm). apply in_vars, in_flat_map. eauto.
      - intros m Hm. rewrite B2.
        + apply H. cbn [all_members flat_map]. apply in_or_app; auto.
        + intros Q. eapply Dis2; eauto. apply in_vars; auto.
    Qed.

    (** after the break every reducer is fed again; [alone m rows]: the value it
        should have *)
    Lemma phase2_spec rows : forall st (hist : @member Row -> list Row), all_uniform st bs ->
      (forall m, In m (all_members bs) -> run_alone (wh (m_item m)) None (hist m) = Ok (st (m_var m)) /\ st (m_var m) <> None) ->
      match phase2 sem bs rows st with
      | Ok st' => forall m, In m (all_members bs) -> run_alone (wh (m_item m)) None (hist m ++ rows) = Ok (st' (m_var m))
      | Err e => exists m, In m (all_members bs) /\ run_alone (wh (m_item m)) None (hist m ++ rows) = Err e
      end.
    Proof.
      induction rows as [|r rows IH]; intros st hist U H; cbn [phase2].
      - intros m Hm. rewrite app_nil_r. apply H; auto.
      - rewrite (exec_no_init_eq bs [] st r eq_refl U); [|intros; apply H; auto].
        pose proof (exec_blocks_spec sem bs st r WF U) as S.
        destruct (exec_blocks sem bs st r) as [st1|e]; cbn [bind].
        + destruct S as (S1 & _ & S3).
          specialize (IH st1 (fun m => hist m ++ [r]) S3).
          assert (H1 : forall m, In m (all_members bs) ->
            run_alone (wh (m_item m)) None (hist m ++ [r]) = Ok (st1 (m_var m)) /\ st1 (m_var m) <> None).
          { intros m Hm. destruct (H m Hm) as (A & B). split; [eapply run_alone_snoc; eauto; apply S1; auto|].
            eapply step_keeps_set; [apply S1; auto|auto]. }
          specialize (IH H1). destruct (phase2 sem bs rows st1).
          * intros m Hm. specialize (IH m Hm). cbn beta in IH. rewrite <- app_assoc in IH. auto.
          * destruct IH as (m & Hm & E). exists m. cbn beta in E. rewrite <- app_assoc in E. auto.
        + destruct S as (m & Hm & E). exists m. split; auto. eapply run_alone_err; eauto. apply H; auto.
    Qed.

    Definition broke (seen rows p q : list Row) (r : Row) (b1 : list (@block Row)) b b2 : Prop :=
      rows = p ++ r :: q /\ bs = b1 ++ b :: b2 /\
      run_alone (wh (m_item (bhead b))) None (seen ++ p) = Ok None /\
      (forall m, In m (all_members bs) -> exists c, run_alone (wh (m_item m)) None (seen ++ p) = Ok c /\
          (In m (all_members b2) -> c <> None)) /\
      (forall m, In m (all_members (b1 ++ [b])) -> exists v, run_alone (wh (m_item m)) None (seen ++ p ++ [r]) = Ok (Some v)).
    (** the rows reducer [m] is fed with *)
    Definition fed (seen p q : list Row) (r : Row) (b2 : list (@block Row)) (m : @member Row) (rs : list Row) : Prop :=
      (In m (all_members b2) -> rs = seen ++ p ++ q) /\ (~ In m (all_members b2) -> rs = seen ++ p ++ r :: q).

    Lemma phase1_spec rows : forall seen st chk, all_uniform st bs -> set_bits (all_members bs) st chk ->
      (forall m, In m (all_members bs) -> run_alone (wh (m_item m)) None seen = Ok (st (m_var m))) ->
      match phase1 sem bs ex rows st chk with
      | Ok st' =>
          (forall m, In m (all_members bs) -> run_alone (wh (m_item m)) None (seen ++ rows) = Ok (st' (m_var m))) \/
          (exists p q r b1 b b2, broke seen rows p q r b1 b b2 /\
             forall m rs, In m (all_members bs) -> fed seen p q r b2 m rs -> run_alone (wh (m_item m)) None rs = Ok (st' (m_var m)))
      | Err e =>
          (exists m, In m (all_members bs) /\ run_alone (wh (m_item m)) None (seen ++ rows) = Err e) \/
          (exists p q r b1 b b2, broke seen rows p q r b1 b b2 /\
             exists m, In m (all_members bs) /\ forall rs, fed seen p q r b2 m rs -> run_alone (wh (m_item m)) None rs = Err e)
      end.
    Proof.
      induction rows as [|r rows IH]; intros seen st chk U S H; cbn [phase1].
      - left. rewrite app_nil_r. auto.
      - pose proof (exec_agg_spec bs [] st chk r eq_refl U S) as A.
        destruct (exec_agg sem bs ex st chk r) as [[[st1 chk1] [|]]|e]; cbn [bind].
        + destruct A as (b1 & b & b2 & E & A1 & A2 & A3 & A4 & A5).
          destruct WF as (ND & WFb).
          assert (Split : forall m, In m (all_members bs) ->
             (In m (all_members (b1 ++ [b])) /\ ~ In m (all_members b2)) \/ (In m (all_members b2) /\ ~ In (m_var m) (vars_of (all_members (b1 ++ [b]))))).
          { intros m Hm.
            replace bs with ((b1 ++ [b]) ++ b2) in ND, Hm by (rewrite E, <- app_assoc; auto).
            rewrite all_members_app in Hm, ND. rewrite vars_app in ND.
            destruct (NoDup_app_inv _ _ ND) as (_ & _ & Dis).
            apply in_app_or in Hm as [Hm|Hm].
            - left. split; auto. intros Q. eapply Dis; apply in_vars; eauto.
            - right. split; auto. intros Q. eapply Dis; [exact Q|]. apply in_vars; auto. }
          assert (B : broke seen (r :: rows) [] rows r b1 b b2).
          { split; auto. split; auto. rewrite app_nil_r. split; [|split].
            - pose proof (H (bhead b)) as Hb. rewrite A4 in Hb. apply Hb. apply in_flat_map. exists b. split; [rewrite E; apply in_or_app; simpl; auto|left; auto].
            - intros m Hm. exists (st (m_var m)). split; auto. intros Hm2.
              destruct (Split m Hm) as [(_ & N)|(_ & N)]; [tauto|]. rewrite <- (A2 _ N). apply A5; auto.
            - intros m Hm.
              assert (Hm' : In m (all_members bs)).
              { replace bs with ((b1 ++ [b]) ++ b2) by (rewrite E, <- app_assoc; auto). rewrite all_members_app. apply in_or_app; auto. }
              pose proof (A5 m Hm') as Ns. specialize (A1 m Hm). unfold mem_ok in A1.
              destruct (st1 (m_var m)) as [v|]; [|congruence]. exists v.
              eapply run_alone_snoc; [|exact A1]. apply H; auto. }
          set (hist := fun m : @member Row => if in_dec Nat.eq_dec (m_var m) (vars_of (all_members b2)) then seen else seen ++ [r]).
          assert (Hist : forall m, In m (all_members bs) ->
             run_alone (wh (m_item m)) None (hist m) = Ok (st1 (m_var m)) /\ st1 (m_var m) <> None).
          { intros m Hm. split; auto. unfold hist.
            replace bs with ((b1 ++ [b]) ++ b2) in ND by (rewrite E, <- app_assoc; auto).
            rewrite all_members_app, vars_app in ND. destruct (NoDup_app_inv _ _ ND) as (_ & _ & Dis).
            destruct (Split m Hm) as [(Y & N)|(Y & N)]; destruct (in_dec _ _ _) as [D|D].
            - exfalso. eapply Dis; [apply in_vars; exact Y|exact D].
            - eapply run_alone_snoc; [apply H; auto|apply A1; auto].
            - rewrite (A2 _ N). apply H; auto.
            - destruct D. apply in_vars; auto. }
          assert (Fed : forall m rs, In m (all_members bs) -> fed seen [] rows r b2 m rs -> rs = hist m ++ rows).
          { intros m rs Hm (F1 & F2). unfold hist. destruct (Split m Hm) as [(Y & N)|(Y & N)]; destruct (in_dec _ _ _) as [D|D].
            - exfalso. replace bs with ((b1 ++ [b]) ++ b2) in ND by (rewrite E, <- app_assoc; auto).
              rewrite all_members_app, vars_app in ND. destruct (NoDup_app_inv _ _ ND) as (_ & _ & Dis).
              eapply Dis; [apply in_vars; exact Y|exact D].
            - rewrite F2 by auto. rewrite <- app_assoc. auto.
            - rewrite F1; auto.
            - destruct D. apply in_vars; auto. }
          pose proof (phase2_spec rows st1 hist A3 Hist) as P2.
          destruct (phase2 sem bs rows st1) as [st2|e].
          * right. exists [], rows, r, b1, b, b2. split; auto. intros m rs Hm F. rewrite (Fed m rs Hm F). apply P2; auto.
          * right. exists [], rows, r, b1, b, b2. split; auto. destruct P2 as (m & Hm & Em). exists m. split; auto.
            intros rs F. rewrite (Fed m rs Hm F). auto.
        + destruct A as (A1 & A2 & A3 & A4).
          specialize (IH (seen ++ [r]) st1 chk1 A3 A4).
          assert (H1 : forall m, In m (all_members bs) -> run_alone (wh (m_item m)) None (seen ++ [r]) = Ok (st1 (m_var m))).
          { intros m Hm. eapply run_alone_snoc; [apply H; auto|apply A1; auto]. }
          specialize (IH H1). rewrite <- app_assoc in IH.
          assert (Lift : forall p q x b1 b b2, broke (seen ++ [r]) rows p q x b1 b b2 -> broke seen (r :: rows) (r :: p) q x b1 b b2).
          { intros p q x b1 b b2 (B1 & B2 & B3 & B4 & B5). rewrite <- app_assoc in B3.
            split; [rewrite B1; auto|]. split; auto. split; auto. split.
            - intros m Hm. specialize (B4 m Hm). rewrite <- app_assoc in B4. auto.
            - intros m Hm. specialize (B5 m Hm). rewrite <- app_assoc in B5. auto. }
          assert (LiftF : forall p q x b2 m rs, fed seen (r :: p) q x b2 m rs -> fed (seen ++ [r]) p q x b2 m rs).
          { intros p q x b2 m rs (F1 & F2). split; intros Q; rewrite <- app_assoc; auto. }
          destruct (phase1 sem bs ex rows st1 chk1) as [st2|e].
          * destruct IH as [IH|(p & q & x & b1 & b & b2 & B & IH)]; [left; auto|].
            right. exists (r :: p), q, x, b1, b, b2. split; auto.
          * destruct IH as [IH|(p & q & x & b1 & b & b2 & B & m & Hm & IH)]; [left; auto|].
            right. exists (r :: p), q, x, b1, b, b2. split; auto. exists m. split; auto.
        + destruct A as (m & Hm & Em). left. exists m. split; auto. eapply run_alone_err; eauto.
    Qed.
  End A.
End L.
