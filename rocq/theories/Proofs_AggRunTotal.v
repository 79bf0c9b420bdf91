(** The function of aggregate, run. *)
From Coq Require Import String Ascii List NArith ZArith Bool Arith Lia Permutation.
From Verif Require Import Model_PyVal Model_Reducers Model_Aggregate Model_Code Model_AggText Spec_Syntax Spec_FuncText Spec_AggProgram Spec_FuncRun
  Spec_AggRun Proofs_FuncRun Proofs_RedRun Proofs_Steady Proofs_AggRun Proofs_AggRunFn Proofs_AggRunBlocks Proofs_AggRunGroup.
From Verif Require Spec_Stmt Spec_Loop Proofs_Stmt Proofs_Aggregate.
Import ListNotations.

(** *** several names for the sentinel *)
Lemma good_sent s x l : good s -> l < length (objects s) -> obj_at s l = OSent -> good (name_it s x l).
Proof.
  intros G W O. change (name_it s x l) with (set_place s (PN x) l). constructor.
  - intros p k H. cbn. destruct (place_dec p (PN x)) as [-> |N]; [rewrite loc_set_same in H; now injection H as <-|].
    rewrite loc_set_other in H by exact N. eapply g_wf; eauto.
  - intros p q k N P Q H1 H2. rewrite obj_set_place. destruct (place_dec p (PN x)) as [-> |Np].
    + rewrite loc_set_same in H1. now injection H1 as <-.
    + rewrite loc_set_other in H1 by exact Np. destruct (place_dec q (PN x)) as [-> |Nq].
      * rewrite loc_set_same in H2. now injection H2 as <-.
      * rewrite loc_set_other in H2 by exact Nq. now apply (g_sep _ G p q).
  - intros i y H. rewrite loc_set_other in H by discriminate. now apply (g_inst _ G) in H.
Qed.
Definition name_all (xs : list text) (l : nat) (s : state) : state := fold_left (fun s x => name_it s x l) xs s.
Lemma name_all_facts xs l : forall s, good s -> l < length (objects s) -> obj_at s l = OSent ->
  good (name_all xs l s) /\ instances (name_all xs l s) = instances s /\ (forall x, In x xs -> view (name_all xs l s) (PN x) = Some OSent) /\
  (forall q, (forall x, In x xs -> q <> PN x) -> loc_of (name_all xs l s) q = loc_of s q /\ view (name_all xs l s) q = view s q).
Proof.
  induction xs as [|x xs IH]; intros s G W O; cbn [name_all fold_left].
  - split; [exact G|]. split; [reflexivity|]. split; [intros x []|now split].
  - destruct (IH (name_it s x l) (good_sent s x l G W O) W O) as (A & I & B & C). fold (name_all xs l (name_it s x l)).
    split; [exact A|]. split; [exact I|]. split.
    + intros y [<-|Y]; [|now apply B]. destruct (in_dec (list_eq_dec N.eq_dec) x xs) as [J|J]; [now apply B|].
      destruct (C (PN x)) as [_ ->]; [intros y Y X; apply PN_inj in X; now subst|].
      change (name_it s x l) with (set_place s (PN x) l). unfold view. rewrite loc_set_same. cbn [option_map]. now rewrite obj_set_place, O.
    + intros q N. destruct (C q) as [-> ->]; [intros y Y; apply N; now right|].
      change (name_it s x l) with (set_place s (PN x) l). unfold view. rewrite loc_set_other by (apply N; now left). split; [reflexivity|].
      destruct (loc_of s q); [|reflexivity]. cbn. reflexivity.
Qed.
Lemma assign_names globals call outside xs l : forall s, Spec_FuncRun.assign globals call outside (map AName xs) l s = Ok (name_all xs l s).
Proof. induction xs as [|x xs IH]; intros s; [reflexivity|]. cbn [map Spec_FuncRun.assign]. rewrite IH. reflexivity. Qed.

Lemma with_names_put x o l s : with_names ((x, o) :: l) s = with_names l (put s (PN x) o).
Proof. reflexivity. Qed.
Lemma with_names_good l : forall s, good s -> good (with_names l s).
Proof. induction l as [|[x o] l IH]; intros s G; [exact G|]. rewrite with_names_put. apply IH. apply good_put; [exact G|discriminate]. Qed.
Lemma with_names_other l q : forall s, good s -> (forall x, In x (map fst l) -> q <> PN x) -> view (with_names l s) q = view s q.
Proof.
  induction l as [|[x o] l IH]; intros s G N; [reflexivity|]. rewrite with_names_put, IH.
  - apply view_put_other; [exact G|]. apply N. now left.
  - apply good_put; [exact G|discriminate].
  - intros y Y. apply N. now right.
Qed.
Lemma with_names_at l x o : forall s, good s -> NoDup (map fst l) -> In (x, o) l -> view (with_names l s) (PN x) = Some o.
Proof.
  induction l as [|[y p] l IH]; intros s G N H; [destruct H|]. rewrite with_names_put. inversion N as [|? ? N1 N2]; subst.
  assert (G' : good (put s (PN y) p)) by (apply good_put; [exact G|discriminate]).
  destruct H as [[= -> ->]|H].
  - rewrite with_names_other; [apply view_put_same|exact G'|]. intros z Z X. apply PN_inj in X. subst. contradiction.
  - apply IH; auto.
Qed.

Section Total.
  Variable globals : text -> option rv.
  Variable call : text -> list val -> res val.
  Variable classes : text -> option (list text).
  Variable outside : ast -> (ast -> option val) -> res val.
  Hypothesis OUT : forall a g g', (forall u, In u (uses a) -> g u = g' u) -> outside a g = outside a g'.
  Variables none_name : text.
  Hypothesis GV : forall x, x <> none_name -> match globals x with None | Some (RVal _) => True | _ => False end.
  Hypothesis GN : globals none_name = Some RSent.
  Variable params : list text.
  Variable args : list val.
  Hypothesis PP : forall x, In x (T "row_" :: none_name :: python_names) -> ~ In x params.
  Hypothesis PO : forall x, In x params -> ~ own x.
  Hypothesis NN : ~ own none_name /\ none_name <> T "row_".
  Variable sem : string -> val -> res bool.
  Variable its : list (Model_Aggregate.item val).
  Variable reds : nat -> ared.
  Variable vars : list (Model_Aggregate.item val * nat).
  Variable ms : list (@member val).
  Hypothesis IX : index_items its 0 0 [] = (vars, ms).
  Hypothesis DE : forall p it, nth_error its p = Some it -> denotes globals call outside params args sem it (reds p) /\ usable none_name params (reds p).
  Notation n := (count ms).
  Notation red_at := (red_at reds ms).
  Notation value := (value globals call outside params args).
  Notation value_in := (value_in globals call outside).
  Notation ev := (Spec_FuncRun.ev globals call outside).
  Notation right_side := (Spec_FuncRun.right_side globals call classes outside).
  Notation run_simple := (Spec_FuncRun.run_simple globals call classes outside).
  Notation run_stmts := (Spec_FuncRun.run_stmts globals call classes outside).
  Notation run_for := (Spec_FuncRun.run_for globals call classes outside).
  Notation base := (base params args).
  Notation given := (given params args).
  Notation IT := (T "it_").
  Notation EC := (T "expected_checksum_").
  Notation expected := (expected_checksum ms).
  Definition vpl (j : nat) : place := PN (agg_var true j).

  Lemma vpl_ne j x : In x (T "row_" :: map T ["data_"; "_none"; "signature_to_agg_data_"; "agg_data_"; "_d"; "signature_"; "result_";
   "checksum_"; "expected_checksum_"; "it_"; "defaultdict"; "list"; "dict"; "int"; "iter"]%string) -> vpl j <> PN x.
  Proof. intros I X. apply PN_inj in X. revert X. now apply agg_var_ne. Qed.
  Lemma touched_total q : In q (touched n vpl) -> q = chk \/ q = dd \/ exists j, j < n /\ q = vpl j.
  Proof. intros [<-|[<-|I]]; auto. right. right. apply in_map_iff in I as (j & <- & J). apply in_seq in J. exists j. split; [lia|reflexivity]. Qed.
  Lemma total_own : own_places (touched n vpl).
  Proof.
    intros x I. destruct (touched_total _ I) as [E|[E|(j & _ & E)]]; apply PN_inj in E; subst; [listed|listed|right; eauto].
  Qed.
  Ltac untouched := let X := fresh in let E := fresh in intros X; destruct (touched_total _ X) as [E|[E|(? & _ & E)]];
    [revert E; dn|revert E; dn|symmetry in E; revert E; apply vpl_ne; cbn [map In]; tauto].
  Lemma t_base_put s x o : good s -> (own x \/ x = T "row_") -> base s -> base (put s (PN x) o).
  Proof.
    intros G O B y N R. rewrite view_put_other; [now apply B|exact G|]. intros X. apply PN_inj in X. subst. destruct O; contradiction.
  Qed.
  Lemma t_free s : base s -> forall x, In x (none_name :: python_names) -> view s (PN x) = None.
  Proof.
    intros B x I. assert (R : x <> T "row_") by (destruct I as [<-|I]; [apply NN|intros ->; revert I; apply python_row]).
    rewrite B; [apply given_out; apply PP; now right| |exact R]. destruct I as [<-|I]; [apply NN|]. now apply python_not_own.
  Qed.
  Lemma t_factories s : base s -> factories_free s.
  Proof. intros B x I. apply (t_free s B). right. unfold python_names. cbn [map In] in *. tauto. Qed.

  Definition slots_at (s : state) (st : cells) : Prop :=
    (forall j, j < n -> view s (vpl j) = Some (obj_for (miss red_at j) (st j)) /\ ok red_at j (st j)) /\
    (forall j, ~ j < n -> view s (vpl j) = None).
  (** [l]: the iterator *)
  Record inT (l : nat) (k : option object) (s : state) (st : cells) : Prop := mkInT {
    it_good : good s;
    it_base : base s;
    it_none : view s (PN (T "_none")) = Some OSent;
    it_exp : view s (PN EC) = counted expected;
    it_loc : loc_of s (PN IT) = Some l;
    it_obj : exists r, obj_at s l = OIter r;
    it_chk : view s chk = k;
    it_slots : slots_at s st }.
  Lemma it_view l k s st : inT l k s st -> exists r, view s (PN IT) = Some (OIter r).
  Proof. intros H. destruct (it_obj _ _ _ _ H) as [r O]. exists r. unfold view. rewrite (it_loc _ _ _ _ H). cbn [option_map]. now rewrite O. Qed.
  Lemma put_row l k s st row : inT l k s st -> inT l k (put s (PN (T "row_")) (OVal row None)) st.
  Proof.
    intros H. destruct (it_view _ _ _ _ H) as [r IV]. destruct H as [G B N E L O C [S1 S2]].
    assert (V : forall q, q <> PN (T "row_") -> view (put s (PN (T "row_")) (OVal row None)) q = view s q) by (intros; now apply view_put_other).
    assert (L' : loc_of (put s (PN (T "row_")) (OVal row None)) (PN IT) = Some l).
    { unfold put. rewrite loc_set_other by dn. exact L. }
    constructor.
    - apply good_put; [exact G|discriminate].
    - apply t_base_put; [exact G|now right|exact B].
    - rewrite V; [exact N|dn].
    - rewrite V; [exact E|dn].
    - exact L'.
    - exists r. rewrite <- (V (PN IT)) in IV by dn. unfold view in IV. rewrite L' in IV. cbn [option_map] in IV. now injection IV.
    - rewrite V; [exact C|dn].
    - split; intros j J; rewrite V by (apply vpl_ne; now left); auto.
  Qed.
  Lemma after_blocks l k k' s st s' st' : inT l k s st -> inv n red_at vpl s k' s' st' -> inT l k' s' st'.
  Proof.
    intros H (G' & [[FI FL] FV] & K' & S'). destruct (it_view _ _ _ _ H) as [r IV]. destruct H as [G B N E L O C [S1 S2]].
    assert (F : frame (touched n vpl) s s') by (split; [split|]; assumption).
    assert (L' : loc_of s' (PN IT) = Some l) by (rewrite FL; [exact L|untouched]).
    constructor.
    - exact G'.
    - eapply base_frame; [apply total_own|exact B|exact F].
    - rewrite FV; [exact N|untouched].
    - rewrite FV; [exact E|untouched].
    - exact L'.
    - exists r. rewrite <- (FV (PN IT)) in IV by untouched. unfold view in IV. rewrite L' in IV. cbn [option_map] in IV. now injection IV.
    - exact K'.
    - split; [exact S'|]. intros j J. rewrite FV; [now apply S2|]. intros X. destruct (touched_total _ X) as [Y|[Y|(i & I & Y)]].
      + revert Y. apply vpl_ne. cbn [map In]. tauto.
      + revert Y. apply vpl_ne. cbn [map In]. tauto.
      + apply PN_inj in Y. apply agg_var_inj in Y. subst. now apply J.
  Qed.
  Lemma stored l k s st rest : inT l k s st -> inT l k (store s l (OIter rest)) st /\ obj_at (store s l (OIter rest)) l = OIter rest.
  Proof.
    intros H. destruct (it_view _ _ _ _ H) as [r IV]. destruct H as [G B N E L (r0 & O) C [S1 S2]].
    assert (ND : PN IT <> dd) by dn. assert (NS : obj_at s l <> OSent) by (rewrite O; discriminate).
    pose proof (frame_store s l (OIter rest) (PN IT) G ND L NS) as [[FI FL] FV].
    assert (OB : obj_at (store s l (OIter rest)) l = OIter rest).
    { unfold obj_at, store. cbn. apply set_nth_at. exact (g_wf _ G (PN IT) l L). }
    assert (V : forall x, x <> IT -> x <> T "_d" -> view (store s l (OIter rest)) (PN x) = view s (PN x)).
    { intros x X1 X2. apply FV. intros [X|[X|[]]]; apply PN_inj in X; congruence. }
    split; [|exact OB]. constructor.
    - eapply good_store; [exact G|exact ND|exact L|exact NS].
    - intros x X1 X2. rewrite V; [now apply B| |]; intros ->; apply X1; listed.
    - rewrite V; [exact N|dn|dn].
    - rewrite V; [exact E|dn|dn].
    - exact L.
    - exists rest. exact OB.
    - unfold chk. rewrite V; [exact C|dn|dn].
    - split; intros j J; unfold vpl; rewrite V; try (now apply S1); try (now apply S2); apply agg_var_ne; cbn [map In]; tauto.
  Qed.

  Lemma row_ok s row : base s -> row_in s (Some row) ->
    Forall (block_ok globals call classes outside n reds red_at vpl s row sem) (build ms).
  Proof. intros B R. eapply all_blocks_ok; eauto. apply total_own. Qed.
  Lemma vpl_inj i j : i < n -> j < n -> vpl i = vpl j -> i = j.
  Proof. intros _ _ X. apply PN_inj in X. now apply agg_var_inj. Qed.
  Lemma vpl_dd j : j < n -> vpl j <> dd. Proof. intros _. apply vpl_ne. cbn [map In]. tauto. Qed.
  Lemma vpl_chk j : j < n -> vpl j <> chk. Proof. intros _. apply vpl_ne. cbn [map In]. tauto. Qed.
  Lemma no_factories x : In x (map T ["defaultdict"; "list"; "dict"; "int"]%string) -> ~ In (PN x) (touched n vpl).
  Proof. intros I X. apply total_own in X. revert X. apply python_not_own. unfold python_names. cbn [map In] in *. tauto. Qed.

  Lemma later_rows rows : forall l k s st, inT l k s st ->
    match phase2 sem (build ms) rows st with
    | Err e => run_for (T "row_") (later_body true reds (build ms)) rows s = Err e
    | Ok st' => exists s', run_for (T "row_") (later_body true reds (build ms)) rows s = Ok (s', []) /\ inT l k s' st'
    end.
  Proof.
    induction rows as [|row rows IH]; intros l k s st H; cbn [phase2 Spec_FuncRun.run_for]; [now exists s|].
    rewrite bind_new_put. pose proof (put_row l k s st row H) as H1. set (s1 := put s (PN (T "row_")) (OVal row None)) in *.
    assert (R1 : row_in s1 (Some row)) by apply view_put_same.
    pose proof (later_run globals call classes outside true n reds red_at vpl vpl_inj vpl_dd vpl_chk s1) as L.
    specialize (L ltac:(intros j J; reflexivity) ltac:(untouched) row sem k (build ms) (row_ok s1 row (it_base _ _ _ _ H1) R1) s1 st).
    unfold sim in L. pose proof H1 as [G B N E LO O C [S1 S2]].
    specialize (L ltac:(split; [exact G|]; split; [apply frame_refl|]; split; [exact C|exact S1])).
    destruct (exec_no_init sem (build ms) st row) as [st'|e]; cbn [bind]; [|now rewrite L].
    destruct L as (s' & -> & I'). cbn [bind fst snd]. apply IH. eapply after_blocks; [exact H1|exact I'].
  Qed.
  Lemma rows_run rows : forall l s st c, inT l (counted c) s st ->
    let run := run_for (T "row_") (body_stmts true reds (build ms)) rows s in
    let later rest s := run_for (T "row_") (later_body true reds (build ms)) rest (store s l (OIter rest)) in
    match phase1 sem (build ms) expected rows st c with
    | Err e => run = Err e \/ exists s6 rest k st6, run = Ok (s6, rest) /\ inT l k s6 st6 /\ later rest s6 = Err e
    | Ok st' => exists s6 rest k st6 s' k', run = Ok (s6, rest) /\ inT l k s6 st6 /\ later rest s6 = Ok (s', []) /\ inT l k' s' st'
    end.
  Proof.
    induction rows as [|row rows IH]; intros l s st c H run later; subst run later; cbn [phase1 Spec_FuncRun.run_for].
    { exists s, [], (counted c), st, (store s l (OIter [])), (counted c). split; [reflexivity|]. split; [exact H|]. split; [reflexivity|]. now apply stored. }
    rewrite bind_new_put. pose proof (put_row l _ s st row H) as H1. set (s1 := put s (PN (T "row_")) (OVal row None)) in *.
    assert (R1 : row_in s1 (Some row)) by apply view_put_same.
    pose proof (agg_run globals call classes outside true n reds red_at vpl vpl_inj vpl_dd vpl_chk s1) as L.
    specialize (L ltac:(intros j J; reflexivity) ltac:(untouched) (t_factories s1 (it_base _ _ _ _ H1)) no_factories (it_none _ _ _ _ H1) ltac:(untouched)
      row sem expected (fun _ => it_exp _ _ _ _ H1) ltac:(untouched) (build ms) eq_refl (row_ok s1 row (it_base _ _ _ _ H1) R1) s1 st c).
    unfold simA in L. pose proof H1 as [G B N E LO O C [S1 S2]].
    specialize (L ltac:(split; [exact G|]; split; [apply frame_refl|]; split; [exact C|exact S1])).
    destruct (exec_agg sem (build ms) expected st c row) as [[[st' c'] br]|e]; cbn [bind]; [|left; rewrite L; reflexivity].
    destruct L as (s' & -> & I'). pose proof (after_blocks l _ _ s1 st s' st' H1 I') as H2. destruct br; cbn [bind fst snd].
    - destruct (stored l _ s' st' rows H2) as [H3 _]. pose proof (later_rows rows l _ _ st' H3) as P.
      destruct (phase2 sem (build ms) rows st') as [st2|e].
      + destruct P as (s2 & P & I2). exists s', rows, (counted c'), st', s2, (counted c'). auto.
      + right. exists s', rows, (counted c'), st'. auto.
    - exact (IH l s' st' c' H2).
  Qed.

  (** *** the result *)
  Lemma t_acc m c : In m ms -> accumulator (reds (m_bit m)) c = obj_for (miss red_at (m_var m)) c.
  Proof.
    intros I. destruct (member_at its reds vars ms IX m I) as [_ R]. unfold accumulator, miss. rewrite R. destruct c; [|reflexivity]. cbn [obj_for].
    destruct (p_op (reds (m_bit m))); reflexivity.
  Qed.
  Definition t_slots (st : cells) : list (text * object) :=
    map (fun m => (agg_var true (m_var m), accumulator (reds (m_bit m)) (st (m_var m)))) ms.
  Lemma t_names st : map fst (t_slots st) = map (agg_var true) (seq 0 n).
  Proof.
    unfold t_slots. rewrite map_map. cbn [fst]. rewrite <- map_map with (f := m_var). now rewrite (index_seq its 0 0 [] vars ms IX).
  Qed.
  Lemma t_nodup st : NoDup (map fst (t_slots st)).
  Proof.
    rewrite t_names. generalize (seq_NoDup n 0). generalize (seq 0 n). intros l. induction 1 as [|x l H _ IH]; cbn [map]; constructor; [|exact IH].
    intros I. apply in_map_iff in I as (y & E & Y). apply agg_var_inj in E. now subst.
  Qed.
  Lemma t_in st j : j < n -> In (agg_var true j, obj_for (miss red_at j) (st j)) (t_slots st).
  Proof.
    intros J. destruct (red_member its reds vars ms IX j J) as (m & I & <- & _). rewrite <- t_acc by exact I. unfold t_slots.
    apply (in_map (fun m => (agg_var true (m_var m), accumulator (reds (m_bit m)) (st (m_var m)))) ms m I).
  Qed.
  Lemma total_state_is st : total_state params args reds ms st = with_names (t_slots st) (put given (PN (T "_none")) OSent).
  Proof. reflexivity. Qed.
  Record tready (s : state) (st : cells) : Prop := mkTReady {
    tr_base : base s;
    tr_none : view s (PN (T "_none")) = Some OSent;
    tr_at : forall j, j < n -> view s (vpl j) = Some (obj_for (miss red_at j) (st j));
    tr_no : forall j, ~ j < n -> view s (vpl j) = None }.
  Lemma total_ready st : tready (total_state params args reds ms st) st.
  Proof.
    assert (G0 : good (put given (PN (T "_none")) OSent)) by (apply good_put; [apply good_given|discriminate]).
    assert (NI : forall x, ~ (exists j, x = agg_var true j) -> forall y, In y (map fst (t_slots st)) -> PN x <> PN y).
    { intros x N y Y X. apply PN_inj in X. subst. apply N. rewrite t_names in Y. apply in_map_iff in Y as (j & <- & _). eauto. }
    rewrite total_state_is. constructor.
    - intros x O R. rewrite with_names_other; [|exact G0|].
      + rewrite view_put_other; [reflexivity|apply good_given|]. intros X. apply PN_inj in X. subst. apply O. listed.
      + apply NI. intros E. apply O. now right.
    - rewrite with_names_other; [apply view_put_same|exact G0|]. apply NI. intros (j & E). symmetry in E. revert E. apply agg_var_ne. cbn [map In]. tauto.
    - intros j J. apply with_names_at; [exact G0|apply t_nodup|now apply t_in].
    - intros j J. rewrite with_names_other; [|exact G0|].
      + rewrite view_put_other; [|apply good_given|apply vpl_ne; cbn [map In]; tauto]. apply given_out. intros X. apply PO in X. apply X. right. eauto.
      + intros y Y X. apply PN_inj in X. rewrite t_names in Y. apply in_map_iff in Y as (i & E & I). apply in_seq in I. subst y. apply agg_var_inj in X. lia.
  Qed.
  Variable result : ast.
  Hypothesis EN : result_names none_name true (key_makers reds ms true) result.
  Lemma tready_same s s' st : tready s st -> tready s' st -> forall u, In u (uses result) -> same_at s s' u.
  Proof.
    intros R R' u U. destruct (uses_shape result u U) as (x & X & S). destruct EN as [E _]. destruct (E x X) as [(O & _ & _ & _ & NR)|[->|(j & ->)]].
    - eapply same_seen; [|rewrite (tr_base _ _ R x O NR); apply (tr_base _ _ R' x O NR)|exact S]. rewrite (tr_base _ _ R x O NR). apply given_plain.
    - destruct S as [->|[y ->]]; unfold same_at; rewrite ?seen_name, ?seen_attr, (tr_none _ _ R), (tr_none _ _ R'); exact I.
    - destruct (lt_dec j n) as [J|J].
      + pose proof (tr_at _ _ R j J) as A. pose proof (tr_at _ _ R' j J) as A'. unfold vpl in A, A'.
        destruct S as [->|[y ->]]; unfold same_at; rewrite ?seen_name, ?seen_attr, A, A'; destruct (st j); cbn; auto.
      + pose proof (tr_no _ _ R j J) as A. pose proof (tr_no _ _ R' j J) as A'. unfold vpl in A, A'.
        destruct S as [->|[y ->]]; unfold same_at; rewrite ?seen_name, ?seen_attr, A, A'; exact I.
  Qed.
  Lemma tready_seen s st : tready s st -> forall u, In u (uses result) ->
    match seen s u with Some (OGroups _ _) => False | Some (OVal _ (Some _)) => In u (key_makers reds ms true) | _ => True end.
  Proof.
    intros R u US. destruct (uses_shape result u US) as (x & X & S). destruct EN as [E _]. destruct (E x X) as [(O & _ & _ & _ & NR)|[->|(j & ->)]].
    - assert (P : plain_at s u) by (eapply plain_seen; [|exact S]; rewrite (tr_base _ _ R x O NR); apply given_plain).
      unfold plain_at in P. destruct (seen s u) as [[|? []| | | |]|]; auto. contradiction.
    - destruct S as [->|[y ->]]; rewrite ?seen_name, ?seen_attr, (tr_none _ _ R); exact I.
    - destruct (lt_dec j n) as [J|J].
      + pose proof (tr_at _ _ R j J) as A. unfold vpl in A.
        destruct S as [->|[y ->]]; rewrite ?seen_name, ?seen_attr, A; destruct (st j) as [v|]; cbn [obj_for]; try exact I.
        destruct (miss red_at j) as [m|] eqn:MI; [|exact I]. unfold key_makers. apply in_flat_map.
        destruct (red_member its reds vars ms IX j J) as (mm & IM & EJ & RJ). exists mm. split; [exact IM|].
        unfold makes_keys. unfold miss in MI. rewrite RJ in MI. destruct (p_op (reds (m_bit mm))) as [b|]; [|discriminate MI].
        change (Spec_Loop.missing_of b = Some m) in MI. rewrite MI. left. cbn [slot]. now rewrite EJ.
      + pose proof (tr_no _ _ R j J) as A. unfold vpl in A. destruct S as [->|[y ->]]; rewrite ?seen_name, ?seen_attr, A; exact I.
  Qed.
  Lemma tready_fixed s st : tready s st -> forall u, In u (indexed result) -> fixed_at s u.
  Proof.
    intros R u U. unfold fixed_at. destruct (indexed_uses result u U) as [N|US]; [unfold seen; now rewrite N|].
    pose proof (tready_seen s st R u US) as H. destruct EN as [_ K]. destruct (seen s u) as [[|v [m|]| | | |]|]; auto. now apply (K u U).
  Qed.
  Lemma total_result s st : tready s st ->
    match value_in result (total_state params args reds ms st) with
    | Ok v => right_side result s = Ok (OVal v None, s)
    | Err e => right_side result s = Err e \/ exists o, right_side result s = Ok (o, s) /\ (o = OSent \/ exists i, o = OInst i) /\ Err e = @unsupported val
    end.
  Proof.
    intros R. set (c := total_state params args reds ms st). pose proof (total_ready st) as RC. fold c in RC.
    assert (A : agree c s result).
    { split; [eapply tready_same; eauto|]. intros u U. split; eapply tready_fixed; eauto. }
    pose proof (all_hold globals call outside OUT c s result A) as H. unfold holds in H. unfold Spec_AggRun.value_in.
    assert (RP : right_side result s = do p <- ev result s; Ok (object_of (fst p), snd p)).
    { apply right_plain.
      - intros x U. destruct EN as [E _]. destruct (E x U) as [(_ & _ & N1 & N2 & _)|[->|(j & ->)]]; [auto|split; dn|].
        split; apply agg_var_ne; cbn [map In]; tauto.
      - intros u U. pose proof (tready_seen s st R u U) as T0. destruct (seen s u) as [[]|]; auto. }
    rewrite RP. destruct (ev result c) as [[x t]|e]; cbn [both_give] in H.
    - destruct H as (-> & x' & -> & AL). cbn [bind fst snd]. destruct x, x'; cbn in AL; try contradiction; cbn [object_of].
      + right. exists OSent. auto.
      + now subst.
      + right. eexists. split; [reflexivity|]. split; [right; eauto|reflexivity].
    - rewrite H. left. reflexivity.
  Qed.

  (** *** the function *)
  Definition as_value (r : option rv) : res val := match r with Some (RVal v) => Ok v | _ => unsupported end.
  Lemma set_name x e o s : good s -> right_side e s = Ok (o, s) ->
    run_simple (Spec_Stmt.SAssign [AName x] e) s = Ok (put s (PN x) o, false).
  Proof. intros G H. exact (slot_assign globals call classes outside (AName x) (PN x) s e (Ok o) G eq_refl H). Qed.
  (** up to the statements after the result *)
  Lemma total_run_to rows sorting : length args = length params ->
    let r := run_function globals call classes outside (T "data_" :: params)
      (aggregate_program none_name n expected (body_stmts true reds (build ms)) (later_body true reds (build ms)) result sorting) rows args in
    let tail s o := Spec_FuncRun.run_body globals call classes outside (end_of sorting) (put s (PN (T "result_")) o) in
    match phase1 sem (build ms) expected rows init_state 0%N with
    | Err e => r = Err e
    | Ok st =>
        match value_in result (total_state params args reds ms st) with
        | Ok v => exists s, (forall x, ~ own x -> x <> T "row_" -> ~ In x params -> assoc (names s) x = None) /\ r = tail s (OVal v None)
        | Err e => r = Err e \/ exists s o, r = tail s o /\ (do x <- rv_of o; as_value (Some x)) = Err e
        end
    end.
  Proof.
    intros LE. cbv zeta.
    set (QQ := fun r => match phase1 sem (build ms) expected rows init_state 0%N with
      | Err e => r = Err e
      | Ok st =>
          match value_in result (total_state params args reds ms st) with
          | Ok v => exists s, (forall x, ~ own x -> x <> T "row_" -> ~ In x params -> assoc (names s) x = None) /\
              r = Spec_FuncRun.run_body globals call classes outside (end_of sorting) (put s (PN (T "result_")) (OVal v None))
          | Err e => r = Err e \/ exists s o, r = Spec_FuncRun.run_body globals call classes outside (end_of sorting) (put s (PN (T "result_")) o) /\
              (do x <- rv_of o; as_value (Some x)) = Err e
          end
      end).
    match goal with |- match _ with Ok _ => _ | Err e => ?r = _ end => change (QQ r) end. unfold run_function. rewrite LE, Nat.eqb_refl. set (s0 := bind_args params args (bind_new (mkState [] [] 0 []) (T "data_") (ORows rows))).
    assert (G0 : good (put empty (PN (T "data_")) (ORows rows))) by (apply good_put; [apply good_empty|discriminate]).
    assert (GS : good s0) by now apply bind_args_good.
    assert (BS : base s0).
    { intros x O R. apply bind_args_view; [exact G0|apply good_empty|]. rewrite bind_new_put; apply view_put_other; [apply good_empty|].
      intros X. apply PN_inj in X. subst. apply O. listed. }
    assert (DS : view s0 (PN (T "data_")) = Some (ORows rows)).
    { unfold s0. rewrite bind_args_out; [rewrite bind_new_put; apply view_put_same| |exact G0]. intros X. apply PO in X. apply X. listed. }
    assert (VS : forall j, view s0 (vpl j) = None).
    { intros j. unfold s0, vpl. rewrite bind_args_out; [|intros X; apply PO in X; apply X; right; eauto|exact G0].
      rewrite bind_new_put, view_put_other; [reflexivity|apply good_empty|apply vpl_ne; cbn [map In]; tauto]. }
    clearbody s0. unfold aggregate_program, start_of. cbn [app Spec_FuncRun.run_body].
    (* _none = ... *)
    assert (EV : ev (AName none_name) s0 = Ok (RSent, s0)).
    { cbn [Spec_FuncRun.ev]. pose proof (t_free s0 BS none_name (or_introl eq_refl)) as V. unfold view in V. cbn [loc_of] in V.
      destruct (assoc (names s0) none_name); [discriminate V|]. now rewrite GN. }
    unfold name at 1. rewrite (set_name (T "_none") (AName none_name) OSent s0 GS) by (cbn [Spec_FuncRun.right_side]; rewrite EV; reflexivity). cbn [bind fst snd].
    set (s1 := put s0 (PN (T "_none")) OSent).
    assert (G1 : good s1) by (apply good_put; [exact GS|discriminate]).
    assert (B1 : base s1) by (apply t_base_put; [exact GS|left; listed|exact BS]).
    assert (N1 : view s1 (PN (T "_none")) = Some OSent) by apply view_put_same.
    assert (D1 : view s1 (PN (T "data_")) = Some (ORows rows)) by (unfold s1; rewrite view_put_other; [exact DS|exact GS|dn]).
    assert (V1 : forall j, view s1 (vpl j) = None) by (intros j; unfold s1; rewrite view_put_other; [apply VS|exact GS|apply vpl_ne; cbn [map In]; tauto]).
    clearbody s1. clear s0 G0 GS BS DS VS EV.
    (* v0 = v1 = ... = _none *)
    rewrite run_assign by (destruct n as [|[|]]; intros a i; discriminate).
    change (right_side (name "_none") s1) with (do p <- ev (AName (T "_none")) s1; Ok (object_of (fst p), snd p)).
    rewrite (slot_ev globals call outside (AName (T "_none")) (PN (T "_none")) s1 OSent eq_refl N1). cbn [bind fst snd rv_of object_of].
    change (new s1 OSent) with (length (objects s1), snd (new s1 OSent)). cbv iota beta.
    replace (map (slot true) (seq 0 n)) with (map AName (map (agg_var true) (seq 0 n))) by (rewrite map_map; reflexivity).
    rewrite assign_names. cbn [on bind fst snd].
    assert (GN1 : good (snd (new s1 OSent))).
    { constructor.
      - intros p l H. assert (W : l < length (objects s1)) by (apply (g_wf _ G1 p); destruct p; exact H). cbn. rewrite app_length. cbn. lia.
      - intros p q l N P Q H1 H2. pose proof (g_wf _ G1 p l ltac:(destruct p; exact H1)) as W. rewrite obj_old by exact W.
        apply (g_sep _ G1 p q l N P Q); [destruct p; exact H1|destruct q; exact H2].
      - intros i x H. now apply (g_inst _ G1) in H. }
    assert (VN1 : forall q, view (snd (new s1 OSent)) q = view s1 q).
    { intros q. unfold view. change (loc_of (snd (new s1 OSent)) q) with (match q with PN m => assoc (names s1) m | PA i x => attr_at (attrs s1) i x end).
      change (loc_of s1 q) with (match q with PN m => assoc (names s1) m | PA i x => attr_at (attrs s1) i x end).
      destruct (match q with PN m => assoc (names s1) m | PA i x => attr_at (attrs s1) i x end) as [l|] eqn:E; [|reflexivity].
      cbn [option_map]. f_equal. apply obj_old. apply (g_wf _ G1 q). destruct q; exact E. }
    destruct (name_all_facts (map (agg_var true) (seq 0 n)) (length (objects s1)) (snd (new s1 OSent)) GN1) as (G2 & _ & S2 & O2).
    { cbn. rewrite app_length. cbn. lia. }
    { apply obj_new. }
    set (s2 := name_all (map (agg_var true) (seq 0 n)) (length (objects s1)) (snd (new s1 OSent))) in *.
    assert (V2 : forall q, (forall j, q <> vpl j) -> view s2 q = view s1 q).
    { intros q N. destruct (O2 q) as [_ ->]; [|apply VN1]. intros x X. apply in_map_iff in X as (j & <- & _). apply N. }
    assert (B2 : base s2).
    { intros x O R. rewrite V2; [now apply B1|]. intros j X. apply PN_inj in X. apply O. right. eauto. }
    assert (N2 : view s2 (PN (T "_none")) = Some OSent).
    { rewrite V2; [exact N1|]. intros j X. symmetry in X. revert X. apply vpl_ne. cbn [map In]. tauto. }
    assert (D2 : view s2 (PN (T "data_")) = Some (ORows rows)).
    { rewrite V2; [exact D1|]. intros j X. symmetry in X. revert X. apply vpl_ne. cbn [map In]. tauto. }
    assert (A2 : forall j, j < n -> view s2 (vpl j) = Some OSent).
    { intros j J. apply S2. apply in_map, in_seq. lia. }
    assert (M2 : forall j, ~ j < n -> view s2 (vpl j) = None).
    { intros j J. destruct (O2 (vpl j)) as [_ ->]; [|rewrite VN1; apply V1]. intros x X E. apply in_map_iff in X as (i & <- & I). apply in_seq in I.
      apply PN_inj in E. apply agg_var_inj in E. lia. }
    clearbody s2. clear s1 G1 B1 N1 D1 V1 GN1 VN1 S2 O2 V2.
    (* expected_checksum_, checksum_, it_ *)
    unfold name at 1. rewrite (set_name EC (ANum expected) (OVal (VInt (Z.of_N expected)) None) s2 G2) by reflexivity. cbn [bind fst snd].
    set (s3 := put s2 (PN EC) (OVal (VInt (Z.of_N expected)) None)).
    assert (G3 : good s3) by (apply good_put; [exact G2|discriminate]).
    unfold name at 1. rewrite (set_name (T "checksum_") (ANum 0) (OVal (VInt 0) None) s3 G3) by reflexivity. cbn [bind fst snd].
    set (s4 := put s3 (PN (T "checksum_")) (OVal (VInt 0) None)).
    assert (G4 : good s4) by (apply good_put; [exact G3|discriminate]).
    assert (B4 : base s4) by (apply t_base_put; [exact G3|left; listed|apply t_base_put; [exact G2|left; listed|exact B2]]).
    assert (D4 : view s4 (PN (T "data_")) = Some (ORows rows)).
    { unfold s4, s3. rewrite 2 view_put_other; [exact D2|exact G2|dn|exact G3|dn]. }
    assert (RI : right_side (ACall (name "iter") [name "data_"] []) s4 = Ok (OIter rows, s4)).
    { unfold name. cbn [Spec_FuncRun.right_side]. change (same_text (T "iter") (T "defaultdict")) with false. cbn [andb].
      rewrite (is_global_view (T "iter") s4) by (apply (t_free s4 B4); right; unfold python_names; cbn [map In]; tauto).
      rewrite same_text_refl. cbn [andb variable]. destruct (view_in _ _ _ D4) as (ld & -> & ->). reflexivity. }
    unfold name at 1. rewrite (set_name IT _ _ s4 G4 RI). cbn [bind fst snd].
    set (s5 := put s4 (PN IT) (OIter rows)).
    assert (G5 : good s5) by (apply good_put; [exact G4|discriminate]).
    assert (L5 : loc_of s5 (PN IT) = Some (length (objects s4))) by apply loc_set_same.
    assert (O5 : obj_at s5 (length (objects s4)) = OIter rows).
    { unfold s5, put. rewrite obj_set_place. apply obj_new. }
    assert (I5 : inT (length (objects s4)) (counted 0) s5 init_state).
    { assert (V5 : forall q, q <> PN IT -> q <> PN (T "checksum_") -> q <> PN EC -> view s5 q = view s2 q).
      { intros q Q1 Q2 Q3. unfold s5, s4, s3. rewrite !view_put_other; auto. }
      constructor.
      - exact G5.
      - apply t_base_put; [exact G4|left; listed|exact B4].
      - rewrite V5; [exact N2|dn|dn|dn].
      - unfold s5, s4. rewrite 2 view_put_other; [apply view_put_same|exact G3|dn|exact G4|dn].
      - exact L5.
      - eauto.
      - unfold s5. rewrite view_put_other; [apply view_put_same|exact G4|dn].
      - split; intros j J; rewrite V5 by (apply vpl_ne; cbn [map In]; tauto).
        + rewrite A2 by exact J. split; [reflexivity|]. unfold ok. destruct (p_op (red_at j)); [|exact I]. split; [exact I|reflexivity].
        + now apply M2. }
    set (l := length (objects s4)) in *. clearbody s5 l. clear s4 G4 B4 D4 RI s3 G3 D2 A2 M2 N2 B2 G2 s2.
    (* the loops *)
    pose proof (rows_run rows l s5 init_state 0%N I5) as H. cbv zeta in H. unfold name at 1.
    change (assoc (names s5) IT) with (loc_of s5 (PN IT)). rewrite L5, O5.
    assert (NEXT : forall s6 rest k st6, inT l k s6 st6 ->
      loc_of (store s6 l (OIter rest)) (PN IT) = Some l /\ obj_at (store s6 l (OIter rest)) l = OIter rest).
    { intros s6 rest k st6 I6. destruct (stored l k s6 st6 rest I6) as [I7 O7]. split; [apply (it_loc _ _ _ _ I7)|exact O7]. }
    destruct (phase1 sem (build ms) expected rows init_state 0%N) as [st|e]; cbn [bind].
    2:{ destruct H as [->|(s6 & rest & k & st6 & -> & I6 & H)]; cbn [bind fst snd]; [reflexivity|].
        destruct (NEXT s6 rest k st6 I6) as [L6 O6]. unfold name at 1.
        change (assoc (names (store s6 l (OIter rest))) IT) with (loc_of (store s6 l (OIter rest)) (PN IT)). rewrite L6, O6, H. reflexivity. }
    destruct H as (s6 & rest & k & st6 & s7 & k' & -> & I6 & H & I7). cbn [bind fst snd].
    destruct (NEXT s6 rest k st6 I6) as [L6 O6]. unfold name at 1.
    change (assoc (names (store s6 l (OIter rest))) IT) with (loc_of (store s6 l (OIter rest)) (PN IT)). rewrite L6, O6, H. cbn [bind fst snd].
    destruct (stored l k' s7 st [] I7) as [I8 _]. set (s8 := store s7 l (OIter [])) in *. clearbody s8.
    (* the result *)
    assert (R8 : tready s8 st).
    { destruct I8 as [G8 B8 N8 _ _ _ _ [S8 M8]]. constructor; [exact B8|exact N8|intros j J; now apply S8|exact M8]. }
    pose proof (total_result s8 st R8) as T8. unfold name at 1. rewrite run_assign by discriminate.
    assert (G8 : good s8) by apply I8.
    assert (F8 : forall x, ~ own x -> x <> T "row_" -> ~ In x params -> assoc (names s8) x = None).
    { intros x O R P. pose proof (tr_base _ _ R8 x O R) as V. rewrite given_out in V by exact P.
      unfold view in V. cbn [loc_of] in V. destruct (assoc (names s8) x); [discriminate V|reflexivity]. }
    assert (RET : forall o, (do p <- on (do p <- @Ok (object * state) (o, s8); let '(l0, s) := new (snd p) (fst p) in
        Spec_FuncRun.assign globals call outside [AName (T "result_")] l0 s); Ok p) = Ok (put s8 (PN (T "result_")) o, false)).
    { intros o. cbn [bind fst snd on]. change (new s8 o) with (length (objects s8), snd (new s8 o)). cbv iota beta.
      rewrite (slot_assign1 globals call outside (AName (T "result_")) (PN (T "result_")) s8 o [] G8 eq_refl). reflexivity. }
    assert (RET' : forall (B : Type) o (k : state * bool -> res B), (do p <- on (do p <- @Ok (object * state) (o, s8); let '(l0, s) := new (snd p) (fst p) in
        Spec_FuncRun.assign globals call outside [AName (T "result_")] l0 s); k p) = k (put s8 (PN (T "result_")) o, false)).
    { intros B o kk. specialize (RET o). destruct (on _) as [p|e] in *; cbn [bind] in *; [injection RET as ->; reflexivity|discriminate RET]. }
    unfold QQ. clear QQ. destruct (value_in result (total_state params args reds ms st)) as [v|e].
    - exists s8. split; [exact F8|]. rewrite T8. rewrite RET'. reflexivity.
    - destruct T8 as [-> |(o & -> & [->|(i & ->)] & E)]; [left; reflexivity| |]; right; eexists s8, _; (split; [rewrite RET'; reflexivity|]); now rewrite E.
  Qed.
  Theorem total_run rows : length args = length params ->
    (do r <- run_function globals call classes outside (T "data_" :: params)
      (aggregate_program none_name n expected (body_stmts true reds (build ms)) (later_body true reds (build ms)) result None) rows args;
     as_value r) =
    do st <- phase1 sem (build ms) expected rows init_state 0%N;
    value_in result (total_state params args reds ms st).
  Proof.
    intros LE. pose proof (total_run_to rows None LE) as H. cbv zeta in H.
    assert (RET : forall s o, Spec_FuncRun.run_body globals call classes outside (end_of None) (put s (PN (T "result_")) o) = do x <- rv_of o; Ok (Some x)).
    { intros s o. unfold end_of. cbn [app Spec_FuncRun.run_body]. unfold name.
      rewrite (slot_ev globals call outside (AName (T "result_")) (PN (T "result_")) _ o eq_refl (view_put_same _ _ _)).
      destruct (rv_of o); reflexivity. }
    destruct (phase1 sem (build ms) expected rows init_state 0%N) as [st|e]; cbn [bind] in *; [|now rewrite H].
    destruct (value_in result (total_state params args reds ms st)) as [v|e].
    - destruct H as (s & _ & ->). rewrite RET. reflexivity.
    - destruct H as [-> |(s & o & -> & E)]; [reflexivity|]. rewrite RET. destruct (rv_of o); exact E.
  Qed.
End Total.
