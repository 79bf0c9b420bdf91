(** Loop bodies with any number of reducers change nothing that was there before.
    Used by Props_OwnMany.v (C53). *)
From Coq Require Import String Ascii List NArith ZArith Bool Arith Lia Permutation.
From Verif Require Import Model_PyVal Model_Reducers Model_Aggregate Model_Code Model_AggText
  Spec_Syntax Spec_Stmt Spec_AggProgram Spec_PyHeap Spec_Own Spec_OwnMany Proofs_Aggregate Proofs_Own Proofs_AggRunFn.
From Verif Require Props_Own.
Import ListNotations.
Notation held := Props_Own.held.

Section Many.
  Variable ops : pyops.
  Hypothesis add_imm : adds_scalars ops.
  Variable before : heap.
  Variable cty : text -> option sty.
  Variable vars : list (text * sty).
  Hypothesis cd : cty (T "_d") = None.
  Hypothesis vd : assoc vars (T "_d") = None.
  Variable r : row.
  Hypothesis R : row_ok cty r.

  (** *** statements that keep the types *)
  Definition keeps (l : list stmt) : Prop := forall S e h, hok before S h -> eok cty vars S e ->
    good before S (fun S p => eok cty vars S (fst p)) (exec_all ops r l e h).

  Lemma checked_keeps l : forallb (ok_stmt cty vars) l = true -> keeps l.
  Proof. intros O S e h H E. apply (all_ok ops cty vars before add_imm r R l); auto. Qed.
  Lemma exec_all_app l l' : forall e h, exec_all ops r (l ++ l') e h =
    andthen (exec_all ops r l e h) (fun p h => if (snd p : bool) then done p h else exec_all ops r l' (fst p) h).
  Proof.
    induction l as [|s l IH]; intros e h; cbn [app exec_all]; [reflexivity|].
    destruct (exec ops r s e h) as [[[e1 []]|] h1]; cbn; auto.
  Qed.
  Lemma keeps_app l l' : keeps l -> keeps l' -> keeps (l ++ l').
  Proof.
    intros K K' S e h H E. rewrite exec_all_app. eapply good_then; [apply K; auto|].
    intros S1 [e1 []] h1 X1 H1 E1; cbn [fst snd] in *; [apply good_done; auto|]. apply K'; auto.
  Qed.
  Lemma keeps_nil : keeps [].
  Proof. intros S e h H E. apply good_done; auto. Qed.
  Lemma keeps_flat {A} (f : A -> list stmt) l : (forall x, In x l -> keeps (f x)) -> keeps (flat_map f l).
  Proof.
    induction l as [|x l IH]; intros K; cbn [flat_map]; [apply keeps_nil|]. apply keeps_app; [apply K; now left|].
    apply IH. intros y Hy. apply K. now right.
  Qed.
  Lemma keeps_if c b other : safe cty vars c = true -> keeps b -> keeps other -> keeps [if_ c b other].
  Proof.
    intros C K K' S e h H E. cbn [exec_all].
    assert (G : good before S (fun S p => eok cty vars S (fst p)) (exec ops r (if_ c b other) e h)).
    { change (exec ops r (if_ c b other) e h) with (branches ops r other e [(c, b)] h). cbn [branches].
      eapply good_then; [apply (fine_all ops cty vars before r R e c); auto|]. intros S1 v h1 X1 H1 _.
      destruct (op_true ops h1 v) as [[]|]; [| |now apply good_raise].
      - rewrite execs_eq. apply K; auto. eapply eok_ext; eauto.
      - rewrite execs_eq. apply K'; auto. eapply eok_ext; eauto. }
    eapply good_then; [exact G|]. intros S1 [e1 []] h1 X1 H1 E1; cbn [fst snd] in *; apply good_done; auto.
  Qed.

  (** V = _d = defaultdict(f), then statements that use _d *)
  Lemma keeps_fresh V f t l :
    place cty vars V = Some t -> check cty vars t (ACall (name "defaultdict") [name f] []) = true ->
    forallb (ok_stmt cty ((T "_d", t) :: vars)) l = true -> keeps (fresh V f :: l).
  Proof.
    intros P C O S e h H E.
    change (exec_all ops r (fresh V f :: l) e h) with
      (andthen (on (andthen (eval ops r e (ACall (name "defaultdict") [name f] []) h) (fun v h =>
         andthen (assign_to ops r V v e h) (fun e h => done ((T "_d", v) :: e) h))))
       (fun p h => if (snd p : bool) then done p h else exec_all ops r l (fst p) h)).
    apply good_then with (P := fun S (p : env * bool) => eok cty ((T "_d", t) :: vars) S (fst p)).
    - eapply good_then with (P := fun S e => eok cty ((T "_d", t) :: vars) S e).
      + eapply good_then; [apply (check_ok ops cty vars before r R e t); auto|].
        intros S1 v h1 X1 H1 V1. unfold fits in V1.
        eapply good_then; [eapply (assign_to_ok ops cty vars before r R); eauto using eok_ext|].
        intros S2 e2 h2 X2 H2 E2. apply good_done; auto.
        intros n u w Hn Hc Ha. cbn [assoc] in Hn, Ha. destruct (same_text n (T "_d")).
        * injection Hn as <-. injection Ha as <-. eapply vok_ext; eauto.
        * eapply E2; eauto.
      + intros S1 e1 h1 X1 H1 E1. apply good_done; auto.
    - intros S1 [e1 []] h1 X1 H1 E1; cbn [fst snd] in *.
      + apply good_done; auto. intros n u w Hn. apply E1. cbn [assoc]. destruct (same_text n (T "_d")) eqn:N; [|exact Hn].
        apply same_text_eq in N as ->. congruence.
      + eapply good_impl; [apply (all_ok ops cty ((T "_d", t) :: vars) before add_imm r R l); auto|].
        intros S2 [e2 b2] X2 E2 n u w Hn. apply E2. cbn [assoc]. destruct (same_text n (T "_d")) eqn:N; [|exact Hn].
        apply same_text_eq in N as ->. congruence.
  Qed.

  (** *** the reducers *)
  Section Reducer.
    Variable V : ast.
    Variable b : builtin.
    Variables e x : text.
    Hypothesis VP : place cty vars V = Some (held b).
    Hypothesis VI : infer cty vars V = Some (held b).
    Hypothesis VS : safe cty vars V = true.
    Variables te tx : sty.
    Hypothesis CE : cty e = Some te.
    Hypothesis CX : cty x = Some tx.
    Hypothesis TE : b = Sum -> te = TImm.
    Hypothesis TX : b = DictSumOrNone -> tx = TImm.
    Lemma VP' : place cty ((T "_d", held b) :: vars) (name "_d") = Some (held b).
    Proof. cbn [place name]. rewrite cd. reflexivity. Qed.
    Lemma nty n t vs : cty n = Some t -> name_ty cty vs n = Some t.
    Proof. unfold name_ty. now intros ->. Qed.
    Lemma dty t : name_ty cty ((T "_d", t) :: vars) (T "_d") = Some t.
    Proof. unfold name_ty. rewrite cd. reflexivity. Qed.
    Local Ltac go :=
      repeat first
        [ progress cbn [forallb ok_stmt ok_simple check safe infer place method set_to if_ cmp both either fst snd
                        held Props_Own.held name boxed insted sty_eqb andb orb none]
        | rewrite VP | rewrite VI | rewrite VS | rewrite dty | rewrite cd
        | rewrite (nty e te) by exact CE | rewrite (nty x tx) by exact CX | rewrite !andb_true_r | rewrite !orb_true_r
        | rewrite TE by reflexivity | rewrite TX by reflexivity ].
    Lemma next_keeps : keeps (next_stmts V b V (AName e) (AName x)).
    Proof. apply checked_keeps. destruct b; cbn [held Props_Own.held next_stmts] in *; go; try reflexivity. Qed.
    Lemma first_keeps : keeps (first_stmts V b (AName e) (AName x)).
    Proof.
      destruct b; cbn [held Props_Own.held first_stmts] in *;
        first [ apply checked_keeps; go; reflexivity
              | eapply keeps_fresh; [exact VP|reflexivity|go; reflexivity] ].
    Qed.
    (** with initial=: the statements of the reducer, reading the initial value *)
    Variables (i : text) (ti : sty).
    Hypothesis CI : cty i = Some ti.
    Hypothesis NP : needs_primary b = false.
    Lemma initial_keeps : keeps (next_stmts V b (AName i) (AName e) (AName x)).
    Proof.
      apply checked_keeps. destruct b; try discriminate NP; cbn [held Props_Own.held next_stmts] in *; go;
        rewrite ?(nty i ti) by exact CI; go; try reflexivity.
    Qed.
  End Reducer.
End Many.

Lemma first_no_extra V b E X X' : needs_extra b = false -> first_stmts V b E X = first_stmts V b E X'.
Proof. destruct b; try discriminate; reflexivity. Qed.
Lemma next_no_extra V b Z E X X' : needs_extra b = false -> next_stmts V b Z E X = next_stmts V b Z E X'.
Proof. destruct b; try discriminate; reflexivity. Qed.

(** *** loops *)
Section Loops.
  Variable ops : pyops.
  Hypothesis add_imm : adds_scalars ops.
  Variable before : heap.
  Variable cty : text -> option sty.
  Variable vars : list (text * sty).
  Definition always (l : list stmt) : Prop := forall r, row_ok cty r -> keeps ops before cty vars r l.
  Lemma rows_keep body : always body -> forall rows S e h, Forall (row_ok cty) rows ->
    hok before S h -> eok cty vars S e -> good before S (rest_ok cty vars) (exec_rows ops body rows e h).
  Proof.
    intros K rows. induction rows as [|r rows IH]; intros S e h R H E; cbn [exec_rows]; [apply good_done; auto; split; auto|].
    inversion R as [|? ? Rr Rs]; subst. eapply good_then; [apply (K r Rr); auto|].
    intros S1 [e1 []] h1 X1 H1 E1; cbn [fst snd] in *; [apply good_done; auto; split; auto|]. apply IH; auto.
  Qed.
  Lemma two_loops_keep body body2 rows S e h : always body -> always body2 -> Forall (row_ok cty) rows ->
    hok before S h -> eok cty vars S e -> good before S (eok cty vars) (exec_two_loops ops body body2 rows e h).
  Proof.
    intros O O2 R H E. eapply good_then; [apply (rows_keep body); auto|]. intros S1 [e1 r1] h1 X1 H1 [E1 R1]. cbn [fst snd] in *.
    eapply good_then; [apply (rows_keep body2); auto|]. intros S2 [e2 r2] h2 X2 H2 [E2 R2]. apply good_done; auto.
  Qed.

  (** *** the blocks *)
  Hypothesis cd : cty (T "_d") = None.
  Hypothesis vd : assoc vars (T "_d") = None.
  Hypothesis none_ty : name_ty cty vars (T "_none") = Some TAny.
  Variable mode : bool.
  Hypothesis checksum_ty : mode = true ->
    cty (T "checksum_") = None /\ assoc vars (T "checksum_") = Some TImm /\
    name_ty cty vars (T "expected_checksum_") = Some TImm.
  Variable reds : list named.
  Context {Row : Type}.
  Record fits_red (m : @Model_Aggregate.member Row) (q : named) : Prop := {
    f_red : nth_error reds (m_bit m) = Some q;
    f_place : place cty vars (slot mode (m_var m)) = Some (held (n_op q));
    f_infer : infer cty vars (slot mode (m_var m)) = Some (held (n_op q));
    f_safe : safe cty vars (slot mode (m_var m)) = true;
    f_expr : exists t, cty (n_expr q) = Some t /\ (n_op q = Sum -> t = TImm);
    f_extra : match n_extra q with
              | Some x => exists t, cty x = Some t /\ (n_op q = DictSumOrNone -> t = TImm)
              | None => needs_extra (n_op q) = false end;
    f_filter : forall c, n_filter q = Some c -> exists t, cty c = Some t;
    f_initial : forall i, n_initial q = Some i -> needs_primary (n_op q) = false /\ exists t, cty i = Some t }.

  Lemma member_first m q : fits_red m q -> always (first_of (slot mode (m_var m)) (named_trees reds (m_bit m))).
  Proof.
    intros F r R. unfold named_trees. rewrite (f_red _ _ F). unfold first_of, named_tree, extra_of.
    cbn [p_op p_initial p_expr p_extras]. destruct (f_expr _ _ F) as (te & E1 & E2). pose proof (f_extra _ _ F) as X.
    pose proof (f_initial _ _ F) as I. destruct (n_initial q) as [i|]; cbn [option_map].
    { destruct (I i eq_refl) as (NP & ti & I1).
      destruct (n_extra q) as [x|]; cbn [nth]; [destruct X as (tx & X1 & X2); eapply initial_keeps; eauto; apply F|].
      rewrite (next_no_extra _ _ _ _ _ (AName (n_expr q)) X). eapply initial_keeps; eauto; try apply F.
      intros O. rewrite O in X. discriminate X. }
    destruct (n_extra q) as [x|]; cbn [nth]; [destruct X as (tx & X1 & X2); eapply first_keeps; eauto; apply F|].
    rewrite (first_no_extra _ _ _ _ (AName (n_expr q)) X). eapply first_keeps; eauto; try apply F.
    intros O. rewrite O in X. discriminate X.
  Qed.
  Lemma member_next m q : fits_red m q -> always (next_of (slot mode (m_var m)) (named_trees reds (m_bit m))).
  Proof.
    intros F r R. unfold named_trees. rewrite (f_red _ _ F). unfold next_of, named_tree, extra_of.
    cbn [p_op p_initial p_expr p_extras]. destruct (f_expr _ _ F) as (te & E1 & E2). pose proof (f_extra _ _ F) as X.
    destruct (n_extra q) as [x|]; cbn [nth]; [destruct X as (tx & X1 & X2); eapply next_keeps; eauto; apply F|].
    rewrite (next_no_extra _ _ _ _ _ (AName (n_expr q)) X). eapply next_keeps; eauto; try apply F.
    intros O. rewrite O in X. discriminate X.
  Qed.
  Lemma guarded_always b body : (exists q, fits_red (bhead b) q) -> always body -> always (guarded (named_trees reds) b body).
  Proof.
    intros [q F] K r R. unfold guarded, named_trees. rewrite (f_red _ _ F). cbn [named_tree p_cond].
    destruct (n_filter q) as [c|] eqn:C; cbn [option_map]; [|now apply K].
    destruct (f_filter _ _ F c C) as [t Ht]. apply keeps_if; [exact R| | |].
    - cbn [safe]. unfold name_ty. now rewrite Ht.
    - now apply K.
    - apply keeps_nil.
  Qed.
  Lemma block_always b : (forall m, In m (members b) -> exists q, fits_red m q) -> always (block_stmts mode (named_trees reds) b).
  Proof.
    intros F. assert (Fh : exists q, fits_red (bhead b) q) by (apply F; now left).
    unfold block_stmts. apply guarded_always; [exact Fh|]. intros r R. destruct Fh as [q Fq].
    assert (SH : safe cty vars (slot mode (m_var (bhead b))) = true) by apply Fq.
    apply keeps_if; [exact R| | |].
    - cbn [cmp safe name]. unfold slot_of. now rewrite SH, none_ty.
    - apply keeps_app.
      + apply keeps_flat. intros m Hm. destruct (F m Hm) as [q' Fm]. now apply (member_first m q').
      + unfold checksum_stmts. destruct mode eqn:M; [|apply keeps_nil]. destruct (checksum_ty eq_refl) as (C1 & C2 & C3).
        apply checked_keeps; auto. cbn [forallb ok_stmt if_ cmp safe name ok_simple place]. unfold slot_of.
        rewrite SH, none_ty, C1, C2, C3. unfold name_ty. now rewrite C1, C2.
    - apply keeps_flat. intros m Hm. destruct (F m Hm) as [q' Fm]. now apply (member_next m q').
  Qed.
  Lemma later_always b : (forall m, In m (members b) -> exists q, fits_red m q) -> always (later_stmts mode (named_trees reds) b).
  Proof.
    intros F. unfold later_stmts. apply guarded_always; [apply F; now left|]. intros r R.
    apply keeps_flat. intros m Hm. destruct (F m Hm) as [q' Fm]. now apply (member_next m q').
  Qed.
  Lemma body_always ms : (forall m, In m ms -> exists q, fits_red m q) ->
    always (body_stmts mode (named_trees reds) (build ms)) /\ always (later_body mode (named_trees reds) (build ms)).
  Proof.
    intros F. assert (K : forall b, In b (build ms) -> forall m, In m (members b) -> exists q, fits_red m q).
    { intros b Hb m Hm. apply F. apply (Permutation_in _ (build_perm ms)). apply in_flat_map. eauto. }
    split; intros r R; apply keeps_flat; intros b Hb; [apply block_always|apply later_always]; auto; now apply K.
  Qed.
End Loops.

(** *** the types of an aggregation *)
Section Types.
  Variable names : text -> bool.
  Variable reds : list named.
  Definition imm_name (n : text) : bool :=
    existsb (fun r => match n_op r with
                      | Sum => same_text n (n_expr r)
                      | DictSumOrNone => match n_extra r with Some x => same_text n x | None => false end
                      | _ => false end) reds.
  Definition code_ty (n : text) : option sty :=
    if names n then Some (if imm_name n then TImm else TAny) else None.
  Lemma rows_typed rows : names_ok names reds rows -> sums_scalars reds rows -> Forall (row_ok code_ty) rows.
  Proof.
    intros N S. apply Forall_forall. intros r Hr n. unfold code_ty. pose proof (names_rows _ _ _ N r Hr n) as Hn.
    destruct (r n) as [c|] eqn:E.
    - destruct (names n); [|destruct Hn as [Hn _]; discriminate Hn; eauto].
      destruct (imm_name n) eqn:I; [|now left]. right. split; [reflexivity|]. unfold imm_name in I.
      apply existsb_exists in I as (q & Hq & I). destruct (S q r c Hq Hr) as [S1 S2].
      destruct (n_op q); try discriminate I.
      + apply same_text_eq in I; subst n. apply S1; auto.
      + destruct (n_extra q) as [x|]; [|discriminate I]. apply same_text_eq in I; subst n. eapply S2; eauto.
    - destruct (names n); [|exact I]. destruct Hn as [_ Hn]. destruct (Hn eq_refl) as [c Hc]. discriminate Hc.
  Qed.
  Lemma names_free v : names v = false -> code_ty v = None.
  Proof. unfold code_ty. now intros ->. Qed.
  Lemma imm_sum q : In q reds -> n_op q = Sum -> imm_name (n_expr q) = true.
  Proof. intros I E. apply existsb_exists. exists q. split; [auto|]. rewrite E. apply same_text_refl. Qed.
  Lemma imm_dict q x : In q reds -> n_op q = DictSumOrNone -> n_extra q = Some x -> imm_name x = true.
  Proof. intros I E X. apply existsb_exists. exists q. split; [auto|]. rewrite E, X. apply same_text_refl. Qed.

  Context {Row : Type}.
  Variable ms : list (@Model_Aggregate.member Row).
  Hypothesis NB : numbered reds ms.
  Definition type_at (m : @Model_Aggregate.member Row) : sty :=
    match nth_error reds (m_bit m) with Some q => held (n_op q) | None => TAny end.
  Lemma assoc_types (f : nat -> text) (rest : list (text * sty)) m : (forall i j, f i = f j -> i = j) -> In m ms ->
    assoc (map (fun m => (f (m_var m), type_at m)) ms ++ rest) (f (m_var m)) = Some (type_at m).
  Proof.
    intros INJ. destruct NB as [N _]. assert (ND : NoDup (map m_var ms)) by (rewrite N; apply seq_NoDup). clear N NB.
    induction ms as [|x l IH]; intros I; [destruct I|]. cbn [map] in ND. inversion ND as [|? ? Nx ND']; subst. cbn [map app assoc].
    destruct (same_text (f (m_var m)) (f (m_var x))) eqn:E.
    - apply same_text_eq, INJ in E. destruct I as [<-|I]; [reflexivity|]. exfalso. apply Nx. rewrite <- E. now apply in_map.
    - destruct I as [<-|I]; [rewrite same_text_refl in E; discriminate|]. auto.
  Qed.
  Lemma assoc_skip (f : nat -> text) (rest : list (text * sty)) (n : text) : (forall i, same_text n (f i) = false) ->
    assoc (map (fun m => (f (m_var m), type_at m)) ms ++ rest) n = assoc rest n.
  Proof. intros H. clear NB. induction ms as [|x l IH]; cbn [map app assoc]; [reflexivity|]. now rewrite H. Qed.

  Definition aggregate_tys : list (text * sty) :=
    map (fun m => (agg_var true (m_var m), type_at m)) ms ++
    [(T "_none", TAny); (T "checksum_", TImm); (T "expected_checksum_", TImm)].
  Definition fields : list (text * sty) := map (fun m => (attr (m_var m), type_at m)) ms.
  Definition group_tys : list (text * sty) :=
    [(T "signature_to_agg_data_", TBox (TInst fields)); (T "agg_data_", TInst fields); (T "_none", TAny)].

  Lemma member_codes rows m : names_ok names reds rows -> In m ms -> exists q, nth_error reds (m_bit m) = Some q /\ type_at m = held (n_op q) /\
    (exists t, code_ty (n_expr q) = Some t /\ (n_op q = Sum -> t = TImm)) /\
    match n_extra q with
    | Some x => exists t, code_ty x = Some t /\ (n_op q = DictSumOrNone -> t = TImm)
    | None => needs_extra (n_op q) = false end /\
    (forall c, n_filter q = Some c -> exists t, code_ty c = Some t) /\
    (forall i, n_initial q = Some i -> needs_primary (n_op q) = false /\ exists t, code_ty i = Some t).
  Proof.
    intros N I. destruct NB as [_ B]. specialize (B m I). unfold type_at. destruct (nth_error reds (m_bit m)) as [q|] eqn:E;
      [|apply nth_error_None in E; lia].
    assert (Hq : In q reds) by (eapply nth_error_In; eauto). destruct (names_reds _ _ _ N q Hq) as (N1 & N2 & N3 & NI & N4).
    exists q. split; [reflexivity|]. split; [reflexivity|]. unfold code_ty. rewrite N1. split; [|split; [|split]].
    - eexists. split; [reflexivity|]. intros O. now rewrite imm_sum.
    - destruct (n_extra q) as [x|] eqn:X.
      + rewrite (N2 x eq_refl). eexists. split; [reflexivity|]. intros O. now rewrite (imm_dict q x).
      + destruct (needs_extra (n_op q)); [|reflexivity]. exfalso. now apply N4.
    - intros c Hc. rewrite (N3 c Hc). eauto.
    - intros i Hi. rewrite (NI i Hi). split; [|eauto]. apply (names_initial _ _ _ N q Hq). now rewrite Hi.
  Qed.
  Lemma fits_aggregate rows m : names_ok names reds rows -> In m ms -> exists q, fits_red code_ty aggregate_tys true reds m q.
  Proof.
    intros N I. destruct (member_codes rows m N I) as (q & Q & TY & C1 & C2 & C3 & C4). exists q.
    assert (A : assoc aggregate_tys (agg_var true (m_var m)) = Some (held (n_op q))).
    { rewrite <- TY. apply assoc_types; [exact agg_var_inj|exact I]. }
    assert (Z : code_ty (agg_var true (m_var m)) = None) by (apply names_free; exact (names_slots _ _ _ N _)).
    split; auto; cbn [slot place infer safe]; unfold name_ty; now rewrite Z, A.
  Qed.
  Lemma attr_inj i j : attr i = attr j -> i = j.
  Proof. unfold attr. intros H. apply app_inv_head in H. apply ndec_inj in H. now apply Nat2N.inj. Qed.
  Lemma fits_group rows m : names_ok names reds rows -> In m ms -> exists q, fits_red code_ty group_tys false reds m q.
  Proof.
    intros N I. destruct (member_codes rows m N I) as (q & Q & TY & C1 & C2 & C3 & C4). exists q.
    assert (A : assoc fields (attr (m_var m)) = Some (held (n_op q))).
    { rewrite <- TY. unfold fields. rewrite <- (app_nil_r (map _ ms)). apply assoc_types; [exact attr_inj|exact I]. }
    assert (Z : code_ty (T "agg_data_") = None) by (apply names_free; apply (names_vars _ _ _ N); cbn; tauto).
    assert (G : assoc group_tys (T "agg_data_") = Some (TInst fields)) by reflexivity.
    split; auto; unfold slot, name; cbn [place infer safe]; unfold name_ty; rewrite ?Z, ?G; try exact A; reflexivity.
  Qed.
End Types.
