(** C55: running the generated functions of group_by and aggregate is the loops of
    Model_Aggregate.v, and gives the rows of the model. *)
From Coq Require Import String Ascii List NArith ZArith Bool Arith Lia Permutation.
From Verif Require Import Model_PyVal Model_Reducers Model_Aggregate Model_Code Model_AggText Model_AggSource Model_AggFinish
  Spec_AggText Spec_Syntax Spec_Tree Spec_Stmt Spec_FuncText Spec_AggProgram Spec_FuncRun Spec_AggRun Spec_AggFinish Spec_AggModule
  Proofs_Aggregate Proofs_Syntax Proofs_Lex Proofs_Tree Proofs_AggExpr Proofs_AggRead Proofs_AggBlocks Proofs_AggFunc Proofs_AggWf
  Proofs_FuncRun Proofs_RedRun Proofs_Steady Proofs_AggRun Proofs_AggRunFn Proofs_AggRunBlocks Proofs_AggRunGroup Proofs_AggRunTotal
  Proofs_AggFinish Proofs_AggOutput Proofs_AggRows Proofs_AggSort
  Props_AggText Props_Syntax Props_AggRead.
From Verif Require Proofs_SourceText Spec_Reducers Spec_Coll.
Import ListNotations.
Notation code := Proofs_AggExpr.code.
Notation state := Spec_FuncRun.state.

(** *** keys *)
Section Keys.
  Variable globals : text -> option rv.
  Variable call : text -> list val -> res val.
  Variable outside : ast -> (ast -> option val) -> res val.
  Hypothesis OUT : forall a g g', (forall u, In u (uses a) -> g u = g' u) -> outside a g = outside a g'.
  Variable none_name : text.
  Hypothesis GV : forall x, x <> none_name -> match globals x with None | Some (RVal _) => True | _ => False end.
  Variable params : list text.
  Variable args : list val.
  Notation value := (value globals call outside params args).
  Definition is_key (k : val -> res val) (a : ast) : Prop := (forall row, k row = value a row) /\ plain_names none_name true a.

  Lemma base_with_row row : base params args (with_row params args (Some row)).
  Proof.
    intros x O R. cbn [with_row]. rewrite bind_new_put, view_put_other; [reflexivity|apply good_given|]. intros X. apply PN_inj in X. contradiction.
  Qed.
  Lemma row_with_row row : row_in (with_row params args (Some row)) (Some row).
  Proof. unfold row_in. cbn [with_row]. rewrite bind_new_put. apply view_put_same. Qed.
  Lemma ev_key a row : plain_names none_name true a ->
    Spec_FuncRun.ev globals call outside a (with_row params args (Some row)) = do v <- value a row; Ok (RVal v, with_row params args (Some row)).
  Proof.
    intros P. destruct (expr_steady globals call (fun _ => None) outside OUT none_name GV params args a (Some row) (with_row params args (Some row)) [] P
      (base_with_row row) (row_with_row row) ltac:(intros x []) _ (frame_refl _ _)) as [E _]. exact E.
  Qed.
  Lemma keys_value ks la : Forall2 is_key ks la -> forall row, signature ks row = value (keys_tree la) row.
  Proof.
    intros F row. assert (I : forall ks la, Forall2 is_key ks la ->
      Proofs_Steady.items globals call outside la (with_row params args (Some row)) = do vs <- eval_keys ks row; Ok (vs, with_row params args (Some row))).
    { clear - OUT GV. intros ks la F. induction F as [|k a ks la [K P] _ IH]; [reflexivity|]. cbn [Proofs_Steady.items eval_keys].
      rewrite ev_key by exact P. rewrite K. destruct (value a row) as [v|e]; [|reflexivity]. cbn [bind fst snd item_of Spec_FuncRun.item_of].
      rewrite IH. destruct (eval_keys ks row); reflexivity. }
    assert (TU : forall l vs, Proofs_Steady.items globals call outside l (with_row params args (Some row)) = (do vs <- vs; Ok (vs, with_row params args (Some row))) ->
      (do vs <- vs; Ok (VTuple vs)) = value (ATuple l) row).
    { intros l vs H. unfold Spec_AggRun.value, Spec_AggRun.value_in. rewrite ev_tuple.
      change (bind_new (given params args) (T "row_") (OVal row None)) with (with_row params args (Some row)). rewrite H. destruct vs; reflexivity. }
    pose proof (I ks la F) as II. destruct F as [|k a ks1 la1 [K P] [|k2 a2 ks la K2 F]]; cbn [keys_tree].
    - exact (TU [] (Ok []) II).
    - apply K.
    - exact (TU _ (eval_keys (k :: k2 :: ks) row) II).
  Qed.
  Lemma keys_names ks la : Forall2 is_key ks la -> plain_names none_name true (keys_tree la).
  Proof.
    intros F. assert (A : forall a, In a la -> plain_names none_name true a).
    { induction F as [|k a ks la [_ P] _ IH]; intros b; [intros []|]. intros [<-|I]; auto. }
    assert (TU : plain_names none_name true (ATuple la)).
    { intros x U. cbn [uses] in U. apply in_flat_map in U as (a & Ia & U). now apply (A a). }
    destruct la as [|a [|b la]]; auto. apply A. now left.
  Qed.
End Keys.

Section Run.
  Variable printable : N -> bool.          (* str.isprintable *)
  Variable gname : nat -> text.
  Variable pnum : list nat -> nat.
  Hypothesis PO : printable_ok printable.
  Notation print := (print (py_repr printable) gname pnum).
  Notation tree := (tree gname pnum).
  Notation readable := (readable gname pnum).
  Notation red_code := (red_code printable gname pnum).
  Notation red_tree := (red_tree gname pnum).
  Notation trees := (trees gname pnum).
  Notation all_stand := (all_stand printable gname pnum).

  Variable globals : text -> option rv.
  Variable call : text -> list val -> res val.
  Variable classes : text -> option (list text).
  Variable outside : ast -> (ast -> option val) -> res val.

  (** the function of a group_by, read with its own result *)
  Lemma group_defined {Row} (str : text -> string) (its : list (Model_Aggregate.item Row)) reds f cls keys elt sorting vars ms :
    (forall t t', str t = str t' -> t = t') ->
    all_stand false str its reds -> its <> [] -> index_items its 0 0 [] = (vars, ms) ->
    frame_ok f sorting -> ident cls = true -> keys <> [] -> forallb readable keys = true -> reads (a_result f) elt ->
    exists t, group_source f cls (map print keys) (map red_code reds) = Some t /\
      defines t (a_name f) (T "data_" :: a_params f)
        (group_program (a_none f) cls (keys_tree (map tree keys)) (body_stmts false (trees reds) (build ms)) elt sorting).
  Proof.
    intros INJ ST NE E F IC NK RK ER.
    pose proof (all_matches printable gname pnum PO false str its reds ST) as M.
    destruct (number false (map red_code reds) 0 0 []) as [[vs bs] e] eqn:EN.
    destruct (numbered false str INJ (trees reds) its _ 0 M 0 [] vs bs e vars ms EN E) as (O & _).
    assert (NR : reds <> []) by (intros ->; destruct its; [now apply NE|destruct ST as [L _]; discriminate L]).
    exists (group_text f cls (map print keys) (arrange bs)). split.
    - unfold group_source. rewrite EN. now destruct reds.
    - apply group_reads; auto.
      + intros X. apply map_eq_nil in X. contradiction.
      + revert RK. clear - PO. induction keys as [|k keys IH]; cbn [map forallb]; intros H; constructor.
        * apply print_off; [exact PO|]. now apply andb_true_iff in H.
        * apply IH. now apply andb_true_iff in H.
      + apply (body_reads false (trees reds)). now apply (arranged false str INJ).
  Qed.
  Lemma aggregate_defined {Row} (str : text -> string) (its : list (Model_Aggregate.item Row)) reds f elt sorting vars ms :
    (forall t t', str t = str t' -> t = t') ->
    all_stand true str its reds -> its <> [] -> index_items its 0 0 [] = (vars, ms) ->
    frame_ok f sorting -> reads (a_result f) elt ->
    exists t, aggregate_source f (map red_code reds) = Some t /\
      defines t (a_name f) (T "data_" :: a_params f)
        (aggregate_program (a_none f) (length ms) (expected_checksum ms)
           (body_stmts true (trees reds) (build ms)) (later_body true (trees reds) (build ms)) elt sorting).
  Proof.
    intros INJ ST NE E F ER.
    pose proof (all_matches printable gname pnum PO true str its reds ST) as M.
    destruct (number true (map red_code reds) 0 0 []) as [[vs bs] e] eqn:EN.
    destruct (numbered true str INJ (trees reds) its _ 0 M 0 [] vs bs e vars ms EN E) as (O & Ex & _).
    assert (NR : reds <> []) by (intros ->; destruct its; [now apply NE|destruct ST as [L _]; discriminate L]).
    pose proof (number_ne its vars ms NE E) as NM.
    exists (aggregate_text f (length bs) e (arrange bs)). split.
    - unfold aggregate_source. rewrite EN. now destruct reds.
    - assert (EX : e = expected_checksum ms).
      { rewrite Ex. unfold expected_checksum. rewrite lor_sum, N.lor_0_l. reflexivity. }
      rewrite EX. rewrite (Forall2_len _ _ _ O). destruct (body_reads true (trees reds) (arrange bs) (build ms)) as [B1 B2];
        [now apply (arranged true str INJ)|]. destruct (body_ne true (trees reds) ms NM).
      apply aggregate_reads; auto. destruct ms; [contradiction|discriminate].
  Qed.

  (** The reduces of the model have the values of the expressions. *)
  Definition meant (sem : string -> val -> res bool) (none_name : text) (params : list text) (args : list val)
      (its : list (Model_Aggregate.item val)) (reds : list dred) : Prop :=
    forall p it r, nth_error its p = Some it -> nth_error reds p = Some r ->
      denotes globals call outside params args sem it (red_tree r) /\ usable none_name params (red_tree r).
  Lemma meant_trees mode str sem none_name params args its reds :
    all_stand mode str its reds -> meant sem none_name params args its reds ->
    forall p it, nth_error its p = Some it ->
      denotes globals call outside params args sem it (trees reds p) /\ usable none_name params (trees reds p).
  Proof.
    intros [L _] M p it I. unfold Props_AggRead.trees. destruct (nth_error reds p) as [r|] eqn:R; [exact (M p it r I R)|].
    apply nth_error_None in R. assert (nth_error its p <> None) by congruence. apply nth_error_Some in H. lia.
  Qed.

  (** The text convtools generates for a group_by is read as a function; called with
      rows and arguments, this function runs the loop of the model, then gives the
      value of the result for every group. *)
  Theorem C55_group_by_partial :
    forall str sem its reds f cls keys key_functions elt vars ms args,
    (forall t t', str t = str t' -> t = t') ->
    all_stand false str its reds -> its <> [] -> index_items its 0 0 [] = (vars, ms) ->
    frame_ok f None -> ident cls = true -> keys <> [] -> forallb readable keys = true -> reads (a_result f) elt ->
    module_ok globals outside (a_none f) (a_params f) -> class_ok classes (a_params f) cls (length ms) -> length args = length (a_params f) ->
    meant sem (a_none f) (a_params f) args its reds ->
    Forall2 (is_key globals call outside (a_none f) (a_params f) args) key_functions (map tree keys) ->
    result_names (a_none f) false (key_makers (trees reds) ms false) elt ->
    exists t body,
      group_source f cls (map print keys) (map red_code reds) = Some t /\
      defines t (a_name f) (T "data_" :: a_params f) body /\
      forall rows, run_function globals call classes outside (T "data_" :: a_params f) body rows args =
        do groups <- group_loop sem key_functions (build ms) rows [];
        do l <- group_results globals call outside (a_params f) args (trees reds) ms elt groups;
        Ok (Some (RVal (VList l))).
  Proof.
    intros str sem its reds f cls keys kfs elt vars ms args INJ ST NE E F IC NK RK ER MO CO LA ME KF EN.
    destruct (group_defined str its reds f cls keys elt None vars ms INJ ST NE E F IC NK RK ER) as (t & S & D).
    exists t. eexists. split; [exact S|]. split; [exact D|]. intros rows.
    destruct MO as [M1 M2 M3 M4 M5 M6], CO as [C1 C2 C3].
    apply (group_run globals call classes outside M1 (a_none f) cls M2 M3 (a_params f) args) with (its := its) (vars := vars); auto.
    - intros x [<-|[<-|[<-|I]]].
      + apply M4. now left.
      + apply M4. right. now left.
      + exact C1.
      + apply M4. right. right. apply in_or_app. now left.
    - split; apply M6.
    - eapply meant_trees; eauto.
    - apply keys_value with (none_name := a_none f); auto.
    - eapply keys_names; eauto.
  Qed.

  (** The same for an aggregate: two loops, the second one over the rows that remain. *)
  Theorem C55_aggregate_partial :
    forall str sem its reds f elt vars ms args,
    (forall t t', str t = str t' -> t = t') ->
    all_stand true str its reds -> its <> [] -> index_items its 0 0 [] = (vars, ms) ->
    frame_ok f None -> reads (a_result f) elt ->
    module_ok globals outside (a_none f) (a_params f) -> length args = length (a_params f) ->
    meant sem (a_none f) (a_params f) args its reds ->
    result_names (a_none f) true (key_makers (trees reds) ms true) elt ->
    exists t body,
      aggregate_source f (map red_code reds) = Some t /\
      defines t (a_name f) (T "data_" :: a_params f) body /\
      forall rows, (do r <- run_function globals call classes outside (T "data_" :: a_params f) body rows args; as_value r) =
        do st <- phase1 sem (build ms) (expected_checksum ms) rows init_state 0%N;
        value_in globals call outside elt (total_state (a_params f) args (trees reds) ms st).
  Proof.
    intros str sem its reds f elt vars ms args INJ ST NE E F ER MO LA ME EN.
    destruct (aggregate_defined str its reds f elt None vars ms INJ ST NE E F ER) as (t & S & D).
    exists t. eexists. split; [exact S|]. split; [exact D|]. intros rows. destruct MO as [M1 M2 M3 M4 M5 M6].
    apply (total_run globals call classes outside M1 (a_none f) M2 M3 (a_params f) args) with (its := its) (vars := vars); auto.
    - intros x [<-|[<-|I]]; apply M4; [now left|right; now left|right; right; apply in_or_app; now left].
    - split; apply M6.
    - eapply meant_trees; eauto.
  Qed.

  (** *** rows *)
  (** the default= of the reduces, in order *)
  Definition default_trees (defaults : list (option px)) (p : nat) : option ast := option_map tree (nth p defaults None).
  Definition default_texts (defaults : list (option px)) : list (option text) := map (option_map print) defaults.
  Definition defaults_ok (defaults : list (option px)) : bool := forallb (opt_ok readable) defaults.
  Notation text_of_output mode reds defaults o :=
    (output_text print mode (map (fun r => r_op (t_code (red_code r))) reds) (default_texts defaults)
       (fst (fst (number mode (map red_code reds) 0 0 []))) o).
  (** what the expressions of an output that do not mention the row, and its calls, give *)
  Definition fixed_value (f : Model_AggSource.frame) (args : list val) (e : px) : option val :=
    success (Spec_AggRun.constant globals call outside (a_params f) args (tree e)).
  Definition called (g : text) (l : list val) : option val := success (call g l).
  Notation ok_output f mode its o :=
    (output_ok readable tree (a_none f) (a_params f) mode (length its) o).
  Lemma slot_head mode v : head_ok (agg_var mode v).
  Proof. unfold agg_var. destruct mode; eexists _, _; split; reflexivity. Qed.
  Lemma head_app t u : head_ok t -> head_ok (t ++ u).
  Proof. intros (c & r & -> & O). exists c, (r ++ u). now split. Qed.
  Lemma column_head mode ops ds vs c : head_ok (column_text mode ops ds vs c).
  Proof.
    destruct c as [[i|]|p]; cbn [column_text]; try (eexists _, _; split; reflexivity).
    unfold reduce_text. destruct (nth p ds None); [eexists _, _; split; reflexivity|].
    pose proof (slot_head mode (nth p vs 0)) as SH. destruct (nth p ops (Inline [])) as [b|f|t]; cbn [op_post]; try exact SH.
    destruct b; cbn [post_text]; try exact SH; try (apply head_app; exact SH); try (eexists _, _; split; reflexivity).
  Qed.
  Lemma output_reads {Row} mode str (its : list (Model_Aggregate.item Row)) reds defaults vars ms o f :
    (forall t t', str t = str t' -> t = t') ->
    all_stand mode str its reds -> index_items its 0 0 [] = (vars, ms) ->
    defaults_ok defaults = true -> ok_output f mode its o ->
    reads (text_of_output mode reds defaults o) (output_tree mode (trees reds) (default_trees defaults) vars tree o).
  Proof.
    intros INJ ST E DO OK. destruct (C54_variables_partial printable gname pnum PO mode str its reds vars ms INJ ST E) as (-> & _ & _).
    set (ops := map (fun r => r_op (t_code (red_code r))) reds).
    assert (C : forall c, column_ok mode (length its) c ->
      code true (column_text mode ops (default_texts defaults) (map snd vars) c)
      (column_tree mode (trees reds) (default_trees defaults) vars c)).
    { intros c CK. destruct c as [[i|]|p]; cbn [column_text column_tree key_tree column_ok] in *.
      - apply (sub_code (T "signature_") (name "signature_") false); [now apply ident_code|apply ndec_code].
      - now apply ident_code.
      - rename CK into L. destruct ST as [LE _].
        assert (V : nth p (map snd vars) 0 = var_at vars p).
        { unfold var_at. destruct (nth_error vars p) as [[it v]|] eqn:H.
          - apply nth_error_nth. now rewrite nth_error_map, H.
          - apply nth_overflow. rewrite map_length. now apply nth_error_None. }
        rewrite V. destruct (nth_error reds p) as [r|] eqn:R; [|apply nth_error_None in R; lia].
        assert (O : nth p ops (Inline []) = r_op (t_code (red_code r))).
        { apply nth_error_nth. unfold ops. now rewrite nth_error_map, R. }
        rewrite O. apply reduce_code; [|apply slot_code|].
        + unfold Props_AggRead.trees. rewrite R. cbn [t_code Props_AggRead.red_code r_op Props_AggRead.red_tree p_op]. destruct (d_op r); reflexivity.
        + unfold default_texts, default_trees. change (@None text) with (option_map print None). rewrite map_nth.
          destruct (nth p defaults None) as [d|] eqn:D; cbn [option_map]; [|exact I]. exists (negb (is_int d)). apply print_code; [exact PO|].
          unfold defaults_ok in DO. rewrite forallb_forall in DO.
          assert (In (Some d) defaults).
          { rewrite <- D. apply nth_In. destruct (Nat.lt_ge_cases p (length defaults)); [assumption|]. rewrite nth_overflow in D by assumption. discriminate D. }
          exact (DO _ H). }
    assert (G : (exists d, code d (output_text print mode ops (default_texts defaults) (map snd vars) o)
        (output_tree mode (trees reds) (default_trees defaults) vars tree o) /\ (d = true \/ exists z, o = Fixed (PLit (LInt z)))) /\
      head_ok (output_text print mode ops (default_texts defaults) (map snd vars) o)).
    { induction OK as [c CK|e R P|mk l MK _ IH]; cbn [output_text output_tree].
      - split; [exists true; split; [now apply C|now left]|apply column_head].
      - split; [|destruct (readable_good printable gname pnum PO e R) as [ts G]; apply G]. exists (negb (is_int e)). split; [now apply print_code|].
        destruct e as [|[]| | | | | | | | | | | |]; try (now left). right. eauto.
      - assert (HO : Forall head_ok (map (output_text print mode ops (default_texts defaults) (map snd vars)) l)).
        { apply Forall_forall. intros t I. apply in_map_iff in I as (o & <- & I). now apply IH. }
        split.
        + exists true. split; [|now left]. eapply maker_code; [exact MK|symmetry; apply map_length|exact HO| |].
          * clear - IH. induction l as [|o l IHl]; cbn [map]; constructor; [destruct (IH o (or_introl eq_refl)) as [(d & G & _) _]; eauto|apply IHl; intros; apply IH; now right].
          * destruct mk; try exact I. destruct l as [|o l]; [exact I|]. cbn [map]. destruct (IH o (or_introl eq_refl)) as [(d & G & [-> |(z & ->)]) _]; [exact G|].
            cbn in MK. tauto.
        + eapply maker_head; [exact MK|symmetry; apply map_length|exact HO]. }
    destruct G as [(d & G & _) _]. eapply code_reads, G.
  Qed.

  (** what the loop and the result give when the model gives rows *)
  Lemma group_rows str sem its reds defaults f cls key_functions o vars ms args :
    (forall t t', str t = str t' -> t = t') ->
    all_stand false str its reds -> its <> [] -> index_items its 0 0 [] = (vars, ms) ->
    ok_output f false its o ->
    module_ok globals outside (a_none f) (a_params f) -> class_ok classes (a_params f) cls (length ms) -> python_ok call outside ->
    length args = length (a_params f) ->
    meant sem (a_none f) (a_params f) args its reds ->
    defaults_denote globals call outside (a_none f) (a_params f) args its (default_trees defaults) ->
    same_code_same_keys its (trees reds) ->
    forall rows groups out,
      group_by sem key_functions its rows = Some (Ok groups) ->
      all_some (map (fun g => output_value (fixed_value f args) called (fst g) (snd g) o) groups) = Some out ->
      (do d <- group_loop sem key_functions (build ms) rows [];
       group_results globals call outside (a_params f) args (trees reds) ms (output_tree false (trees reds) (default_trees defaults) vars tree o) d) = Ok out.
  Proof.
    intros INJ ST NE E OK MO CO PY LA ME DD SK rows groups out G O.
    set (elt := output_tree false (trees reds) (default_trees defaults) vars tree o).
    pose proof (meant_trees false str sem (a_none f) (a_params f) args its reds ST ME) as DE.
    unfold group_by in G. destruct its as [|it its]; [contradiction|]. rewrite E in G. injection G as G.
    destruct (group_loop sem key_functions (build ms) rows []) as [dm|e]; [|discriminate G]. cbn [bind] in *.
    revert groups out G O. induction dm as [|[key st] dm IH]; intros groups out G O; cbn [all_results group_results] in *.
    - injection G as <-. cbn in O. injection O as <-. reflexivity.
    - destruct (results vars st) as [xs|e] eqn:RS; [|discriminate G]. cbn [bind] in G. destruct (all_results vars dm) as [gs|e]; [|discriminate G].
      injection G as <-. cbn [map fst snd all_some] in O. destruct (output_value _ _ key xs o) as [w|] eqn:W; [|discriminate O].
      destruct (all_some (map _ gs)) as [ws|] eqn:WS; [|discriminate O]. injection O as <-.
      assert (V : value_in globals call outside elt (group_state (a_params f) args (trees reds) ms key st) = Ok w).
      { destruct MO as [M1 M2 M3 M4 M5 M6].
        eapply (row_value globals call outside M1 (a_none f) M2 PY (a_params f) args) with (its := it :: its) (k := Some key) (st := st); eauto.
        - intros x I. apply M4. right. right. apply in_or_app. now right.
        - apply gs_base with (none_name := a_none f) (cls := cls); [split; apply M6|apply CO].
        - apply gs_none_name.
        - intros j J. unfold slot. change (AAttr (name "agg_data_") (T "v" ++ ndec (N.of_nat j))) with (AAttr (AName (T "agg_data_")) (attribute j)).
          rewrite seen_attr, gs_data. eapply gs_attr; eauto.
        - apply gs_key.
        - discriminate. }
      rewrite V. cbn [bind]. rewrite (IH gs ws eq_refl WS). reflexivity.
  Qed.

  (** group_by gives the rows of the model: for every group, in the order of their first
      rows, the output with the keys of the group and what its reduces gave in it. *)
  Theorem C55_group_by_rows_partial :
    forall str sem its reds defaults f cls keys key_functions o vars ms args,
    (forall t t', str t = str t' -> t = t') ->
    all_stand false str its reds -> its <> [] -> index_items its 0 0 [] = (vars, ms) ->
    frame_ok f None -> ident cls = true -> keys <> [] -> forallb readable keys = true ->
    defaults_ok defaults = true -> ok_output f false its o -> a_result f = text_of_output false reds defaults o ->
    module_ok globals outside (a_none f) (a_params f) -> class_ok classes (a_params f) cls (length ms) -> python_ok call outside ->
    length args = length (a_params f) ->
    meant sem (a_none f) (a_params f) args its reds ->
    defaults_denote globals call outside (a_none f) (a_params f) args its (default_trees defaults) ->
    same_code_same_keys its (trees reds) ->
    Forall2 (is_key globals call outside (a_none f) (a_params f) args) key_functions (map tree keys) ->
    exists t body,
      group_source f cls (map print keys) (map red_code reds) = Some t /\
      defines t (a_name f) (T "data_" :: a_params f) body /\
      forall rows groups out,
        group_by sem key_functions its rows = Some (Ok groups) ->
        all_some (map (fun g => output_value (fixed_value f args) called (fst g) (snd g) o) groups) = Some out ->
        run_function globals call classes outside (T "data_" :: a_params f) body rows args = Ok (Some (RVal (VList out))).
  Proof.
    intros str sem its reds defaults f cls keys kfs o vars ms args INJ ST NE E F IC NK RK DO OK ER MO CO PY LA ME DD SK KF.
    set (elt := output_tree false (trees reds) (default_trees defaults) vars tree o).
    assert (RE : reads (a_result f) elt) by (rewrite ER; eapply output_reads; eauto).
    pose proof (meant_trees false str sem (a_none f) (a_params f) args its reds ST ME) as DE.
    assert (EN : result_names (a_none f) false (key_makers (trees reds) ms false) elt).
    { eapply output_names with (its := its); eauto.
      intros I. destruct (mo_none_name _ _ _ _ MO) as (_ & _ & N). now apply N. }
    destruct (C55_group_by_partial str sem its reds f cls keys kfs elt vars ms args INJ ST NE E F IC NK RK RE MO CO LA ME KF EN) as (t & body & S & D & R).
    exists t, body. split; [exact S|]. split; [exact D|]. intros rows groups out G O. rewrite R.
    pose proof (group_rows str sem its reds defaults f cls kfs o vars ms args INJ ST NE E OK MO CO PY LA ME DD SK rows groups out G O) as GR.
    fold elt in GR. destruct (group_loop sem kfs (build ms) rows []) as [dm|e]; cbn [bind] in *; [|discriminate GR]. rewrite GR. reflexivity.
  Qed.

  Lemma total_row str sem its reds defaults f o vars ms args :
    (forall t t', str t = str t' -> t = t') ->
    all_stand true str its reds -> its <> [] -> index_items its 0 0 [] = (vars, ms) ->
    ok_output f true its o ->
    module_ok globals outside (a_none f) (a_params f) -> python_ok call outside ->
    length args = length (a_params f) ->
    meant sem (a_none f) (a_params f) args its reds ->
    defaults_denote globals call outside (a_none f) (a_params f) args its (default_trees defaults) ->
    same_code_same_keys its (trees reds) ->
    forall rows xs out,
      aggregate sem its rows = Some (Ok xs) ->
      output_value (fixed_value f args) called VNone xs o = Some out ->
      exists st, phase1 sem (build ms) (expected_checksum ms) rows init_state 0%N = Ok st /\
        value_in globals call outside (output_tree true (trees reds) (default_trees defaults) vars tree o) (total_state (a_params f) args (trees reds) ms st) = Ok out.
  Proof.
    intros INJ ST NE E OK MO PY LA ME DD SK rows xs out G O.
    set (elt := output_tree true (trees reds) (default_trees defaults) vars tree o).
    pose proof (meant_trees true str sem (a_none f) (a_params f) args its reds ST ME) as DE.
    unfold aggregate in G. destruct its as [|it its]; [contradiction|]. rewrite E in G. injection G as G.
    destruct (phase1 sem (build ms) (expected_checksum ms) rows init_state 0%N) as [st|e]; [|discriminate G]. cbn [bind] in *. exists st. split; [reflexivity|].
    { destruct MO as [M1 M2 M3 M4 M5 M6].
      pose proof (total_ready classes (a_none f) (a_params f) args M5 ltac:(split; apply M6) (it :: its) (trees reds) vars ms E st) as TR.
      eapply (row_value globals call outside M1 (a_none f) M2 PY (a_params f) args) with (its := it :: its) (k := None) (st := st); eauto.
      - intros x I. apply M4. right. right. apply in_or_app. now right.
      - apply TR.
      - apply TR.
      - intros j J. unfold slot. rewrite seen_name. now apply TR.
      - discriminate. }
  Qed.

  (** aggregate gives the row of the model. *)
  Theorem C55_aggregate_rows_partial :
    forall str sem its reds defaults f o vars ms args,
    (forall t t', str t = str t' -> t = t') ->
    all_stand true str its reds -> its <> [] -> index_items its 0 0 [] = (vars, ms) ->
    frame_ok f None ->
    defaults_ok defaults = true -> ok_output f true its o -> a_result f = text_of_output true reds defaults o ->
    module_ok globals outside (a_none f) (a_params f) -> python_ok call outside ->
    length args = length (a_params f) ->
    meant sem (a_none f) (a_params f) args its reds ->
    defaults_denote globals call outside (a_none f) (a_params f) args its (default_trees defaults) ->
    same_code_same_keys its (trees reds) ->
    exists t body,
      aggregate_source f (map red_code reds) = Some t /\
      defines t (a_name f) (T "data_" :: a_params f) body /\
      forall rows xs out,
        aggregate sem its rows = Some (Ok xs) ->
        output_value (fixed_value f args) called VNone xs o = Some out ->
        run_function globals call classes outside (T "data_" :: a_params f) body rows args = Ok (Some (RVal out)).
  Proof.
    intros str sem its reds defaults f o vars ms args INJ ST NE E F DO OK ER MO PY LA ME DD SK.
    set (elt := output_tree true (trees reds) (default_trees defaults) vars tree o).
    assert (RE : reads (a_result f) elt) by (rewrite ER; eapply output_reads; eauto).
    pose proof (meant_trees true str sem (a_none f) (a_params f) args its reds ST ME) as DE.
    assert (EN : result_names (a_none f) true (key_makers (trees reds) ms true) elt).
    { eapply output_names with (its := its); eauto.
      intros I. destruct (mo_none_name _ _ _ _ MO) as (_ & _ & N). now apply N. }
    destruct (C55_aggregate_partial str sem its reds f elt vars ms args INJ ST NE E F RE MO LA ME EN) as (t & body & S & D & R).
    exists t, body. split; [exact S|]. split; [exact D|]. intros rows xs out G O. specialize (R rows).
    destruct (total_row str sem its reds defaults f o vars ms args INJ ST NE E OK MO PY LA ME DD SK rows xs out G O) as (st & P & V). fold elt in V.
    rewrite P in R. cbn [bind] in R.
    rewrite V in R. destruct (run_function globals call classes outside (T "data_" :: a_params f) body rows args) as [[[]|]|e]; cbn [bind as_value] in R; try discriminate R.
    injection R as ->. reflexivity.
  Qed.

  (** *** sort() *)
  (** After sort() the rows of a group_by are the same, in the order of their sort keys; the
      result of an aggregate is sorted when it is a list. *)
  Theorem C55_group_by_sorted_partial :
    forall str sem its reds defaults f cls keys key_functions o vars ms args sort_key reverse,
    (forall t t', str t = str t' -> t = t') ->
    all_stand false str its reds -> its <> [] -> index_items its 0 0 [] = (vars, ms) ->
    frame_ok f None -> ident cls = true -> keys <> [] -> forallb readable keys = true ->
    defaults_ok defaults = true -> ok_output f false its o -> a_result f = text_of_output false reds defaults o ->
    module_ok globals outside (a_none f) (a_params f) -> class_ok classes (a_params f) cls (length ms) -> python_ok call outside ->
    length args = length (a_params f) ->
    meant sem (a_none f) (a_params f) args its reds ->
    defaults_denote globals call outside (a_none f) (a_params f) args its (default_trees defaults) ->
    same_code_same_keys its (trees reds) ->
    Forall2 (is_key globals call outside (a_none f) (a_params f) args) key_functions (map tree keys) ->
    sort_key_ok (a_params f) sort_key ->
    exists t body,
      group_source (sorted_frame f sort_key reverse) cls (map print keys) (map red_code reds) = Some t /\
      defines t (a_name f) (T "data_" :: a_params f) body /\
      forall rows groups out k,
        group_by sem key_functions its rows = Some (Ok groups) ->
        all_some (map (fun g => output_value (fixed_value f args) called (fst g) (snd g) o) groups) = Some out ->
        sort_keys call sort_key k out -> Spec_Reducers.ordered (map k out) ->
        exists out', Spec_Coll.sorted_by k reverse out out' /\
          run_function globals call classes outside (T "data_" :: a_params f) body rows args = Ok (Some (RVal (VList out'))).
  Proof.
    intros str sem its reds defaults f cls keys kfs o vars ms args sk rev INJ ST NE E F IC NK RK DO OK ER MO CO PY LA ME DD SK KF KO.
    set (elt := output_tree false (trees reds) (default_trees defaults) vars tree o).
    assert (RE : reads (a_result f) elt) by (rewrite ER; eapply output_reads; eauto).
    assert (EN : result_names (a_none f) false (key_makers (trees reds) ms false) elt).
    { pose proof (meant_trees false str sem (a_none f) (a_params f) args its reds ST ME) as DE. eapply output_names with (its := its); eauto.
      intros I. destruct (mo_none_name _ _ _ _ MO) as (_ & _ & N). now apply N. }
    assert (FS : frame_ok (sorted_frame f sk rev) (Some (sort_call sk rev))) by (apply sorted_frame_ok; [destruct sk; [apply KO|exact I]|exact F]).
    destruct (group_defined str its reds (sorted_frame f sk rev) cls keys elt _ vars ms INJ ST NE E FS IC NK RK RE) as (t & S & D).
    exists t. eexists. split; [exact S|]. split; [exact D|]. intros rows groups out k G O SKS OD.
    pose proof (group_rows str sem its reds defaults f cls kfs o vars ms args INJ ST NE E OK MO CO PY LA ME DD SK rows groups out G O) as GR. fold elt in GR.
    destruct (sort_value_ok call sk k rev out SKS OD) as (ys & SB & SV). exists ys. split; [exact SB|].
    destruct MO as [M1 M2 M3 M4 M5 M6], CO as [C1 C2 C3].
    assert (PP : forall x, In x (T "row_" :: a_none f :: cls :: python_names) -> ~ In x (a_params f)).
    { intros x [<-|[<-|[<-|I]]]; [apply M4; now left|apply M4; right; now left|exact C1|apply M4; right; right; apply in_or_app; now left]. }
    assert (KV : forall row, signature kfs row = value globals call outside (a_params f) args (keys_tree (map tree keys)) row)
      by (apply keys_value with (none_name := a_none f); auto).
    assert (KN : plain_names (a_none f) true (keys_tree (map tree keys))) by (eapply keys_names; eauto).
    pose proof (group_run_to globals call classes outside M1 (a_none f) cls M2 M3 (a_params f) args PP M5 ltac:(split; apply M6) C2 sem its (trees reds) vars ms E
      (meant_trees false str sem (a_none f) (a_params f) args its reds ST ME) C3 kfs (keys_tree (map tree keys)) KV KN elt EN rows (Some (sort_call sk rev)) LA) as H.
    cbv zeta in H. rewrite GR in H. destruct H as (s & FR & H). change (a_params (sorted_frame f sk rev)) with (a_params f). 
    change (a_none (sorted_frame f sk rev)) with (a_none f). rewrite H.
    rewrite end_sorted by (destruct sk as [g|]; [|exact I]; destruct KO as (_ & K1 & K2 & K3); split; [now apply FR|intros ->; apply K1; left; cbn; tauto]).
    rewrite SV. reflexivity.
  Qed.
  Theorem C55_aggregate_sorted_partial :
    forall str sem its reds defaults f o vars ms args sort_key reverse,
    (forall t t', str t = str t' -> t = t') ->
    all_stand true str its reds -> its <> [] -> index_items its 0 0 [] = (vars, ms) ->
    frame_ok f None ->
    defaults_ok defaults = true -> ok_output f true its o -> a_result f = text_of_output true reds defaults o ->
    module_ok globals outside (a_none f) (a_params f) -> python_ok call outside ->
    length args = length (a_params f) ->
    meant sem (a_none f) (a_params f) args its reds ->
    defaults_denote globals call outside (a_none f) (a_params f) args its (default_trees defaults) ->
    same_code_same_keys its (trees reds) ->
    sort_key_ok (a_params f) sort_key ->
    exists t body,
      aggregate_source (sorted_frame f sort_key reverse) (map red_code reds) = Some t /\
      defines t (a_name f) (T "data_" :: a_params f) body /\
      forall rows xs out,
        aggregate sem its rows = Some (Ok xs) ->
        output_value (fixed_value f args) called VNone xs o = Some out ->
        match out with
        | VList l => forall k, sort_keys call sort_key k l -> Spec_Reducers.ordered (map k l) ->
            exists l', Spec_Coll.sorted_by k reverse l l' /\
              run_function globals call classes outside (T "data_" :: a_params f) body rows args = Ok (Some (RVal (VList l')))
        | _ => run_function globals call classes outside (T "data_" :: a_params f) body rows args = Err AttributeError
        end.
  Proof.
    intros str sem its reds defaults f o vars ms args sk rev INJ ST NE E F DO OK ER MO PY LA ME DD SK KO.
    set (elt := output_tree true (trees reds) (default_trees defaults) vars tree o).
    assert (RE : reads (a_result f) elt) by (rewrite ER; eapply output_reads; eauto).
    assert (EN : result_names (a_none f) true (key_makers (trees reds) ms true) elt).
    { pose proof (meant_trees true str sem (a_none f) (a_params f) args its reds ST ME) as DE. eapply output_names with (its := its); eauto.
      intros I. destruct (mo_none_name _ _ _ _ MO) as (_ & _ & N). now apply N. }
    assert (FS : frame_ok (sorted_frame f sk rev) (Some (sort_call sk rev))) by (apply sorted_frame_ok; [destruct sk; [apply KO|exact I]|exact F]).
    destruct (aggregate_defined str its reds (sorted_frame f sk rev) elt _ vars ms INJ ST NE E FS RE) as (t & S & D).
    exists t. eexists. split; [exact S|]. split; [exact D|]. intros rows xs out G O.
    destruct (total_row str sem its reds defaults f o vars ms args INJ ST NE E OK MO PY LA ME DD SK rows xs out G O) as (st & P & V). fold elt in V.
    destruct MO as [M1 M2 M3 M4 M5 M6].
    assert (PP : forall x, In x (T "row_" :: a_none f :: python_names) -> ~ In x (a_params f)).
    { intros x [<-|[<-|I]]; apply M4; [now left|right; now left|right; right; apply in_or_app; now left]. }
    pose proof (total_run_to globals call classes outside M1 (a_none f) M2 M3 (a_params f) args PP M5 ltac:(split; apply M6) sem its (trees reds) vars ms E
      (meant_trees true str sem (a_none f) (a_params f) args its reds ST ME) elt EN rows (Some (sort_call sk rev)) LA) as H.
    cbv zeta in H. rewrite P, V in H. destruct H as (s & FR & H). change (a_params (sorted_frame f sk rev)) with (a_params f). 
    change (a_none (sorted_frame f sk rev)) with (a_none f).
    rewrite end_sorted in H by (destruct sk as [g|]; [|exact I]; destruct KO as (_ & K1 & K2 & K3); split; [now apply FR|intros ->; apply K1; left; cbn; tauto]).
    destruct out; cbn [sort_value bind] in H; try exact H. intros k SKS OD.
    destruct (sort_value_ok call sk k rev l SKS OD) as (ys & SB & SV). exists ys. split; [exact SB|]. cbn [sort_value] in SV.
    etransitivity; [exact H|]. rewrite SV. reflexivity.
  Qed.
End Run.
Print Assumptions C55_group_by_partial.
Print Assumptions C55_aggregate_partial.
Print Assumptions C55_group_by_rows_partial.
Print Assumptions C55_aggregate_rows_partial.
Print Assumptions C55_group_by_sorted_partial.
Print Assumptions C55_aggregate_sorted_partial.

(** *** a case *)
(** Rows with fields k, j, a, b; an input argument rate;
    c.group_by(c.item("k"), c.item("j")).aggregate({"key": c.item("k"), 5: [c.item("j")],
    "of": (Sum(a), Sum(a), Array(b) filtered by a, MaxRow(a), ArrayDistinct(b), Max(b) filtered
    by a with default=c.input_arg("rate"), DictArrayDistinct(a, b), DictCountDistinct(j, b)), "rate": c.input_arg("rate"),
    "size": c.call_func(len_, ArrayDistinct(b))}) *)
Definition x_reds : list dred :=
  e_reds ++ [ mkDRed (DBuiltin ArrayDistinct) None None (e_item "b") [] true;
              mkDRed (DBuiltin Max) (Some (e_item "a")) None (e_item "b") [] false;
              mkDRed (DBuiltin DictArrayDistinct) None None (e_item "a") [e_item "b"] true;
              mkDRed (DBuiltin DictCountDistinct) None None (e_item "j") [e_item "b"] true ].
(** default= and the defaults the reducers come with *)
Definition x_defaults : list (option px) :=
  [Some (PLit (LInt 0)); Some (PLit (LInt 0)); Some (PLit LNone); Some (PLit LNone); Some (PLit LNone); Some (e_name "rate");
   Some (PLit LNone); Some (PLit LNone)].
Definition x_keys : list px := [e_item "k"; e_item "j"].
Definition x_params : list text := [T "rate"].
Definition x_args : list val := [VInt 7].
(** a module with nothing in it but the sentinel; products, len, list, dict, keys *)
Definition x_globals (x : text) : option rv := if same_text x (T "_none_1") then Some RSent else None.
Definition x_call (f : text) (l : list val) : res val :=
  match l with
  | [VSet s] => if same_text f (T "len") then Ok (VInt (Z.of_nat (length s))) else unsupported
  | [VList s] => if same_text f (T "list") then Ok (VList s) else if same_text f (T "len_") then Ok (VInt (Z.of_nat (length s))) else unsupported
  | [VDict d] =>
      if same_text f (T "dict") then Ok (VDict d)
      else if same_text f (T "size_of") then py_getitem (VDict d) (VStr "size")
      else unsupported
  | [VInt a; VInt b] => if same_text f (T "*") then Ok (VInt (a * b)) else unsupported
  | _ => unsupported
  end.
Definition x_each (f : val -> option val) (d : list (val * val)) : option (list (val * val)) :=
  all_some (map (fun kv => option_map (pair (fst kv)) (f (snd kv))) d).
Definition x_other (a : ast) (g : ast -> option val) : option val :=
  match a with
  | AStr t => Some (VStr (text_of (Some t)))
  | ACall (AAttr V m) [] [] =>
      match V with
      | AName _ | AAttr (AName _) _ =>
          if same_text m (T "keys") then match g V with Some (VDict d) => Some (VList (map fst d)) | _ => None end else None
      | _ => None
      end
  | AComp GDict [_; ACall (AName f) _ _] _ (ACall (AAttr V m) [] []) None =>
      match V with
      | AName _ | AAttr (AName _) _ =>
          if same_text m (T "items") then
            match g V with
            | Some (VDict d) =>
                if same_text f (T "list") then option_map VDict (x_each (fun v => match v with VDict e => Some (VList (map fst e)) | _ => None end) d)
                else if same_text f (T "len") then option_map VDict (x_each (fun v => match v with VSet e => Some (VInt (Z.of_nat (length e))) | _ => None end) d)
                else None
            | _ => None
            end
          else None
      | _ => None
      end
  | _ => None
  end.
Definition x_outside (a : ast) (g : ast -> option val) : res val := match x_other a g with Some v => Ok v | None => unsupported end.
Definition x_classes (x : text) : option (list text) :=
  if same_text x (T "AggData_1") then Some (map attribute (seq 0 7)) else None.
Notation x_print := (print (py_repr ascii_printable) e_gname (fun _ => 0)).
Notation x_tree := (tree e_gname (fun _ => 0)).
Notation x_code := (red_code ascii_printable e_gname (fun _ => 0)).
Notation x_trees := (trees e_gname (fun _ => 0) x_reds).
Definition x_value (e : px) (row : val) : res val := value x_globals x_call x_outside x_params x_args (x_tree e) row.
Definition x_item (mode : bool) (p : nat) (r : dred) : Model_Aggregate.item val :=
  mkItem (mkReduce (match d_op r with DBuiltin b => Builtin b | DFunc _ => Builtin Count end) (x_value (d_expr r)) (map x_value (d_extras r)) None None
            (option_map (fun e => Spec_AggRun.constant x_globals x_call x_outside x_params x_args (x_tree e)) (nth p x_defaults None)) false)
         (option_map (fun c => tallies (x_print c)) (d_cond r))
         (tallies (hash_at mode p (t_code (x_code r)))).
Definition x_its (mode : bool) : list (Model_Aggregate.item val) :=
  map (fun p => x_item mode p (nth p x_reds (mkDRed (DBuiltin Count) None None (e_name "x") [] true))) (seq 0 8).
Definition x_sem (t : string) (row : val) : res bool := do v <- x_value (e_item "a") row; Ok (truthy v).
Definition x_vs (mode : bool) : list nat := fst (fst (number mode (map x_code x_reds) 0 0 [])).
Definition x_result (mode : bool) (o : output) : text :=
  output_text x_print mode (map (fun r => r_op (t_code (x_code r))) x_reds) (default_texts ascii_printable e_gname (fun _ => 0) x_defaults) (x_vs mode) o.
Definition x_frame (mode : bool) (o : output) : Model_AggSource.frame :=
  mkFrame (T "group_by_") x_params (T "_none_1") (x_result mode o) (T "").
Definition x_tuple : output := Made STuple (map (fun p => Place (Red p)) (seq 0 8)).
Definition x_word (w : string) : output := Fixed (PLit (LStr (T w))).
Definition x_dict : output := Made SDict
  [ x_word "key"; Place (Key (Some 0)); Fixed (PLit (LInt 5)); Made SList [Place (Key (Some 1))]; x_word "of"; x_tuple;
    x_word "rate"; Fixed (e_name "rate"); x_word "size"; Made (SCall (T "len_")) [Place (Red 4)] ].
Definition x_row (k j a b : val) : val := VDict [(VStr "k", k); (VStr "j", j); (VStr "a", a); (VStr "b", b)].
Definition x_rows : list val :=
  [ x_row (VInt 1) VNone (VInt 5) (VInt 2); x_row (VInt 2) VNone (VInt 0) (VInt 9);
    x_row (VInt 1) VNone (VInt 3) (VInt 4); x_row (VInt 1) VNone (VInt 0) (VInt 2) ].

Lemma x_module : module_ok x_globals x_outside (T "_none_1") x_params.
Proof.
  split.
  - assert (K : forall V m, is_var V -> In V (uses (ACall (AAttr V m) [] []))).
    { intros V m I. destruct V; try contradiction; cbn; [tauto|]. destruct V; try contradiction. cbn. tauto. }
    intros a g g' H. unfold x_outside. replace (x_other a g') with (x_other a g); [reflexivity|]. unfold x_other.
    destruct a as [| | | | | | | | | | | |f l kws| | | | |gk elts t it c|]; try reflexivity.
    + destruct f as [| | | | | | | | | | |V m| | | | | | |]; try reflexivity.
      destruct l; [|reflexivity]. destruct kws; [|reflexivity].
      destruct V; try reflexivity; [rewrite (H (AName x)) by (now apply K); reflexivity|].
      destruct V; try reflexivity. rewrite (H (AAttr (AName x) n)) by (now apply K). reflexivity.
    + destruct gk; try reflexivity. destruct elts as [|e0 [|e1 [|e2 elts]]]; try reflexivity; destruct e1; try reflexivity; destruct e1; try reflexivity.
      destruct it as [| | | | | | | | | | | |f l kw| | | | | |]; try reflexivity. destruct f as [| | | | | | | | | | |V m| | | | | | |]; try reflexivity.
      destruct l; [|reflexivity]. destruct kw; [|reflexivity]. destruct c; [reflexivity|].
      assert (KV : is_var V -> In V (uses (AComp GDict [e0; ACall (AName x) args kws] t (ACall (AAttr V m) [] []) None))).
      { intros IV. pose proof (K V m IV) as KU. revert KU. generalize (ACall (AAttr V m) [] []). intros a KU. cbn [uses]. right. rewrite !in_app_iff. tauto. }
      destruct V; try reflexivity; [rewrite (H (AName x0)) by (now apply KV); reflexivity|].
      destruct V; try reflexivity. rewrite (H (AAttr (AName x0) n)) by (now apply KV). reflexivity.
  - intros x N. unfold x_globals. destruct (same_text x (T "_none_1")) eqn:E; [|exact I]. apply same_text_eq in E. contradiction.
  - reflexivity.
  - intros x I [<-|[]]. cbn in I. repeat (destruct I as [I|I]; [vm_compute in I; discriminate I|]). exact I.
  - intros x [<-|[]]. intros [O|(j & O)].
    + cbn in O. repeat (destruct O as [O|O]; [vm_compute in O; discriminate O|]). exact O.
    + vm_compute in O. discriminate O.
  - split; [|split].
    + intros [O|(j & O)]; [|vm_compute in O; discriminate O]. cbn in O. repeat (destruct O as [O|O]; [vm_compute in O; discriminate O|]). exact O.
    + intros X. vm_compute in X. discriminate X.
    + intros O. cbn in O. repeat (destruct O as [O|O]; [vm_compute in O; discriminate O|]). exact O.
Qed.
Lemma x_each_map {A} f g h (d : list (val * A)) : (forall e, f (g e) = Some (h e)) ->
  x_each f (map (fun kv => (fst kv, g (snd kv))) d) = Some (map (fun kv => (fst kv, h (snd kv))) d).
Proof.
  intros H. induction d as [|[k e] d IH]; [reflexivity|]. unfold x_each in *. cbn [map fst snd]. rewrite H. cbn [option_map all_some]. now rewrite IH.
Qed.
Lemma x_python : python_ok x_call x_outside.
Proof.
  split; try reflexivity.
  - intros V g d IV H. unfold x_outside, x_other. destruct V; try contradiction; [|destruct V; try contradiction]; rewrite same_text_refl, H; reflexivity.
  - intros V g d IV _ H. unfold x_outside, x_other. cbn [post_tree]. unfold per_key, name.
    destruct V; try contradiction; [|destruct V; try contradiction];
    rewrite !same_text_refl, H, (x_each_map _ VDict (fun e => VList (map fst e))) by reflexivity; reflexivity.
  - intros V g d IV _ H. unfold x_outside, x_other. cbn [post_tree]. unfold per_key, name.
    destruct V; try contradiction; [|destruct V; try contradiction];
    rewrite !same_text_refl, H; change (same_text (T "len") (T "list")) with false; cbv iota;
    rewrite (x_each_map _ VSet (fun e => VInt (Z.of_nat (length e)))) by reflexivity; reflexivity.
Qed.
Lemma x_class : class_ok x_classes x_params (T "AggData_1") 7.
Proof.
  split.
  - intros [X|[]]. vm_compute in X. discriminate X.
  - split; [|split].
    + intros [O|(j & O)]; [|vm_compute in O; discriminate O]. cbn in O. repeat (destruct O as [O|O]; [vm_compute in O; discriminate O|]). exact O.
    + intros X. vm_compute in X. discriminate X.
    + intros O. cbn in O. repeat (destruct O as [O|O]; [vm_compute in O; discriminate O|]). exact O.
  - reflexivity.
Qed.
Lemma x_stand mode : all_stand ascii_printable e_gname (fun _ => 0) mode tallies (x_its mode) x_reds.
Proof.
  split; [reflexivity|]. intros p it r H1 H2.
  do 8 (destruct p as [|p];
    [injection H1 as <-; injection H2 as <-; split; [vm_compute; reflexivity|reflexivity|reflexivity|reflexivity|split; [|exact I]];
     intros t Ht; cbn in Ht; repeat (destruct Ht as [<-|Ht]); try contradiction Ht; destruct mode; vm_compute; reflexivity|]).
  destruct p; discriminate H1.
Qed.
Ltac not_own := let O := fresh in let j := fresh in
  intros [O|(j & O)]; [cbn in O; repeat (destruct O as [O|O]; [vm_compute in O; discriminate O|]); exact O|vm_compute in O; discriminate O].
Lemma x_row_names x : plain_names (T "_none_1") true (x_tree (e_item x)).
Proof.
  intros y I. cbn in I. destruct I as [I|[]]. apply AName_inj in I. subst y.
  split; [not_own|]. repeat split; try (intros X; vm_compute in X; discriminate X).
Qed.
Lemma x_this_names : plain_names (T "_none_1") true (x_tree (e_name "row_")).
Proof.
  intros y I. cbn in I. destruct I as [I|[]]. apply AName_inj in I. subst y.
  split; [not_own|]. repeat split; try (intros X; vm_compute in X; discriminate X).
Qed.
Lemma x_rate_names : plain_names (T "_none_1") false (x_tree (e_name "rate")).
Proof.
  intros y I. cbn in I. destruct I as [I|[]]. apply AName_inj in I. subst y.
  split; [not_own|]. repeat split; intros X; vm_compute in X; discriminate X.
Qed.
Lemma x_extras l : Forall2 (fun f a => forall row, f row = value x_globals x_call x_outside x_params x_args a row) (map x_value l) (map x_tree l).
Proof. induction l as [|e l IH]; constructor; [reflexivity|exact IH]. Qed.
Lemma x_meant mode : meant e_gname (fun _ => 0) x_globals x_call x_outside x_sem (T "_none_1") x_params x_args (x_its mode) x_reds.
Proof.
  intros p it r H1 H2.
  do 8 (destruct p as [|p]; [injection H1 as <-; injection H2 as <-; split;
    [split; [reflexivity|reflexivity|apply x_extras|exact I|first [exact I|exact (fun row => eq_refl)]]|
     split; [apply x_row_names|first [constructor 1; fail|exact (Forall_nil _)|exact (Forall_cons _ x_this_names (Forall_nil _))|exact (Forall_cons _ (x_row_names _) (Forall_nil _))]|exact I|first [exact I|apply x_row_names]|intros; discriminate]]|]).
  destruct p; discriminate H1.
Qed.
Lemma x_denote mode : defaults_denote x_globals x_call x_outside (T "_none_1") x_params x_args (x_its mode) (default_trees e_gname (fun _ => 0) x_defaults).
Proof.
  intros p it H. do 8 (destruct p as [|p]; [injection H as <-; split; [reflexivity|]; first [apply x_rate_names|intros y []]|]).
  destruct p; discriminate H.
Qed.
Lemma x_same mode : same_code_same_keys (x_its mode) x_trees.
Proof.
  intros p q it it' H1 H2 E.
  assert (N : forall n it, n <> 6 -> nth_error (x_its mode) n = Some it -> missing_for (p_op (x_trees n)) = None).
  { intros n i D H. do 8 (destruct n as [|n]; [reflexivity || (exfalso; now apply D)|]). destruct n; discriminate H. }
  assert (U : forall n i j, nth_error (x_its mode) n = Some i -> nth_error (x_its mode) 6 = Some j -> hash i = hash j -> n = 6).
  { intros n i j H H6 D. injection H6 as <-. do 8 (destruct n as [|n]; [first [reflexivity|exfalso; injection H as <-; destruct mode; vm_compute in D; discriminate D]|]). destruct n; discriminate H. }
  destruct (Nat.eq_dec p 6) as [->|Np], (Nat.eq_dec q 6) as [->|Nq]; [reflexivity| | |].
  - destruct Nq. exact (U q it' it H2 H1 (eq_sym E)).
  - destruct Np. exact (U p it it' H1 H2 E).
  - now rewrite (N p it Np H1), (N q it' Nq H2).
Qed.
Lemma x_is_keys : Forall2 (is_key x_globals x_call x_outside (T "_none_1") x_params x_args) (map x_value x_keys) (map x_tree x_keys).
Proof. do 2 (constructor; [split; [reflexivity|apply x_row_names]|]). constructor. Qed.
Lemma x_frame_ok mode o : frame_ok (x_frame mode o) None.
Proof.
  split; try reflexivity.
  - repeat constructor.
  - cbn. repeat constructor; cbn; intros [H|[]] || intros []; discriminate H.
Qed.
Lemma x_tuple_ok mode : output_ok (readable e_gname (fun _ => 0)) x_tree (T "_none_1") x_params mode 8 x_tuple.
Proof.
  apply ok_made; [discriminate|]. intros o I. cbn in I.
  repeat (destruct I as [<-|I]; [apply ok_place; cbn; lia|]). destruct I.
Qed.
Lemma x_word_ok mode w : is_str (T w) = true ->
  output_ok (readable e_gname (fun _ => 0)) x_tree (T "_none_1") x_params mode 8 (x_word w).
Proof. intros H. apply ok_fixed; [exact H|intros x []]. Qed.
Lemma x_dict_ok : output_ok (readable e_gname (fun _ => 0)) x_tree (T "_none_1") x_params false 8 x_dict.
Proof.
  apply ok_made; [reflexivity|]. intros o I. cbn [In] in I.
  destruct I as [<-|[<-|[<-|[<-|[<-|[<-|[<-|[<-|[<-|[<-|[]]]]]]]]]]]; try (apply x_word_ok; reflexivity).
  - now apply ok_place.
  - apply ok_fixed; [reflexivity|intros x []].
  - apply ok_made; [exact I|]. intros o [<-|[]]. now apply ok_place.
  - apply x_tuple_ok.
  - apply ok_fixed; [reflexivity|apply x_rate_names].
  - apply ok_made; [|intros o [<-|[]]; apply ok_place; cbn; lia].
    split; [reflexivity|]. split; [not_own|]. repeat split; try (intros X; vm_compute in X; discriminate X).
    intros [X|[]]. vm_compute in X. discriminate X.
Qed.
Notation x_run := (run_function x_globals x_call x_classes x_outside (T "data_" :: x_params)).
(** two groups; in the second one a is 0, so that default= is given *)
Definition x_out : list val :=
  [ VDict [ (VStr "key", VInt 1); (VInt 5, VList [VNone]);
      (VStr "of", VTuple [VInt 8; VInt 8; VList [VInt 2; VInt 4]; x_row (VInt 1) VNone (VInt 5) (VInt 2); VList [VInt 2; VInt 4]; VInt 4;
        VDict [(VInt 5, VList [VInt 2]); (VInt 3, VList [VInt 4]); (VInt 0, VList [VInt 2])]; VDict [(VNone, VInt 2)]]);
      (VStr "rate", VInt 7); (VStr "size", VInt 2) ];
    VDict [ (VStr "key", VInt 2); (VInt 5, VList [VNone]);
      (VStr "of", VTuple [VInt 0; VInt 0; VNone; x_row (VInt 2) VNone (VInt 0) (VInt 9); VList [VInt 9]; VInt 7;
        VDict [(VInt 0, VList [VInt 9])]; VDict [(VNone, VInt 1)]]);
      (VStr "rate", VInt 7); (VStr "size", VInt 1) ] ].
Example C55_group_by_case : exists t body,
  group_source (x_frame false x_dict) (T "AggData_1") (map x_print x_keys) (map x_code x_reds) = Some t /\
  defines t (T "group_by_") (T "data_" :: x_params) body /\
  x_run body x_rows x_args = Ok (Some (RVal (VList x_out))).
Proof.
  destruct (index_items (x_its false) 0 0 []) as [vars ms] eqn:E.
  assert (LM : length ms = 7) by (change ms with (snd (vars, ms)); rewrite <- E; vm_compute; reflexivity).
  destruct (C55_group_by_rows_partial ascii_printable e_gname (fun _ => 0) ascii_ok x_globals x_call x_classes x_outside tallies x_sem (x_its false) x_reds x_defaults
    (x_frame false x_dict) (T "AggData_1") x_keys (map x_value x_keys) x_dict vars ms x_args
    tallies_inj (x_stand false) ltac:(discriminate) E (x_frame_ok false x_dict) eq_refl ltac:(discriminate) eq_refl eq_refl
    x_dict_ok eq_refl x_module ltac:(rewrite LM; exact x_class) x_python eq_refl
    (x_meant false) (x_denote false) (x_same false) x_is_keys) as (t & body & S & D & R).
  exists t, body. split; [exact S|]. split; [exact D|].
  destruct (group_by x_sem (map x_value x_keys) (x_its false) x_rows) as [[groups|]|] eqn:G; [| |]; try (exfalso; vm_compute in G; discriminate G).
  apply (R x_rows groups x_out G). vm_compute in G. injection G as <-. vm_compute. reflexivity.
Qed.

(** c.group_by(k, j).aggregate((k + Sum(a), c.if_(Sum(a) > 3, Array(b)[1], None),
    c.or_(Sum(a), Max(b)), -Max(b), c.not_(Sum(a)), (Max(b) * rate) == 28)): in the second group
    there is no array to take an item of *)
Definition x_ops : output := Made STuple
  [ Made (SBin (T "+")) [Place (Key (Some 0)); Place (Red 0)];
    Made SIf [Made (SBin (T ">")) [Place (Red 0); Fixed (PLit (LInt 3))]; Made SItem [Place (Red 2); Fixed (PLit (LInt 1))]; Fixed (PLit LNone)];
    Made (SBool true) [Place (Red 0); Place (Red 5)]; Made SNeg [Place (Red 5)]; Made SNot [Place (Red 0)];
    Made (SBin (T "==")) [Made (SBin (T "*")) [Place (Red 5); Fixed (e_name "rate")]; Fixed (PLit (LInt 28))] ].
Lemma x_ops_ok : output_ok (readable e_gname (fun _ => 0)) x_tree (T "_none_1") x_params false 8 x_ops.
Proof.
  assert (RE : forall p, p < 8 -> output_ok (readable e_gname (fun _ => 0)) x_tree (T "_none_1") x_params false 8 (Place (Red p))).
  { intros p L. now apply ok_place. }
  assert (FI : forall l, readable e_gname (fun _ => 0) (PLit l) = true -> (forall x, ~ In (AName x) (uses (lit_tree l))) ->
    output_ok (readable e_gname (fun _ => 0)) x_tree (T "_none_1") x_params false 8 (Fixed (PLit l))).
  { intros l R N. apply ok_fixed; [exact R|]. intros x I. now apply N in I. }
  apply ok_made; [discriminate|]. intros o I. cbn [In] in I. destruct I as [<-|[<-|[<-|[<-|[<-|[<-|[]]]]]]].
  - apply ok_made; [split; [cbn; tauto|reflexivity]|]. intros o [<-|[<-|[]]]; [now apply ok_place|apply RE; lia].
  - apply ok_made; [reflexivity|]. intros o [<-|[<-|[<-|[]]]].
    + apply ok_made; [split; [cbn; tauto|reflexivity]|]. intros o [<-|[<-|[]]]; [apply RE; lia|apply FI; [reflexivity|intros x []]].
    + apply ok_made; [split; [reflexivity|exact I]|]. intros o [<-|[<-|[]]]; [apply RE; lia|apply FI; [reflexivity|intros x []]].
    + apply FI; [reflexivity|intros x []].
  - apply ok_made; [cbn; lia|]. intros o [<-|[<-|[]]]; apply RE; lia.
  - apply ok_made; [reflexivity|]. intros o [<-|[]]; apply RE; lia.
  - apply ok_made; [reflexivity|]. intros o [<-|[]]; apply RE; lia.
  - apply ok_made; [split; [cbn; tauto|reflexivity]|]. intros o [<-|[<-|[]]]; [|apply FI; [reflexivity|intros x []]].
    apply ok_made; [split; [cbn; tauto|reflexivity]|]. intros o [<-|[<-|[]]]; [apply RE; lia|]. apply ok_fixed; [reflexivity|apply x_rate_names].
Qed.
Definition x_ops_out : list val :=
  [ VTuple [VInt 9; VInt 4; VInt 8; VInt (-4); VBool false; VBool true];
    VTuple [VInt 2; VNone; VInt 7; VInt (-7); VBool true; VBool false] ].
Example C55_operators_case : exists t body,
  group_source (x_frame false x_ops) (T "AggData_1") (map x_print x_keys) (map x_code x_reds) = Some t /\
  defines t (T "group_by_") (T "data_" :: x_params) body /\
  x_run body x_rows x_args = Ok (Some (RVal (VList x_ops_out))).
Proof.
  destruct (index_items (x_its false) 0 0 []) as [vars ms] eqn:E.
  assert (LM : length ms = 7) by (change ms with (snd (vars, ms)); rewrite <- E; vm_compute; reflexivity).
  destruct (C55_group_by_rows_partial ascii_printable e_gname (fun _ => 0) ascii_ok x_globals x_call x_classes x_outside tallies x_sem (x_its false) x_reds x_defaults
    (x_frame false x_ops) (T "AggData_1") x_keys (map x_value x_keys) x_ops vars ms x_args
    tallies_inj (x_stand false) ltac:(discriminate) E (x_frame_ok false x_ops) eq_refl ltac:(discriminate) eq_refl eq_refl
    x_ops_ok eq_refl x_module ltac:(rewrite LM; exact x_class) x_python eq_refl
    (x_meant false) (x_denote false) (x_same false) x_is_keys) as (t & body & S & D & R).
  exists t, body. split; [exact S|]. split; [exact D|].
  destruct (group_by x_sem (map x_value x_keys) (x_its false) x_rows) as [[groups|]|] eqn:G; [| |]; try (exfalso; vm_compute in G; discriminate G).
  apply (R x_rows groups x_ops_out G). vm_compute in G. injection G as <-. vm_compute. reflexivity.
Qed.
Example C55_operators_text : x_result false x_ops = T "((signature_[0] + (0 if agg_data_.v0 is _none else agg_data_.v0)),((None if agg_data_.v1 is _none else agg_data_.v1)[1] if ((0 if agg_data_.v0 is _none else agg_data_.v0) > 3) else None),((0 if agg_data_.v0 is _none else agg_data_.v0) or (rate if agg_data_.v4 is _none else agg_data_.v4)),(-(rate if agg_data_.v4 is _none else agg_data_.v4)),(not (0 if agg_data_.v0 is _none else agg_data_.v0)),(((rate if agg_data_.v4 is _none else agg_data_.v4) * rate) == 28),)".
Proof. vm_compute. reflexivity. Qed.

Definition x_total : val :=
  VTuple [VInt 8; VInt 8; VList [VInt 2; VInt 4]; x_row (VInt 1) VNone (VInt 5) (VInt 2); VList [VInt 2; VInt 9; VInt 4]; VInt 4;
    VDict [(VInt 5, VList [VInt 2]); (VInt 0, VList [VInt 9; VInt 2]); (VInt 3, VList [VInt 4])]; VDict [(VNone, VInt 3)]].
Example C55_aggregate_case : exists t body,
  aggregate_source (x_frame true x_tuple) (map x_code x_reds) = Some t /\
  defines t (T "group_by_") (T "data_" :: x_params) body /\
  x_run body x_rows x_args = Ok (Some (RVal x_total)).
Proof.
  destruct (index_items (x_its true) 0 0 []) as [vars ms] eqn:E.
  destruct (C55_aggregate_rows_partial ascii_printable e_gname (fun _ => 0) ascii_ok x_globals x_call x_classes x_outside tallies x_sem (x_its true) x_reds x_defaults
    (x_frame true x_tuple) x_tuple vars ms x_args
    tallies_inj (x_stand true) ltac:(discriminate) E (x_frame_ok true x_tuple) eq_refl
    (x_tuple_ok true) eq_refl x_module x_python eq_refl
    (x_meant true) (x_denote true) (x_same true)) as (t & body & S & D & R).
  exists t, body. split; [exact S|]. split; [exact D|].
  destruct (aggregate x_sem (x_its true) x_rows) as [[xs|]|] eqn:G; [| |]; try (exfalso; vm_compute in G; discriminate G).
  apply (R x_rows xs x_total G). vm_compute in G. injection G as <-. vm_compute. reflexivity.
Qed.

(** the same group_by with .sort(key=size_of): the second group has the smaller size *)
Definition x_size (v : val) : val := match v with VDict d => match dfind d (VStr "size") with Some n => n | None => VNone end | _ => VNone end.
Example C55_group_by_sorted_case : exists t body,
  group_source (sorted_frame (x_frame false x_dict) (Some (T "size_of")) false) (T "AggData_1") (map x_print x_keys) (map x_code x_reds) = Some t /\
  defines t (T "group_by_") (T "data_" :: x_params) body /\
  exists out, Spec_Coll.sorted_by x_size false x_out out /\ x_run body x_rows x_args = Ok (Some (RVal (VList out))).
Proof.
  destruct (index_items (x_its false) 0 0 []) as [vars ms] eqn:E.
  assert (LM : length ms = 7) by (change ms with (snd (vars, ms)); rewrite <- E; vm_compute; reflexivity).
  destruct (C55_group_by_sorted_partial ascii_printable e_gname (fun _ => 0) ascii_ok x_globals x_call x_classes x_outside tallies x_sem (x_its false) x_reds x_defaults
    (x_frame false x_dict) (T "AggData_1") x_keys (map x_value x_keys) x_dict vars ms x_args (Some (T "size_of")) false
    tallies_inj (x_stand false) ltac:(discriminate) E (x_frame_ok false x_dict) eq_refl ltac:(discriminate) eq_refl eq_refl
    x_dict_ok eq_refl x_module ltac:(rewrite LM; exact x_class) x_python eq_refl
    (x_meant false) (x_denote false) (x_same false) x_is_keys) as (t & body & S & D & R).
  { split; [reflexivity|]. split; [not_own|]. split; [intros X; vm_compute in X; discriminate X|]. intros [X|[]]. vm_compute in X. discriminate X. }
  exists t, body. split; [exact S|]. split; [exact D|].
  destruct (group_by x_sem (map x_value x_keys) (x_its false) x_rows) as [[groups|]|] eqn:G; [| |]; try (exfalso; vm_compute in G; discriminate G).
  apply (R x_rows groups x_out x_size G).
  - vm_compute in G. injection G as <-. vm_compute. reflexivity.
  - intros x [<-|[<-|[]]]; reflexivity.
  - intros x y [<-|[<-|[]]] [<-|[<-|[]]]; (split; [eexists; reflexivity|]); (split; [intros H; (discriminate H || reflexivity)|]);
      intros z [<-|[<-|[]]] H1 H2; try discriminate H1; try discriminate H2; reflexivity.
Qed.
(** c.aggregate([Max(b) filtered by a, Sum(a), c.input_arg("rate")]).sort(reverse=True) *)
Definition x_list : output := Made SList [Place (Red 5); Place (Red 0); Fixed (e_name "rate")].
Example C55_aggregate_sorted_case : exists t body,
  aggregate_source (sorted_frame (x_frame true x_list) None true) (map x_code x_reds) = Some t /\
  defines t (T "group_by_") (T "data_" :: x_params) body /\
  exists out, Spec_Coll.sorted_by (fun v => v) true [VInt 4; VInt 8; VInt 7] out /\ x_run body x_rows x_args = Ok (Some (RVal (VList out))).
Proof.
  destruct (index_items (x_its true) 0 0 []) as [vars ms] eqn:E.
  destruct (C55_aggregate_sorted_partial ascii_printable e_gname (fun _ => 0) ascii_ok x_globals x_call x_classes x_outside tallies x_sem (x_its true) x_reds x_defaults
    (x_frame true x_list) x_list vars ms x_args None true
    tallies_inj (x_stand true) ltac:(discriminate) E (x_frame_ok true x_list) eq_refl) as (t & body & S & D & R); try reflexivity.
  - apply ok_made; [exact I|]. intros o [<-|[<-|[<-|[]]]]; try (apply ok_place; vm_compute; lia). apply ok_fixed; [reflexivity|apply x_rate_names].
  - exact x_module.
  - exact x_python.
  - apply (x_meant true).
  - apply (x_denote true).
  - apply (x_same true).
  - exists t, body. split; [exact S|]. split; [exact D|].
    destruct (aggregate x_sem (x_its true) x_rows) as [[xs|]|] eqn:G; [| |]; try (exfalso; vm_compute in G; discriminate G).
    refine (R x_rows xs (VList [VInt 4; VInt 8; VInt 7]) G _ (fun v => v) _ _).
    + vm_compute in G. injection G as <-. vm_compute. reflexivity.
    + intros x _. reflexivity.
    + intros x y X Y. cbn in X, Y. split; [destruct X as [<-|[<-|[<-|[]]]]; destruct Y as [<-|[<-|[<-|[]]]]; eexists; reflexivity|].
      split; [destruct X as [<-|[<-|[<-|[]]]]; destruct Y as [<-|[<-|[<-|[]]]]; intros H; (discriminate H || reflexivity)|].
      intros z Z H1 H2. cbn in Z. destruct X as [<-|[<-|[<-|[]]]]; destruct Y as [<-|[<-|[<-|[]]]]; try discriminate H1;
        destruct Z as [<-|[<-|[<-|[]]]]; try discriminate H2; reflexivity.
Qed.

(** *** where an input argument has the name of a variable of the function *)
(** c.aggregate((Array(c.input_arg("checksum_")),)) called with checksum_=100 on two rows
    gives ([0, 1],): the argument is overwritten by the variable of the function. *)
Definition y_reds : list dred := [mkDRed (DBuiltin Array) None None (e_name "checksum_") [] true].
Definition y_its : list (Model_Aggregate.item val) :=
  [mkItem (mkReduce (Builtin Array) (fun _ => Ok (VInt 100)) [] None None None false) None (tallies (hash_at true 0 (t_code (x_code (hd (mkDRed (DBuiltin Count) None None (e_name "x") [] true) y_reds)))))].
Definition y_result : px := POp OTuple [e_name "agg_data_v0_"].
Definition y_frame : Model_AggSource.frame := mkFrame (T "aggregate_") [T "checksum_"] (T "_none_1") (x_print y_result) (T "").
Theorem C55_argument_overwritten_refuted : exists t body,
  aggregate_source y_frame (map x_code y_reds) = Some t /\
  defines t (T "aggregate_") [T "data_"; T "checksum_"] body /\
  run_function x_globals x_call x_classes x_outside [T "data_"; T "checksum_"] body [VNone; VNone] [VInt 100] =
    Ok (Some (RVal (VTuple [VList [VInt 0; VInt 1]]))).
Proof.
  assert (ST : all_stand ascii_printable e_gname (fun _ => 0) true tallies y_its y_reds).
  { split; [reflexivity|]. intros [|[|p]] it r H1 H2; try discriminate H1. injection H1 as <-; injection H2 as <-.
    split; [vm_compute; reflexivity|reflexivity|reflexivity|reflexivity|split; [|exact I]].
    intros t Ht. cbn in Ht. repeat (destruct Ht as [<-|Ht]); try contradiction Ht. vm_compute. reflexivity. }
  assert (F : frame_ok y_frame None).
  { split; try reflexivity.
    - repeat constructor.
    - cbn. repeat constructor; cbn; intros [H|[]] || intros []; discriminate H. }
  assert (R : reads (a_result y_frame) (x_tree y_result)) by (apply readable_reads; [exact ascii_ok|reflexivity]).
  destruct (aggregate_defined ascii_printable e_gname (fun _ => 0) ascii_ok tallies y_its y_reds y_frame (x_tree y_result) None _ _ tallies_inj ST
    ltac:(discriminate) eq_refl F R) as (t & S & D).
  exists t. eexists. split; [exact S|]. split; [exact D|]. vm_compute. reflexivity.
Qed.
Print Assumptions C55_argument_overwritten_refuted.
