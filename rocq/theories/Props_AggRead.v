(** C54: what Python reads in the source text of an aggregation: the program of
    Spec_AggProgram.v, over the blocks of the model of the loops (Model_Aggregate.v). *)
From Coq Require Import String Ascii List NArith ZArith Bool Arith Lia Permutation.
From Verif Require Import Model_PyVal Model_Reducers Model_Aggregate Model_Code Model_AggText Model_AggSource
  Spec_AggText Spec_Syntax Spec_Tree Spec_Stmt Spec_FuncText Spec_AggProgram
  Proofs_Aggregate Proofs_Syntax Proofs_Lex Proofs_Tree Proofs_AggExpr Proofs_AggRead Proofs_AggBlocks Proofs_AggFunc Proofs_AggWf
  Props_AggText Props_Syntax.
From Verif Require Proofs_SourceText.
Import ListNotations.
Notation code := Proofs_AggExpr.code.

(** A reduce with the generated expressions of its parts. *)
Inductive dop : Type := DBuiltin (b : builtin) | DFunc (f : text).
Record dred : Type := mkDRed {
  d_op : dop; d_cond : option px; d_initial : option px; d_expr : px; d_extras : list px; d_uncond : bool }.

Lemma Forall2_len {A B} (R : A -> B -> Prop) l l' : Forall2 R l l' -> length l = length l'.
Proof. induction 1; cbn; auto. Qed.

Section Read.
  Variable printable : N -> bool.          (* str.isprintable *)
  Variable gname : nat -> text.
  Variable pnum : list nat -> nat.
  Hypothesis PO : printable_ok printable.
  Notation print := (print (py_repr printable) gname pnum).
  Notation tree := (tree gname pnum).
  Notation readable := (readable gname pnum).

  (** as text, and as Python's trees *)
  Definition red_code (r : dred) : tred :=
    mkTRed (mkCode (match d_op r with DBuiltin b => Stmts b | DFunc f => Func f end)
                   (option_map print (d_cond r)) (option_map print (d_initial r))
                   (print (d_expr r)) (map print (d_extras r))) (d_uncond r).
  Definition red_tree (r : dred) : ared :=
    mkARed (match d_op r with DBuiltin b => ABuiltin b | DFunc f => AFunc f end)
           (option_map tree (d_cond r)) (option_map tree (d_initial r))
           (tree (d_expr r)) (map tree (d_extras r)).
  Definition opt_ok {A} (P : A -> bool) (o : option A) : bool := match o with Some e => P e | None => true end.
  (** the expressions can be read; the additional argument is there when the
      reducer uses one; a reducer that indexes its accumulator is not given an int
      to start from (5[0] would be a syntax error) *)
  Definition red_ok (r : dred) : bool :=
    readable (d_expr r) && forallb readable (d_extras r) && opt_ok readable (d_cond r) && opt_ok readable (d_initial r) &&
    match d_op r with
    | DBuiltin b => (negb (needs_extra b) || negb (match d_extras r with [] => true | _ => false end)) &&
                    (negb (needs_primary b) || opt_ok (fun e => negb (is_int e)) (d_initial r))
    | DFunc f => ident f
    end.

  Lemma print_code e : readable e = true -> code (negb (is_int e)) (print e) (tree e).
  Proof.
    intros R. destruct (readable_good printable gname pnum PO e R) as [ts G]. exists ts. constructor.
    - apply G.
    - constructor; [apply G| |apply G]. pose proof (g_tok _ _ _ _ _ G) as H. unfold plain. destruct ts as [|[] ts]; auto.
    - intros E. apply negb_true_iff in E. constructor; [now apply G| |apply G].
      pose proof (g_tok _ _ _ _ _ G) as H. destruct ts as [|[] ts]; auto. congruence.
  Qed.
  Lemma code_off d t a : code d t a -> code false t a.
  Proof. destruct d; [apply code_weaken|auto]. Qed.
  Lemma print_off e : readable e = true -> code false (print e) (tree e).
  Proof. intros R. eapply code_off, print_code, R. Qed.

  Lemma red_codes r : red_ok r = true -> codes_of (t_code (red_code r)) (red_tree r).
  Proof.
    unfold red_ok. rewrite !andb_true_iff. intros [[[[He Hx] Hc] Hi] Ho].
    constructor; cbn [t_code red_code r_op r_expr r_extras r_cond r_initial red_tree p_op p_cond p_initial p_expr p_extras].
    - destruct (d_op r) as [b|f]; [|now split]. split; [reflexivity|]. intros N E. apply map_eq_nil in E. rewrite E, N in Ho. discriminate Ho.
    - now apply print_off.
    - revert Hx. clear - PO. induction (d_extras r) as [|x l IH]; cbn [map forallb]; intros H; constructor.
      + apply print_off. now apply andb_true_iff in H.
      + apply IH. now apply andb_true_iff in H.
    - destruct (d_cond r) as [c|]; cbn [option_map]; [|exact I]. now apply readable_reads.
    - destruct (d_initial r) as [i|]; cbn [option_map]; [|exact I]. exists (negb (is_int i)). split; [now apply print_code|].
      intros b E N. destruct (d_op r) as [b'|f]; [|discriminate E]. injection E as ->. rewrite N in Ho. cbn [negb orb opt_ok] in Ho.
      now rewrite andb_true_iff in Ho.
  Qed.
  Lemma ident_word f : ident f = true -> is_word f.
  Proof.
    intros H. unfold ident in H. destruct f as [|c f]; [discriminate H|]. split; [discriminate|]. cbn [wordy] in H.
    rewrite !andb_true_iff in H. destruct H as [[Hc Hf] _].
    assert (W : forall c, is_ident c = true -> wordc c = true).
    { intros x. unfold is_ident, is_alpha, is_digit, wordc. rewrite !orb_true_iff. tauto. }
    cbn [forallb]. rewrite W by (unfold is_ident; rewrite Hc; reflexivity). cbn [andb].
    rewrite forallb_forall in *. intros x I. apply W. now apply Hf.
  Qed.
  Lemma red_wf r : red_ok r = true -> well_formed (t_code (red_code r)).
  Proof.
    unfold red_ok. rewrite !andb_true_iff. intros [[[[He Hx] Hc] Hi] Ho].
    assert (RT : forall e, readable e = true -> expression_text (print e)).
    { intros e R. eapply reads_text. apply readable_reads; [exact PO|exact R]. }
    split.
    - intros t I. unfold parts in I. cbn [t_code red_code r_op r_expr r_extras r_cond r_initial] in I.
      destruct I as [<-|I]; [now apply RT|]. apply in_app_or in I as [I|I].
      { apply in_map_iff in I as (x & <- & I). apply RT. rewrite forallb_forall in Hx. auto. }
      apply in_app_or in I as [I|I].
      + destruct (d_cond r); cbn in I; [destruct I as [<-|[]]; auto|contradiction].
      + destruct (d_initial r); cbn in I; [destruct I as [<-|[]]; auto|contradiction].
    - cbn [t_code red_code r_op r_extras]. destruct (d_op r) as [b|f]; [|now apply ident_word].
      apply andb_true_iff in Ho as [Ho _]. destruct b; cbn [needs_extra negb orb] in Ho;
        first [right; cbn; tauto | left; destruct (d_extras r); [discriminate Ho|discriminate]].
  Qed.

  (** *** the aggregations *)
  Section Agg.
    Context {Row : Type}.
    Variable mode : bool.
    Variable str : text -> string.
    (** [its], the reduces of the model of the loops, are [reds]: same text of the
        condition, same hash, same kind of start.  The text of the variable of a
        reduce does not occur in its expressions. *)
    Record stands_for (p : nat) (it : Model_Aggregate.item Row) (r : dred) : Prop := {
      st_ok : red_ok r = true;
      st_hash : Model_Aggregate.hash it = str (hash_at mode p (t_code (red_code r)));
      st_cond : ccode it = option_map (fun c => str (print c)) (d_cond r);
      st_uncond : uncond (obj it) = d_uncond r;
      st_free : free_of (agg_var mode p) (t_code (red_code r)) }.
    Definition all_stand (its : list (Model_Aggregate.item Row)) (reds : list dred) : Prop :=
      length its = length reds /\
      forall p it r, nth_error its p = Some it -> nth_error reds p = Some r -> stands_for p it r.
    Definition dummy : ared := mkARed (ABuiltin Count) None None none [].
    Definition trees (reds : list dred) (p : nat) : ared :=
      match nth_error reds p with Some r => red_tree r | None => dummy end.

    Lemma all_matches_at reds0 its reds : forall p, length its = length reds ->
      (forall q it r, nth_error its q = Some it -> nth_error reds q = Some r ->
         stands_for (p + q) it r /\ trees reds0 (p + q) = red_tree r) ->
      all_match mode str (trees reds0) p its (map red_code reds).
    Proof.
      revert reds. induction its as [|it its IH]; intros [|r reds] p L H; try discriminate L; cbn [map]; constructor.
      - destruct (H 0 it r eq_refl eq_refl) as [S E]. rewrite Nat.add_0_r in S, E. constructor.
        + apply S.
        + rewrite (st_cond _ _ _ S). cbn [t_code red_code r_cond]. now destruct (d_cond r).
        + apply S.
        + apply red_wf, S.
        + apply S.
        + rewrite E. apply red_codes, S.
      - apply IH; [now injection L|]. intros q it' r' H1 H2. rewrite <- Nat.add_succ_comm || replace (S p + q) with (p + S q) by lia.
        apply (H (S q)); auto.
    Qed.
    Lemma all_matches its reds : all_stand its reds -> all_match mode str (trees reds) 0 its (map red_code reds).
    Proof.
      intros [L H]. apply all_matches_at; [exact L|]. intros q it r H1 H2. split; [now apply H|]. cbn [Nat.add]. unfold trees. now rewrite H2.
    Qed.
  End Agg.

  Lemma lor_sum l : forall a, fold_left N.lor l a = N.lor a (fold_right N.lor 0%N l).
  Proof.
    induction l as [|b l IH]; intros a; cbn [fold_left fold_right]; [now rewrite N.lor_0_r|]. rewrite IH. now rewrite N.lor_assoc.
  Qed.
  Lemma number_ne {Row} (its : list (Model_Aggregate.item Row)) vars ms :
    its <> [] -> index_items its 0 0 [] = (vars, ms) -> ms <> [].
  Proof.
    intros N E. destruct its as [|it its]; [contradiction|]. cbn [index_items find] in E.
    destruct (index_items its 1 1 ([] ++ [(Model_Aggregate.hash it, 0)])). injection E as <- <-. discriminate.
  Qed.

  (** The source of a group_by is read as the program: one loop over the rows with
      the blocks of the model of the loop, then the list of the results. *)
  Theorem C54_group_by_partial :
    forall {Row} (str : text -> string) (its : list (Model_Aggregate.item Row)) reds f cls keys result sorting vars ms,
    (forall t t', str t = str t' -> t = t') ->
    all_stand false str its reds -> its <> [] -> index_items its 0 0 [] = (vars, ms) ->
    frame_ok f sorting -> ident cls = true -> keys <> [] -> forallb readable keys = true ->
    a_result f = print result -> readable result = true ->
    exists t, group_source f cls (map print keys) (map red_code reds) = Some t /\
      defines t (a_name f) (T "data_" :: a_params f)
        (group_program (a_none f) cls (keys_tree (map tree keys)) (body_stmts false (trees reds) (build ms)) (tree result) sorting).
  Proof.
    intros Row str its reds f cls keys result sorting vars ms INJ ST NE E F IC NK RK ER RR.
    pose proof (all_matches false str its reds ST) as M.
    destruct (number false (map red_code reds) 0 0 []) as [[vs bs] e] eqn:EN.
    destruct (numbered false str INJ (trees reds) its _ 0 M 0 [] vs bs e vars ms EN E) as (O & _).
    assert (NR : reds <> []) by (intros ->; destruct its; [now apply NE|destruct ST as [L _]; discriminate L]).
    exists (group_text f cls (map print keys) (arrange bs)). split.
    - unfold group_source. rewrite EN. now destruct reds.
    - apply group_reads; auto.
      + intros X. apply map_eq_nil in X. contradiction.
      + revert RK. clear - PO. induction keys as [|k keys IH]; cbn [map forallb]; intros H; constructor.
        * apply print_off. now apply andb_true_iff in H.
        * apply IH. now apply andb_true_iff in H.
      + rewrite ER. now apply readable_reads.
      + apply (body_reads false (trees reds)). now apply (arranged false str INJ).
  Qed.

  (** The source of an aggregate: the variables, the checksum that is waited for, a
      loop that can be left, a loop for the rows that remain. *)
  Theorem C54_aggregate_partial :
    forall {Row} (str : text -> string) (its : list (Model_Aggregate.item Row)) reds f result sorting vars ms,
    (forall t t', str t = str t' -> t = t') ->
    all_stand true str its reds -> its <> [] -> index_items its 0 0 [] = (vars, ms) ->
    frame_ok f sorting -> a_result f = print result -> readable result = true ->
    exists t, aggregate_source f (map red_code reds) = Some t /\
      defines t (a_name f) (T "data_" :: a_params f)
        (aggregate_program (a_none f) (length ms) (expected_checksum ms)
           (body_stmts true (trees reds) (build ms)) (later_body true (trees reds) (build ms)) (tree result) sorting).
  Proof.
    intros Row str its reds f result sorting vars ms INJ ST NE E F ER RR.
    pose proof (all_matches true str its reds ST) as M.
    destruct (number true (map red_code reds) 0 0 []) as [[vs bs] e] eqn:EN.
    destruct (numbered true str INJ (trees reds) its _ 0 M 0 [] vs bs e vars ms EN E) as (O & Ex & _).
    assert (NR : reds <> []) by (intros ->; destruct its; [now apply NE|destruct ST as [L _]; discriminate L]).
    pose proof (number_ne its vars ms NE E) as NM.
    exists (aggregate_text f (length bs) e (arrange bs)). split.
    - unfold aggregate_source. rewrite EN. now destruct reds.
    - assert (EX : e = expected_checksum ms).
      { rewrite Ex. unfold expected_checksum. rewrite lor_sum, N.lor_0_l. reflexivity. }
      rewrite EX. rewrite (Forall2_len _ _ _ O). destruct (body_reads true (trees reds) (arrange bs) (build ms)) as [B1 B2];
        [now apply (arranged true str INJ)|]. destruct (body_ne true (trees reds) ms NM).
      apply aggregate_reads; auto.
      + destruct ms; [contradiction|discriminate].
      + rewrite ER. now apply readable_reads.
  Qed.

  (** The results are read from the variables the model of the loops gives to the
      reduces. *)
  Theorem C54_variables_partial :
    forall {Row} mode (str : text -> string) (its : list (Model_Aggregate.item Row)) reds vars ms,
    (forall t t', str t = str t' -> t = t') ->
    all_stand mode str its reds -> index_items its 0 0 [] = (vars, ms) ->
    fst (fst (number mode (map red_code reds) 0 0 [])) = map snd vars /\
    length (snd (fst (number mode (map red_code reds) 0 0 []))) = length ms /\
    map m_var ms = seq 0 (length ms).
  Proof.
    intros Row mode str its reds vars ms INJ ST E. pose proof (all_matches mode str its reds ST) as M.
    destruct (number mode (map red_code reds) 0 0 []) as [[vs bs] e] eqn:EN.
    destruct (numbered mode str INJ (trees reds) its _ 0 M 0 [] vs bs e vars ms EN E) as (O & _ & V & S).
    cbn [fst snd]. split; [exact V|]. split; [exact (Forall2_len _ _ _ O)|exact S].
  Qed.

  (** In the blocks every reduce with a code of its own occurs once, and stands
      under its own condition. *)
  Lemma block_conds {Row} (ms : list (@member Row)) b m : In b (build ms) -> In m (members b) -> ccode (m_item m) = bcond b.
  Proof.
    destruct (sorted_fold ms (mkSorted [] [] [] []) []) as (_ & H1 & H2 & H3 & H4).
    { repeat split; simpl; auto; contradiction. }
    intros Hb Hm. unfold build, Model_Aggregate.reduce_blocks in Hb. rewrite !in_app_iff in Hb. destruct Hb as [Hb|[Hb|[Hb|Hb]]].
    - apply in_flat_map in Hb as (kl & Hkl & Hb). apply in_map_iff in Hb as (x & <- & Hx). destruct Hm as [<-|[]]. now apply (H1 kl).
    - apply in_flat_map in Hb as (kl & Hkl & Hb). destruct (snd kl) as [|x r] eqn:Es; [destruct Hb|].
      destruct Hb as [<-|[]]. cbn [bcond]. apply (H2 kl Hkl). rewrite Es. exact Hm.
    - destruct (Model_Aggregate.uncond_plain _) as [|x r]; [destruct Hb|]. destruct Hb as [<-|[]]. now apply H3.
    - apply in_map_iff in Hb as (x & <- & Hx). destruct Hm as [<-|[]]. now apply H4.
  Qed.
  Lemma index_bits {Row} (its : list (Model_Aggregate.item Row)) : forall p next seen vars ms,
    index_items its p next seen = (vars, ms) -> forall m, In m ms -> exists q, m_bit m = p + q /\ nth_error its q = Some (m_item m).
  Proof.
    induction its as [|it its IH]; intros p next seen vars ms E m I; cbn [index_items] in E.
    - injection E as <- <-. destruct I.
    - destruct (find _ seen) as [[h v]|].
      + destruct (index_items its (S p) next seen) as [vs ms'] eqn:E'. injection E as <- <-.
        destruct (IH _ _ _ _ _ E' m I) as (q & B & N). exists (S q). split; [lia|exact N].
      + destruct (index_items its (S p) (S next) (seen ++ [(Model_Aggregate.hash it, next)])) as [vs ms'] eqn:E'. injection E as <- <-. destruct I as [<-|I].
        * exists 0. cbn [m_bit m_item nth_error]. split; [lia|reflexivity].
        * destruct (IH _ _ _ _ _ E' m I) as (q & B & N). exists (S q). split; [lia|exact N].
  Qed.
  Theorem C54_blocks_partial :
    forall {Row} mode (str : text -> string) (its : list (Model_Aggregate.item Row)) reds vars ms,
    (forall t t', str t = str t' -> t = t') ->
    all_stand mode str its reds -> index_items its 0 0 [] = (vars, ms) ->
    Permutation (flat_map members (build ms)) ms /\
    (forall b m, In b (build ms) -> In m (members b) ->
       p_cond (trees reds (m_bit m)) = p_cond (trees reds (m_bit (bhead b)))).
  Proof.
    intros Row mode str its reds vars ms INJ [L ST] E. split; [apply build_perm|]. intros b m Hb Hm.
    assert (K : forall x, In x (members b) -> exists r, nth_error reds (m_bit x) = Some r /\ stands_for mode str (m_bit x) (m_item x) r /\
      ccode (m_item x) = bcond b).
    { intros x Hx. assert (Ix : In x ms).
      { apply (Permutation_in _ (build_perm ms)). apply in_flat_map. eauto. }
      destruct (index_bits its 0 0 [] vars ms E x Ix) as (q & B & N). cbn [Nat.add] in B. subst q.
      destruct (nth_error reds (m_bit x)) as [r|] eqn:R.
      - exists r. split; [reflexivity|]. split; [now apply ST|]. now apply (block_conds ms).
      - apply nth_error_None in R. assert (nth_error its (m_bit x) <> None) by congruence. apply nth_error_Some in H. lia. }
    destruct (K m Hm) as (r & R & S & C). destruct (K (bhead b) (or_introl eq_refl)) as (r' & R' & S' & C').
    unfold trees. rewrite R, R'. cbn [red_tree p_cond]. rewrite <- C' in C. rewrite (st_cond _ _ _ _ _ S), (st_cond _ _ _ _ _ S') in C.
    pose proof (st_ok _ _ _ _ _ S) as O. pose proof (st_ok _ _ _ _ _ S') as O'. unfold red_ok in O, O'. rewrite !andb_true_iff in O, O'.
    destruct (d_cond r) as [c|], (d_cond r') as [c'|]; cbn [option_map] in *; try discriminate C; [|reflexivity].
    injection C as C. apply INJ in C. f_equal. eapply reads_unique; [apply (readable_reads printable gname pnum PO); apply O|].
    rewrite C. apply readable_reads; [exact PO|apply O'].
  Qed.
End Read.
Print Assumptions C54_group_by_partial.
Print Assumptions C54_aggregate_partial.
Print Assumptions C54_variables_partial.
Print Assumptions C54_blocks_partial.

(** *** a case *)
(** c.group_by(c.item("k")).aggregate((c.item("k"), Sum(a), Sum(a), Array(b) filtered by a,
    MaxRow(a))) and the same without group_by *)
Definition e_name (x : string) : px := PName (T x).
Definition e_item (x : string) : px := POp OItem [e_name "row_"; PLit (LStr (T x))].
Definition e_reds : list dred :=
  [ mkDRed (DBuiltin Sum) None None (e_item "a") [] true;
    mkDRed (DBuiltin Sum) None None (e_item "a") [] true;
    mkDRed (DBuiltin Array) (Some (e_item "a")) None (e_item "b") [] true;
    mkDRed (DBuiltin MaxRow) None None (e_item "a") [e_name "row_"] false ].
Definition e_gname (n : nat) : text := T "g" ++ ndec (N.of_nat n).
Notation e_code := (red_code ascii_printable e_gname (fun _ => 0)).
Definition e_obj (b : builtin) : reduce_obj nat := mkReduce (Builtin b) (fun _ => Ok VNone) [] None None None false.
Definition e_it (mode : bool) (p : nat) (b : builtin) : Model_Aggregate.item nat :=
  let r := nth p e_reds (mkDRed (DBuiltin b) None None (e_name "x") [] true) in
  mkItem (e_obj b) (option_map (fun c => tallies (print (py_repr ascii_printable) e_gname (fun _ => 0) c)) (d_cond r))
         (tallies (hash_at mode p (t_code (e_code r)))).
Definition e_its (mode : bool) : list (Model_Aggregate.item nat) :=
  [e_it mode 0 Sum; e_it mode 1 Sum; e_it mode 2 Array; e_it mode 3 MaxRow].
Lemma e_stand mode : all_stand ascii_printable e_gname (fun _ => 0) mode tallies (e_its mode) e_reds.
Proof.
  split; [reflexivity|]. intros p it r H1 H2.
  do 4 (destruct p as [|p];
    [injection H1 as <-; injection H2 as <-; split; [vm_compute; reflexivity|reflexivity|reflexivity|reflexivity|split; [|exact I]];
     intros t Ht; cbn in Ht; repeat (destruct Ht as [<-|Ht]); try contradiction Ht; destruct mode; vm_compute; reflexivity|]).
  destruct p; discriminate H1.
Qed.
Definition e_frame : frame := mkFrame (T "group_by_") [T "rate"] (T "_none_1") (T "(signature_,)") (T "").
Definition e_result : px := POp OTuple [e_name "signature_"].
Lemma e_frame_ok : frame_ok e_frame None.
Proof.
  split; try reflexivity.
  - repeat constructor.
  - cbn. repeat constructor; cbn; intros [H|[]] || intros []; discriminate H.
Qed.
Definition text_of (o : option text) : string :=
  match o with Some t => fold_right (fun c s => String (Ascii.ascii_of_N c) s) EmptyString t | None => EmptyString end.
Example C54_case :
  (forall t t', tallies t = tallies t' -> t = t') /\
  (forall mode, all_stand ascii_printable e_gname (fun _ => 0) mode tallies (e_its mode) e_reds) /\
  map snd (fst (index_items (e_its false) 0 0 [])) = [0; 0; 1; 2] /\
  frame_ok e_frame None /\ readable e_gname (fun _ => 0) e_result = true /\
  a_result e_frame = print (py_repr ascii_printable) e_gname (fun _ => 0) e_result /\
  text_of (group_source e_frame (T "AggData_1") [T "row_['k']"] (map e_code e_reds)) =
"
def group_by_(data_, rate):
    global add_label_, get_by_label_
    _none = _none_1
    signature_to_agg_data_ = defaultdict(AggData_1)
    for row_ in data_:
        agg_data_ = signature_to_agg_data_[row_['k']]

        if row_['a']:
            if agg_data_.v1 is _none:
                agg_data_.v1 = [row_['b']]

            else:
                agg_data_.v1.append(row_['b'])



        if agg_data_.v0 is _none:
            agg_data_.v0 = (row_['a'] or 0)

        else:
            agg_data_.v0 += (row_['a'] or 0)



        if agg_data_.v2 is _none:
            if row_['a'] is not None:
                agg_data_.v2 = (row_['a'], row_)

        else:
            if row_['a'] is not None and agg_data_.v2[0] < row_['a']:
                agg_data_.v2 = (row_['a'], row_)


    result_ = [(signature_,) for signature_, agg_data_ in signature_to_agg_data_.items()]
    
    return result_
"%string.
Proof.
  split; [exact tallies_inj|]. split; [exact e_stand|]. split; [vm_compute; reflexivity|]. split; [exact e_frame_ok|].
  split; [reflexivity|]. split; [reflexivity|]. vm_compute. reflexivity.
Qed.
Example C54_aggregate_case :
  text_of (aggregate_source e_frame (map e_code e_reds)) =
"
def group_by_(data_, rate):
    global add_label_, get_by_label_
    _none = _none_1
    agg_data_v0_ = agg_data_v1_ = agg_data_v2_ = _none
    expected_checksum_ = 13
    checksum_ = 0
    it_ = iter(data_)
    for row_ in it_:

        if row_['a']:
            if agg_data_v1_ is _none:
                agg_data_v1_ = [row_['b']]

                if agg_data_v1_ is not _none:
                    checksum_ |= 4
                    if checksum_ == expected_checksum_:
                        break

            else:
                agg_data_v1_.append(row_['b'])



        if agg_data_v0_ is _none:
            agg_data_v0_ = (row_['a'] or 0)

            if agg_data_v0_ is not _none:
                checksum_ |= 1
                if checksum_ == expected_checksum_:
                    break

        else:
            agg_data_v0_ += (row_['a'] or 0)



        if agg_data_v2_ is _none:
            if row_['a'] is not None:
                agg_data_v2_ = (row_['a'], row_)

            if agg_data_v2_ is not _none:
                checksum_ |= 8
                if checksum_ == expected_checksum_:
                    break

        else:
            if row_['a'] is not None and agg_data_v2_[0] < row_['a']:
                agg_data_v2_ = (row_['a'], row_)


    for row_ in it_:

        if row_['a']:
            agg_data_v1_.append(row_['b'])




        agg_data_v0_ += (row_['a'] or 0)



        if row_['a'] is not None and agg_data_v2_[0] < row_['a']:
            agg_data_v2_ = (row_['a'], row_)


    result_ = (signature_,)
    
    return result_
"%string.
Proof. vm_compute. reflexivity. Qed.

(** *** where the text of a variable occurs in a constant *)
(** Sum(a), Sum(a), Array of the constant 'agg_data_.v2': the third reduce is moved
    from the variable agg_data_.v2 to agg_data_.v1, and so is its constant. *)
Definition renamed_reds : list dred :=
  [ mkDRed (DBuiltin Sum) None None (e_item "a") [] true;
    mkDRed (DBuiltin Sum) None None (e_item "a") [] true;
    mkDRed (DBuiltin Array) None None (PLit (LStr (T "agg_data_.v2"))) [] true ].
Theorem C54_constant_renamed_refuted : exists reds vars b1 b2 e,
  forallb (red_ok e_gname (fun _ => 0)) reds = true /\
  option_map d_expr (nth_error reds 2) = Some (PLit (LStr (T "agg_data_.v2"))) /\
  number false (map e_code reds) 0 0 [] = (vars, [b1; b2], e) /\
  k_two b2 = [T "agg_data_.v1.append('agg_data_.v1')"].
Proof.
  exists renamed_reds. do 4 eexists. split; [vm_compute; reflexivity|]. split; [reflexivity|].
  split; vm_compute; reflexivity.
Qed.
Print Assumptions C54_constant_renamed_refuted.
