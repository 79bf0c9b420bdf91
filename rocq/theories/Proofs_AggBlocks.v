(** The blocks of the loops of an aggregation, as text, are read as those of
    Spec_AggProgram.v over the blocks of Model_Aggregate.v. *)
From Coq Require Import String Ascii List NArith ZArith Bool Arith Lia.
From Verif Require Import Model_PyVal Model_Reducers Model_Aggregate Model_Code Model_AggText Model_AggSource
  Spec_AggText Spec_Syntax Spec_Stmt Spec_FuncText Spec_AggProgram
  Proofs_Aggregate Proofs_Syntax Proofs_Lex Proofs_AggText Proofs_AggExpr Proofs_AggRead Proofs_AggShare Props_AggText Props_Syntax.
Import ListNotations.
Notation code := Proofs_AggExpr.code.

(** *** one reduce *)
Record codes_of (q : rcode) (a : ared) : Prop := {
  o_op : match r_op q, p_op a with
         | Stmts b, ABuiltin b' => b = b' /\ (needs_extra b = true -> r_extras q <> [])
         | Func f, AFunc f' => f = f' /\ ident f = true
         | _, _ => False
         end;
  o_expr : code false (r_expr q) (p_expr a);
  o_extras : Forall2 (code false) (r_extras q) (p_extras a);
  o_cond : match r_cond q, p_cond a with Some c, Some c' => reads c c' | None, None => True | _, _ => False end;
  o_initial : match r_initial q, p_initial a with
              | Some i, Some i' => exists d, code d i i' /\ (forall b, r_op q = Stmts b -> needs_primary b = true -> d = true)
              | None, None => True
              | _, _ => False
              end }.
Lemma extras_any l la : Forall2 (code false) l la -> Forall2 (fun t a => exists d, code d t a) l la.
Proof. induction 1; constructor; eauto. Qed.

Section One.
  Variables (V : text) (v : ast).
  Hypothesis HV : code true V v.
  Hypothesis TV : is_target v.
  Hypothesis OV : hd_ok V.
  Variables (q : rcode) (a : ared).
  Hypothesis C : codes_of q a.
  Lemma extra_code : r_extras q <> [] -> code false (nth 0 (r_extras q) []) (extra_of a).
  Proof.
    intros N. unfold extra_of. pose proof (o_extras _ _ C) as F. destruct F; [contradiction|]. exact H.
  Qed.
  Lemma initial_reads : reads_as (reduce_initial q V) (first_of v a).
  Proof.
    pose proof (o_op _ _ C) as O. pose proof (o_initial _ _ C) as I.
    unfold reduce_initial, first_of. destruct (r_op q) as [b|f|s] eqn:Eo, (p_op a) as [b'|f']; try contradiction.
    - destruct O as [<- N]. destruct (r_initial q) as [i|], (p_initial a) as [i'|]; try contradiction.
      + destruct I as (d & Hi & Hd). rewrite next_filled. unfold at_pos. cbn [nth].
        apply (next_reads V _ _ v _ _ HV TV OV) with d; [apply C|exact Hi|now apply Hd|].
        intros Ne. change (code false (nth 0 (r_extras q) []) (extra_of a)). apply extra_code. auto.
      + rewrite first_filled. unfold at_pos. cbn [nth].
        apply (first_reads V _ _ v _ _ HV TV OV); [apply C|].
        intros Ne. change (code false (nth 0 (r_extras q) []) (extra_of a)). apply extra_code. auto.
    - destruct O as [<- If]. destruct (r_initial q) as [i|], (p_initial a) as [i'|]; try contradiction.
      + destruct I as (d & Hi & _). apply set_as; [now apply (code_reads true)|exact TV|exact OV|].
        unfold applied. rewrite Eo. apply (code_reads true). apply call_code; [exact If|].
        constructor; [eauto|]. constructor; [exists false; apply C|]. apply extras_any, C.
      + apply set_as; [now apply (code_reads true)|exact TV|exact OV|].
        pose proof (o_extras _ _ C) as F. inversion F as [E1 E2|t ta l la H F' E1 E2].
        * apply (code_reads false), C.
        * apply (code_reads true). apply tuple_code; [exists false; apply C|]. constructor; [eauto|]. now apply extras_any.
  Qed.
  Lemma two_reads : reads_as (reduce_two q V) (next_of v a).
  Proof.
    pose proof (o_op _ _ C) as O.
    unfold reduce_two, next_of. destruct (r_op q) as [b|f|s] eqn:Eo, (p_op a) as [b'|f']; try contradiction.
    - destruct O as [<- N]. rewrite next_filled. unfold at_pos. cbn [nth].
      apply (next_reads V _ _ v _ _ HV TV OV) with true; [apply C|exact HV|reflexivity|].
      intros Ne. change (code false (nth 0 (r_extras q) []) (extra_of a)). apply extra_code. auto.
    - destruct O as [<- If]. apply set_as; [now apply (code_reads true)|exact TV|exact OV|].
      unfold applied. rewrite Eo. apply (code_reads true). apply call_code; [exact If|].
      constructor; [eauto|]. constructor; [exists false; apply C|]. apply extras_any, C.
  Qed.
End One.

(** *** the variables *)
Lemma ident_with x s : ident x = true -> forallb is_ident s = true ->
  forallb (fun k => negb (starts x k)) (other_keywords ++ constants ++ map fst syntax_keywords) = true -> ident (x ++ s) = true.
Proof.
  intros Ix Is K. unfold ident in *. destruct x as [|c x]; [discriminate|]. cbn [app] in *.
  apply andb_true_iff in Ix as [Ix _]. apply andb_true_iff in Ix as [I1 I2]. rewrite I1, forallb_app, I2, Is. cbn [andb].
  apply negb_true_iff. unfold keyword. rewrite !forallb_app, !andb_true_iff in K. destruct K as (K1 & K2 & K3).
  assert (St : forall y k, starts y (y ++ k) = true).
  { intros y k. induction y as [|d y IH]; [reflexivity|]. cbn [starts app]. now rewrite N.eqb_refl. }
  assert (G : forall l, forallb (fun k => negb (starts (c :: x) k)) l = true -> existsb (teqb (c :: x ++ s)) l = false).
  { induction l as [|k l IH]; [reflexivity|]. cbn [forallb existsb]. intros H. apply andb_true_iff in H as [H1 H2].
    rewrite IH by assumption. rewrite orb_false_r. destruct (teqb (c :: x ++ s) k) eqn:E; [|reflexivity].
    apply teqb_eq_ in E. subst k. change (c :: x ++ s) with ((c :: x) ++ s) in H1. rewrite St in H1. discriminate. }
  rewrite (G _ K1), (G _ K2). cbn [orb].
  assert (M : forall l, existsb (fun k : text * token => teqb (c :: x ++ s) (fst k)) l = existsb (teqb (c :: x ++ s)) (map fst l)).
  { induction l as [|k l IH]; [reflexivity|]. cbn [existsb map]. now rewrite IH. }
  rewrite M. now apply G.
Qed.
Lemma v_ident n : ident (T "v" ++ ndec n) = true.
Proof. apply ident_with; [reflexivity|apply digits_ident|reflexivity]. Qed.
Lemma slot_code mode i : code true (agg_var mode i) (slot mode i).
Proof.
  destruct mode; unfold agg_var, slot.
  - apply ident_code. apply ident_with; [reflexivity| |reflexivity]. rewrite forallb_app. apply andb_true_iff. split; [apply digits_ident|reflexivity].
  - exact (attr_code (T "agg_data_") (T "v" ++ ndec (N.of_nat i)) eq_refl (v_ident _)).
Qed.
Lemma slot_target mode i : is_target (slot mode i). Proof. destruct mode; exact I. Qed.
Lemma var_hd mode i : hd_ok (agg_var mode i). Proof. destruct mode; cbn; discriminate. Qed.

(** *** blocks *)
Section Blocks.
  Context {Row : Type}.
  Variable mode : bool.
  Variable str : text -> string.
  Hypothesis INJ : forall t t', str t = str t' -> t = t'.
  Variable asts : nat -> ared.
  Notation member := (@member Row).
  Notation block := (@block Row).

  Definition mbit (m : member) : N := if mode then bit_of m else 0%N.
  (** the block of one reduce *)
  Record one (b : tblock) (m : member) : Prop := {
    n_var : k_var b = agg_var mode (m_var m);
    n_flag : k_flag b = mbit m;
    n_init : reads_as (k_init b) (first_of (slot mode (m_var m)) (asts (m_bit m)));
    n_two : reads_as (k_two b) (next_of (slot mode (m_var m)) (asts (m_bit m)));
    n_cond : match k_cond b, p_cond (asts (m_bit m)) with Some c, Some c' => reads c c' | None, None => True | _, _ => False end;
    n_ccode : ccode (m_item m) = option_map str (k_cond b);
    n_uncond : uncond (obj (m_item m)) = k_uncond b }.
  Definition bflag (B : block) : N := if mode then flag B else 0%N.
  Record is_block (b : tblock) (B : block) : Prop := {
    b_var : k_var b = agg_var mode (m_var (bhead B));
    b_flag : k_flag b = bflag B;
    b_init : reads_as (k_init b) (firsts mode asts (members B));
    b_two : reads_as (k_two b) (nexts mode asts (members B));
    b_cond : match k_cond b, p_cond (asts (m_bit (bhead B))) with Some c, Some c' => reads c c' | None, None => True | _, _ => False end }.
  Lemma one_block b m c : one b m -> is_block b (mkBlock c m []).
  Proof.
    intros H. constructor; cbn [bhead members btail firsts nexts flat_map]; rewrite ?app_nil_r; try apply H.
  Qed.
  Lemma union_block c l : forall ms b m tl, is_block b (mkBlock c m tl) -> Forall2 one l ms ->
    is_block (fold_left union l b) (mkBlock c m (tl ++ ms)).
  Proof.
    induction l as [|b' l IH]; intros ms b m tl H F; inversion F as [|? m' ? ms' O F' E1 E2]; subst; cbn [fold_left].
    - now rewrite app_nil_r.
    - replace (tl ++ m' :: ms') with ((tl ++ [m']) ++ ms') by now rewrite <- app_assoc.
      apply IH; [|exact F']. destruct H as [H1 H2 H3 H4 H5]. constructor; unfold union; cbn [k_var k_flag k_init k_two k_cond bhead]; auto.
      + unfold bflag in *. rewrite H2, (n_flag _ _ O). unfold mbit. destruct mode; [|reflexivity].
        unfold flag. cbn [btail bhead]. now rewrite map_app, fold_left_app.
      + unfold firsts, members in *. cbn [bhead btail flat_map] in *. rewrite flat_map_app, app_assoc. apply reads_app; [exact H3|].
        cbn [flat_map]. rewrite app_nil_r. apply O.
      + unfold nexts, members in *. cbn [bhead btail flat_map] in *. rewrite flat_map_app, app_assoc. apply reads_app; [exact H4|].
        cbn [flat_map]. rewrite app_nil_r. apply O.
  Qed.
  Lemma union_blocks c l ms : Forall2 one l ms -> Forall2 is_block (Model_AggSource.union_all l) (Model_Aggregate.union_all c ms).
  Proof.
    intros F. destruct F as [|b m l ms O F]; [constructor|]. cbn [Model_AggSource.union_all Model_Aggregate.union_all].
    constructor; [|constructor]. apply (union_block c l ms b m []); [now apply one_block|exact F].
  Qed.

  (** the sorting of the blocks *)
  Definition bucket (d : list (text * list tblock)) (d' : list (string * list member)) : Prop :=
    Forall2 (fun p p' => fst p' = str (fst p) /\ Forall2 one (snd p) (snd p')) d d'.
  Lemma str_eqb t t' : String.eqb (str t) (str t') = teqb t t'.
  Proof.
    destruct (teqb t t') eqn:E.
    - apply teqb_eq_ in E as ->. apply String.eqb_refl.
    - apply String.eqb_neq. intros H. apply INJ in H. subst. assert (teqb t' t' = true) by now apply teqb_eq_. congruence.
  Qed.
  Lemma bucket_add d d' c b m : bucket d d' -> one b m -> bucket (add_to d c b) (dd_add d' (str c) m).
  Proof.
    intros B O. induction B as [|[c1 l] [k l'] d d' [E F] B IH]; cbn [add_to dd_add].
    - constructor; [|constructor]. split; [reflexivity|now constructor].
    - cbn [fst snd] in *. subst k. rewrite str_eqb. destruct (teqb c1 c).
      + constructor; [|exact B]. split; [reflexivity|]. cbn [snd]. apply Forall2_app; [exact F|now constructor].
      + constructor; [split; [reflexivity|exact F]|exact IH].
  Qed.
  Record sorted_as (s : Model_AggSource.blocks) (s' : sorted (Row := Row)) : Prop := {
    s1 : bucket (Model_AggSource.conditional s) (Model_Aggregate.conditional s');
    s2 : bucket (Model_AggSource.uncond_conditional s) (Model_Aggregate.uncond_conditional s');
    s3 : Forall2 one (Model_AggSource.uncond_plain s) (Model_Aggregate.uncond_plain s');
    s4 : Forall2 one (Model_AggSource.others s) (Model_Aggregate.others s') }.
  Lemma add_sorted s s' b m : sorted_as s s' -> one b m -> sorted_as (Model_AggSource.add_block s b) (Model_Aggregate.add_block s' m).
  Proof.
    intros [S1 S2 S3 S4] O. unfold Model_AggSource.add_block, Model_Aggregate.add_block.
    rewrite (n_ccode _ _ O), (n_uncond _ _ O). destruct (k_cond b) as [c|], (k_uncond b); cbn [option_map]; constructor; cbn; auto;
      first [now apply bucket_add | apply Forall2_app; [assumption|now constructor]].
  Qed.
  Lemma sorted_all bs ms : Forall2 one bs ms -> forall s s', sorted_as s s' ->
    sorted_as (fold_left Model_AggSource.add_block bs s) (fold_left Model_Aggregate.add_block ms s').
  Proof. induction 1 as [|b m bs ms O F IH]; intros s s' H; cbn [fold_left]; [exact H|]. apply IH. now apply add_sorted. Qed.
  Lemma singles bs ms c : Forall2 one bs ms -> Forall2 is_block bs (map (fun m => mkBlock c m []) ms).
  Proof. induction 1; cbn [map]; constructor; auto. now apply one_block. Qed.
  Lemma arranged bs ms : Forall2 one bs ms -> Forall2 is_block (arrange bs) (build ms).
  Proof.
    intros F. destruct (sorted_all bs ms F (mkBlocks [] [] [] []) (mkSorted [] [] [] [])) as [S1 S2 S3 S4];
      [constructor; constructor|].
    unfold arrange, build, Model_AggSource.reduce_blocks, Model_Aggregate.reduce_blocks. repeat apply Forall2_app.
    - induction S1 as [|p p' d d' [E G] B IH]; cbn [flat_map]; [constructor|]. apply Forall2_app; [now apply singles|exact IH].
    - induction S2 as [|p p' d d' [E G] B IH]; cbn [flat_map]; [constructor|]. apply Forall2_app; [now apply union_blocks|exact IH].
    - now apply union_blocks.
    - now apply singles.
  Qed.

  (** *** the numbering *)
  Record matches (p : nat) (it : Model_Aggregate.item Row) (r : tred) : Prop := {
    mt_hash : Model_Aggregate.hash it = str (hash_at mode p (t_code r));
    mt_cond : ccode it = option_map str (r_cond (t_code r));
    mt_uncond : uncond (obj it) = t_uncond r;
    mt_wf : well_formed (t_code r);
    mt_free : free_of (agg_var mode p) (t_code r);
    mt_codes : codes_of (t_code r) (asts p) }.
  Inductive all_match : nat -> list (Model_Aggregate.item Row) -> list tred -> Prop :=
  | am_nil p : all_match p [] []
  | am_cons p it r its l : matches p it r -> all_match (S p) its l -> all_match p (it :: its) (r :: l).
  Lemma gen_one p r it v : matches p it r ->
    one (let b := gen_block mode p r in if teqb (k_var b) (agg_var mode v) then b else update_var (agg_var mode v) b) (mkMember v p it).
  Proof.
    intros M. cbv zeta.
    assert (E : (if teqb (k_var (gen_block mode p r)) (agg_var mode v) then gen_block mode p r
                 else update_var (agg_var mode v) (gen_block mode p r)) =
                mkTBlock (r_cond (t_code r)) (agg_var mode v) (reduce_initial (t_code r) (agg_var mode v))
                         (reduce_two (t_code r) (agg_var mode v)) (if mode then N.shiftl 1 (N.of_nat p) else 0%N) (t_uncond r)).
    { unfold gen_block, update_var. cbn [k_var k_cond k_init k_two k_flag k_uncond].
      destruct (teqb (agg_var mode p) (agg_var mode v)) eqn:E.
      - apply teqb_eq_ in E. now rewrite E.
      - destruct (C34_renaming_partial mode p (t_code r) (agg_var mode v) (mt_wf _ _ _ M) (mt_free _ _ _ M)) as [-> ->]. reflexivity. }
    rewrite E. constructor; cbn [k_var k_flag k_init k_two k_cond k_uncond m_var m_bit m_item].
    - reflexivity.
    - reflexivity.
    - apply initial_reads; [apply slot_code|apply slot_target|apply var_hd|apply M].
    - apply two_reads; [apply slot_code|apply slot_target|apply var_hd|apply M].
    - apply (o_cond _ _ (mt_codes _ _ _ M)).
    - apply M.
    - apply M.
  Qed.
  Lemma seen_find seen h : find (fun p : string * nat => String.eqb (fst p) (str h)) (map (fun p => (str (fst p), snd p)) seen) =
    option_map (fun p : text * nat => (str (fst p), snd p)) (find (fun p => teqb (fst p) h) seen).
  Proof.
    induction seen as [|[t n] seen IH]; [reflexivity|]. cbn [map find fst snd]. rewrite str_eqb. destruct (teqb t h); [reflexivity|exact IH].
  Qed.
  Lemma numbered its l p : all_match p its l -> forall next seen vars bs e vars' ms,
    number mode l p next seen = (vars, bs, e) ->
    index_items its p next (map (fun p => (str (fst p), snd p)) seen) = (vars', ms) ->
    Forall2 one bs ms /\ e = fold_right N.lor 0%N (map mbit ms) /\ vars = map snd vars' /\ map m_var ms = seq next (length ms).
  Proof.
    induction 1 as [p|p it r its l M A IH]; intros next seen vars bs e vars' ms E E'; cbn [number index_items] in *.
    - inversion E; inversion E'; subst. split; [constructor|auto].
    - rewrite (mt_hash _ _ _ M), seen_find in E'.
      destruct (find (fun s => teqb (fst s) (hash_at mode p (t_code r))) seen) as [[t n]|] eqn:F; cbn [option_map fst snd] in E'.
      + destruct (number mode l (S p) next seen) as [[vars1 bs1] e1] eqn:N.
        destruct (index_items its (S p) next (map (fun p => (str (fst p), snd p)) seen)) as [vars2 ms2] eqn:X.
        inversion E; inversion E'; subst. destruct (IH _ _ _ _ _ _ _ N X) as (H1 & H2 & H3 & H4).
        split; [exact H1|]. split; [exact H2|]. split; [cbn; now rewrite H3|exact H4].
      + destruct (number mode l (S p) (S next) (seen ++ [(hash_at mode p (t_code r), next)])) as [[vars1 bs1] e1] eqn:N.
        assert (SS : map (fun p => (str (fst p), snd p)) seen ++ [(str (hash_at mode p (t_code r)), next)] =
                     map (fun p => (str (fst p), snd p)) (seen ++ [(hash_at mode p (t_code r), next)])) by now rewrite map_app.
        rewrite SS in E'.
        destruct (index_items its (S p) (S next) (map (fun p => (str (fst p), snd p)) (seen ++ [(hash_at mode p (t_code r), next)]))) as [vars2 ms2] eqn:X.
        inversion E; inversion E'; subst. destruct (IH _ _ _ _ _ _ _ N X) as (H1 & H2 & H3 & H4).
        pose proof (gen_one p r it next M) as G. cbv zeta in G. split; [constructor; assumption|].
        split; [cbn [map fold_right]; rewrite H2; f_equal; apply (n_flag _ _ G)|].
        split; [cbn; now rewrite H3|]. cbn [map length seq]. now rewrite H4.
  Qed.

  (** *** reading the blocks *)
  Lemma blank_reads k l ls b : lines_of k ls b -> blank l = true -> lines_of k (l :: ls) b.
  Proof. intros H B. now apply k_blank. Qed.
  Lemma none_name_code : code true (T "_none") (name "_none"). Proof. now apply ident_code. Qed.
  Lemma cks_code : code true (T "checksum_") (name "checksum_"). Proof. now apply ident_code. Qed.
  Lemma exp_code : code true (T "expected_checksum_") (name "expected_checksum_"). Proof. now apply ident_code. Qed.
  Lemma first_of_ne v a : first_of v a <> [].
  Proof. unfold first_of. destruct (p_op a) as [b|f], (p_initial a); try discriminate; destruct b; discriminate. Qed.
  Lemma next_of_ne v a : next_of v a <> [].
  Proof. unfold next_of. destruct (p_op a) as [b|f]; try discriminate; destruct b; discriminate. Qed.
  Lemma firsts_ne (B : block) : firsts mode asts (members B) <> [].
  Proof. unfold firsts, members. cbn [flat_map]. intros H. apply app_eq_nil in H as [H _]. revert H. apply first_of_ne. Qed.
  Lemma nexts_ne (B : block) : nexts mode asts (members B) <> [].
  Proof. unfold nexts, members. cbn [flat_map]. intros H. apply app_eq_nil in H as [H _]. revert H. apply next_of_ne. Qed.
  Lemma lor_ne a b : a <> 0%N -> N.lor a b <> 0%N.
  Proof. intros H E. apply N.lor_eq_0_iff in E. now destruct E. Qed.
  Lemma flag_ne (B : block) : flag B <> 0%N.
  Proof.
    unfold flag. assert (H : bit_of (bhead B) <> 0%N).
    { unfold bit_of. rewrite N.shiftl_1_l. apply N.pow_nonzero. discriminate. }
    revert H. generalize (bit_of (bhead B)). induction (map bit_of (btail B)) as [|x l IH]; intros n H; cbn [fold_left]; [exact H|].
    apply IH. now apply lor_ne.
  Qed.
  Lemma checksum_as i n : reads_as
    ((T "if " ++ o2 "is not" (agg_var mode i) (T "_none") ++ T ":") ::
       indent 1 ([T "checksum_ |= " ++ ndec n] ++ (T "if " ++ o2 "==" (T "checksum_") (T "expected_checksum_") ++ T ":") :: indent 1 [T "break"]))
    [if_ (cmp "is not" (slot mode i) (name "_none"))
         [Simple (SOr (name "checksum_") (ANum n));
          if_ (cmp "==" (name "checksum_") (name "expected_checksum_")) [Simple SBreak] []] []].
  Proof.
    apply if_as; [eapply cmp_reads; [constructor|apply slot_code|apply none_name_code]| |discriminate].
    apply (reads_app _ [_]).
    - apply simple_as; [|cbn; discriminate]. apply (l_or (T "checksum_")); [eapply code_reads, cks_code|exact I|eapply code_reads, ndec_code].
    - apply if_as; [eapply cmp_reads; [constructor|apply cks_code|apply exp_code]| |discriminate].
      apply simple_as; [apply l_break|cbn; discriminate].
  Qed.
  Lemma checksum_reads k b B : is_block b B -> lines_of k (checksum_lines k (k_var b) (Model_AggSource.flag_text (k_flag b))) (checksum_stmts mode B).
  Proof.
    intros H. rewrite (b_var _ _ H), (b_flag _ _ H). unfold bflag, checksum_stmts, Model_AggSource.flag_text, checksum_lines, slot_of.
    destruct mode eqn:M.
    - destruct (N.eqb_spec (flag B) 0) as [E|_]; [now apply flag_ne in E|].
      apply blank_reads; [|reflexivity]. rewrite <- (app_nil_r [if_ _ _ _]). apply lines_app; [|apply k_blank; [reflexivity|apply k_end]].
      pose proof (checksum_as (m_var (bhead B)) (flag B) k) as R. rewrite M in R.
      replace (indent k _) with (indent k ((T "if " ++ o2 "is not" (agg_var true (m_var (bhead B))) (T "_none") ++ T ":") ::
         indent 1 ([T "checksum_ |= " ++ ndec (flag B)] ++ (T "if " ++ o2 "==" (T "checksum_") (T "expected_checksum_") ++ T ":") :: indent 1 [T "break"])));
        [exact R|].
      f_equal. unfold o2, op_text_of. cbn [app indent map]. rewrite <- ?app_assoc. reflexivity.
    - rewrite N.eqb_refl. apply k_blank; [reflexivity|apply k_end].
  Qed.
  Definition inner (k : nat) (b : tblock) : list text :=
    indent k [T "if " ++ k_var b ++ T " is _none:"] ++ indent (S k) (k_init b) ++ checksum_lines (S k) (k_var b) (Model_AggSource.flag_text (k_flag b)) ++
    indent k [T "else:"] ++ indent (S k) (k_two b).
  Lemma inner_reads k b B : is_block b B ->
    lines_of k (inner k b) [if_ (cmp "is" (slot_of mode (bhead B)) (name "_none"))
                 (firsts mode asts (members B) ++ checksum_stmts mode B) (nexts mode asts (members B))].
  Proof.
    intros H. unfold inner. cbn [indent map app].
    replace (repeat 32%N (4 * k) ++ T "if " ++ k_var b ++ T " is _none:")
      with (repeat 32%N (4 * k) ++ T "if " ++ o2 "is" (k_var b) (T "_none") ++ T ":")
      by (unfold o2, op_text_of; rewrite <- ?app_assoc; reflexivity).
    fold (indent (S k) (k_init b)). fold (indent (S k) (k_two b)).
    set (el := _ :: indent (S k) (k_two b)).
    replace (indent (S k) (k_init b) ++ checksum_lines (S k) (k_var b) (Model_AggSource.flag_text (k_flag b)) ++ el)
      with ((indent (S k) (k_init b) ++ checksum_lines (S k) (k_var b) (Model_AggSource.flag_text (k_flag b))) ++ el ++ [])
      by now rewrite app_nil_r, <- app_assoc.
    unfold if_. eapply k_if; [apply indented_at; cbn; discriminate| | | | |apply k_end].
    - eapply cmp_reads; [constructor| |apply none_name_code]. rewrite (b_var _ _ H). apply slot_code.
    - apply lines_app; [apply H|now apply checksum_reads].
    - intros E. apply app_eq_nil in E as [E _]. revert E. apply firsts_ne.
    - subst el. eapply br_else; [apply indented_at; cbn; discriminate|apply H|apply nexts_ne].
  Qed.
  Lemma guard_reads k e c l b : reads e c -> lines_of (S k) l b -> b <> [] ->
    lines_of k (indent k [T "if " ++ e ++ T ":"] ++ l) [if_ c b []].
  Proof.
    intros R L N. cbn [indent map app]. rewrite <- (app_nil_r l). unfold if_. change (l ++ []) with (l ++ [] ++ []).
    eapply k_if; [apply indented_at; cbn; discriminate|exact R|exact L|exact N|apply br_end|apply k_end].
  Qed.
  Lemma tail_blank k l b : lines_of k l b -> lines_of k (l ++ [[]]) b.
  Proof. intros H. rewrite <- (app_nil_r b). apply lines_app; [exact H|]. apply k_blank; [reflexivity|apply k_end]. Qed.
  Lemma block_reads b B : is_block b B -> lines_of 2 (tblock_lines b) (block_stmts mode asts B).
  Proof.
    intros H. unfold tblock_lines, block_stmts, guarded. pose proof (b_cond _ _ H) as Cd.
    destruct (k_cond b) as [c|], (p_cond (asts (m_bit (bhead B)))) as [c'|]; try contradiction; cbn [app]; apply k_blank; try reflexivity.
    - match goal with |- lines_of _ ?l _ => replace l with ((indent 2 [T "if " ++ c ++ T ":"] ++ inner 3 b) ++ [[]]) end.
      + apply tail_blank. apply guard_reads; [exact Cd|now apply inner_reads|discriminate].
      + unfold inner. cbn [app]. rewrite <- !app_assoc. reflexivity.
    - match goal with |- lines_of _ ?l _ => replace l with (inner 2 b ++ [[]]) end.
      + apply tail_blank. now apply inner_reads.
      + unfold inner. cbn [app]. rewrite <- !app_assoc. reflexivity.
  Qed.
  Lemma later_reads b B : is_block b B -> lines_of 2 (tblock_no_init_lines b) (later_stmts mode asts B).
  Proof.
    intros H. unfold tblock_no_init_lines, later_stmts, guarded. pose proof (b_cond _ _ H) as Cd.
    destruct (k_cond b) as [c|], (p_cond (asts (m_bit (bhead B)))) as [c'|]; try contradiction; cbn [app]; apply k_blank; try reflexivity.
    - match goal with |- lines_of _ ?l _ => replace l with (((indent 2 [T "if " ++ c ++ T ":"] ++ indent 3 (k_two b)) ++ [[]]) ++ [[]]) end.
      + do 2 apply tail_blank. apply guard_reads; [exact Cd|apply H|apply nexts_ne].
      + cbn [app]. rewrite <- !app_assoc. reflexivity.
    - apply tail_blank. apply H.
  Qed.
  Lemma join_reads (f : tblock -> list text) (g : block -> list stmt) bs Bs :
    (forall b B, is_block b B -> lines_of 2 (f b) (g B)) -> Forall2 is_block bs Bs ->
    lines_of 2 (join_blocks (map f bs)) (flat_map g Bs).
  Proof.
    intros R F. induction F as [|b B bs Bs H F IH]; [apply k_blank; [reflexivity|apply k_end]|].
    cbn [map flat_map]. destruct F as [|b2 B2 bs Bs H2 F].
    - cbn [map join_blocks flat_map]. rewrite app_nil_r. now apply R.
    - change (join_blocks (f b :: map f (b2 :: bs))) with (f b ++ [[]] ++ join_blocks (map f (b2 :: bs))).
      apply lines_app; [now apply R|]. apply k_blank; [reflexivity|exact IH].
  Qed.
  Lemma body_reads bs Bs : Forall2 is_block bs Bs ->
    lines_of 2 (blocks_code bs) (body_stmts mode asts Bs) /\ lines_of 2 (blocks_no_init_code bs) (later_body mode asts Bs).
  Proof. intros F. split; apply join_reads; auto; [apply block_reads|apply later_reads]. Qed.
  Lemma body_ne (ms : list member) : ms <> [] -> body_stmts mode asts (build ms) <> [] /\ later_body mode asts (build ms) <> [].
  Proof.
    intros N. assert (BN : build ms <> []).
    { intros E. pose proof (build_perm ms) as Pm. rewrite E in Pm. apply Permutation.Permutation_nil in Pm. contradiction. }
    destruct (build ms) as [|B Bs]; [contradiction|]. split; intros E; cbn [body_stmts later_body flat_map] in E; apply app_eq_nil in E as [E _]; revert E.
    - unfold block_stmts, guarded. destruct (p_cond _); discriminate.
    - unfold later_stmts, guarded. destruct (p_cond _); [discriminate|apply nexts_ne].
  Qed.
End Blocks.
