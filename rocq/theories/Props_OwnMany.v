(** C53 for aggregations with any number of reducers. *)
From Coq Require Import String Ascii List NArith ZArith Bool Arith Lia.
From Verif Require Import Model_PyVal Model_Reducers Model_Aggregate Model_Code Model_AggText Model_AggSource
  Spec_AggText Spec_Syntax Spec_Tree Spec_Stmt Spec_FuncText Spec_AggProgram Spec_PyHeap Spec_Own Spec_OwnMany
  Proofs_Syntax Proofs_AggFunc Props_AggText Props_Syntax Props_AggRead Proofs_Own Proofs_OwnMany.
From Verif Require Props_Own.
Import ListNotations.

Lemma sent_ok S t : vok S t HSent.
Proof. destruct t; cbn; auto. Qed.
Lemma sentinels n l v k : assoc (map (fun i => (agg_var true i, HSent)) l ++ k) n = Some v -> v = HSent \/ assoc k n = Some v.
Proof.
  induction l as [|i l IH]; cbn [map app assoc]; [auto|]. destruct (same_text n (agg_var true i)); [|exact IH]. intros [= <-]. now left.
Qed.

(** C53, c.aggregate: whatever the list of reducers (each with its .filter), whatever the
    rows and however their values are shared, the two loops leave every object that
    existed before as it was, also when something raises half-way. *)
Theorem C53_aggregate_many_partial : forall ops {Row} (ms : list (@Model_Aggregate.member Row)) reds names before rows expected,
  adds_scalars ops -> numbered reds ms -> names_ok names reds rows -> sums_scalars reds rows ->
  unchanged before (snd (exec_two_loops ops
    (body_stmts true (named_trees reds) (build ms)) (later_body true (named_trees reds) (build ms))
    rows (aggregate_env (length ms) expected) before)).
Proof.
  intros ops Row ms reds names before rows expected A NB NO SS.
  set (cty := code_ty names reds). set (vars := aggregate_tys reds ms).
  assert (Z : forall v, In v (map T ["_none"; "_d"; "checksum_"; "expected_checksum_"; "signature_to_agg_data_"; "agg_data_"]%string) ->
    cty v = None) by (intros v Hv; apply names_free; now apply (names_vars _ _ _ NO)).
  assert (SK : forall n rest, (forall i, same_text n (agg_var true i) = false) ->
    assoc (map (fun m => (agg_var true (m_var m), type_at reds m)) ms ++ rest) n = assoc rest n)
    by (intros n rest Hn; now apply assoc_skip).
  destruct (body_always ops A before cty vars) with (mode := true) (reds := reds) (ms := ms) as [B1 B2].
  - apply Z. cbn; tauto.
  - unfold vars, aggregate_tys. now rewrite SK.
  - unfold name_ty. rewrite Z by (cbn; tauto). unfold vars, aggregate_tys. now rewrite SK.
  - intros _. split; [apply Z; cbn; tauto|]. unfold name_ty. rewrite Z by (cbn; tauto).
    unfold vars, aggregate_tys. rewrite !SK by reflexivity. now split.
  - intros m Hm. now apply (fits_aggregate names reds ms NB rows).
  - eapply good_unchanged. eapply (two_loops_keep ops before cty vars); [exact B1|exact B2| | |].
    + now apply rows_typed.
    + apply hok_start.
    + intros n t v Hn _ Hv. unfold aggregate_env in Hv. apply sentinels in Hv as [->|Hv]; [apply sent_ok|].
      cbn [assoc] in Hv. destruct (same_text n (T "_none")). { injection Hv as <-. apply sent_ok. }
      unfold vars, aggregate_tys in Hn.
      destruct (same_text n (T "checksum_")) eqn:E1.
      { apply same_text_eq in E1 as ->. rewrite SK in Hn by reflexivity. injection Hn as <-. injection Hv as <-. exact I. }
      destruct (same_text n (T "expected_checksum_")) eqn:E2; [|discriminate Hv].
      apply same_text_eq in E2 as ->. rewrite SK in Hn by reflexivity. injection Hn as <-. injection Hv as <-. exact I.
Qed.
Print Assumptions C53_aggregate_many_partial.

Lemma fields_fac reds {Row} (ms : list (@Model_Aggregate.member Row)) : fac_ok (FInst (map attr (map m_var ms))) (TInst (fields reds ms)) = true.
Proof.
  unfold fields. cbn [fac_ok]. induction ms as [|m l IH]; cbn [map]; [reflexivity|]. now rewrite same_text_refl.
Qed.

(** C53, c.group_by: the same for the loop over the rows; the accumulators are the
    attributes of the objects of the groups. *)
Theorem C53_group_by_many_partial : forall ops {Row} (ms : list (@Model_Aggregate.member Row)) reds names key before rows,
  adds_scalars ops -> numbered reds ms -> names_ok names reds rows -> sums_scalars reds rows -> names key = true ->
  unchanged before (snd (exec_rows ops
    (find_group key :: body_stmts false (named_trees reds) (build ms))
    rows (group_vars (length before)) (before ++ [groups_of (length ms)]))).
Proof.
  intros ops Row ms reds names key before rows A NB NO SS NK.
  set (cty := code_ty names reds). set (vars := group_tys reds ms).
  assert (Z : forall v, In v (map T ["_none"; "_d"; "checksum_"; "expected_checksum_"; "signature_to_agg_data_"; "agg_data_"]%string) ->
    cty v = None) by (intros v Hv; apply names_free; now apply (names_vars _ _ _ NO)).
  assert (CK : exists t, cty key = Some t) by (unfold cty, code_ty; rewrite NK; eauto).
  destruct (body_always ops A before cty vars) with (mode := false) (reds := reds) (ms := ms) as [B1 B2].
  - apply Z. cbn; tauto.
  - reflexivity.
  - unfold name_ty. rewrite Z by (cbn; tauto). reflexivity.
  - discriminate.
  - intros m Hm. now apply (fits_group names reds ms NB rows).
  - eapply good_unchanged. eapply (rows_keep ops before cty vars).
    + intros r R. apply (keeps_app ops before cty vars r [find_group key]); [|now apply B1].
      apply checked_keeps; auto. destruct CK as [t Hk].
      cbn [forallb ok_stmt find_group set_to ok_simple place name infer]. rewrite (Z (T "agg_data_")) by (cbn; tauto).
      change (assoc vars (T "agg_data_")) with (Some (TInst (fields reds ms))).
      assert (NS : name_ty cty vars (T "signature_to_agg_data_") = Some (TBox (TInst (fields reds ms)))).
      { unfold name_ty. rewrite Z by (cbn; tauto). reflexivity. }
      assert (NK' : name_ty cty vars key = Some t) by (unfold name_ty; now rewrite Hk).
      unfold name. cbn [check safe infer]. rewrite NS, NK'. cbn [boxed andb orb].
      assert (EQ : forall t, sty_eqb t t = true).
      { fix IH 1. intros [| | |i|l]; cbn [sty_eqb]; try reflexivity; [apply IH|].
        induction l as [|[k b] l IHl]; [reflexivity|]. now rewrite same_text_refl, IH, IHl. }
      now rewrite EQ.
    + now apply rows_typed.
    + apply (hok_start1 before (TBox (TInst (fields reds ms)))). unfold groups_of. cbn [ook]. split; [constructor|].
      destruct NB as [<- _]. apply fields_fac.
    + intros n t v. unfold vars, group_tys, group_vars. cbn [assoc].
      destruct (same_text n (T "signature_to_agg_data_")) eqn:E1.
      { intros [= <-] _ [= <-]. right. eexists. split; [reflexivity|].
        rewrite nth_error_app2, map_length, Nat.sub_diag by now rewrite map_length. reflexivity. }
      destruct (same_text n (T "agg_data_")) eqn:E2. { apply same_text_eq in E2 as ->. discriminate. }
      destruct (same_text n (T "_none")); [|discriminate]. intros [= <-] _ [= <-]. exact I.
Qed.
Print Assumptions C53_group_by_many_partial.

(** *** the generated texts *)
(** the same reducers for the generator of the source text; [us]: which of them start
    with the first row in any case *)
Definition named_red (p : named * bool) : dred :=
  mkDRed (DBuiltin (n_op (fst p))) (option_map PName (n_filter (fst p))) (option_map PName (n_initial (fst p))) (PName (n_expr (fst p)))
         (match n_extra (fst p) with Some x => [PName x] | None => [] end) (snd p).

Section Text.
  Variable printable : N -> bool.
  Variable gname : nat -> text.
  Variable pnum : list nat -> nat.
  Hypothesis PO : printable_ok printable.

  Lemma named_trees_eq reds p : trees gname pnum (map named_red reds) p = named_trees (map fst reds) p.
  Proof.
    unfold trees, named_trees. rewrite !nth_error_map. destruct (nth_error reds p) as [[q u]|]; cbn [option_map fst]; [|reflexivity].
    unfold red_tree, named_red, named_tree. cbn [d_op d_cond d_initial d_expr d_extras fst]. destruct (n_filter q), (n_extra q), (n_initial q); reflexivity.
  Qed.
  Lemma body_ext {Row} mode f g (bs : list (@Model_Aggregate.block Row)) : (forall p, f p = g p) ->
    body_stmts mode f bs = body_stmts mode g bs /\ later_body mode f bs = later_body mode g bs.
  Proof.
    intros H. assert (F : forall l, firsts mode f l = firsts (Row := Row) mode g l /\ nexts mode f l = nexts (Row := Row) mode g l).
    { intros l. split; apply flat_map_ext; intros m; now rewrite H. }
    split; apply flat_map_ext; intros b; unfold block_stmts, later_stmts, guarded; rewrite H;
      destruct (F (members b)) as [F1 F2]; now rewrite ?F1, ?F2.
  Qed.
  Lemma indexed_numbered {Row} mode str (its : list (Model_Aggregate.item Row)) reds vars ms :
    (forall t t', str t = str t' -> t = t') ->
    all_stand printable gname pnum mode str its (map named_red reds) -> index_items its 0 0 [] = (vars, ms) ->
    numbered (map fst reds) ms.
  Proof.
    intros INJ ST E. split.
    - destruct (C54_variables_partial printable gname pnum PO mode str its _ vars ms INJ ST E) as (_ & _ & H). exact H.
    - intros m Hm. destruct (index_bits its 0 0 [] vars ms E m Hm) as (q & B & N). destruct ST as [L _].
      rewrite map_length in L. rewrite map_length, <- L, B. apply nth_error_Some. cbn. congruence.
  Qed.

  (** The source text of c.aggregate is a function whose loops leave the data alone. *)
  Theorem C53_aggregate_text_partial :
    forall {Row} (str : text -> string) (its : list (Model_Aggregate.item Row)) reds f result sorting vars ms,
    (forall t t', str t = str t' -> t = t') ->
    all_stand printable gname pnum true str its (map named_red reds) -> its <> [] -> index_items its 0 0 [] = (vars, ms) ->
    frame_ok f sorting -> a_result f = print (py_repr printable) gname pnum result -> readable gname pnum result = true ->
    exists t first_loop second_loop,
      aggregate_source f (map (red_code printable gname pnum) (map named_red reds)) = Some t /\
      defines t (a_name f) (T "data_" :: a_params f)
        (aggregate_program (a_none f) (length ms) (expected_checksum ms) first_loop second_loop (tree gname pnum result) sorting) /\
      forall ops names before rows,
        adds_scalars ops -> names_ok names (map fst reds) rows -> sums_scalars (map fst reds) rows ->
        unchanged before (snd (exec_two_loops ops first_loop second_loop rows
          (aggregate_env (length ms) (Z.of_N (expected_checksum ms))) before)).
  Proof.
    intros Row str its reds f result sorting vars ms INJ ST NE E F ER RR.
    destruct (C54_aggregate_partial printable gname pnum PO str its _ f result sorting vars ms INJ ST NE E F ER RR) as (t & G & D).
    exists t. do 2 eexists. split; [exact G|]. split; [exact D|]. intros ops names before rows A N S.
    destruct (body_ext true _ _ (build ms) (named_trees_eq reds)) as [-> ->].
    apply C53_aggregate_many_partial with names; auto. eapply indexed_numbered; eauto.
  Qed.
  (** ... and that of c.group_by; the key is the name [key] *)
  Theorem C53_group_by_text_partial :
    forall {Row} (str : text -> string) (its : list (Model_Aggregate.item Row)) reds f cls key result sorting vars ms,
    (forall t t', str t = str t' -> t = t') ->
    all_stand printable gname pnum false str its (map named_red reds) -> its <> [] -> index_items its 0 0 [] = (vars, ms) ->
    frame_ok f sorting -> ident cls = true -> ident key = true ->
    a_result f = print (py_repr printable) gname pnum result -> readable gname pnum result = true ->
    exists t loop,
      group_source f cls [key] (map (red_code printable gname pnum) (map named_red reds)) = Some t /\
      defines t (a_name f) (T "data_" :: a_params f)
        (group_program (a_none f) cls (AName key) loop (tree gname pnum result) sorting) /\
      forall ops names before rows,
        adds_scalars ops -> names_ok names (map fst reds) rows -> sums_scalars (map fst reds) rows -> names key = true ->
        unchanged before (snd (exec_rows ops (find_group key :: loop) rows (group_vars (length before))
          (before ++ [groups_of (length ms)]))).
  Proof.
    intros Row str its reds f cls key result sorting vars ms INJ ST NE E F IC IK ER RR.
    destruct (C54_group_by_partial printable gname pnum PO str its _ f cls [PName key] result sorting vars ms INJ ST NE E F IC)
      as (t & G & D); auto; [discriminate|cbn; now rewrite IK|].
    exists t. eexists. split; [exact G|]. split; [exact D|]. intros ops names before rows A N S K.
    destruct (body_ext false _ _ (build ms) (named_trees_eq reds)) as [-> _].
    apply C53_group_by_many_partial with names; auto. eapply indexed_numbered; eauto.
  Qed.
End Text.
Print Assumptions C53_aggregate_text_partial.
Print Assumptions C53_group_by_text_partial.

(** *** a case: Sum(e0_), DictArray(e1_, x1_) filtered by c1_, DictSum(e1_, e0_), Array(x1_),
    Last(e1_, initial=x1_) *)
Definition m_reds : list (named * bool) :=
  [ (mkNamed Sum None (T "e0_") None None, true);
    (mkNamed DictArray (Some (T "c1_")) (T "e1_") (Some (T "x1_")) None, true);
    (mkNamed DictSum None (T "e1_") (Some (T "e0_")) None, true);
    (mkNamed Array None (T "x1_") None None, true);
    (mkNamed Last None (T "e1_") None (Some (T "x1_")), true) ].
Definition m_its (mode : bool) : list (Model_Aggregate.item nat) :=
  map (fun p => let r := named_red (nth p m_reds (mkNamed Sum None [] None None, true)) in
         mkItem (e_obj Sum)
           (option_map (fun c => tallies (print (py_repr ascii_printable) e_gname (fun _ => 0) c)) (d_cond r))
           (tallies (hash_at mode p (t_code (e_code r))))) [0; 1; 2; 3; 4].
Lemma m_stand mode : all_stand ascii_printable e_gname (fun _ => 0) mode tallies (m_its mode) (map named_red m_reds).
Proof.
  split; [reflexivity|]. intros p it r H1 H2.
  do 5 (destruct p as [|p];
    [injection H1 as <-; injection H2 as <-; split; [vm_compute; reflexivity|reflexivity|reflexivity|reflexivity|split; [|exact I]];
     intros t Ht; cbn in Ht; repeat (destruct Ht as [<-|Ht]); try contradiction Ht; destruct mode; vm_compute; reflexivity|]).
  destruct p; discriminate H1.
Qed.
Definition m_names (n : text) : bool :=
  existsb (same_text n) (map T ["e0_"; "e1_"; "x1_"; "c1_"; "key_"]%string).
(** a row: the five values *)
Definition m_row (v : hval * hval * hval * hval * hval) : row := fun n =>
  let '(e0, e1, x1, c1, key) := v in
  if same_text n (T "e0_") then Some (Props_Own.const e0)
  else if same_text n (T "e1_") then Some (Props_Own.const e1)
  else if same_text n (T "x1_") then Some (Props_Own.const x1)
  else if same_text n (T "c1_") then Some (Props_Own.const c1)
  else if same_text n (T "key_") then Some (Props_Own.const key)
  else None.
(** the lists at 0 and 1 are data *)
Definition m_rows : list row := map m_row
  [ (HInt 3, HInt 1, HRef 0, HBool true, HInt 7);
    (HInt 4, HInt 1, HRef 1, HBool true, HInt 7);
    (HInt 5, HInt 2, HRef 0, HBool false, HInt 7) ].
Lemma m_names_ok : names_ok m_names (map fst m_reds) m_rows.
Proof.
  split.
  - intros r Hr n. apply in_map_iff in Hr as ([[[[a b] c] d] k] & <- & _). unfold m_row, m_names. cbn [map existsb].
    destruct (same_text n (T "e0_")), (same_text n (T "e1_")), (same_text n (T "x1_")), (same_text n (T "c1_")), (same_text n (T "key_"));
      cbn; split; intros H; try reflexivity; eauto; try discriminate H; destruct H as [? H]; discriminate H.
  - intros r Hr. cbn in Hr. repeat (destruct Hr as [<-|Hr]); try contradiction Hr; cbn [n_expr n_extra n_filter n_initial n_op needs_extra];
      repeat split; try reflexivity; try discriminate; intros ? [= <-]; reflexivity.
  - intros r Hr. cbn in Hr. repeat (destruct Hr as [<-|Hr]); try contradiction Hr; cbn; congruence.
  - intros v Hv. cbn [map In] in Hv. repeat (destruct Hv as [<-|Hv]); try contradiction Hv; vm_compute; reflexivity.
  - reflexivity.
Qed.
Lemma m_sums : sums_scalars (map fst m_reds) m_rows.
Proof.
  intros r q c Hr Hq. split.
  - intros O E h new v Hc. cbn in Hr, Hq.
    repeat (destruct Hr as [<-|Hr]); try contradiction Hr; try discriminate O; repeat (destruct Hq as [<-|Hq]); try contradiction Hq;
      vm_compute in E; injection E as <-; vm_compute in Hc; injection Hc as <- <-; exact I.
  - intros x O. cbn in Hr. repeat (destruct Hr as [<-|Hr]); try contradiction Hr; discriminate O.
Qed.

Definition m_members (mode : bool) := snd (index_items (m_its mode) 0 0 []).
Lemma m_numbered mode : numbered (map fst m_reds) (m_members mode).
Proof.
  eapply (indexed_numbered ascii_printable e_gname (fun _ => 0) ascii_ok mode tallies (m_its mode) m_reds
            (fst (index_items (m_its mode) 0 0 []))); [exact tallies_inj|apply m_stand|].
  unfold m_members. now destruct (index_items (m_its mode) 0 0 []).
Qed.
Example C53_many_case :
  adds_scalars Props_Own.ops_case /\
  (forall mode, numbered (map fst m_reds) (m_members mode)) /\
  names_ok m_names (map fst m_reds) m_rows /\ sums_scalars (map fst m_reds) m_rows /\
  (** group_by: one group with five accumulators; the lists of the data are shared, not changed *)
  snd (exec_rows Props_Own.ops_case
    (find_group (T "key_") :: body_stmts false (named_trees (map fst m_reds)) (build (m_members false)))
    m_rows (group_vars 2) ([OList [HInt 5]; OList []] ++ [groups_of 5]))
  = [ OList [HInt 5]; OList [];
      ODict [(HInt 7, HRef 3)] (Some (FInst [T "v0"; T "v1"; T "v2"; T "v3"; T "v4"]));
      OInst [(T "v0", HInt 12); (T "v1", HRef 4); (T "v2", HRef 6); (T "v3", HRef 7); (T "v4", HInt 2)];
      ODict [(HInt 1, HRef 5)] (Some FList); OList [HRef 0; HRef 1];
      ODict [(HInt 1, HInt 7); (HInt 2, HInt 5)] (Some FInt);
      OList [HRef 0; HRef 1; HRef 0] ] /\
  (** aggregate *)
  snd (exec_two_loops Props_Own.ops_case
    (body_stmts true (named_trees (map fst m_reds)) (build (m_members true)))
    (later_body true (named_trees (map fst m_reds)) (build (m_members true)))
    m_rows (aggregate_env 5 31) [OList [HInt 5]; OList []])
  = [ OList [HInt 5]; OList [];
      ODict [(HInt 1, HRef 3)] (Some FList); OList [HRef 0; HRef 1];
      ODict [(HInt 1, HInt 7); (HInt 2, HInt 5)] (Some FInt);
      OList [HRef 0; HRef 1; HRef 0] ].
Proof.
  split; [exact Props_Own.ops_case_adds|]. split; [exact m_numbered|]. split; [exact m_names_ok|]. split; [exact m_sums|].
  split; vm_compute; reflexivity.
Qed.
(** the hypotheses of the text theorems *)
Example C53_text_case :
  (forall mode, all_stand ascii_printable e_gname (fun _ => 0) mode tallies (m_its mode) (map named_red m_reds)) /\
  m_its true <> [] /\ frame_ok e_frame None /\ ident (T "key_") = true /\ m_names (T "key_") = true.
Proof. split; [exact m_stand|]. split; [discriminate|]. split; [exact e_frame_ok|]. split; reflexivity. Qed.
