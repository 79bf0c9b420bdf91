(** C53: aggregations do not change the data they read. *)
From Coq Require Import String Ascii List NArith ZArith Bool Arith Lia.
From Verif Require Import Model_Reducers Model_Code Model_AggText Spec_Syntax Spec_Stmt Spec_Loop Spec_PyHeap Spec_Own Proofs_Own.
Import ListNotations.

(** what the variable of a reducer holds *)
Definition held (b : builtin) : sty :=
  match b with
  | Sum | Count => TImm
  | MaxRow | MinRow => TTup
  | CountDistinct | Array | ArrayDistinct | Dict | DictFirst | DictLast | DictMax | DictMin => TBox TAny
  | DictArray | DictArrayDistinct | DictCountDistinct => TBox (TBox TAny)
  | DictSum | DictSumOrNone | DictCount => TBox TImm
  | _ => TAny
  end.
Definition code_types (b : builtin) (n : text) : option sty :=
  if same_text n (T "e_") then Some (match b with Sum => TImm | _ => TAny end)
  else if same_text n (T "x_") then Some (match b with DictSumOrNone => TImm | _ => TAny end)
  else if same_text n (T "c_") then Some TAny
  else if same_text n (T "key_") then Some TAny
  else if same_text n (T "flag_") then Some TImm
  else None.
Definition aggregate_types (b : builtin) : list (text * sty) :=
  [(var, held b); (T "_d", held b); (T "_none", TAny); (T "checksum_", TImm); (T "expected_checksum_", TImm)].
Definition group_types (b : builtin) : list (text * sty) :=
  [(T "signature_to_agg_data_", TBox (TInst [(T "v0", held b)])); (T "agg_data_", TInst [(T "v0", held b)]);
   (T "_d", held b); (T "_none", TAny)].

(** the loop body of group_by, /repo/src/convtools/aggregations.py:756-758 *)
Definition group_line : text := T "        agg_data_ = signature_to_agg_data_[key_]".

(** the statements that are read pass the check *)
Definition checked cty vars (ls : list text) : bool :=
  match read_text 2 ls with Some body => forallb (ok_stmt cty vars) body | None => true end.
Lemma checked_body cty vars ls body : checked cty vars ls = true -> read_text 2 ls = Some body -> forallb (ok_stmt cty vars) body = true.
Proof. unfold checked. intros H E. now rewrite E in H. Qed.
Lemma aggregate_checked b c : forall body, read_text 2 (block_lines (code b c None) var (Some (T "flag_"))) = Some body ->
  (c = None \/ c = Some (T "c_")) -> forallb (ok_stmt (code_types b) (aggregate_types b)) body = true.
Proof. intros body H [->| ->]; (eapply checked_body; [|exact H]); destruct b; vm_compute; reflexivity. Qed.
Lemma no_init_checked b c : forall body, read_text 2 (no_init_lines (code b c None) var) = Some body ->
  (c = None \/ c = Some (T "c_")) -> forallb (ok_stmt (code_types b) (aggregate_types b)) body = true.
Proof. intros body H [->| ->]; (eapply checked_body; [|exact H]); destruct b; vm_compute; reflexivity. Qed.
Lemma group_checked b c : forall body, read_text 2 (group_line :: block_lines (code b c None) (T "agg_data_.v0") None) = Some body ->
  (c = None \/ c = Some (T "c_")) -> forallb (ok_stmt (code_types b) (group_types b)) body = true.
Proof. intros body H [->| ->]; (eapply checked_body; [|exact H]); destruct b; vm_compute; reflexivity. Qed.

Lemma rows_typed b rows :
  (b = Sum -> Forall (fun i => gives_scalars (in_expr i)) rows) ->
  (b = DictSumOrNone -> Forall (fun i => gives_scalars (in_extra i)) rows) ->
  Forall (row_ok (code_types b)) (map row_codes rows).
Proof.
  intros H1 H2. apply Forall_forall. intros r Hr. apply in_map_iff in Hr as (i & <- & Hi). intros n.
  unfold row_codes, code_types.
  destruct (same_text n (T "e_")).
  { destruct b; try (left; reflexivity). right. split; [reflexivity|]. specialize (H1 eq_refl). rewrite Forall_forall in H1. exact (H1 _ Hi). }
  destruct (same_text n (T "x_")).
  { destruct b; try (left; reflexivity). right. split; [reflexivity|]. specialize (H2 eq_refl). rewrite Forall_forall in H2. exact (H2 _ Hi). }
  destruct (same_text n (T "c_")); [now left|].
  destruct (same_text n (T "key_")); [now left|].
  destruct (same_text n (T "flag_")); [|exact I]. right. split; [reflexivity|]. unfold flag_value. intros h new v [= <- <-]. exact I.
Qed.
Lemma aggregate_start b S expected : eok (code_types b) (aggregate_types b) S (aggregate_vars var expected).
Proof.
  intros n t v. unfold aggregate_types, aggregate_vars. cbn [assoc].
  destruct (same_text n var) eqn:E1. { intros [= <-] _ [= <-]. destruct b; cbn; auto. }
  destruct (same_text n (T "_d")) eqn:E2. { apply same_text_eq in E2 as ->. vm_compute. discriminate. }
  destruct (same_text n (T "_none")). { intros [= <-] _ _. exact I. }
  destruct (same_text n (T "checksum_")). { intros [= <-] _ [= <-]. exact I. }
  destruct (same_text n (T "expected_checksum_")). { intros [= <-] _ [= <-]. exact I. }
  discriminate.
Qed.

(** C53, c.aggregate: whatever the rows and however their values are shared, running
    the loops of a built-in reducer (.filter included) leaves every object that existed
    before as it was, also when an expression raises half-way.  Sum and DictSumOrNone
    need values that are no containers, see C53_sum_refuted. *)
Theorem C53_aggregate_partial : forall ops b filter before rows expected body body2,
  adds_scalars ops ->
  (b = Sum -> Forall (fun i => gives_scalars (in_expr i)) rows) ->
  (b = DictSumOrNone -> Forall (fun i => gives_scalars (in_extra i)) rows) ->
  filter = None \/ filter = Some (T "c_") ->
  read_text 2 (block_lines (code b filter None) var (Some (T "flag_"))) = Some body ->
  read_text 2 (no_init_lines (code b filter None) var) = Some body2 ->
  unchanged before (snd (exec_two_loops ops body body2 (map row_codes rows) (aggregate_vars var expected) before)).
Proof.
  intros ops b filter before rows expected body body2 A S1 S2 F B B2.
  eapply good_unchanged. eapply two_loops_ok with (cty := code_types b) (vars := aggregate_types b).
  - exact A.
  - eapply aggregate_checked; eauto.
  - eapply no_init_checked; eauto.
  - apply rows_typed; auto.
  - apply hok_start.
  - apply aggregate_start.
Qed.
Print Assumptions C53_aggregate_partial.

(** C53, c.group_by: the same, with the accumulators in instances kept in a dict. *)
Theorem C53_group_by_partial : forall ops b filter before rows body,
  adds_scalars ops ->
  (b = Sum -> Forall (fun i => gives_scalars (in_expr i)) rows) ->
  (b = DictSumOrNone -> Forall (fun i => gives_scalars (in_extra i)) rows) ->
  filter = None \/ filter = Some (T "c_") ->
  read_text 2 (group_line :: block_lines (code b filter None) (T "agg_data_.v0") None) = Some body ->
  unchanged before (snd (exec_rows ops body (map row_codes rows) (group_vars (length before)) (before ++ [groups_object]))).
Proof.
  intros ops b filter before rows body A S1 S2 F B.
  eapply good_unchanged. eapply rows_ok with (cty := code_types b) (vars := group_types b).
  - exact A.
  - eapply group_checked; eauto.
  - apply rows_typed; auto.
  - apply (hok_start1 before (TBox (TInst [(T "v0", held b)]))). cbn [ook]. split; [constructor|]. reflexivity.
  - intros n t v. unfold group_types, group_vars. cbn [assoc].
    destruct (same_text n (T "signature_to_agg_data_")) eqn:E1.
    { intros [= <-] _ [= <-]. right. eexists. split; [reflexivity|].
      rewrite nth_error_app2, map_length, Nat.sub_diag by now rewrite map_length. reflexivity. }
    destruct (same_text n (T "agg_data_")) eqn:E2. { apply same_text_eq in E2 as ->. vm_compute. discriminate. }
    destruct (same_text n (T "_d")) eqn:E3. { apply same_text_eq in E3 as ->. vm_compute. discriminate. }
    destruct (same_text n (T "_none")); [|discriminate]. intros [= <-] _ _. exact I.
Qed.
Print Assumptions C53_group_by_partial.

(** *** cases *)
(** ints, strings and references; + of ints and of lists *)
Definition eq_case (v w : hval) : bool :=
  match v, w with
  | HNone, HNone | HSent, HSent => true
  | HBool a, HBool b => Bool.eqb a b
  | HInt a, HInt b => Z.eqb a b
  | HStr a, HStr b => same_text a b
  | HScalar a, HScalar b => Nat.eqb a b
  | HRef a, HRef b => Nat.eqb a b
  | _, _ => false
  end.
Definition ops_case : pyops := mkOps
  (fun _ v w => Some (eq_case v w))
  (fun _ v w => match v, w with HInt a, HInt b => Some (Z.ltb a b) | _, _ => None end)
  (fun h v => Some match v with
                   | HNone => false | HBool b => b | HInt z => negb (Z.eqb z 0)
                   | HRef a => match nth_error h a with Some (OList []) => false | _ => true end
                   | _ => true end)
  (fun _ v => match v with HRef _ => false | _ => true end)
  (fun h v w => match v, w with
                | HInt a, HInt b => Some ([], HInt (a + b))
                | HRef _, HRef _ =>
                    match items_of v h, items_of w h with
                    | Some l, Some m => Some ([OList (l ++ m)], HRef (length h))
                    | _, _ => None
                    end
                | _, _ => None
                end)
  (fun _ _ _ => None).
Lemma ops_case_adds : adds_scalars ops_case.
Proof.
  intros h v w new x Hv. destruct v; cbn in Hv; try contradiction; cbn; try discriminate.
  destruct w; try discriminate. intros [= <- <-]. exact I.
Qed.
Definition const (v : hval) (h : heap) : outcome := Some ([], v).
Definition row_case (e x : hval) : inputs := mkInputs (const e) (const x) (const (HBool true)) (const (HInt 7)).

(** group_by with DictArray: three rows whose values are lists of the data; the lists are
    put into new lists, which grow; the three lists of the data stay. *)
Example C53_group_by_case :
  match read_text 2 (group_line :: block_lines (code DictArray (Some (T "c_")) None) (T "agg_data_.v0") None) with
  | Some body =>
      exec_rows ops_case body (map row_codes [row_case (HInt 1) (HRef 0); row_case (HInt 1) (HRef 1); row_case (HInt 2) (HRef 0)])
        (group_vars 2) ([OList [HInt 5]; OList []] ++ [groups_object])
      = (Some ([(T "agg_data_", HRef 3); (T "agg_data_", HRef 3); (T "_d", HRef 4); (T "agg_data_", HRef 3)] ++ group_vars 2, []),
         [OList [HInt 5]; OList [];                               (* the data *)
          ODict [(HInt 7, HRef 3)] (Some (FInst [T "v0"]));
          OInst [(T "v0", HRef 4)];
          ODict [(HInt 1, HRef 5); (HInt 2, HRef 6)] (Some FList);
          OList [HRef 0; HRef 1];
          OList [HRef 0]])
  | None => False
  end.
Proof. vm_compute. reflexivity. Qed.
(** aggregate with Sum of ints, the second row raising *)
Example C53_aggregate_case :
  match read_text 2 (block_lines (code Sum None None) var (Some (T "flag_"))), read_text 2 (no_init_lines (code Sum None None) var) with
  | Some body, Some body2 =>
      fst (exec_two_loops ops_case body body2 (map row_codes [row_case (HInt 1) HNone; row_case (HInt 2) HNone; row_case HNone HNone])
             (aggregate_vars var 1) [OList [HInt 5]]) <> None
      /\ exec_two_loops ops_case body body2
           (map row_codes [row_case (HInt 1) HNone; row_case (HStr (T "a")) HNone]) (aggregate_vars var 1) [OList [HInt 5]]
         = (None, [OList [HInt 5]])
  | _, _ => False
  end.
Proof. vm_compute. split; [discriminate|reflexivity]. Qed.
Lemma bodies_read b c : (c = None \/ c = Some (T "c_")) ->
  (exists body, read_text 2 (block_lines (code b c None) var (Some (T "flag_"))) = Some body) /\
  (exists body, read_text 2 (no_init_lines (code b c None) var) = Some body) /\
  (exists body, read_text 2 (group_line :: block_lines (code b c None) (T "agg_data_.v0") None) = Some body).
Proof. intros [->| ->]; destruct b; vm_compute; repeat split; eexists; reflexivity. Qed.

(** Without the conditions the claim is false: Sum of lists extends the list of the first
    row, /repo/src/convtools/aggregations.py:285-290 ("+=" on the value of the row itself). *)
Theorem C53_sum_refuted : exists ops before rows body body2,
  adds_scalars ops /\
  read_text 2 (block_lines (code Sum None None) var (Some (T "flag_"))) = Some body /\
  read_text 2 (no_init_lines (code Sum None None) var) = Some body2 /\
  ~ unchanged before (snd (exec_two_loops ops body body2 (map row_codes rows) (aggregate_vars var 1) before)) /\
  before = [OList [HInt 1]; OList [HInt 2]] /\
  firstn 2 (snd (exec_two_loops ops body body2 (map row_codes rows) (aggregate_vars var 1) before))
    = [OList [HInt 1; HInt 2]; OList [HInt 2]].
Proof.
  exists ops_case, [OList [HInt 1]; OList [HInt 2]], [row_case (HRef 0) HNone; row_case (HRef 1) HNone].
  do 2 eexists. split; [apply ops_case_adds|]. split; [vm_compute; reflexivity|]. split; [vm_compute; reflexivity|].
  split; [|split; [reflexivity|vm_compute; reflexivity]].
  vm_compute. intros [new H]. discriminate.
Qed.
Print Assumptions C53_sum_refuted.
(** ... and DictSumOrNone, /repo/src/convtools/aggregations.py:414-420 *)
Theorem C53_dict_sum_or_none_refuted : exists ops before rows body,
  adds_scalars ops /\
  read_text 2 (group_line :: block_lines (code DictSumOrNone None None) (T "agg_data_.v0") None) = Some body /\
  ~ unchanged before (snd (exec_rows ops body (map row_codes rows) (group_vars (length before)) (before ++ [groups_object]))).
Proof.
  exists ops_case, [OList [HInt 1]; OList [HInt 2]], [row_case (HInt 3) (HRef 0); row_case (HInt 3) (HRef 1)].
  eexists. split; [apply ops_case_adds|]. split; [vm_compute; reflexivity|].
  vm_compute. intros [new H]. discriminate.
Qed.
Print Assumptions C53_dict_sum_or_none_refuted.
