(** C34: reducers computed once because their code is considered identical. *)
From Coq Require Import String Ascii List ZArith NArith Bool Arith Lia.
From Verif Require Import Model_PyVal Model_Reducers Model_Aggregate Spec_Aggregate Spec_Reducers Props_Aggregate
  Model_Code Model_AggText Spec_AggText Proofs_AggText Proofs_AggHash Proofs_AggShare.
Import ListNotations.

(** *** group_by *)
(** Reducers with equal hashes have equal code: same condition, same first
    statements, same further statements, whatever the variable is called.
    Missing: inline reducers given as strings, and initial= for Max, Min,
    MaxRow, MinRow, DictMax, DictMin; codes containing the text agg_data_.v<i>. *)
Theorem C34_group_by_partial : forall i j q q',
  well_formed q -> well_formed q' -> plain_initial q -> plain_initial q' ->
  free_of (agg_var false i) q -> free_of (agg_var false j) q' ->
  hash_at false i q = hash_at false j q' -> same_block q q'.
Proof. exact share_group. Qed.
Print Assumptions C34_group_by_partial.

(** And reducers with equal code do get equal hashes. *)
Theorem C34_group_by_shares_partial : forall i j q q',
  well_formed q -> well_formed q' -> free_of (agg_var false i) q -> free_of (agg_var false j) q' ->
  same_block q q' -> hash_at false i q = hash_at false j q'.
Proof.
  intros i j q q' W W' F F' [C B]. rewrite !group_hash by auto. f_equal.
  rewrite <- !(block_fill _ [] (wf_op _ W)), <- !(block_fill _ [] (wf_op _ W')).
  unfold block_lines, chk_text. destruct (B []) as [B1 B2]. now rewrite C, B1, B2.
Qed.
Print Assumptions C34_group_by_shares_partial.

(** *** aggregate *)
(** There the hash also has the digits of 2^i erased.  Missing in addition:
    codes that contain these digits, where the claim is false (below). *)
Theorem C34_aggregate_partial : forall i j q q', i < j ->
  well_formed q -> well_formed q' -> plain_initial q -> plain_initial q' ->
  free_of (agg_var true i) q -> free_of (agg_var true j) q' ->
  free_of (ndec (2 ^ N.of_nat i)) q -> free_of (ndec (2 ^ N.of_nat j)) q' ->
  hash_at true i q = hash_at true j q' -> same_block q q'.
Proof.
  intros i j q q' L W W' P P' F F' G G' E. apply (share_aggregate i j); auto; unfold flag_of; now rewrite N.shiftl_1_l.
Qed.
Print Assumptions C34_aggregate_partial.

(** Moving a block to its variable changes the variable and nothing else. *)
Theorem C34_renaming_partial : forall mode i q new, well_formed q -> free_of (agg_var mode i) q ->
  renamed (agg_var mode i) new (reduce_initial q (agg_var mode i)) = reduce_initial q new /\
  renamed (agg_var mode i) new (reduce_two q (agg_var mode i)) = reduce_two q new.
Proof. exact rename_block. Qed.
Print Assumptions C34_renaming_partial.

(** *** the results *)
(** The reduces of an aggregation: [its] with their codes.  [py]: what Python
    makes of the text of a block run alone over rows. *)
Record coded {Row : Type} (mode : bool) (str : text -> string) (py : list text -> list Row -> res cell)
    (sem : string -> Row -> res bool) (its : list (item Row)) (codes : list rcode) : Prop := {
  hashes : forall p it, nth_error its p = Some it ->
    exists q, nth_error codes p = Some q /\ Model_Aggregate.hash it = str (hash_at mode p q);
  fine : forall p q, nth_error codes p = Some q -> well_formed q /\ plain_initial q /\ free_of (agg_var mode p) q /\
    (mode = true -> free_of (ndec (2 ^ N.of_nat p)) q);
  meaning : forall p it q, nth_error its p = Some it -> nth_error codes p = Some q ->
    forall rows, run_alone (whole sem it) None rows = py (block_lines q (T "v") None) rows
}.
Lemma coded_same {Row} mode str (py : list text -> list Row -> res cell) sem its codes :
  (forall t t', str t = str t' -> t = t') -> coded mode str py sem its codes -> same_code_same_loop sem its.
Proof.
  intros INJ CD a b Ia Ib E rows. apply In_nth_error in Ia as (p & Ip). apply In_nth_error in Ib as (p' & Ip').
  destruct (hashes _ _ _ _ _ _ CD p a Ip) as (q & Q & H). destruct (hashes _ _ _ _ _ _ CD p' b Ip') as (q' & Q' & H').
  destruct (fine _ _ _ _ _ _ CD p q Q) as (W & P & F & G). destruct (fine _ _ _ _ _ _ CD p' q' Q') as (W' & P' & F' & G').
  rewrite H, H' in E. apply INJ in E.
  rewrite (meaning _ _ _ _ _ _ CD p a q Ip Q rows), (meaning _ _ _ _ _ _ CD p' b q' Ip' Q' rows).
  assert (SB : p = p' \/ same_block q q' \/ same_block q' q).
  { destruct mode.
    - destruct (lt_eq_lt_dec p p') as [[L|L]|L]; [right; left|now left|right; right].
      + apply (C34_aggregate_partial p p'); auto.
      + apply (C34_aggregate_partial p' p); auto.
    - right. left. apply (C34_group_by_partial p p'); auto. }
  destruct SB as [<-|[[C B]|[C B]]].
  - rewrite Q in Q'. now injection Q' as <-.
  - unfold block_lines. destruct (B (T "v")) as [B1 B2]. now rewrite C, B1, B2.
  - unfold block_lines. destruct (B (T "v")) as [B1 B2]. now rewrite C, B1, B2.
Qed.

(** The group_by gives every reducer the result it has alone, shared or not. *)
Theorem C34_group_by_results_partial :
  forall (Row : Type) (sem : string -> Row -> res bool) str py keys its codes (rows : list Row) out,
  (forall t t', str t = str t' -> t = t') -> coded false str py sem its codes -> declared_honestly its ->
  group_by sem keys its rows = Some (Ok out) ->
  forall k results, In (k, results) out ->
    Forall2 (fun it x => reduce_rows (whole sem it) (rows_of (group_key keys) k rows) = Ok x) its results.
Proof.
  intros Row sem str py keys its codes rows out INJ CD HO E k results I.
  assert (NE : its <> []) by (intros ->; discriminate E).
  pose proof (C27_group_by_partitions Row sem keys its rows NE (coded_same _ _ _ _ _ _ INJ CD) HO) as H.
  rewrite E in H. now apply H.
Qed.
Print Assumptions C34_group_by_results_partial.
(** So does aggregate, where no reducer starts late (see C33). *)
Theorem C34_aggregate_results_partial :
  forall (Row : Type) (sem : string -> Row -> res bool) str py its codes (rows : list Row) out,
  (forall t t', str t = str t' -> t = t') -> coded true str py sem its codes -> declared_honestly its ->
  in_step sem its rows -> aggregate sem its rows = Some (Ok out) ->
  Forall2 (fun it x => reduce_rows (whole sem it) rows = Ok x) its out.
Proof.
  intros Row sem str py its codes rows out INJ CD HO ST E.
  assert (NE : its <> []) by (intros ->; discriminate E).
  pose proof (C33_each_reducer_alone_partial Row sem its rows NE (coded_same _ _ _ _ _ _ INJ CD) HO (or_introl ST)) as H.
  now rewrite E in H.
Qed.
Print Assumptions C34_aggregate_results_partial.

(** *** a case *)
Definition code (op : opcode) (e : string) : rcode := mkCode op None None (T e) [].
Definition c34_codes : list rcode := [code (Stmts Sum) "row_['a']"; code (Stmts Max) "row_['b']"; code (Stmts Sum) "row_['a']"].
Definition one_text (t : text) : bool :=
  negb (teqb t []) && negb (existsb (N.eqb 10) t) && negb (starts [44%N] t) && negb (existsb (N.eqb 40) t).
Lemma one_text_ok t : one_text t = true -> expression_text t.
Proof.
  unfold one_text. rewrite !andb_true_iff, !negb_true_iff. intros [[[A B] C] D].
  assert (NI : forall c, existsb (N.eqb c) t = false -> ~ In c t).
  { intros c H I. assert (existsb (N.eqb c) t = true) by (apply existsb_exists; exists c; split; [exact I|apply N.eqb_refl]). congruence. }
  split.
  - intros ->. discriminate A.
  - now apply NI.
  - intros r ->. discriminate C.
  - intros f r _ ->. apply (NI _ D). apply in_or_app. right. now left.
Qed.
Definition fine_code (q : rcode) : bool :=
  forallb one_text (parts q) && match r_op q with Stmts (Sum | Max | Count) => true | _ => false end.
Lemma fine_code_ok q : fine_code q = true -> well_formed q.
Proof.
  unfold fine_code. rewrite andb_true_iff. intros [A B]. rewrite forallb_forall in A. split.
  - intros t I. apply one_text_ok. auto.
  - destruct (r_op q) as [[]| |]; try discriminate B; right; cbn; tauto.
Qed.
Definition free_code (t : text) (q : rcode) : bool := forallb (fun p => negb (contains t p)) (parts q).
Lemma free_code_ok t q : fine_code q = true -> free_code t q = true -> free_of t q.
Proof.
  unfold free_code. intros B A. rewrite forallb_forall in A. split.
  - intros p I. specialize (A p I). now apply negb_true_iff in A.
  - unfold fine_code in B. apply andb_true_iff in B as [_ B]. destruct (r_op q) as [| |]; auto; discriminate B.
Qed.
(** an injective writing of texts as strings *)
Fixpoint tally (n : nat) (r : string) : string := match n with 0 => String "b"%char r | S n => String "a"%char (tally n r) end.
Fixpoint tallies (t : text) : string := match t with [] => EmptyString | c :: r => tally (N.to_nat c) (tallies r) end.
Lemma tally_inj n : forall m r s, tally n r = tally m s -> n = m /\ r = s.
Proof.
  induction n as [|n IH]; intros [|m] r s E; try discriminate E; injection E as E.
  - auto.
  - destruct (IH _ _ _ E) as [-> ->]. auto.
Qed.
Lemma tallies_inj t : forall t', tallies t = tallies t' -> t = t'.
Proof.
  induction t as [|c t IH]; intros [|d t'] E.
  - reflexivity.
  - exfalso. cbn [tallies] in E. destruct (N.to_nat d); discriminate E.
  - exfalso. cbn [tallies] in E. destruct (N.to_nat c); discriminate E.
  - cbn [tallies] in E. apply tally_inj in E as [E1 E2]. f_equal; [lia|auto].
Qed.
Definition c34_row := (val * val)%type.
Definition c34_obj (b : builtin) (f : c34_row -> val) : reduce_obj c34_row :=
  mkReduce (Builtin b) (fun r => Ok (f r)) [] None None None false.
Definition c34_items (mode : bool) : list (item c34_row) :=
  [mkItem (c34_obj Sum fst) None (tallies (hash_at mode 0 (code (Stmts Sum) "row_['a']")));
   mkItem (c34_obj Max snd) None (tallies (hash_at mode 1 (code (Stmts Max) "row_['b']")));
   mkItem (c34_obj Sum fst) None (tallies (hash_at mode 2 (code (Stmts Sum) "row_['a']")))].
Definition c34_py (ls : list text) (rows : list c34_row) : res cell :=
  if list_eq_dec (list_eq_dec N.eq_dec) ls (block_lines (code (Stmts Sum) "row_['a']") (T "v") None)
  then run_alone (c34_obj Sum fst) None rows else run_alone (c34_obj Max snd) None rows.
Lemma c34_coded mode : coded mode tallies c34_py (fun _ _ => Ok true) (c34_items mode) c34_codes.
Proof.
  assert (FC : forall q, In q c34_codes -> fine_code q = true) by (apply forallb_forall; vm_compute; reflexivity).
  split.
  - intros p it H. destruct p as [|[|[|[|p]]]]; try discriminate H; injection H as <-; eexists; split; reflexivity.
  - intros p q H. pose proof (FC q (nth_error_In _ _ H)) as FQ. split; [now apply fine_code_ok|].
    split; [destruct p as [|[|[|[|p]]]]; try discriminate H; injection H as <-; right; reflexivity|].
    split; [|intros _]; (apply free_code_ok; [exact FQ|]);
      destruct p as [|[|[|[|p]]]]; try discriminate H; injection H as <-; destruct mode; vm_compute; reflexivity.
  - intros p it q H1 H2 rows. destruct p as [|[|[|[|p]]]]; try discriminate H1; injection H1 as <-; injection H2 as <-;
      unfold c34_py; destruct (list_eq_dec (list_eq_dec N.eq_dec) _ _) as [E|E]; try reflexivity.
    + now contradiction E.
    + exfalso. revert E. vm_compute. discriminate.
    + now contradiction E.
Qed.
(** The first and the third reducer share a variable; all results are right. *)
Example C34_case :
  hash_at false 0 (code (Stmts Sum) "row_['a']") = hash_at false 2 (code (Stmts Sum) "row_['a']") /\
  hash_at true 0 (code (Stmts Sum) "row_['a']") = hash_at true 2 (code (Stmts Sum) "row_['a']") /\
  (forall mode, coded mode tallies c34_py (fun _ _ => Ok true) (c34_items mode) c34_codes) /\
  declared_honestly (c34_items false) /\ declared_honestly (c34_items true) /\
  group_by (fun _ _ => Ok true) [fun _ => Ok VNone] (c34_items false) [(VInt 1, VInt 5); (VInt 2, VInt 4)] =
    Some (Ok [(VNone, [Some (VInt 3); Some (VInt 5); Some (VInt 3)])]) /\
  aggregate (fun _ _ => Ok true) (c34_items true) [(VInt 1, VInt 5); (VInt 2, VInt 4)] =
    Some (Ok [Some (VInt 3); Some (VInt 5); Some (VInt 3)]).
Proof.
  split; [vm_compute; reflexivity|]. split; [vm_compute; reflexivity|]. split; [exact c34_coded|].
  split; [apply C27_hypotheses_hold; intros it [<-|[<-|[<-|[]]]]; split; cbn; auto|].
  split; [apply C27_hypotheses_hold; intros it [<-|[<-|[<-|[]]]]; split; cbn; auto|].
  split; vm_compute; reflexivity.
Qed.
Example C34_renaming_case :
  let q := code (Stmts Sum) "row_['a']" in well_formed q /\ free_of (agg_var false 2) q /\
  renamed (agg_var false 2) (T "agg_data_.v0") (reduce_two q (agg_var false 2)) = [T "agg_data_.v0 += (row_['a'] or 0)"].
Proof.
  cbv zeta. split; [apply fine_code_ok; vm_compute; reflexivity|].
  split; [apply free_code_ok; vm_compute; reflexivity|vm_compute; reflexivity].
Qed.

(** *** where it is visible *)
(** c.aggregate((c.reduce(Sum, c.item(1)), c.reduce(Sum, c.item(2)))): erasing
    1 from the first code and 2 from the second makes them equal, and both
    results are the sum of the items at 1. *)
Definition digit_items : list (item c34_row) :=
  [mkItem (c34_obj Sum fst) None (tallies (hash_at true 0 (code (Stmts Sum) "row_[1]")));
   mkItem (c34_obj Sum snd) None (tallies (hash_at true 1 (code (Stmts Sum) "row_[2]")))].
Theorem C34_aggregate_digits_refuted : exists q q',
  well_formed q /\ well_formed q' /\ plain_initial q /\ plain_initial q' /\
  hash_at true 0 q = hash_at true 1 q' /\ ~ same_block q q'.
Proof.
  exists (code (Stmts Sum) "row_[1]"), (code (Stmts Sum) "row_[2]").
  split; [apply fine_code_ok; vm_compute; reflexivity|]. split; [apply fine_code_ok; vm_compute; reflexivity|].
  split; [now left|]. split; [now left|]. split; [vm_compute; reflexivity|].
  intros [_ B]. destruct (B []) as [B1 _]. vm_compute in B1. discriminate B1.
Qed.
Print Assumptions C34_aggregate_digits_refuted.
Lemma second_of {A B} (R : A -> B -> Prop) a b c x y z : Forall2 R (a :: b :: c) (x :: y :: z) -> R b y.
Proof. intros F. inversion F as [|? ? ? ? _ F2]. now inversion F2. Qed.
Theorem C34_aggregate_wrong_result_refuted : exists rows,
  (forall it, In it digit_items -> exists v, reduce_rows (whole (fun _ _ => Ok true) it) rows = Ok v) /\
  exists out, aggregate (fun _ _ => Ok true) digit_items rows = Some (Ok out) /\
    ~ Forall2 (fun it x => reduce_rows (whole (fun _ _ => Ok true) it) rows = Ok x) digit_items out.
Proof.
  exists [(VInt 10, VInt 20)]. split.
  - intros it [<-|[<-|[]]]; eexists; vm_compute; reflexivity.
  - exists [Some (VInt 10); Some (VInt 10)]. split; [vm_compute; reflexivity|].
    intros F. apply second_of in F. revert F. vm_compute. discriminate.
Qed.
Print Assumptions C34_aggregate_wrong_result_refuted.
(** c.reduce("{0} - {1}", e) and c.reduce(" - {1}", e): the accumulator itself is
    erased from the hash. *)
Theorem C34_inline_refuted : exists s s' e,
  s = statement "{0} - {1}" /\ s' = statement " - {1}" /\
  hash_at false 0 (code (Inline s) e) = hash_at false 1 (code (Inline s') e) /\
  ~ same_block (code (Inline s) e) (code (Inline s') e).
Proof.
  exists (statement "{0} - {1}"), (statement " - {1}"), "row_"%string. split; [reflexivity|]. split; [reflexivity|]. split.
  - vm_compute; reflexivity.
  - intros [_ B]. destruct (B (T "x")) as [_ B2]. vm_compute in B2. discriminate B2.
Qed.
Print Assumptions C34_inline_refuted.
