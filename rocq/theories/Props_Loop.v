(** C28-C31, C32, C35: the generated statements themselves.  The lines the library
    puts into the loop of an aggregation, read as Python (Spec_Stmt.v) and run over
    the rows, leave the reduction of Model_Reducers.v in the reducer's variable. *)
From Coq Require Import String Ascii List NArith ZArith Bool Arith Lia.
From Verif Require Import Model_PyVal Model_Reducers Model_Code Model_AggText Spec_Syntax Spec_Stmt Spec_Loop
  Proofs_Stmt Proofs_Loop.
Import ListNotations.

Lemma shape_init b E X c : init_stmt b E X = Ok (Some c) -> shape b c.
Proof.
  destruct b; cbn [init_stmt shape]; auto; destruct E as [e|]; destruct X as [x|]; cbn [bind]; unfold need_hash;
  intros H; try discriminate;
  repeat match type of H with
         | context [if ?t then _ else _] => destruct t; cbn [bind] in H; try discriminate
         | context [match ?t with Ok _ => _ | Err _ => _ end] => destruct t; cbn [bind] in H; try discriminate
         | context [bind ?t _] => destruct t; cbn [bind] in H; try discriminate
         end; injection H as <-; eauto.
Qed.
Lemma shape_set_item c k v c' : set_item c k v = Ok (Some c') -> exists d, c' = VDict d.
Proof.
  destruct c as [[]|]; cbn; try discriminate. unfold need_hash. destruct (hashable k); cbn; [|discriminate].
  intros H. injection H as <-. eauto.
Qed.
Lemma set_item_none k v c : set_item None k v = Ok c -> False.
Proof. discriminate. Qed.
Lemma shape_reduce b Z R E X c : cell_ok b R -> reduce_stmt b Z R E X = Ok (Some c) -> shape b c.
Proof.
  intros K. destruct b; cbn [reduce_stmt shape]; auto; cbn in K;
  destruct E as [e|]; destruct X as [x|]; cbn [bind]; intros H; try discriminate;
  repeat match type of H with
         | set_item _ _ _ = _ => apply shape_set_item in H; exact H
         | Ok R = Ok _ => injection H as ->; exact K
         | Ok _ = Ok _ => injection H as <-; eauto
         | context [match ?t with VNone => _ | _ => _ end] => destruct t; cbn [bind] in H; try discriminate
         | (if ?t then _ else _) = _ => destruct t; cbn [bind] in H; try discriminate
         | bind ?t _ = _ => destruct t; cbn [bind] in H; try discriminate
         end.
Qed.
Lemma shape_step {Row} (o : reduce_obj Row) b c row c' : red o = Builtin b -> cell_ok b c ->
  step_alone o c row = Ok c' -> cell_ok b c'.
Proof.
  intros R K. unfold step_alone. destruct (match condition o with None => Ok true | Some p => p row end) as [[]|]; cbn [bind];
    intros H; [|injection H as <-; auto|discriminate].
  destruct c' as [v|]; [|exact Logic.I]. cbn [cell_ok]. destruct c as [c|].
  - unfold run_two in H. rewrite R in H. exact (shape_reduce b _ (Some c) _ _ v K H).
  - unfold run_init in H. rewrite R in H. destruct (initial o) as [i|].
    + exact (shape_reduce b _ None _ _ v Logic.I H).
    + exact (shape_init b _ _ v H).
Qed.

Section Text.
  Context {Row : Type}.
  Variables (o : reduce_obj Row) (b : builtin).
  Hypothesis R : red o = Builtin b.

  Lemma checked_off f c n m row : step_checked o false f c n m row = do c' <- step_alone o c row; Ok (c', n, false).
  Proof.
    unfold step_checked, step_alone. destruct (match condition o with None => Ok true | Some p => p row end) as [[]|]; cbn [bind]; auto.
    destruct c as [c|]; [destruct (run_two o c row)|destruct (run_init o row) as [[]|]]; reflexivity.
  Qed.
  Lemma checked_on f c n m row : c = None \/ n = 0%Z -> n = 0%Z -> m = f ->
    step_checked o true f c n m row =
    do c' <- step_alone o c row;
    Ok (c', match c, c' with None, Some _ => f | _, _ => n end, match c, c' with None, Some _ => true | _, _ => false end).
  Proof.
    intros _ -> ->. unfold step_checked, step_alone. rewrite Z.lor_0_l, Z.eqb_refl.
    destruct (match condition o with None => Ok true | Some p => p row end) as [[]|]; cbn [bind]; auto.
    - destruct c as [c|]; [destruct (run_two o c row)|destruct (run_init o row) as [[]|]]; reflexivity.
    - destruct c; reflexivity.
  Qed.

  Lemma group_loop_text n m rows : forall c, cell_ok b c ->
    run_loop var_names 2 (codes o 0) (block_lines (parts_of b o) var None) (objects_of b c n m) rows
    = do c' <- run_alone o c rows; Ok (objects_of b c' n m, []).
  Proof.
    induction rows as [|row rows IH]; intros c K; cbn [run_loop run_alone]; [reflexivity|].
    change (@None text) with (chk false). rewrite (block_text o b R false 0 c n m row K), checked_off.
    destruct (step_alone o c row) as [c'|] eqn:S1; cbn [bind fst snd]; auto.
    apply IH. exact (shape_step o b c row c' R K S1).
  Qed.
  Lemma no_init_loop_text f n m rows : forall c, shape b c -> (forall c row c', step_alone o (Some c) row = Ok c' -> c' <> None) ->
    run_loop var_names 2 (codes o f) (no_init_lines (parts_of b o) var) (objects_of b (Some c) n m) rows
    = do c' <- run_alone o (Some c) rows; Ok (objects_of b c' n m, []).
  Proof.
    induction rows as [|row rows IH]; intros c K N; cbn [run_loop run_alone]; [reflexivity|].
    rewrite (no_init_text o b R f c n m row K).
    destruct (step_alone o (Some c) row) as [c'|] eqn:S1; cbn [bind fst snd]; auto.
    destruct c' as [c'|]; [|now apply N in S1]. apply IH; auto.
    exact (shape_step o b (Some c) row (Some c') R K S1).
  Qed.
  Lemma reduce_keeps Z c E X c' : reduce_stmt b Z (Some c) E X = Ok c' -> c' <> None.
  Proof.
    intros H ->. destruct b; cbn [reduce_stmt iadd method_add method_append] in H;
    destruct E as [e|]; destruct X as [x|]; cbn [bind] in H; try discriminate;
    repeat match type of H with
         | set_item _ _ _ = _ => unfold set_item in H
         | need_hash ?t = _ => unfold need_hash in H
         | Ok _ = Ok _ => discriminate H
         | context [match ?t with VNone => _ | _ => _ end] => destruct t; cbn [bind method_add method_append] in H; try discriminate
         | context [if ?t then _ else _] => destruct t; cbn [bind] in H; try discriminate
         | bind ?t _ = _ => destruct t; cbn [bind] in H; try discriminate
         end.
  Qed.
  Lemma step_keeps c row c' : step_alone o (Some c) row = Ok c' -> c' <> None.
  Proof.
    unfold step_alone. destruct (match condition o with None => Ok true | Some p => p row end) as [[]|]; cbn [bind]; try discriminate.
    - unfold run_two. rewrite R. apply reduce_keeps.
    - intros H. injection H as <-. discriminate.
  Qed.
  Lemma first_loop_text f rows : forall c, c = None ->
    (do p <- run_loop var_names 2 (codes o f) (block_lines (parts_of b o) var (Some (T "flag_"))) (objects_of b c 0 f) rows;
     do q <- run_loop var_names 2 (codes o f) (no_init_lines (parts_of b o) var) (fst p) (snd p);
     Ok (nth 0 (fst q) Sentinel))
    = do c' <- run_alone o c rows; Ok (obj_of b c').
  Proof.
    induction rows as [|row rows IH]; intros c ->; cbn [run_loop run_alone bind fst snd]; [reflexivity|].
    change (Some (T "flag_")) with (chk true). rewrite (block_text o b R true f None 0%Z f row Logic.I).
    rewrite (checked_on f None 0%Z f row (or_introl eq_refl) eq_refl eq_refl).
    destruct (step_alone o None row) as [c'|] eqn:S1; cbn [bind fst snd]; auto.
    destruct c' as [c'|].
    - cbn [bind fst snd]. rewrite (no_init_loop_text f _ _ rows c').
      + destruct (run_alone o (Some c') rows); reflexivity.
      + exact (shape_step o b None row (Some c') R Logic.I S1).
      + apply step_keeps.
    - exact (IH None eq_refl).
  Qed.
End Text.

(** In group_by: the statements generated for a built-in reducer with any filter, initial,
    expression and argument, run for each row of a group on a variable that
    holds the sentinel, fail exactly as the reduction does, or leave its value
    in the variable. *)
Theorem C28_group_by_text : forall {Row} (o : reduce_obj Row) b n m rows, red o = Builtin b ->
  run_loop var_names 2 (codes o 0) (block_lines (parts_of b o) var None) (objects_of b None n m) rows
  = do c <- run_alone o None rows; Ok (objects_of b c n m, []).
Proof. intros Row o b n m rows R. apply group_loop_text; auto. exact Logic.I. Qed.
Print Assumptions C28_group_by_text.

(** In c.aggregate with this reduce alone: the first loop, left by break when the
    checksum is reached, then the second loop over the remaining rows. *)
Theorem C28_aggregate_text : forall {Row} (o : reduce_obj Row) b f rows, red o = Builtin b ->
  (do p <- run_loop var_names 2 (codes o f) (block_lines (parts_of b o) var (Some (T "flag_"))) (objects_of b None 0 f) rows;
   do q <- run_loop var_names 2 (codes o f) (no_init_lines (parts_of b o) var) (fst p) (snd p);
   Ok (nth 0 (fst q) Sentinel))
  = do c <- run_alone o None rows; Ok (obj_of b c).
Proof. intros Row o b f rows R. apply first_loop_text; auto. Qed.
Print Assumptions C28_aggregate_text.

(** A row: (key, value). *)
Definition row_t := (val * val)%type.
Definition demo (b : builtin) : reduce_obj row_t :=
  mkReduce (Builtin b) (fun r => Ok (fst r)) [fun r => Ok (snd r)] (Some (fun r => Ok (negb (is_none (fst r))))) None None false.
Definition demo_rows : list row_t :=
  [(VNone, VInt 5); (VInt 1, VNone); (VInt 2, VInt 7); (VInt 1, VInt 3); (VBool true, VInt 2); (VInt 2, VInt 9)].
Example C28_text_case :
  run_loop var_names 2 (codes (demo DictMax) 0) (block_lines (parts_of DictMax (demo DictMax)) var None)
    (objects_of DictMax None 0 0) demo_rows
  = Ok (objects_of DictMax (Some (VDict [(VInt 2, VInt 9); (VInt 1, VInt 3)])) 0 0, []).
Proof. vm_compute. reflexivity. Qed.
Example C28_aggregate_text_case :
  (do p <- run_loop var_names 2 (codes (demo DictArray) 4) (block_lines (parts_of DictArray (demo DictArray)) var (Some (T "flag_"))) (objects_of DictArray None 0 4) demo_rows;
   do q <- run_loop var_names 2 (codes (demo DictArray) 4) (no_init_lines (parts_of DictArray (demo DictArray)) var) (fst p) (snd p);
   Ok (snd p, nth 0 (fst q) Sentinel))
  = Ok (skipn 2 demo_rows,
        Obj (VDict [(VInt 1, VList [VNone; VInt 3; VInt 2]); (VInt 2, VList [VInt 7; VInt 9])]) (Some (VList []))).
Proof. vm_compute. reflexivity. Qed.
(** the text that is read *)
Example C28_text_lines :
  block_lines (parts_of Max (demo Max)) var (Some (T "flag_")) =
  map T [""; "        if c_:";
         "            if result_ is _none:";
         "                if e_ is not None:";
         "                    result_ = e_";
         "";
         "                if result_ is not _none:";
         "                    checksum_ |= flag_";
         "                    if checksum_ == expected_checksum_:";
         "                        break";
         "";
         "            else:";
         "                if e_ is not None and e_ > result_:";
         "                    result_ = e_"; ""]%string.
Proof. vm_compute. reflexivity. Qed.
