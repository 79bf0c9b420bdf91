(** The text of a block, read and run, does a step of the reduce. *)
From Coq Require Import String Ascii List NArith ZArith Bool Arith Lia.
From Verif Require Import Model_PyVal Model_Reducers Model_Code Model_AggText Spec_Syntax Spec_Stmt Spec_Loop Proofs_Stmt.
Import ListNotations.

(** *** a block *)
Definition is_unset : ast := ACompare (AName var) [(T "is", AName (T "_none"))].
Definition check_stmts : list stmt :=
  [If [(ACompare (AName var) [(T "is not", AName (T "_none"))],
        [Simple (SOr (AName (T "checksum_")) (AName (T "flag_")));
         If [(ACompare (AName (T "checksum_")) [(T "==", AName (T "expected_checksum_"))], [Simple SBreak])] []])] []].
Definition chk (on : bool) : option text := if on then Some (T "flag_") else None.
Definition given (i : bool) : option text := if i then Some (T "z_") else None.
Definition cond (c : bool) : option text := if c then Some (T "c_") else None.
Definition under (c : bool) (l : list stmt) : list stmt := if c then [If [(AName (T "c_"), l)] []] else l.

Lemma block_reads b c i on :
  read_text 2 (block_lines (code b (cond c) (given i)) var (chk on))
  = Some (under c [If [(is_unset, init_of b (given i) ++ if on then check_stmts else [])] (two_of b)]).
Proof. destruct b, c, i, on; vm_compute; reflexivity. Qed.
Lemma no_init_reads b c i :
  read_text 2 (no_init_lines (code b (cond c) (given i)) var) = Some (under c (two_of b)).
Proof. destruct b, c, i; vm_compute; reflexivity. Qed.

Section Stmts.
  Variable codes : list (text * res val).
  Lemma run_all_eq l : forall s,
    (fix run_all (l : list stmt) (s : state) : res (state * bool) :=
      match l with
      | [] => Ok (s, false)
      | st :: r => do p <- run_stmt codes st s; if snd p then Ok p else run_all r (fst p)
      end) l s = run_stmts codes l s.
  Proof. induction l as [|st l IH]; intros s; cbn [run_stmts]; [reflexivity|]. destruct (run_stmt codes st s) as [[s' []]|]; cbn; auto. Qed.
  Lemma run_if1 c l other s :
    run_stmt codes (If [(c, l)] other) s =
    do p <- ev codes c s;
    if match fst p with Some v => truthy v | None => true end then run_stmts codes l (snd p) else run_stmts codes other (snd p).
  Proof. cbn [run_stmt]. destruct (ev codes c s) as [[v s']|]; cbn [bind fst snd]; [|reflexivity]. rewrite !run_all_eq. reflexivity. Qed.
  Lemma run_app l : forall l' s, run_stmts codes (l ++ l') s =
    do p <- run_stmts codes l s; if snd p then Ok p else run_stmts codes l' (fst p).
  Proof.
    induction l as [|st l IH]; intros l' s; cbn [app run_stmts]; [reflexivity|].
    destruct (run_stmt codes st s) as [[s' []]|]; cbn [bind fst snd]; auto.
  Qed.
  Lemma run_one st s : run_stmts codes [st] s = run_stmt codes st s.
  Proof. cbn. destruct (run_stmt codes st s) as [[s' []]|]; reflexivity. Qed.
End Stmts.

Lemma st0_view b c n m : view (st0 b c n m) = fine b c n m.
Proof. destruct c; reflexivity. Qed.
Lemma view_objects b c n m s : view s = fine b c n m ->
  map (fun x => match assoc (names s) (fst x) with Some l => obj_at s l | None => Sentinel end)
      (combine var_names (objects_of b c n m)) = objects_of b c n m.
Proof. unfold view, fine. intros H. injection H as _ _ _ _ H1 H2 H3 H4. unfold objects_of at 2. cbn -[assoc T]. congruence. Qed.

Record rel (b : builtin) (c : cell) (n m : Z) (s : state) : Prop := mkRel {
  r_var : exists l, assoc (names s) var = Some l /\ l <> 1 /\ l <> 2 /\ l <> 3 /\ obj_at s l = obj_of b c;
  r_none : assoc (names s) (T "_none") = Some 1;
  r_chk : assoc (names s) (T "checksum_") = Some 2;
  r_exp : assoc (names s) (T "expected_checksum_") = Some 3;
  o_none : obj_at s 1 = Sentinel;
  o_chk : obj_at s 2 = Obj (VInt n) None;
  o_exp : obj_at s 3 = Obj (VInt m) None }.
Lemma view_rel b c n m s : view s = fine b c n m -> rel b c n m s.
Proof.
  unfold view, fine, var_names. cbn [tl map]. intros H. injection H as H1 H2 H3 B O0 O1 O2 O3.
  rewrite H1 in O1. rewrite H2 in O2. rewrite H3 in O3.
  split; auto. destruct (assoc (names s) var) as [l|]; [|discriminate].
  exists l. split; [reflexivity|]. destruct l as [|[|[|[|l]]]]; try discriminate; repeat split; auto.
Qed.
Lemma rel_view b c n m s : rel b c n m s -> view s = fine b c n m.
Proof.
  intros [(l & H0 & L1 & L2 & L3 & O0) H1 H2 H3 O1 O2 O3]. unfold view, fine, var_names. cbn [tl map].
  rewrite H0, H1, H2, H3, O0, O1, O2, O3. unfold objects_of. repeat f_equal.
  destruct l as [|[|[|[|l]]]]; congruence.
Qed.
Lemma set_nth_same {B} (l : list B) : forall n b d, n < length l -> nth n (set_nth l n b) d = b.
Proof. induction l; intros [|n] b d H; cbn in *; try (now inversion H); auto. apply IHl. apply Nat.succ_lt_mono. auto. Qed.
Lemma set_nth_other {B} (l : list B) : forall n k b d, n <> k -> nth k (set_nth l n b) d = nth k l d.
Proof. induction l; intros [|n] [|k] b d H; cbn in *; try congruence; auto. Qed.

Section Check.
  Variables (E X I C : res val) (f : Z).
  Notation codes := (cs E X I C f).
  Lemma ev_var s b c n m : rel b c n m s -> ev codes (AName var) s = Ok (c, s).
  Proof.
    intros [(l & H0 & _ & _ & _ & O0) _ _ _ _ _ _]. cbn [ev]. change (assoc codes var) with (@None (res val)). cbv beta iota.
    rewrite H0, O0. destruct c; reflexivity.
  Qed.
  Lemma ev_none s b c n m : rel b c n m s -> ev codes (AName (T "_none")) s = Ok (None, s).
  Proof. intros [_ H _ _ O _ _]. cbn [ev]. change (assoc codes (T "_none")) with (@None (res val)). cbv beta iota. rewrite H, O. reflexivity. Qed.
  Lemma ev_unset s b c n m : rel b c n m s ->
    ev codes is_unset s = Ok (Some (VBool match c with None => true | Some _ => false end), s).
  Proof.
    intros R.
    change ((do p <- ev codes (AName var) s; do q <- ev codes (AName (T "_none")) (snd p);
            do r <- compare (T "is") (fst p) (fst q); Ok (Some (VBool r), snd q)) = Ok (Some (VBool match c with None => true | Some _ => false end), s)).
    rewrite (ev_var _ _ _ _ _ R). cbn [bind fst snd]. rewrite (ev_none _ _ _ _ _ R). destruct c; reflexivity.
  Qed.
  Lemma ev_set s b c n m : rel b c n m s ->
    ev codes (ACompare (AName var) [(T "is not", AName (T "_none"))]) s = Ok (Some (VBool match c with None => false | Some _ => true end), s).
  Proof.
    intros R.
    change ((do p <- ev codes (AName var) s; do q <- ev codes (AName (T "_none")) (snd p);
            do r <- compare (T "is not") (fst p) (fst q); Ok (Some (VBool r), snd q)) = Ok (Some (VBool match c with None => false | Some _ => true end), s)).
    rewrite (ev_var _ _ _ _ _ R). cbn [bind fst snd]. rewrite (ev_none _ _ _ _ _ R). destruct c; reflexivity.
  Qed.
  Lemma ev_equal s b c n m : rel b c n m s ->
    ev codes (ACompare (AName (T "checksum_")) [(T "==", AName (T "expected_checksum_"))]) s = Ok (Some (VBool (Z.eqb n m)), s).
  Proof.
    intros [_ _ H2 H3 _ O2 O3].
    change ((do p <- ev codes (AName (T "checksum_")) s; do q <- ev codes (AName (T "expected_checksum_")) (snd p);
            do r <- compare (T "==") (fst p) (fst q); Ok (Some (VBool r), snd q)) = Ok (Some (VBool (Z.eqb n m)), s)).
    cbn [ev]. change (assoc codes (T "checksum_")) with (@None (res val)). rewrite H2, O2. cbn [bind fst snd].
    change (assoc codes (T "expected_checksum_")) with (@None (res val)). rewrite H3, O3. reflexivity.
  Qed.
  Lemma run_or s b c n m : rel b c n m s ->
    exists s', run_stmt codes (Simple (SOr (AName (T "checksum_")) (AName (T "flag_")))) s = Ok (s', false)
               /\ rel b c (Z.lor n f) m s'.
  Proof.
    intros [(l & H0 & L1 & L2 & L3 & O0) H1 H2 H3 O1 O2 O3]. exists (store s 2 (Obj (VInt (Z.lor n f)) None)). split.
    - cbn [run_stmt run_simple change]. unfold variable. change (assoc codes (T "checksum_")) with (@None (res val)).
      rewrite H2, O2. cbn [ev]. change (assoc codes (T "flag_")) with (Some (Ok (VInt f))). reflexivity.
    - assert (2 < length (objects s)).
      { destruct (Nat.lt_ge_cases 2 (length (objects s))) as [|G]; auto. unfold obj_at in O2. rewrite nth_overflow in O2 by auto. discriminate. }
      assert (G : forall k, k <> 2 -> obj_at (store s 2 (Obj (VInt (Z.lor n f)) None)) k = obj_at s k).
      { intros k K. unfold obj_at, store. cbn [objects]. apply set_nth_other. auto. }
      split; try (rewrite G by congruence); auto.
      + exists l. rewrite G by congruence. repeat split; auto.
      + unfold obj_at, store. cbn [objects]. apply set_nth_same. auto.
  Qed.
  Lemma run_check s b c n m : rel b c n m s ->
    exists s', run_stmts codes check_stmts s = Ok (s', match c with None => false | Some _ => Z.eqb (Z.lor n f) m end)
               /\ rel b c (match c with None => n | Some _ => Z.lor n f end) m s'.
  Proof.
    intros R. unfold check_stmts. rewrite run_one, run_if1, (ev_set _ _ _ _ _ R). cbn [bind fst snd truthy].
    destruct c as [c|]; [|exists s; split; auto].
    destruct (run_or _ _ _ _ _ R) as (s' & Q & R'). exists s'. split; auto.
    cbn [run_stmts]. rewrite Q. cbn [bind fst snd]. rewrite run_if1, (ev_equal _ _ _ _ _ R'). cbn [bind fst snd truthy].
    destruct (Z.eqb (Z.lor n f) m); reflexivity.
  Qed.
End Check.

(** The block, for every reduce with that reducer. *)
Section Block.
  Context {Row : Type}.
  Variables (o : reduce_obj Row) (b : builtin).
  Hypothesis R : red o = Builtin b.
  Definition has_cond : bool := match condition o with Some _ => true | None => false end.
  Definition has_initial : bool := match initial o with Some _ => true | None => false end.
  Lemma parts_eq : parts_of b o = code b (cond has_cond) (given has_initial).
  Proof. unfold parts_of, has_cond, has_initial. destruct (condition o), (initial o); reflexivity. Qed.
  Lemma codes_eq f row : exists I C, codes o f row = cs (expr o row) (extra o row) I C f
      /\ (forall i, initial o = Some i -> I = i) /\ (forall p, condition o = Some p -> C = do t <- p row; Ok (VBool t)).
  Proof. eexists _, _. split; [reflexivity|]. split; intros ? ->; reflexivity. Qed.

  Lemma under_runs f row l s : 
    run_stmts (codes o f row) (under has_cond l) s =
    do go <- match condition o with None => Ok true | Some p => p row end;
    if (go : bool) then run_stmts (codes o f row) l s else Ok (s, false).
  Proof.
    unfold has_cond. destruct (condition o) as [p|] eqn:Q; [|reflexivity].
    cbn [under]. rewrite run_one, run_if1. cbn [ev].
    change (assoc (codes o f row) (T "c_")) with (Some match condition o with Some p => do t <- p row; Ok (VBool t) | None => Err NameError end).
    rewrite Q. destruct (p row) as [[]|]; reflexivity.
  Qed.
  Lemma set_runs f row c n m : shape b c ->
    (do p <- run_stmts (codes o f row) (two_of b) (st0 b (Some c) n m); Ok (view (fst p), snd p))
    = do c' <- run_two o c row; Ok (fine b c' n m, false).
  Proof.
    intros K. destruct (codes_eq f row) as (I & C & -> & _). unfold run_two. rewrite R. apply two_runs. auto.
  Qed.
  Lemma unset_runs f row n m :
    (do p <- run_stmts (codes o f row) (init_of b (given has_initial)) (st0 b None n m); Ok (view (fst p), snd p))
    = do c' <- run_init o row; Ok (fine b c' n m, false).
  Proof.
    destruct (codes_eq f row) as (I & C & -> & HI & _). unfold run_init, has_initial. rewrite R.
    destruct (initial o) as [i|]; [|apply init_runs]. rewrite (HI i eq_refl). apply first_runs.
  Qed.

  (** what the step does, with the checksum *)
  Definition step_checked (on : bool) (f : Z) (c : cell) (n m : Z) (row : Row) : res (cell * Z * bool) :=
    do go <- match condition o with None => Ok true | Some p => p row end;
    if (go : bool) then
      match c with
      | Some v => do c' <- run_two o v row; Ok (c', n, false)
      | None =>
          do c' <- run_init o row;
          match c' with
          | Some _ => if on then Ok (c', Z.lor n f, Z.eqb (Z.lor n f) m) else Ok (c', n, false)
          | None => Ok (c', n, false)
          end
      end
    else Ok (c, n, false).

  Lemma finish_lines depth f row vars ls l : read_text depth ls = Some l ->
    run_lines (codes o f row) vars depth ls =
    do p <- run_stmts (codes o f row) l (start vars);
    Ok (map (fun x => match assoc (names (fst p)) (fst x) with Some l => obj_at (fst p) l | None => Sentinel end) vars, snd p).
  Proof. unfold run_lines. intros ->. reflexivity. Qed.

  Lemma inv_runs {A} (r : res (state * bool)) (M : res A) (g : A -> cell) n m :
    (do p <- r; Ok (view (fst p), snd p)) = (do a <- M; Ok (fine b (g a) n m, false)) ->
    match M with
    | Err e => r = Err e
    | Ok a => exists s, r = Ok (s, false) /\ rel b (g a) n m s
    end.
  Proof.
    destruct M as [a|e], r as [[s t]|]; cbn [bind fst snd]; intros H; try discriminate.
    - assert (H1 : view s = fine b (g a) n m) by congruence. assert (t = false) by congruence. subst.
      exists s. split; auto. apply view_rel. auto.
    - congruence.
  Qed.

  Lemma block_text on f c n m row : cell_ok b c ->
    run_lines (codes o f row) (combine var_names (objects_of b c n m)) 2 (block_lines (parts_of b o) var (chk on))
    = do p <- step_checked on f c n m row;
      Ok (objects_of b (fst (fst p)) (snd (fst p)) m, snd p).
  Proof.
    intros K. rewrite parts_eq. rewrite (finish_lines _ _ _ _ _ _ (block_reads b has_cond has_initial on)).
    rewrite under_runs. unfold step_checked.
    change (start (combine var_names (objects_of b c n m))) with (st0 b c n m).
    assert (R0 : rel b c n m (st0 b c n m)) by (apply view_rel, st0_view).
    destruct (match condition o with None => Ok true | Some p => p row end) as [[]|e]; cbn [bind fst snd]; [| |reflexivity].
    2: { destruct b; reflexivity. }
    rewrite run_one, run_if1. destruct (codes_eq f row) as (I & C & EC & _). rewrite EC.
    rewrite (ev_unset _ _ _ _ _ _ _ _ _ _ R0). cbn [bind fst snd truthy]. rewrite <- EC. clear EC.
    destruct c as [c|].
    - pose proof (inv_runs _ _ (fun a => a) _ _ (set_runs f row c n m K)) as H.
      destruct (run_two o c row) as [c'|e]; [|rewrite H; reflexivity].
      destruct H as (s & -> & Rs). cbn [bind fst snd]. f_equal. f_equal. exact (view_objects b _ _ m s (rel_view _ _ _ _ _ Rs)).
    - pose proof (inv_runs _ _ (fun a => a) _ _ (unset_runs f row n m)) as H. rewrite run_app.
      destruct (run_init o row) as [c'|e]; [|rewrite H; reflexivity].
      destruct H as (s & -> & Rs). cbn [bind fst snd].
      destruct on.
      + destruct (codes_eq f row) as (I' & C' & -> & _).
        destruct (run_check (expr o row) (extra o row) I' C' f _ _ _ _ _ Rs) as (s' & -> & R'). cbn [bind fst snd].
        destruct c'; cbn [bind fst snd]; f_equal; f_equal.
        * exact (view_objects b _ _ m s' (rel_view _ _ _ _ _ R')).
        * exact (view_objects b _ _ m s' (rel_view _ _ _ _ _ R')).
      + cbn [run_stmts bind fst snd]. destruct c'; cbn [bind fst snd]; f_equal; f_equal;
        exact (view_objects b _ _ m s (rel_view _ _ _ _ _ Rs)).
  Qed.
  Lemma no_init_text f c n m row : shape b c ->
    run_lines (codes o f row) (combine var_names (objects_of b (Some c) n m)) 2 (no_init_lines (parts_of b o) var)
    = do c' <- step_alone o (Some c) row; Ok (objects_of b c' n m, false).
  Proof.
    intros K. rewrite parts_eq. rewrite (finish_lines _ _ _ _ _ _ (no_init_reads b has_cond has_initial)).
    rewrite under_runs. unfold step_alone.
    change (start (combine var_names (objects_of b (Some c) n m))) with (st0 b (Some c) n m).
    destruct (match condition o with None => Ok true | Some p => p row end) as [[]|e]; cbn [bind fst snd]; [| |reflexivity].
    2: { destruct b; reflexivity. }
    pose proof (inv_runs _ _ (fun a => a) _ _ (set_runs f row c n m K)) as H.
    destruct (run_two o c row) as [c'|e]; [|rewrite H; reflexivity].
    destruct H as (s & -> & Rs). cbn [bind fst snd]. f_equal. f_equal.
    exact (view_objects b _ _ m s (rel_view _ _ _ _ _ Rs)).
  Qed.
End Block.
