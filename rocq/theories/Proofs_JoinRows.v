(** Labels, the right items of a left row, the condition of a pair: what their code gives. *)
From Coq Require Import String Ascii List NArith ZArith Bool Arith Lia.
From Verif Require Proofs_AggHash.
From Verif Require Import Model_PyVal Model_Join Model_Labels Model_JoinLazy Model_Code Model_JoinText Model_JoinFuncs Spec_Tree Spec_Syntax Spec_Source Spec_GenRun Spec_JoinText Proofs_Join Proofs_GenRun Proofs_JoinCond Proofs_JoinSource Proofs_JoinScope.
Import ListNotations.

Definition get_ast (k : text) : ast := ACall (AName (T "get_by_label_")) [AStr k] [].
Definition cache_ast (k : text) (e : ast) : ast := ABool true [ACall (AName (T "add_label_")) [AStr k; e] []; get_ast k].
(** a and None or r *)
Definition after_ast (a r : ast) : ast := ABool true [ABool false [a; none_ast]; r].

Lemma look_frames m m' sc z : (forall f, In f sc -> vars (frames m' f) = vars (frames m f)) -> look m' sc z = look m sc z.
Proof.
  induction sc as [|f sc IH]; intros H; [reflexivity|]. cbn [look]. rewrite (H f) by now left. rewrite IH; [reflexivity|]. intros f' I. apply H. now right.
Qed.
Lemma look_keeps cl F I m m' sc z : keeps cl F I m m' -> apart F sc -> (forall f, In f sc -> f < nframes m) -> look m' sc z = look m sc z.
Proof. intros K A L. apply look_frames. intros f J. rewrite (k_frames _ _ _ _ _ K); auto. intros X. now apply (A f X). Qed.

Section Rows.
  Variable N : jnames.
  Variable h : Model_Join.how.
  Variable cond : option jx.
  Variable opr : text -> list val -> res val.
  Hypothesis CL : clean N cond.
  Hypothesis TX : match cond with Some e => textual e = true | None => True end.
  Variable inputs : string -> val.
  Notation globals := (module_globals N).
  Notation gfuns := (module_gfuns N h).
  Notation indexers := (module_indexers N h cond opr).
  Notation worth := (worth globals opr gfuns indexers).
  Notation gives := (gives globals opr gfuns indexers).
  Notation eval := (eval globals opr gfuns indexers).
  Notation op := (jop opr).
  Notation in_scope := (in_scope N cond inputs).
  Notation cs := (cs_of h cond).
  Notation res_neq := (res_neq N cond CL).

  Lemma scope_frames m m' sc : (forall f, In f sc -> vars (frames m' f) = vars (frames m f)) -> in_scope m sc -> in_scope m' sc.
  Proof. intros H (A & B & C). split; [|split]; intros z Z; rewrite (look_frames m m') by exact H; auto. Qed.
  Lemma scope_keeps cl F I m m' sc : keeps cl F I m m' -> apart F sc -> (forall f, In f sc -> f < nframes m) -> in_scope m sc -> in_scope m' sc.
  Proof. intros K A L. apply scope_frames. intros f J. rewrite (k_frames _ _ _ _ _ K); auto. intros X. now apply (A f X). Qed.

  Lemma not_empty i : i < 29 -> i <> 20 -> globals (res_at N i) = None.
  Proof. intros L D. unfold module_globals. rewrite teqb_neq; [reflexivity|]. change (n_empty N) with (res_at N 20). apply res_neq; lia. Qed.
  Lemma not_gfun i : i < 29 -> i <> 22 -> i <> 23 -> gfuns (res_at N i) = None.
  Proof.
    intros L D D'. unfold module_gfuns. rewrite teqb_neq by (change (n_joiner N) with (res_at N 22); apply res_neq; lia).
    rewrite teqb_neq by (change (n_adder N) with (res_at N 23); apply res_neq; lia). reflexivity.
  Qed.
  Lemma not_indexer i : i < 29 -> i <> 21 -> indexers (res_at N i) = None.
  Proof. intros L D. unfold module_indexers. rewrite teqb_neq; [reflexivity|]. change (n_agg N) with (res_at N 21). apply res_neq; lia. Qed.
  Lemma machine_callee m sc i : in_scope m sc -> In i [4; 5; 6; 7; 8; 9; 10; 21; 22; 23] -> callee globals m sc (res_at N i) = Some (res_at N i).
  Proof.
    intros (_ & _ & C) I. unfold callee. rewrite C.
    - rewrite not_empty; [reflexivity| |]; cbn in I; lia.
    - unfold machine. apply in_map. cbn in *. tauto.
  Qed.

  Lemma ev_str nx each sc k s m : str_of k = Some s -> eval nx each sc (AStr k) m = give (Val (VStr s)) m.
  Proof. intros E. cbn [Spec_GenRun.eval]. now rewrite E. Qed.
  Lemma ev_get nx each sc k s v m : in_scope m sc -> str_of k = Some s -> label_of (labels m) s = Some v -> eval nx each sc (get_ast k) m = Some (m, Ok v).
  Proof.
    intros S E L. unfold get_ast. cbn [Spec_GenRun.eval]. change (T "get_by_label_") with (res_at N 5). rewrite (machine_callee m sc 5 S) by (cbn; tauto).
    rewrite E. unfold give, apply. cbn [after]. rewrite not_gfun, not_indexer by lia. change (res_at N 5) with (T "get_by_label_"). rewrite !teqb_T. cbn [String.eqb Ascii.eqb Bool.eqb]. now rewrite L.
  Qed.
  Lemma ev_cache nx each sc k s e m m1 v : str_of k = Some s -> in_scope m sc -> eval nx each sc e m = Some (m1, Ok v) -> in_scope m1 sc ->
    eval nx each sc (cache_ast k e) m = Some (set_labels m1 ((s, v) :: labels m1), Ok v).
  Proof.
    intros E S V S1. set (m2 := set_labels m1 ((s, v) :: labels m1)).
    assert (A : eval nx each sc (ACall (AName (T "add_label_")) [AStr k; e] []) m = Some (m2, Ok (Obj none_obj))).
    { cbn [Spec_GenRun.eval]. change (T "add_label_") with (res_at N 4). rewrite (machine_callee m sc 4 S) by (cbn; tauto).
      rewrite E. unfold give, apply. cbn [after]. rewrite V. cbn [after]. rewrite not_gfun, not_indexer by lia. change (res_at N 4) with (T "add_label_"). rewrite !teqb_T. reflexivity. }
    assert (G : eval nx each sc (get_ast k) m2 = Some (m2, Ok v)).
    { apply (ev_get nx each sc k s v m2); auto. - apply scope_frames with m1; auto. - unfold m2. cbn. now rewrite String.eqb_refl. }
    unfold cache_ast. change (after (eval nx each sc (ACall (AName (T "add_label_")) [AStr k; e] []) m)
      (fun v m => if Bool.eqb (truth m v) true then give v m else eval nx each sc (get_ast k) m) = Some (m2, Ok v)).
    rewrite A. cbn [after truth rval none_obj truthy Bool.eqb]. exact G.
  Qed.
  Lemma ev_cache_fail nx each sc k s e m m1 x : str_of k = Some s -> in_scope m sc -> eval nx each sc e m = Some (m1, Err x) ->
    eval nx each sc (cache_ast k e) m = Some (m1, Err x).
  Proof.
    intros E S V. unfold cache_ast. cbn [Spec_GenRun.eval]. change (T "add_label_") with (res_at N 4). rewrite (machine_callee m sc 4 S) by (cbn; tauto).
    rewrite E. unfold give. cbn [after]. rewrite V. reflexivity.
  Qed.
  (** a and None or r *)
  Lemma ev_after nx each sc a r m m1 v m' q : eval nx each sc a m = Some (m1, Ok v) -> eval nx each sc r m1 = Some (m', q) -> eval nx each sc (after_ast a r) m = Some (m', q).
  Proof.
    intros A R. unfold after_ast. cbn [Spec_GenRun.eval]. rewrite A. cbn [after]. destruct (truth m1 v) eqn:TV; cbn [Bool.eqb].
    - unfold none_ast. cbn [Spec_GenRun.eval]. change (teqb (T "None") (T "None")) with true. cbn iota. unfold give at 1. cbn [after truth rval none_obj truthy Bool.eqb]. exact R.
    - unfold give. cbn [after]. rewrite TV. cbn [Bool.eqb]. exact R.
  Qed.
  Lemma ev_after_fail nx each sc a r m m1 x : eval nx each sc a m = Some (m1, Err x) -> eval nx each sc (after_ast a r) m = Some (m1, Err x).
  Proof. intros A. unfold after_ast. cbn [Spec_GenRun.eval]. now rewrite A. Qed.

  (** *** the right items of a left row *)
  Definition cl : string := string_of_list_ascii (map ascii_of_N (cached N)).
  Lemma cl_str : str_of (cached N) = Some cl.
  Proof.
    unfold str_of, cl. replace (forallb (fun c => N.ltb c 256) (cached N)) with true; [reflexivity|]. symmetry.
    unfold cached. rewrite forallb_app, T_small. cbn [andb]. apply forallb_forall. intros c I.
    apply Proofs_AggHash.ndec_digits in I. apply N.ltb_lt. lia.
  Qed.
  Lemma cl_right : right_key <> cl.
  Proof. unfold cl, cached. cbn. discriminate. Qed.
  Lemma cl_index : index_key <> cl.
  Proof. unfold cl, cached. cbn. discriminate. Qed.

  (** the key is the left row itself: its code is simple, nothing is cached *)
  Definition bare (ks : list jx) : bool := match ks with [JLeft] | [JRight] => true | _ => false end.
  Definition key_first (ks : list jx) : ast := if bare ks then key_ast (nm "left_item") ks else cache_ast (cached N) (key_ast (nm "left_item") ks).
  Definition key_again (ks : list jx) : ast := if bare ks then key_ast (nm "left_item") ks else get_ast (cached N).
  Definition no_items (ks : list jx) : ast := if bare ks then AName (n_empty N) else after_ast (get_ast (cached N)) (AName (n_empty N)).
  Definition ri_ast : ast :=
    match left_hash cs with
    | [] => get_ast (T "right_collection")
    | ks => AIf (ACompare (key_first ks) [(T "in", get_ast (T "hash_to_items"))]) (ASub (get_ast (T "hash_to_items")) (key_again ks)) (no_items ks)
    end.
  Definition lab_rel (m : mem) (ls : Model_Labels.labels lab) : Prop :=
    match left_hash cs with
    | [] =>
        match label_at ls right_key with
        | Some (LAgain l) => label_of (labels m) right_key = Some (Coll l)
        | Some (LOnce _) => exists v, label_of (labels m) right_key = Some v
        | _ => False
        end
    | _ => exists d, label_at ls index_key = Some (LIndex d) /\ label_of (labels m) index_key = Some (Index d)
    end.
  Lemma fines : each_part (fine cond) cs.
  Proof. now apply parts_fine. Qed.

  Lemma ri_gives m sc x ls : in_scope m sc -> look m sc (T "left_item") = Some (Some (Obj x)) -> lab_rel m ls ->
    exists m' r, gives sc ri_ast m m' r /\ frames m' = frames m /\ leaves cl [] [] m m' /\ 
      match right_items op h cond inputs x ls with
      | Ok (Rows l) => r = Ok (Coll l)
      | Ok Shared => exists v, label_of (labels m) right_key = Some v /\ r = Ok v
      | Err e => r = Err e
      end.
  Proof.
    intros S LI LR. unfold ri_ast, right_items, lab_rel in *. destruct (left_hash cs) as [|k0 ks0] eqn:LH.
    - destruct (label_at ls right_key) as [[l|l|d| |p]|]; try contradiction.
      + exists m, (Ok (Coll l)). split; [intros nx each; apply (ev_get nx each sc _ right_key); auto|]. split; [reflexivity|]. split; [apply leaves_refl|reflexivity].
      + destruct LR as [v LR]. exists m, (Ok v). split; [intros nx each; apply (ev_get nx each sc _ right_key); auto|]. split; [reflexivity|]. split; [apply leaves_refl|eauto].
    - rewrite <- LH. destruct LR as (d & LD & LM). rewrite LD.
      assert (W : worth sc (nm "left_item") m (Ok (rval x))).
      { exists (Ok (Obj x)). split; [|exists (Obj x); split; [reflexivity|right; eauto]]. intros nx each. unfold nm. cbn [Spec_GenRun.eval]. now rewrite LI. }
      destruct (key_worth N h cond opr CL inputs m sc S (on_row inputs x) eq_refl (nm "left_item") (left_hash cs)) as (r & G & R); auto.
      { rewrite LH. discriminate. } { apply fines. }
      destruct (ev_key op (on_row inputs x) (left_hash cs)) as [k|e] eqn:EK; cbn [bind].
      2: { subst r. exists m, (Err e). split; [|split; [reflexivity|split; [apply leaves_refl|reflexivity]]]. intros nx each. cbn [Spec_GenRun.eval].
           replace (eval nx each sc (key_first (left_hash cs)) m) with (@Some (mem * res pv) (m, Err e)); [reflexivity|]. symmetry. unfold key_first. destruct (bare (left_hash cs)); [apply G|].
           apply (ev_cache_fail nx each sc _ cl _ m m e cl_str S (G nx each)). }
      destruct R as (p & -> & AP). set (m1 := if bare (left_hash cs) then m else set_labels m ((cl, p) :: labels m)).
      assert (FR1 : frames m1 = frames m) by (unfold m1; destruct (bare (left_hash cs)); reflexivity).
      assert (S1 : in_scope m1 sc) by (unfold m1; destruct (bare (left_hash cs)); [exact S|apply scope_frames with m; auto]).
      assert (K : forall nx each, eval nx each sc (key_first (left_hash cs)) m = Some (m1, Ok p)).
      { intros nx each. unfold key_first, m1. destruct (bare (left_hash cs)); [apply G|]. apply ev_cache with (1 := cl_str); auto. }
      assert (GI : forall nx each, eval nx each sc (get_ast (T "hash_to_items")) m1 = Some (m1, Ok (Index d))).
      { intros nx each. apply (ev_get nx each sc _ index_key); auto. unfold m1. destruct (bare (left_hash cs)); exact LM. }
      assert (GC : forall nx each, eval nx each sc (key_again (left_hash cs)) m1 = Some (m1, Ok p)).
      { intros nx each. unfold key_again, m1 in *. destruct (bare (left_hash cs)); [apply G|]. apply (ev_get nx each sc _ cl); [exact S1|apply cl_str|]. cbn [labels set_labels label_of]. now rewrite String.eqb_refl. }
      assert (GE : forall nx each, eval nx each sc (AName (n_empty N)) m1 = Some (m1, Ok (Coll []))).
      { intros nx each. cbn [Spec_GenRun.eval]. rewrite (proj2 (proj2 S1)) by (change (n_empty N) with (res_at N 20); apply in_map; cbn; tauto).
        unfold module_globals. rewrite teqb_refl. reflexivity. }
      assert (GN : forall nx each, eval nx each sc (no_items (left_hash cs)) m1 = Some (m1, Ok (Coll []))).
      { intros nx each. specialize (GC nx each). unfold key_again, no_items in *. destruct (bare (left_hash cs)); [apply GE|]. apply ev_after with m1 p; [exact GC|apply GE]. }
      assert (CMP : forall o, compare opr o p (Index d) m1 = if teqb o (T "in") then pure (need_hash k) (fun k => Val (VBool match dfind d k with Some _ => true | None => false end)) m1 else None).
      { intros o. destruct p; cbn [compare] in *; rewrite AP; reflexivity. }
      assert (C : forall nx each, eval nx each sc (ACompare (key_first (left_hash cs)) [(T "in", get_ast (T "hash_to_items"))]) m =
         match need_hash k with Ok k' => Some (m1, Ok (Val (VBool match dfind d k' with Some _ => true | None => false end))) | Err e => Some (m1, Err e) end).
      { intros nx each. change (eval nx each sc (ACompare (key_first (left_hash cs)) [(T "in", get_ast (T "hash_to_items"))]) m) with
          (after (eval nx each sc (key_first (left_hash cs)) m) (fun v m => after (eval nx each sc (get_ast (T "hash_to_items")) m) (fun w m => after (compare opr (T "in") v w m) (fun c m => give c m)))).
        rewrite K. cbn [after]. rewrite GI. cbn [after]. rewrite CMP, teqb_refl. destruct (need_hash k); reflexivity. }
      assert (IFE : forall nx each a b, eval nx each sc (AIf (ACompare (key_first (left_hash cs)) [(T "in", get_ast (T "hash_to_items"))]) a b) m =
         after (eval nx each sc (ACompare (key_first (left_hash cs)) [(T "in", get_ast (T "hash_to_items"))]) m) (fun v m => if truth m v then eval nx each sc a m else eval nx each sc b m)) by reflexivity.
      assert (LV : leaves cl [] [] m m1) by (unfold m1; destruct (bare (left_hash cs)); [apply leaves_refl|apply leaves_label]).
      destruct (need_hash k) as [k'|e] eqn:NH; cbn [bind].
      2: { exists m1, (Err e). split; [|split; [exact FR1|split; [exact LV|reflexivity]]]. intros nx each. rewrite IFE, C. reflexivity. }
      destruct (dfind d k') as [rs|] eqn:DF.
      + exists m1, (Ok (Coll rs)). split; [|split; [exact FR1|split; [exact LV|reflexivity]]]. intros nx each. rewrite IFE, C. cbn [after truth truthy].
        change (after (eval nx each sc (get_ast (T "hash_to_items")) m1) (fun v m => after (eval nx each sc (key_again (left_hash cs)) m) (fun k m => subscript v k m)) = Some (m1, Ok (Coll rs))).
        rewrite GI. cbn [after]. rewrite GC. cbn [after subscript]. rewrite AP, NH. cbn [bind]. rewrite DF. reflexivity.
      + exists m1, (Ok (Coll [])). split; [|split; [exact FR1|split; [exact LV|reflexivity]]]. intros nx each. rewrite IFE, C. cbn [after truth truthy].
        apply GN.
  Qed.

  (** *** the condition of a pair *)
  Definition item_names : ast * ast := if swapped h then (nm "right_item", nm "left_item") else (nm "left_item", nm "right_item").
  Definition if_ast : option ast := match loop_conds h cond with [] => None | l => Some (all_ast (Some item_names) none_ast l) end.
  Lemma loop_fine : Forall (fine cond) (loop_conds h cond).
  Proof. pose proof fines as F. unfold each_part in F. unfold loop_conds. repeat (apply Forall_app; split); apply F. Qed.
  Lemma if_worth m sc x y c : if_ast = Some c -> in_scope m sc ->
    look m sc (T "left_item") = Some (Some (Obj x)) -> look m sc (T "right_item") = Some (Some (Obj y)) ->
    exists q, worth sc c m q /\ passes op h cond inputs x y = do v <- q; Ok (truthy v).
  Proof.
    unfold if_ast, passes. pose proof loop_fine as F. destruct (loop_conds h cond) as [|e l]; [discriminate|]. intros [= <-] S LX LY.
    assert (WX : worth sc (nm "left_item") m (Ok (rval x))).
    { exists (Ok (Obj x)). split; [|exists (Obj x); split; [reflexivity|right; eauto]]. intros nx each. unfold nm. cbn [Spec_GenRun.eval]. now rewrite LX. }
    assert (WY : worth sc (nm "right_item") m (Ok (rval y))).
    { exists (Ok (Obj y)). split; [|exists (Obj y); split; [reflexivity|right; eauto]]. intros nx each. unfold nm. cbn [Spec_GenRun.eval]. now rewrite LY. }
    unfold item_names. destruct (swapped h).
    - apply (all_worth N h cond opr CL inputs m sc S (on_pair inputs y x) eq_refl (Some (nm "right_item", nm "left_item")) none_ast (e :: l)); auto; discriminate.
    - apply (all_worth N h cond opr CL inputs m sc S (on_pair inputs x y) eq_refl (Some (nm "left_item", nm "right_item")) none_ast (e :: l)); auto; discriminate.
  Qed.
  Lemma if_none x y : if_ast = None -> passes op h cond inputs x y = Ok true.
  Proof. unfold if_ast, passes. destruct (loop_conds h cond); [reflexivity|discriminate]. Qed.

  (** *** filters: the test of one row *)
  Lemma filter_worth m g sc z y l : l <> [] -> Forall (fine cond) l -> in_scope m (g :: sc) ->
    frames m g = mkFrame [(z, Some (Obj y))] sc None ->
    exists q, worth (g :: sc) (all_ast None (AName z) l) m q /\ ev_all op (on_row inputs y) l = do v <- q; Ok (truthy v).
  Proof.
    intros NE F S E. apply (all_worth N h cond opr CL inputs m (g :: sc) S (on_row inputs y) eq_refl); auto.
    all: intros _; exists (Ok (Obj y)); (split; [|exists (Obj y); split; [reflexivity|right; eauto]]); intros nx each; cbn [jast Spec_GenRun.eval look]; rewrite E; cbn [vars var_at]; rewrite teqb_refl; reflexivity.
  Qed.
End Rows.
