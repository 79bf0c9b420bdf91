(** Continued: the built-in reducers. *)
From Coq Require Import String Ascii List NArith ZArith Bool Arith Lia.
From Verif Require Import Model_PyVal Model_Reducers Model_Aggregate Model_Code Spec_Syntax Spec_FuncText Spec_AggProgram Spec_FuncRun Proofs_FuncRun Proofs_RedRun.
From Verif Require Spec_Stmt Spec_Loop Proofs_Stmt Proofs_PyVal.
Import ListNotations.

Lemma add_obj e : py_add sentinel e = Err TypeError.
Proof. unfold py_add, sentinel. cbn [as_int]. destruct (as_int e); reflexivity. Qed.
Lemma lt_obj e : py_lt sentinel e = Err TypeError.
Proof. reflexivity. Qed.
Lemma lt_obj' e : py_lt e sentinel = Err TypeError.
Proof. destruct e; reflexivity. Qed.
Lemma get_obj k : py_getitem sentinel k = Err TypeError.
Proof. reflexivity. Qed.
Lemma in_obj k : py_in k sentinel = Err TypeError.
Proof. reflexivity. Qed.
Lemma none_obj : is_none sentinel = false.
Proof. reflexivity. Qed.

Section Runs.
  Variable globals : text -> option rv.
  Variable call : text -> list val -> res val.
  Variable classes : text -> option (list text).
  Variable outside : ast -> (ast -> option val) -> res val.
  Notation run_stmts := (Spec_FuncRun.run_stmts globals call classes outside).
  Notation steady := (steady globals call classes outside).
  Variables (V : ast) (p : place) (s : state) (l : nat) (E X : ast) (re rx : res val).
  Hypothesis G : good s.
  Hypothesis SV : slot_at V p s.
  Hypothesis ND : p <> dd.
  Hypothesis LP : loc_of s p = Some l.
  Hypothesis FF : factories_free s.
  Hypothesis SE : steady E re [p; dd] s.
  Hypothesis SX : steady X rx [p; dd] s.
  (** initial= *)
  Variables (Z : ast) (rz : res val).
  Hypothesis SZ : steady Z rz [p; dd] s.
  Hypothesis IZ : forall t v k, frame [p; dd] s t -> item Z v k t = do x <- py_getitem v k; Ok (x, t).
  Notation follows := (follows p s).

  Notation FE := (Spec_FuncRun.ev globals call outside).
  Ltac head r :=
    lazymatch r with
    | bind ?a _ => head a
    | on ?a => head a
    | negb ?a => head a
    | match ?a with _ => _ end => head a
    | _ => r
    end.
  (** which lemma evaluates the part that comes first *)
  Ltac one NS EV HO :=
    lazymatch goal with
    | |- Proofs_RedRun.follows _ _ ?r _ _ =>
      let h := head r in
      lazymatch h with
      | Spec_FuncRun.run_stmts _ _ _ _ (?a :: ?q) ?t => rewrite (run_cons globals call classes outside a q t)
      | Spec_FuncRun.run_stmts _ _ _ _ [] ?t => rewrite (run_nil globals call classes outside t)
      | Spec_FuncRun.run_stmt _ _ _ _ (if_ ?a ?b ?c) ?t => rewrite (run_if1 globals call classes outside a b c t)
      | Spec_FuncRun.run_stmt _ _ _ _ (method ?a "append" ?b) ?t => rewrite (run_append globals call classes outside a b t)
      | Spec_FuncRun.run_stmt _ _ _ _ (method ?a "add" ?b) ?t => rewrite (run_add_m globals call classes outside a b t)
      | Spec_FuncRun.run_stmt _ _ _ _ (Spec_Stmt.If [] ?b) ?t => rewrite (run_else globals call classes outside b t)
      | Spec_FuncRun.run_stmt _ _ _ _ (Spec_Stmt.If ((?a, ?b) :: ?c) ?d) ?t => rewrite (run_if globals call classes outside a b c d t)
      | Spec_FuncRun.run_stmt _ _ _ _ (Spec_Stmt.Simple ?a) ?t => rewrite (run_simple_stmt globals call classes outside a t)
      | Spec_FuncRun.run_stmt _ _ _ _ _ ?t => unfold set_to, fresh
      | Spec_FuncRun.run_simple _ _ _ _ Spec_Stmt.SPass ?t => change h with (@Ok (state * bool) (t, false))
      | Spec_FuncRun.run_simple _ _ _ _ (Spec_Stmt.SAdd ?a ?b) ?t => rewrite (run_add globals call classes outside a b t)
      | Spec_FuncRun.run_simple _ _ _ _ (Spec_Stmt.SAssign [V] ?b) ?t => rewrite (assignV globals call classes outside V p s SV b t)
      | Spec_FuncRun.run_simple _ _ _ _ (Spec_Stmt.SAssign [V; _] ?b) ?t => rewrite (assignVd globals call classes outside V b t)
      | Spec_FuncRun.run_simple _ _ _ _ (Spec_Stmt.SAssign [ASub ?a ?i] ?b) ?t => rewrite (run_set_item globals call classes outside a i b t)
      | Spec_FuncRun.assign_item _ _ _ _ _ _ _ => unfold Spec_FuncRun.assign_item
      | Spec_FuncRun.change _ _ _ (ASub ?a ?i) ?f ?t => rewrite (change_sub globals call outside a i f t)
      | Spec_FuncRun.change _ _ _ V ?f s => rewrite (changeV globals call outside V p s l SV LP f), HO
      | Spec_FuncRun.change _ _ _ V ?f (store s l ?o) => rewrite (changeVs globals call outside V p s l G SV ND LP o f NS)
      | Spec_FuncRun.change _ _ _ _ ?f (put2 s p (OVal ?v ?m)) => rewrite (changeD globals call outside p s v m f)
      | Spec_FuncRun.item V ?v ?k s => rewrite (itemV V p s l SV LP v k), HO
      | Spec_FuncRun.item V ?v ?k (store s l ?o) => rewrite (itemVs V p s l G SV ND LP o v k NS)
      | Spec_FuncRun.item Z ?v ?k s => rewrite (IZ s v k (frame_refl _ s))
      | Spec_FuncRun.item _ ?v ?k (put2 s p (OVal ?w ?m)) => rewrite (itemD p s w m v k)
      | Spec_FuncRun.item _ _ _ _ => unfold Spec_FuncRun.item
      | Spec_FuncRun.right_side _ _ _ _ E s => rewrite (e0r globals call classes outside p s E _ SE)
      | Spec_FuncRun.right_side _ _ _ _ E (store s l ?o) => rewrite (e1r globals call classes outside p s l G ND LP E _ SE o NS)
      | Spec_FuncRun.right_side _ _ _ _ X s => rewrite (e0r globals call classes outside p s X _ SX)
      | Spec_FuncRun.right_side _ _ _ _ X (store s l ?o) => rewrite (e1r globals call classes outside p s l G ND LP X _ SX o NS)
      | Spec_FuncRun.right_side _ _ _ _ (ACall _ [name ?g] []) s =>
          first [rewrite (right_dd globals call classes outside g (VList []) s (or_introl eq_refl) FF)
                |rewrite (right_dd globals call classes outside g (VDict []) s (or_intror (or_introl eq_refl)) FF)
                |rewrite (right_dd globals call classes outside g (VInt 0) s (or_intror (or_intror (or_introl eq_refl))) FF)]
      | Spec_FuncRun.right_side _ _ _ _ ?e ?t => change h with (plain globals call outside e t)
      | plain _ _ _ _ _ => unfold plain
      | Spec_FuncRun.ev _ _ _ E s => rewrite (e0 globals call classes outside p s E _ SE)
      | Spec_FuncRun.ev _ _ _ E (store s l ?o) => rewrite (e1 globals call classes outside p s l G ND LP E _ SE o NS)
      | Spec_FuncRun.ev _ _ _ E (put2 s p ?o) => rewrite (e2 globals call classes outside p s G E _ SE o)
      | Spec_FuncRun.ev _ _ _ X s => rewrite (e0 globals call classes outside p s X _ SX)
      | Spec_FuncRun.ev _ _ _ X (store s l ?o) => rewrite (e1 globals call classes outside p s l G ND LP X _ SX o NS)
      | Spec_FuncRun.ev _ _ _ X (put2 s p ?o) => rewrite (e2 globals call classes outside p s G X _ SX o)
      | Spec_FuncRun.ev _ _ _ Z s => rewrite (e0 globals call classes outside p s Z _ SZ)
      | Spec_FuncRun.ev _ _ _ Z (store s l ?o) => rewrite (e1 globals call classes outside p s l G ND LP Z _ SZ o NS)
      | Spec_FuncRun.ev _ _ _ V s => rewrite EV
      | Spec_FuncRun.ev _ _ _ (ANum ?n) ?t => rewrite (ev_num globals call outside n t); cbn [Z.of_N]
      | Spec_FuncRun.ev _ _ _ none ?t => rewrite (ev_none globals call outside t)
      | Spec_FuncRun.ev _ _ _ (either ?a ?b) ?t => rewrite (ev_either globals call outside a b t)
      | Spec_FuncRun.ev _ _ _ (both ?a ?b) ?t => rewrite (ev_both globals call outside a b t)
      | Spec_FuncRun.ev _ _ _ (cmp ?o ?a ?b) ?t => rewrite (ev_cmp globals call outside o a b t eq_refl)
      | Spec_FuncRun.ev _ _ _ (ASub ?a ?b) ?t => rewrite (ev_sub globals call outside a b t)
      | Spec_FuncRun.ev _ _ _ (ABin _ ?a ?b) ?t => rewrite (ev_plus globals call outside a b t)
      | Spec_FuncRun.ev _ _ _ (ATuple [?a; ?b]) ?t => rewrite (ev_tuple2 globals call outside a b t)
      | Spec_FuncRun.ev _ _ _ (AList [?a]) ?t => rewrite (ev_list1 globals call outside a t)
      | Spec_FuncRun.ev _ _ _ (ASet [?a]) ?t => rewrite (ev_set1 globals call outside a t)
      | Spec_FuncRun.ev _ _ _ (ADict [(?a, ?b)]) ?t => rewrite (ev_dict1 globals call outside a b t)
      | Spec_FuncRun.compare _ _ _ => rewrite ?cmp_is, ?cmp_isnot, ?cmp_lt, ?cmp_gt, ?cmp_notin
      | new s ?o => first [rewrite (A1 globals call outside V p s G SV o)|rewrite (A2 globals call outside V p s G SV o)]
      | new (store s l ?o1) ?o => rewrite (A1s globals call outside V p s l G SV ND LP o1 o NS)
      | need_hash _ => unfold need_hash
      end; reds; rewrite ?orb_true_r, ?andb_true_r, ?store_store, ?store_put2
    end.
  Ltac case1 :=
    match goal with
    | H : hashable ?e = true |- context [py_eq ?e ?e] => rewrite (Proofs_PyVal.py_eq_refl e H)
    | H : is_none ?e = _ |- context [is_none ?e] => rewrite H
    | H : truthy ?e = _ |- context [truthy ?e] => rewrite H
    | H : hashable ?e = _ |- context [hashable ?e] => rewrite H
    | H : dfind ?d ?k = None |- context [dfind (dput ?d ?k _) ?k] => rewrite (Proofs_Stmt.dfind_put_new _ _ _ H) by assumption
    | H : dfind ?d ?k = None |- context [dput (dput ?d ?k _) ?k _] => rewrite (Proofs_Stmt.dput_put_new _ _ _ _ H) by assumption
    | H : dfind ?e ?f = _ |- context [dfind ?e ?f] => rewrite H
    | H : py_in ?e ?f = _ |- context [py_in ?e ?f] => rewrite H
    | H : py_getitem ?e ?f = _ |- context [py_getitem ?e ?f] => rewrite H
    | H : py_lt ?e ?f = _ |- context [py_lt ?e ?f] => rewrite H
    | H : py_add ?e ?f = _ |- context [py_add ?e ?f] => rewrite H
    | |- context [match dfind ?a ?b with _ => _ end] => destruct (dfind a b) eqn:?
    | |- context [is_none ?e] => destruct (is_none e) eqn:?
    | |- context [truthy ?e] => destruct (truthy e) eqn:?
    | |- context [hashable ?e] => destruct (hashable e) eqn:?
    | |- context [py_in ?a ?b] => destruct (py_in a b) as [[|]|] eqn:?
    | |- context [py_getitem ?a ?b] => destruct (py_getitem a b) eqn:?
    | |- context [py_lt ?a ?b] => destruct (py_lt a b) as [[|]|] eqn:?
    | |- context [py_add ?a ?b] => destruct (py_add a b) eqn:?
    | |- context [match ?a with VNone => _ | _ => _ end] => destruct a
    end; reds.
  Ltac fin :=
    match goal with
    | |- Proofs_RedRun.follows _ _ (Err _) _ (Err _) => reflexivity
    | |- Proofs_RedRun.follows _ _ (Ok (put _ _ ?o, _)) ?m (Ok ?c) => exists (put s p o); split; [reflexivity|apply (done_put V p s G SV m c)]
    | |- Proofs_RedRun.follows _ _ (Ok (put2 _ _ ?o, _)) ?m (Ok ?c) => exists (put2 s p o); split; [reflexivity|apply (done_put2 V p s G SV ND m c)]
    | |- Proofs_RedRun.follows _ _ (Ok (store _ _ ?o, _)) ?m (Ok ?c) =>
        exists (store s l o); split; [reflexivity|apply (done_store p s l G ND LP m c); congruence]
    | |- Proofs_RedRun.follows _ _ (Ok (s, _)) ?m (Ok ?c) =>
        exists s; split; [reflexivity|apply (done_same p s l G LP m c); first [assumption|congruence]]
    end.
  Ltac start := unfold py_or, iadd, set_item, method_add, method_append, lookup_default, cell_item, Model_Reducers.contains, lookup, item0, need_hash.
  Lemma first_run b c : obj_at s l = obj_for (missing_of b) c ->
    follows (run_stmts (first_stmts V b E X) s) (missing_of b)
      (do c' <- init_stmt b re rx; Ok (match c' with None => c | Some _ => c' end)).
  Proof.
    intros HO. destruct b; cbn [first_stmts init_stmt Spec_Loop.missing_of]; start;
      destruct re as [e|], rx as [x|]; reds; repeat (repeat (one I I HO); try fin; case1); fin.
  Qed.
  Lemma next_run b c : obj_at s l = obj_for (missing_of b) c -> cell_ok b c ->
    follows (run_stmts (next_stmts V b V E X) s) (missing_of b)
      (reduce_stmt b (Ok (match c with Some v => v | None => sentinel end)) c re rx).
  Proof.
    intros HO K. destruct c as [v|].
    - assert (NS : obj_at s l <> OSent) by (rewrite HO; discriminate). cbn [obj_for] in HO. pose proof (evV globals call outside V p s l SV LP _ HO) as EV.
      destruct b; cbn [Proofs_Stmt.cell_ok Spec_Loop.shape] in K; try (match type of K with ex _ => destruct K as [d ->] end);
        cbn [next_stmts reduce_stmt Spec_Loop.missing_of] in *; start; destruct re as [e|], rx as [x|]; reds;
        repeat (repeat (one NS EV HO); try fin; case1); fin.
    - cbn [obj_for] in HO. pose proof (evV globals call outside V p s l SV LP _ HO) as EV.
      destruct b; cbn [next_stmts reduce_stmt Spec_Loop.missing_of] in *; start; destruct re as [e|], rx as [x|]; reds;
        rewrite ?add_obj, ?lt_obj, ?lt_obj', ?get_obj, ?in_obj, ?none_obj; reds; rewrite ?add_obj, ?lt_obj, ?lt_obj', ?get_obj, ?in_obj; reds;
        repeat (repeat (one I EV HO); try fin; case1); fin.
  Qed.
  Lemma init_run b c : obj_at s l = obj_for (missing_of b) c -> cell_ok b c -> (b = DictSumOrNone -> c = None) ->
    follows (run_stmts (next_stmts V b Z E X) s) (missing_of b) (reduce_stmt b rz c re rx).
  Proof.
    intros HO K DS. destruct c as [v|].
    - assert (NS : obj_at s l <> OSent) by (rewrite HO; discriminate). cbn [obj_for] in HO. pose proof (evV globals call outside V p s l SV LP _ HO) as EV.
      destruct b; try (specialize (DS eq_refl); discriminate DS); clear DS;
        cbn [Proofs_Stmt.cell_ok Spec_Loop.shape] in K; try (match type of K with ex _ => destruct K as [d ->] end);
        cbn [next_stmts reduce_stmt Spec_Loop.missing_of] in *; start; destruct re as [e|], rx as [x|], rz as [z|]; reds;
        repeat (repeat (one NS EV HO); try fin; case1); fin.
    - clear DS. cbn [obj_for] in HO. pose proof (evV globals call outside V p s l SV LP _ HO) as EV.
      destruct b; cbn [next_stmts reduce_stmt Spec_Loop.missing_of] in *; start; destruct re as [e|], rx as [x|], rz as [z|]; reds;
        repeat (repeat (one I EV HO); try fin; case1); fin.
  Qed.
End Runs.
