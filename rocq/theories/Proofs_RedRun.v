(** The statements of the built-in reducers (Spec_AggProgram.v), run as a part of a
    function (Spec_FuncRun.v), do what the functions of Model_Reducers.v do. *)
From Coq Require Import String Ascii List NArith ZArith Bool Arith Lia.
From Verif Require Import Model_PyVal Model_Reducers Model_Aggregate Model_Code Spec_Syntax Spec_FuncText Spec_AggProgram Spec_FuncRun Proofs_FuncRun.
From Verif Require Spec_Stmt Spec_Loop Proofs_Stmt.
Import ListNotations.
Notation missing_of := Spec_Loop.missing_of.
Notation shape := Spec_Loop.shape.
Notation cell_ok := Proofs_Stmt.cell_ok.
Definition obj_for (m : option val) (c : cell) : object := match c with None => OSent | Some v => OVal v m end.

Section Reds.
  Variable globals : text -> option rv.
  Variable call : text -> list val -> res val.
  Variable classes : text -> option (list text).
  Variable outside : ast -> (ast -> option val) -> res val.
  Notation ev := (Spec_FuncRun.ev globals call outside).
  Notation right_side := (Spec_FuncRun.right_side globals call classes outside).
  Notation change := (Spec_FuncRun.change globals call outside).
  Notation assign_item := (Spec_FuncRun.assign_item globals call outside).
  Notation run_simple := (Spec_FuncRun.run_simple globals call classes outside).
  Notation run_stmt := (Spec_FuncRun.run_stmt globals call classes outside).
  Notation run_stmts := (Spec_FuncRun.run_stmts globals call classes outside).

  (** *** evaluation, node by node *)
  Lemma ev_num n s : ev (ANum n) s = Ok (RVal (VInt (Z.of_N n)), s).
  Proof. reflexivity. Qed.
  Lemma ev_none s : ev none s = Ok (RVal VNone, s).
  Proof. reflexivity. Qed.
  Lemma ev_either a b s : ev (either a b) s = do p <- ev a s; if is_true (fst p) then Ok p else ev b (snd p).
  Proof. cbn. destruct (ev a s) as [[x t]|]; cbn; [|reflexivity]. now destruct (is_true x). Qed.
  Lemma ev_both a b s : ev (both a b) s = do p <- ev a s; if is_true (fst p) then ev b (snd p) else Ok p.
  Proof. cbn. destruct (ev a s) as [[x t]|]; cbn; [|reflexivity]. now destruct (is_true x). Qed.
  Lemma ev_cmp o a b s : same_text (T o) (T "<=") || same_text (T o) (T ">=") = false -> ev (cmp o a b) s =
    do p <- ev a s; do q <- ev b (snd p); do r <- compare (T o) (fst p) (fst q); Ok (RVal (VBool r), snd q).
  Proof.
    intros H. unfold cmp. cbn [Spec_FuncRun.ev]. destruct (ev a s) as [p|]; [|reflexivity]. cbn [bind].
    destruct (ev b (snd p)) as [q|]; [|reflexivity]. cbn [bind]. unfold comparison. rewrite H. now destruct (compare (T o) (fst p) (fst q)).
  Qed.
  Lemma cmp_is x y : compare (T "is") x y = identical x y.
  Proof. reflexivity. Qed.
  Lemma cmp_isnot x y : compare (T "is not") x y = do b <- identical x y; Ok (negb b).
  Proof. reflexivity. Qed.
  Lemma cmp_lt x y : compare (T "<") x y = needs x (fun x => needs y (fun y => py_lt x y)).
  Proof. reflexivity. Qed.
  Lemma cmp_gt x y : compare (T ">") x y = needs x (fun x => needs y (fun y => py_lt y x)).
  Proof. reflexivity. Qed.
  Lemma cmp_notin x y : compare (T "not in") x y = needs x (fun x => needs y (fun y => do b <- py_in x y; Ok (negb b))).
  Proof. reflexivity. Qed.
  Lemma ev_sub a i s : ev (ASub a i) s =
    do p <- ev a s; do q <- ev i (snd p);
    needs (fst p) (fun v => needs (fst q) (fun k => do r <- item a v k (snd q); Ok (RVal (fst r), snd r))).
  Proof. reflexivity. Qed.
  Lemma ev_plus a b s : ev (ABin (T "+") a b) s =
    do p <- ev a s; do q <- ev b (snd p);
    needs (fst p) (fun x => needs (fst q) (fun y => do z <- py_add x y; Ok (RVal z, snd q))).
  Proof. reflexivity. Qed.
  Lemma ev_tuple2 a b s : ev (ATuple [a; b]) s =
    do p <- (do p <- ev a s; item_of (fst p) (fun v => do q <- ev b (snd p); item_of (fst q) (fun w => Ok ([v; w], snd q))));
    Ok (RVal (VTuple (fst p)), snd p).
  Proof.
    cbn. destruct (ev a s) as [[[] t]|]; cbn; try reflexivity. destruct (ev b t) as [[[] u]|]; cbn; reflexivity.
  Qed.
  Lemma ev_list1 a s : ev (AList [a]) s = do p <- ev a s; item_of (fst p) (fun v => Ok (RVal (VList [v]), snd p)).
  Proof. cbn. destruct (ev a s) as [[[] t]|]; cbn; reflexivity. Qed.
  Lemma ev_set1 a s : ev (ASet [a]) s =
    do p <- ev a s; item_of (fst p) (fun v => do v' <- need_hash v; Ok (RVal (VSet [v']), snd p)).
  Proof.
    cbn. destruct (ev a s) as [[[] t]|]; cbn; try reflexivity. unfold need_hash. destruct (hashable v); reflexivity.
  Qed.
  Lemma ev_dict1 a b s : ev (ADict [(a, b)]) s =
    do p <- ev a s; item_of (fst p) (fun k => do q <- ev b (snd p); item_of (fst q) (fun v =>
    do k' <- need_hash k; Ok (RVal (VDict [(k', v)]), snd q))).
  Proof.
    cbn. destruct (ev a s) as [[[] t]|]; cbn; try reflexivity. destruct (ev b t) as [[[] u]|]; cbn; try reflexivity.
    unfold need_hash. destruct (hashable v); reflexivity.
  Qed.
  Definition plain (e : ast) (s : state) : res (object * state) := do p <- ev e s; Ok (object_of (fst p), snd p).
  Lemma right_either a b s : right_side (either a b) s = plain (either a b) s.
  Proof. reflexivity. Qed.
  Lemma right_num n s : right_side (ANum n) s = plain (ANum n) s.
  Proof. reflexivity. Qed.
  Lemma right_none s : right_side none s = plain none s.
  Proof. reflexivity. Qed.
  Lemma right_set l s : right_side (ASet l) s = plain (ASet l) s.
  Proof. reflexivity. Qed.
  Lemma right_tuple l s : right_side (ATuple l) s = plain (ATuple l) s.
  Proof. reflexivity. Qed.
  Lemma right_list l s : right_side (AList l) s = plain (AList l) s.
  Proof. reflexivity. Qed.
  Lemma right_dict l s : right_side (ADict l) s = plain (ADict l) s.
  Proof. reflexivity. Qed.
  Lemma right_bin o a b s : right_side (ABin o a b) s = plain (ABin o a b) s.
  Proof. reflexivity. Qed.

  Lemma is_global_view n s : view s (PN n) = None -> is_global n s = true.
  Proof. unfold view, is_global. cbn. now destruct (assoc (names s) n). Qed.
  Definition factories_free (s : state) : Prop :=
    forall n, In n (map T ["defaultdict"; "list"; "dict"; "int"]%string) -> view s (PN n) = None.
  Lemma right_dd g m s : In (g, m) [("list", VList []); ("dict", VDict []); ("int", VInt 0)]%string -> factories_free s ->
    right_side (ACall (name "defaultdict") [name g] []) s = Ok (OVal (VDict []) (Some m), s).
  Proof.
    intros I F.
    assert (H : forall n, In n (map T ["defaultdict"; "list"; "dict"; "int"]%string) -> is_global n s = true).
    { intros n In. apply is_global_view. now apply F. }
    unfold name. destruct I as [E|[E|[E|[]]]]; injection E as <- <-; cbn [Spec_FuncRun.right_side];
      rewrite !H by (cbn [map In]; tauto); reflexivity.
  Qed.

  (** *** statements *)
  Lemma run_set_item a i e s : run_simple (Spec_Stmt.SAssign [ASub a i] e) s =
    on (do p <- ev e s; item_of (fst p) (fun x => assign_item a i x (snd p))).
  Proof. reflexivity. Qed.
  Lemma run_add t e s : run_simple (Spec_Stmt.SAdd t e) s =
    on (change t (fun v s => do q <- ev e s; needs v (fun v => needs (fst q) (fun x => do z <- py_add v x; Ok (z, snd q)))) s).
  Proof. reflexivity. Qed.
  Lemma change_sub b i f s : change (ASub b i) f s =
    change b (fun v s =>
      do q <- ev i s;
      needs v (fun v => needs (fst q) (fun k =>
      do r <- item b v k (snd q);
      do p <- f (RVal (fst r)) (snd r);
      match v with
      | VDict d => Ok (VDict (dput d k (fst p)), snd p)
      | _ => Err TypeError
      end))) s.
  Proof. reflexivity. Qed.
  Lemma run_append a x s : run_stmt (method a "append" x) s =
    on (change a (fun v s =>
          match v with
          | RVal (VSet l) => Err AttributeError
          | RVal (VList l) => do q <- ev x s; item_of (fst q) (fun y => Ok (VList (l ++ [y]), snd q))
          | _ => Err AttributeError
          end) s).
  Proof. reflexivity. Qed.
  Lemma run_add_m a x s : run_stmt (method a "add" x) s =
    on (change a (fun v s =>
          match v with
          | RVal (VSet l) => do q <- ev x s; item_of (fst q) (fun y => do y' <- need_hash y; Ok (VSet (vadd l y'), snd q))
          | RVal (VList l) => Err AttributeError
          | _ => Err AttributeError
          end) s).
  Proof. reflexivity. Qed.
  Lemma run_simple_stmt st s : run_stmt (Spec_Stmt.Simple st) s = run_simple st s.
  Proof. reflexivity. Qed.
  Lemma run_if1 c l other s : run_stmt (if_ c l other) s =
    do p <- ev c s; if is_true (fst p) then run_stmts l (snd p) else run_stmts other (snd p).
  Proof. unfold if_. rewrite run_if. destruct (ev c s) as [[x t]|]; cbn [bind fst snd]; [|reflexivity]. now rewrite run_else. Qed.
  Lemma run_cons st r s : run_stmts (st :: r) s = do p <- run_stmt st s; if snd p then Ok p else run_stmts r (fst p).
  Proof. reflexivity. Qed.
  Lemma run_nil s : run_stmts [] s = Ok (s, false).
  Proof. reflexivity. Qed.

  (** an expression that gives the same value whatever the accumulator is *)
  Definition steady (E : ast) (r : res val) (D : list place) (s : state) : Prop :=
    forall s', frame D s s' ->
      ev E s' = (do v <- r; Ok (RVal v, s')) /\ right_side E s' = (do v <- r; Ok (OVal v None, s')).
  Lemma steady_frame E r D s s' : steady E r D s -> frame D s s' -> steady E r D s'.
  Proof. intros H F t F'. apply H. eapply frame_trans; eauto. Qed.

  Section One.
    Variables (V : ast) (p : place) (s : state) (l : nat).
    Hypothesis G : good s.
    Hypothesis SV : slot_at V p s.
    Hypothesis ND : p <> dd.
    Hypothesis LP : loc_of s p = Some l.
    Hypothesis FF : factories_free s.
    Definition done (m : option val) (c : cell) (s' : state) : Prop :=
      good s' /\ frame [p; dd] s s' /\ view s' p = Some (obj_for m c).
    Definition follows (r : res (state * bool)) (m : option val) (c : res cell) : Prop :=
      match c with
      | Err e => r = Err e
      | Ok c => exists s', r = Ok (s', false) /\ done m c s'
      end.
    Lemma done_put m c : done m c (put s p (obj_for m c)).
    Proof.
      split; [apply good_put; [exact G|eapply slot_inst; eauto]|]. split; [|apply view_put_same].
      eapply frame_more; [|now apply frame_put]. intros q [<-|[]]. now left.
    Qed.
    Lemma done_put2 m c : done m c (put2 s p (obj_for m c)).
    Proof.
      split; [apply good_put2; [exact G|exact ND|eapply slot_inst; eauto]|]. split; [now apply frame_put2|now apply view_put2_same].
    Qed.
    Lemma done_store m c : obj_at s l <> OSent -> done m c (store s l (obj_for m c)).
    Proof.
      intros N. split; [eapply good_store; eauto|]. split; [eapply frame_store; eauto|eapply view_store_same; eauto].
    Qed.
    Lemma done_same m c : obj_at s l = obj_for m c -> done m c s.
    Proof. intros H. split; [exact G|]. split; [apply frame_refl|]. unfold view. now rewrite LP, <- H. Qed.

    (** the operations on the accumulator, in the states that occur *)
    Notation dname := (name "_d").
    Lemma at_store o : obj_at s l <> OSent -> slot_at V p (store s l o).
    Proof. intros N. eapply slot_frame2; [exact SV|]. eapply frame_store; eauto. Qed.
    Lemma A1 o : (let '(k, t) := new s o in Spec_FuncRun.assign globals call outside [V] k t) = Ok (put s p o).
    Proof. change (new s o) with (length (objects s), snd (new s o)). cbv iota beta. now rewrite (slot_assign1 _ _ _ V p s o [] G SV). Qed.
    Lemma A1s o1 o : obj_at s l <> OSent -> (let '(k, t) := new (store s l o1) o in Spec_FuncRun.assign globals call outside [V] k t) = Ok (put (store s l o1) p o).
    Proof.
      intros N. change (new (store s l o1) o) with (length (objects (store s l o1)), snd (new (store s l o1) o)). cbv iota beta.
      rewrite (slot_assign1 _ _ _ V p (store s l o1) o []); [reflexivity|eapply good_store; eauto|now apply at_store].
    Qed.
    Lemma A2 o : (let '(k, t) := new s o in Spec_FuncRun.assign globals call outside [V; dname] k t) = Ok (put2 s p o).
    Proof. change (new s o) with (length (objects s), snd (new s o)). cbv iota beta. now rewrite (slot_assign1 _ _ _ V p s o _ G SV). Qed.
    Lemma assignV e t : run_simple (Spec_Stmt.SAssign [V] e) t =
      on (do q <- right_side e t; let '(k, u) := new (snd q) (fst q) in Spec_FuncRun.assign globals call outside [V] k u).
    Proof. apply run_assign. intros a i [= E]. revert E. eapply slot_not_sub; eauto. Qed.
    Lemma assignVd e t : run_simple (Spec_Stmt.SAssign [V; dname] e) t =
      on (do q <- right_side e t; let '(k, u) := new (snd q) (fst q) in Spec_FuncRun.assign globals call outside [V; dname] k u).
    Proof. apply run_assign. discriminate. Qed.
    Lemma obj_store o : obj_at (store s l o) l = o.
    Proof. unfold obj_at, store. cbn. apply set_nth_at. eapply g_wf; eauto. Qed.
    Lemma obj_put2 o : obj_at (put2 s p o) (length (objects s)) = o.
    Proof. unfold put2. change (obj_at (put s p o) (length (objects s)) = o). unfold put. now rewrite obj_set_place, obj_new. Qed.
    Lemma evV o : obj_at s l = o -> ev V s = do x <- rv_of o; Ok (x, s).
    Proof. intros H. eapply slot_ev; eauto. unfold view. now rewrite LP, <- H. Qed.
    Lemma changeV f : change V f s =
      match obj_at s l with
      | OVal v m => do p <- f (RVal v) s; Ok (store (snd p) l (OVal (fst p) m))
      | OSent => do p <- f RSent s; Ok (snd p)
      | _ => unsupported
      end.
    Proof. eapply slot_change; eauto. Qed.
    Lemma changeVs o f : obj_at s l <> OSent -> change V f (store s l o) =
      match o with
      | OVal v m => do p <- f (RVal v) (store s l o); Ok (store (snd p) l (OVal (fst p) m))
      | OSent => do p <- f RSent (store s l o); Ok (snd p)
      | _ => unsupported
      end.
    Proof.
      intros N. rewrite (slot_change _ _ _ V p (store s l o) f l); [now rewrite obj_store|now apply at_store|now rewrite loc_store].
    Qed.
    Lemma itemV v k : item V v k s =
      match obj_at s l, v with
      | OVal _ (Some m), VDict d =>
          do k' <- need_hash k;
          match dfind d k' with
          | Some x => Ok (x, s)
          | None => Ok (m, store s l (OVal (VDict (dput d k' m)) (Some m)))
          end
      | _, _ => do x <- py_getitem v k; Ok (x, s)
      end.
    Proof. eapply slot_item; eauto. Qed.
    Lemma itemVs o v k : obj_at s l <> OSent -> item V v k (store s l o) =
      match o, v with
      | OVal _ (Some m), VDict d =>
          do k' <- need_hash k;
          match dfind d k' with
          | Some x => Ok (x, store s l o)
          | None => Ok (m, store s l (OVal (VDict (dput d k' m)) (Some m)))
          end
      | _, _ => do x <- py_getitem v k; Ok (x, store s l o)
      end.
    Proof.
      intros N. rewrite (slot_item V p (store s l o) v k l); [rewrite obj_store|now apply at_store|now rewrite loc_store].
      destruct o as [|? [m|]| | | |]; try reflexivity. destruct v; try reflexivity.
      unfold need_hash. destruct (hashable k); [|reflexivity]. cbn [bind]. now rewrite store_store.
    Qed.
    Lemma changeD v m f : change dname f (put2 s p (OVal v m)) =
      do q <- f (RVal v) (put2 s p (OVal v m)); Ok (store (snd q) (length (objects s)) (OVal (fst q) m)).
    Proof.
      rewrite (slot_change _ _ _ dname dd (put2 s p (OVal v m)) f (length (objects s))); [now rewrite obj_put2|reflexivity|apply loc_put2_dd].
    Qed.
    Lemma itemD w mm v k : item dname v k (put2 s p (OVal w mm)) =
      match mm, v with
      | Some m, VDict d =>
          do k' <- need_hash k;
          match dfind d k' with
          | Some x => Ok (x, put2 s p (OVal w mm))
          | None => Ok (m, put2 s p (OVal (VDict (dput d k' m)) (Some m)))
          end
      | _, _ => do x <- py_getitem v k; Ok (x, put2 s p (OVal w mm))
      end.
    Proof.
      rewrite (slot_item dname dd (put2 s p (OVal w mm)) v k (length (objects s))); [|reflexivity|apply loc_put2_dd].
      rewrite obj_put2. destruct mm as [m|]; [|reflexivity]. destruct v; try reflexivity.
      unfold need_hash. destruct (hashable k); [|reflexivity]. cbn [bind]. now rewrite store_put2.
    Qed.

    Section Parts.
      Variables (E X : ast) (re rx : res val).
      Hypothesis SE : steady E re [p; dd] s.
      Hypothesis SX : steady X rx [p; dd] s.
      Lemma e0 : ev E s = do v <- re; Ok (RVal v, s). Proof. apply SE, frame_refl. Qed.
      Lemma e0r : right_side E s = do v <- re; Ok (OVal v None, s). Proof. apply SE, frame_refl. Qed.
      Lemma e1 o : obj_at s l <> OSent -> ev E (store s l o) = do v <- re; Ok (RVal v, store s l o).
      Proof. intros N. apply SE. eapply frame_store; eauto. Qed.
      Lemma e1r o : obj_at s l <> OSent -> right_side E (store s l o) = do v <- re; Ok (OVal v None, store s l o).
      Proof. intros N. apply SE. eapply frame_store; eauto. Qed.
      Lemma e2 o : ev E (put2 s p o) = do v <- re; Ok (RVal v, put2 s p o).
      Proof. apply SE. now apply frame_put2. Qed.
      Lemma x0 : ev X s = do v <- rx; Ok (RVal v, s). Proof. apply SX, frame_refl. Qed.
      Lemma x1 o : obj_at s l <> OSent -> ev X (store s l o) = do v <- rx; Ok (RVal v, store s l o).
      Proof. intros N. apply SX. eapply frame_store; eauto. Qed.
      Lemma x2 o : ev X (put2 s p o) = do v <- rx; Ok (RVal v, put2 s p o).
      Proof. apply SX. now apply frame_put2. Qed.
    End Parts.
  End One.
End Reds.

Ltac nodes :=
  rewrite ?run_cons, ?run_nil, ?run_if1, ?run_simple_stmt, ?run_set_item, ?run_add, ?run_append, ?run_add_m, ?run_else;
  rewrite ?change_sub, ?right_either, ?right_num, ?right_none, ?right_set, ?right_tuple, ?right_list, ?right_dict, ?right_bin;
  unfold Spec_FuncRun.assign_item, plain;
  rewrite ?ev_either, ?ev_both; rewrite ?ev_cmp by reflexivity; rewrite ?ev_num, ?ev_none, ?ev_sub, ?ev_plus, ?ev_tuple2, ?ev_list1, ?ev_set1, ?ev_dict1;
  rewrite ?cmp_is, ?cmp_isnot, ?cmp_lt, ?cmp_gt, ?cmp_notin.
Ltac reds := cbn [bind fst snd needs item_of is_true truthy on identical is_none negb andb orb object_of rv_of obj_for dfind dput app vadd vmem existsb py_getitem py_in].
