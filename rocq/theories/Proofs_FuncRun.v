(** Facts about running functions (Spec_FuncRun.v): variables that do not share their
    objects. *)
From Coq Require Import String Ascii List NArith ZArith Bool Arith Lia.
From Verif Require Import Model_PyVal Model_Code Spec_Syntax Spec_FuncText Spec_FuncRun.
From Verif Require Spec_Stmt Proofs_Own.
Import ListNotations.

Lemma same_text_eq s t : same_text s t = true -> s = t.
Proof. apply Proofs_Own.same_text_eq. Qed.
Lemma same_text_refl s : same_text s s = true.
Proof. apply Proofs_Own.same_text_refl. Qed.
Lemma same_text_neq s t : s <> t -> same_text s t = false.
Proof. intros H. destruct (same_text s t) eqn:E; [|reflexivity]. now apply same_text_eq in E. Qed.

(** *** places *)
Inductive place : Type := PN (n : text) | PA (i : nat) (x : text).
Definition loc_of (s : state) (p : place) : option nat :=
  match p with PN n => assoc (names s) n | PA i x => attr_at (attrs s) i x end.
Definition view (s : state) (p : place) : option object := option_map (obj_at s) (loc_of s p).
Definition set_place (s : state) (p : place) (l : nat) : state :=
  match p with PN n => name_it s n l | PA i x => set_attr s i x l end.
Definition put (s : state) (p : place) (o : object) : state := set_place (snd (new s o)) p (length (objects s)).
(** the second name the generated statements use *)
Definition dd : place := PN (T "_d").
Definition put2 (s : state) (p : place) (o : object) : state := name_it (put s p o) (T "_d") (length (objects s)).

Record good (s : state) : Prop := mkGood {
  g_wf : forall p l, loc_of s p = Some l -> l < length (objects s);
  g_sep : forall p q l, p <> q -> p <> dd -> q <> dd -> loc_of s p = Some l -> loc_of s q = Some l -> obj_at s l = OSent;
  g_inst : forall i x, loc_of s (PA i x) <> None -> i < instances s }.
Definition kept (D : list place) (s s' : state) : Prop :=
  instances s' = instances s /\ forall q, ~ In q D -> loc_of s' q = loc_of s q.
Definition frame (D : list place) (s s' : state) : Prop :=
  kept D s s' /\ forall q, ~ In q D -> view s' q = view s q.

Lemma frame_refl D s : frame D s s.
Proof. split; [split|]; auto. Qed.
Lemma frame_trans D s s' s'' : frame D s s' -> frame D s' s'' -> frame D s s''.
Proof. intros [[I1 L1] H1] [[I2 L2] H2]. split; [split; [congruence|]|]; intros q N; [rewrite L2, L1|rewrite H2, H1]; auto. Qed.
Lemma frame_more D D' s s' : incl D D' -> frame D s s' -> frame D' s s'.
Proof. intros I [[H1 L] H2]. split; [split; [exact H1|]|]; intros q N; [apply L|apply H2]; intros X; apply N, I, X. Qed.

Lemma place_dec (p q : place) : {p = q} + {p <> q}.
Proof. decide equality; try apply Nat.eq_dec; apply list_eq_dec, N.eq_dec. Qed.
Lemma PN_inj a b : PN a = PN b -> a = b.
Proof. now intros [= H]. Qed.
Lemma loc_set_same s p l : loc_of (set_place s p l) p = Some l.
Proof. destruct p; cbn; [now rewrite same_text_refl|now rewrite Nat.eqb_refl, same_text_refl]. Qed.
Lemma loc_set_other s p l q : q <> p -> loc_of (set_place s p l) q = loc_of s q.
Proof.
  intros N. destruct p as [n|i x], q as [m|j y]; cbn; auto.
  - rewrite same_text_neq; [reflexivity|]. congruence.
  - destruct (Nat.eqb j i && same_text y x) eqn:E; [|reflexivity]. apply andb_true_iff in E as [E1 E2].
    apply Nat.eqb_eq in E1. apply same_text_eq in E2. congruence.
Qed.
Lemma obj_old s o l : l < length (objects s) -> obj_at (snd (new s o)) l = obj_at s l.
Proof. intros H. unfold obj_at. cbn. now apply app_nth1. Qed.
Lemma obj_new s o : obj_at (snd (new s o)) (length (objects s)) = o.
Proof. unfold obj_at. cbn. rewrite app_nth2 by lia. now rewrite Nat.sub_diag. Qed.
Lemma obj_set_place s p l k : obj_at (set_place s p l) k = obj_at s k.
Proof. now destruct p. Qed.

Lemma view_put_same s p o : view (put s p o) p = Some o.
Proof. unfold view, put. rewrite loc_set_same. cbn [option_map]. now rewrite obj_set_place, obj_new. Qed.
Lemma view_put_other s p o q : good s -> q <> p -> view (put s p o) q = view s q.
Proof.
  intros G N. unfold view, put. rewrite loc_set_other by exact N. change (loc_of (snd (new s o)) q) with (loc_of s q).
  destruct (loc_of s q) as [l|] eqn:E; [|reflexivity]. cbn [option_map]. rewrite obj_set_place, obj_old; [reflexivity|]. eapply g_wf; eauto.
Qed.
Lemma frame_put s p o : good s -> frame [p] s (put s p o).
Proof.
  intros G. split; [split; [now destruct p|]|]; intros q N; assert (q <> p) by (intros ->; apply N; now left).
  - unfold put. rewrite loc_set_other by assumption. now destruct q.
  - now apply view_put_other.
Qed.
Lemma good_put s p o : good s -> (forall i x, p = PA i x -> i < instances s) -> good (put s p o).
Proof.
  intros G I. assert (L : forall q, q <> p -> loc_of (put s p o) q = loc_of s q).
  { intros q N. unfold put. rewrite loc_set_other by exact N. now destruct q. }
  assert (LP : loc_of (put s p o) p = Some (length (objects s))) by apply loc_set_same.
  assert (LEN : length (objects (put s p o)) = S (length (objects s))).
  { destruct p; cbn; rewrite app_length; cbn; lia. }
  constructor.
  - intros q l H. rewrite LEN. destruct (place_dec q p) as [->|N].
    + rewrite LP in H. injection H as <-. lia.
    + rewrite L in H by exact N. apply (g_wf _ G) in H. lia.
  - intros q r l N Q R H1 H2. destruct (place_dec q p) as [->|Nq]; [|destruct (place_dec r p) as [->|Nr]].
    + rewrite LP in H1. injection H1 as <-. rewrite L in H2 by congruence. apply (g_wf _ G) in H2. lia.
    + rewrite LP in H2. injection H2 as <-. rewrite L in H1 by congruence. apply (g_wf _ G) in H1. lia.
    + rewrite L in H1, H2 by assumption. unfold put. rewrite obj_set_place, obj_old by (eapply g_wf; eauto). now apply (g_sep _ G q r).
  - intros i x H. replace (instances (put s p o)) with (instances s) by (now destruct p).
    destruct (place_dec (PA i x) p) as [E|N]; [now apply (I i x)|]. rewrite L in H by exact N. now apply (g_inst _ G i x).
Qed.
Lemma bind_new_put s n o : bind_new s n o = put s (PN n) o.
Proof. reflexivity. Qed.

(** *** two names for one object *)
Lemma view_put2_same s p o : p <> dd -> view (put2 s p o) p = Some o.
Proof.
  intros N. unfold view, put2. change (name_it (put s p o) (T "_d") (length (objects s))) with (set_place (put s p o) dd (length (objects s))).
  rewrite loc_set_other by exact N. unfold put. rewrite loc_set_same. cbn [option_map]. now rewrite !obj_set_place, obj_new.
Qed.
Lemma view_put2_dd s p o : view (put2 s p o) dd = Some o.
Proof.
  unfold view, put2. change (name_it (put s p o) (T "_d") (length (objects s))) with (set_place (put s p o) dd (length (objects s))).
  rewrite loc_set_same. cbn [option_map]. unfold put. now rewrite !obj_set_place, obj_new.
Qed.
Lemma loc_put2_dd s p o : loc_of (put2 s p o) dd = Some (length (objects s)).
Proof. unfold put2. apply (loc_set_same (put s p o) dd). Qed.
Lemma frame_put2 s p o : good s -> frame [p; dd] s (put2 s p o).
Proof.
  intros G. split; [split; [now destruct p|]|]; intros q N.
  { assert (q <> p) by (intros ->; apply N; now left). assert (q <> dd) by (intros ->; apply N; right; now left).
    change (put2 s p o) with (set_place (put s p o) dd (length (objects s))). rewrite loc_set_other by assumption.
    unfold put. rewrite loc_set_other by assumption. now destruct q. }
  assert (q <> p) by (intros ->; apply N; now left). assert (q <> dd) by (intros ->; apply N; right; now left).
  rewrite <- (view_put_other s p o q G) by assumption.
  unfold view, put2. change (name_it (put s p o) (T "_d") (length (objects s))) with (set_place (put s p o) dd (length (objects s))).
  rewrite loc_set_other by assumption.
  destruct (loc_of (put s p o) q); [|reflexivity]. cbn [option_map]. now rewrite obj_set_place.
Qed.
Lemma good_put2 s p o : good s -> p <> dd -> (forall i x, p = PA i x -> i < instances s) -> good (put2 s p o).
Proof.
  intros G ND I. pose proof (good_put s p o G I) as G1.
  change (put2 s p o) with (set_place (put s p o) dd (length (objects s))).
  assert (LEN : length (objects (put s p o)) = S (length (objects s))) by (destruct p; cbn; rewrite app_length; cbn; lia).
  constructor.
  - intros q l H. change (objects (set_place (put s p o) dd (length (objects s)))) with (objects (put s p o)).
    destruct (place_dec q dd) as [->|N].
    + rewrite loc_set_same in H. injection H as <-. lia.
    + rewrite loc_set_other in H by exact N. now apply (g_wf _ G1) in H.
  - intros q r l N Q R H1 H2. rewrite loc_set_other in H1, H2 by assumption. rewrite obj_set_place. now apply (g_sep _ G1 q r).
  - intros i x H. rewrite loc_set_other in H by discriminate. now apply (g_inst _ G1 i x).
Qed.

(** *** changing an object *)
Lemma set_nth_len {B} (l : list B) : forall n b, length (set_nth l n b) = length l.
Proof. induction l; intros [|n] b; cbn; auto. Qed.
Lemma set_nth_at {B} (l : list B) d : forall n b, n < length l -> nth n (set_nth l n b) d = b.
Proof. induction l; intros [|n] b H; cbn in *; try lia; auto. apply IHl. lia. Qed.
Lemma set_nth_off {B} (l : list B) d : forall n k b, n <> k -> nth k (set_nth l n b) d = nth k l d.
Proof. induction l; intros [|n] [|k] b H; cbn; auto; try congruence. Qed.
Lemma set_nth_twice {B} (l : list B) : forall n b c, set_nth (set_nth l n b) n c = set_nth l n c.
Proof. induction l; intros [|n] b c; cbn; auto. f_equal. auto. Qed.
Lemma set_nth_end {B} (l : list B) b c : set_nth (l ++ [b]) (length l) c = l ++ [c].
Proof. induction l; cbn; auto. now f_equal. Qed.

Lemma store_store s l o o' : store (store s l o) l o' = store s l o'.
Proof. unfold store. cbn. now rewrite set_nth_twice. Qed.
Lemma store_put2 s p o o' : store (put2 s p o) (length (objects s)) o' = put2 s p o'.
Proof. unfold put2, put, store. destruct p; cbn; now rewrite set_nth_end. Qed.
Lemma loc_store s l o p : loc_of (store s l o) p = loc_of s p.
Proof. now destruct p. Qed.
Lemma view_store_same s l o p : good s -> loc_of s p = Some l -> view (store s l o) p = Some o.
Proof.
  intros G H. unfold view. rewrite loc_store, H. cbn [option_map]. unfold obj_at, store. cbn. rewrite set_nth_at; [reflexivity|].
  eapply g_wf; eauto.
Qed.
Lemma frame_store s l o p : good s -> p <> dd -> loc_of s p = Some l -> obj_at s l <> OSent -> frame [p; dd] s (store s l o).
Proof.
  intros G ND H NS. split; [split; [reflexivity|intros q _; apply loc_store]|]. intros q N. unfold view. rewrite loc_store. destruct (loc_of s q) as [k|] eqn:K; [|reflexivity].
  cbn [option_map]. f_equal. unfold obj_at, store. cbn. rewrite set_nth_off; [reflexivity|]. intros ->. apply NS.
  apply (g_sep _ G p q); auto; intros ->; apply N; cbn; auto.
Qed.
Lemma good_store s l o p : good s -> p <> dd -> loc_of s p = Some l -> obj_at s l <> OSent -> good (store s l o).
Proof.
  intros G ND H NS. constructor.
  - intros q k K. rewrite loc_store in K. cbn. rewrite set_nth_len. eapply g_wf; eauto.
  - intros q r k N Q R H1 H2. rewrite loc_store in H1, H2. pose proof (g_sep _ G q r k N Q R H1 H2) as S.
    unfold obj_at, store. cbn. rewrite set_nth_off; [exact S|]. intros ->. contradiction.
  - intros i x. rewrite loc_store. apply (g_inst _ G).
Qed.

(** *** the accumulator *)
Section Slot.
  Variable globals : text -> option rv.
  Variable call : text -> list val -> res val.
  Variable classes : text -> option (list text).
  Variable outside : ast -> (ast -> option val) -> res val.
  Notation ev := (ev globals call outside).
  Notation right_side := (right_side globals call classes outside).
  Notation change := (change globals call outside).
  Notation assign := (assign globals call outside).
  Notation run_simple := (run_simple globals call classes outside).
  Notation run_stmt := (run_stmt globals call classes outside).
  Notation run_stmts := (run_stmts globals call classes outside).

  (** [V] is the variable or attribute [p] *)
  Definition slot_at (V : ast) (p : place) (s : state) : Prop :=
    match V with
    | AName n => p = PN n
    | AAttr (AName a) x => exists i, view s (PN a) = Some (OInst i) /\ i < instances s /\ p = PA i x /\ a <> T "_d"
    | _ => False
    end.
  Lemma slot_variable V p s : slot_at V p s -> variable V s = loc_of s p.
  Proof.
    destruct V; try contradiction; cbn; [now intros ->|]. destruct V; try contradiction. intros (i & H & _ & -> & _).
    unfold view in H. cbn in H. destruct (assoc (names s) x) as [l|]; [|discriminate]. cbn in H. injection H as ->. reflexivity.
  Qed.
  Lemma slot_frame V p s s' D : slot_at V p s -> frame D s s' -> (forall n, V = AAttr (AName n) (match V with AAttr _ x => x | _ => [] end) -> ~ In (PN n) D) ->
    slot_at V p s'.
  Proof.
    destruct V; try contradiction; cbn; auto. destruct V; try contradiction. intros (i & H & I & -> & ND) [[F1 _] F2] N. exists i.
    rewrite F2 by (apply N; reflexivity). rewrite F1. auto.
  Qed.
  Lemma slot_frame2 V p s s' : slot_at V p s -> frame [p; dd] s s' -> slot_at V p s'.
  Proof.
    intros S F. eapply slot_frame; eauto. intros n E. destruct V; try discriminate E. injection E as ->. cbn in S.
    destruct S as (i & _ & _ & -> & ND). intros [X|[X|[]]]; [discriminate X|]. apply PN_inj in X. now symmetry in X.
  Qed.
  Lemma slot_inst V p s : slot_at V p s -> forall i x, p = PA i x -> i < instances s.
  Proof.
    destruct V; try contradiction; cbn; [intros -> i x0; discriminate|]. destruct V; try contradiction.
    intros (i & _ & I & -> & _) j y [= <- <-]. exact I.
  Qed.

  Lemma slot_ev V p s o : slot_at V p s -> view s p = Some o -> ev V s = do x <- rv_of o; Ok (x, s).
  Proof.
    intros S H. pose proof (slot_variable V p s S) as Q. unfold view in H. destruct V; try contradiction.
    - cbn in S. subst p. cbn in *. destruct (assoc (names s) x) as [l|]; [|discriminate]. cbn in H. injection H as ->. reflexivity.
    - destruct V; try contradiction. cbn [Spec_FuncRun.ev]. rewrite Q. destruct (loc_of s p) as [l|]; [|discriminate]. cbn in H. injection H as ->. reflexivity.
  Qed.
  Lemma run_assign ts e s : (forall a i, ts <> [ASub a i]) ->
    run_simple (Spec_Stmt.SAssign ts e) s = on (do p <- right_side e s; let '(l, s) := new (snd p) (fst p) in assign ts l s).
  Proof. intros N. destruct ts as [|t [|]]; try reflexivity; destruct t; try reflexivity. exfalso. eapply N. reflexivity. Qed.
  Lemma slot_assign1 V p s o rest : good s -> slot_at V p s ->
    assign (V :: rest) (length (objects s)) (snd (new s o)) = assign rest (length (objects s)) (put s p o).
  Proof.
    intros G S. destruct V; try contradiction.
    - cbn in S. subst p. reflexivity.
    - destruct V; try contradiction. destruct S as (i & H & I & -> & ND).
      assert (E : ev (AName x) (snd (new s o)) = Ok (RInst i, snd (new s o))).
      { unfold view in H. cbn [loc_of] in H. cbn [Spec_FuncRun.ev]. change (assoc (names (snd (new s o))) x) with (assoc (names s) x).
        destruct (assoc (names s) x) as [l|] eqn:E; [|discriminate]. cbn [option_map] in H. injection H as H.
        rewrite (obj_old s o l); [now rewrite H|]. apply (g_wf _ G (PN x) l E). }
      cbn [Spec_FuncRun.assign]. rewrite E. reflexivity.
  Qed.
  Lemma slot_not_sub V p s a i : slot_at V p s -> V <> ASub a i.
  Proof. destruct V; try contradiction; discriminate. Qed.
  Lemma slot_assign V p s e r : good s -> slot_at V p s -> right_side e s = (do o <- r; Ok (o, s)) ->
    run_simple (Spec_Stmt.SAssign [V] e) s = do o <- r; Ok (put s p o, false).
  Proof.
    intros G S H. rewrite run_assign by (intros a i [= X]; revert X; eapply slot_not_sub; eauto). rewrite H.
    destruct r as [o|]; [|reflexivity]. cbn [bind fst snd on]. change (new s o) with (length (objects s), snd (new s o)). cbv iota beta.
    now rewrite (slot_assign1 V p s o [] G S).
  Qed.
  Lemma slot_fresh V p s e o : good s -> slot_at V p s -> right_side e s = Ok (o, s) ->
    run_simple (Spec_Stmt.SAssign [V; AName (T "_d")] e) s = Ok (put2 s p o, false).
  Proof.
    intros G S H. rewrite run_assign by discriminate. rewrite H.
    cbn [bind fst snd on]. change (new s o) with (length (objects s), snd (new s o)). cbv iota beta.
    now rewrite (slot_assign1 V p s o _ G S).
  Qed.
  Lemma change_place V f s : (forall a i, V <> ASub a i) -> change V f s =
    match variable V s with
    | Some l =>
        match obj_at s l with
        | OVal v m => do p <- f (RVal v) s; Ok (store (snd p) l (OVal (fst p) m))
        | OSent => do p <- f RSent s; Ok (snd p)
        | _ => unsupported
        end
    | None => unsupported
    end.
  Proof. intros N. destruct V; try reflexivity. exfalso. eapply N. reflexivity. Qed.
  Lemma slot_change V p s f l : slot_at V p s -> loc_of s p = Some l -> change V f s =
    match obj_at s l with
    | OVal v m => do p <- f (RVal v) s; Ok (store (snd p) l (OVal (fst p) m))
    | OSent => do p <- f RSent s; Ok (snd p)
    | _ => unsupported
    end.
  Proof.
    intros S L. rewrite change_place by (intros a i; eapply slot_not_sub; eauto).
    now rewrite (slot_variable V p s S), L.
  Qed.
  Lemma slot_item V p s v k l : slot_at V p s -> loc_of s p = Some l -> item V v k s =
    match obj_at s l, v with
    | OVal _ (Some m), VDict d =>
        do k' <- need_hash k;
        match dfind d k' with
        | Some x => Ok (x, s)
        | None => Ok (m, store s l (OVal (VDict (dput d k' m)) (Some m)))
        end
    | _, _ => do x <- py_getitem v k; Ok (x, s)
    end.
  Proof. intros S L. unfold item. now rewrite (slot_variable V p s S), L. Qed.

  Lemma run_all_eq l : forall s,
    (fix run_all (l : list stmt) (s : state) : res (state * bool) :=
      match l with
      | [] => Ok (s, false)
      | st :: r => do p <- run_stmt st s; if snd p then Ok p else run_all r (fst p)
      end) l s = run_stmts l s.
  Proof. induction l as [|st l IH]; intros s; cbn [Spec_FuncRun.run_stmts]; [reflexivity|]. destruct (run_stmt st s) as [[s' []]|]; cbn; auto. Qed.
  Lemma run_if c l r other s :
    run_stmt (Spec_Stmt.If ((c, l) :: r) other) s =
    do p <- ev c s;
    if is_true (fst p) then run_stmts l (snd p) else run_stmt (Spec_Stmt.If r other) (snd p).
  Proof.
    cbn [Spec_FuncRun.run_stmt]. destruct (ev c s) as [[v s']|]; cbn [bind fst snd]; [|reflexivity].
    rewrite !run_all_eq. reflexivity.
  Qed.
  Lemma run_else other s : run_stmt (Spec_Stmt.If [] other) s = run_stmts other s.
  Proof. cbn [Spec_FuncRun.run_stmt]. apply run_all_eq. Qed.
  Lemma run_app l : forall l' s, run_stmts (l ++ l') s =
    do p <- run_stmts l s; if snd p then Ok p else run_stmts l' (fst p).
  Proof.
    induction l as [|st l IH]; intros l' s; cbn [app Spec_FuncRun.run_stmts]; [reflexivity|].
    destruct (run_stmt st s) as [[s' []]|]; cbn [bind fst snd]; auto.
  Qed.
  Lemma run_one st s : run_stmts [st] s = run_stmt st s.
  Proof. cbn. destruct (run_stmt st s) as [[s' []]|]; reflexivity. Qed.
End Slot.
