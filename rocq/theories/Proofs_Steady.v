(** An expression gives the same value in states where the variables it mentions have
    the same values. *)
From Coq Require Import String Ascii List NArith ZArith Bool Arith Lia.
From Verif Require Import Model_PyVal Model_Code Spec_Syntax Spec_FuncRun Spec_AggRun Proofs_FuncRun.
Import ListNotations.

Section Ind.
  Variable P : ast -> Prop.
  Definition opt_all (c : option ast) : Prop := match c with Some a => P a | None => True end.
  Hypothesis HN : forall x, P (AName x).
  Hypothesis HI : forall n, P (ANum n).
  Hypothesis HS : forall t, P (AStr t).
  Hypothesis HC : forall x, P (AConst x).
  Hypothesis HU : forall o a, P a -> P (AUnary o a).
  Hypothesis HB : forall o a b, P a -> P b -> P (ABin o a b).
  Hypothesis HM : forall a l, P a -> Forall (fun p => P (snd p)) l -> P (ACompare a l).
  Hypothesis HT : forall a, P a -> P (ANot a).
  Hypothesis HL : forall b l, Forall P l -> P (ABool b l).
  Hypothesis HF : forall a b c, P a -> P b -> P c -> P (AIf a b c).
  Hypothesis HX : forall a b, P a -> P b -> P (ASub a b).
  Hypothesis HA : forall a x, P a -> P (AAttr a x).
  Hypothesis HK : forall f l k, P f -> Forall P l -> Forall (fun p => P (snd p)) k -> P (ACall f l k).
  Hypothesis H1 : forall l, Forall P l -> P (ATuple l).
  Hypothesis H2 : forall l, Forall P l -> P (AList l).
  Hypothesis H3 : forall l, Forall P l -> P (ASet l).
  Hypothesis H4 : forall l, Forall (fun p => P (fst p) /\ P (snd p)) l -> P (ADict l).
  Hypothesis H5 : forall k e x i c, Forall P e -> P i -> opt_all c -> P (AComp k e x i c).
  Hypothesis H6 : forall e x i y j c, P e -> P i -> P j -> opt_all c -> P (AComp2 e x i y j c).
  Fixpoint ast_all (a : ast) : P a :=
    let all := fix all (l : list ast) : Forall P l :=
      match l with [] => Forall_nil P | b :: r => Forall_cons b (ast_all b) (all r) end in
    let allp := fix allp (l : list (text * ast)) : Forall (fun p => P (snd p)) l :=
      match l with [] => Forall_nil _ | p :: r => Forall_cons p (ast_all (snd p)) (allp r) end in
    let alld := fix alld (l : list (ast * ast)) : Forall (fun p => P (fst p) /\ P (snd p)) l :=
      match l with [] => Forall_nil _ | p :: r => Forall_cons p (conj (ast_all (fst p)) (ast_all (snd p))) (alld r) end in
    match a with
    | AName x => HN x | ANum n => HI n | AStr t => HS t | AConst x => HC x
    | AUnary o b => HU o b (ast_all b)
    | ABin o b c => HB o b c (ast_all b) (ast_all c)
    | ACompare b l => HM b l (ast_all b) (allp l)
    | ANot b => HT b (ast_all b)
    | ABool b l => HL b l (all l)
    | AIf b c d => HF b c d (ast_all b) (ast_all c) (ast_all d)
    | ASub b c => HX b c (ast_all b) (ast_all c)
    | AAttr b x => HA b x (ast_all b)
    | ACall f l k => HK f l k (ast_all f) (all l) (allp k)
    | ATuple l => H1 l (all l) | AList l => H2 l (all l) | ASet l => H3 l (all l)
    | ADict l => H4 l (alld l)
    | AComp k e x i c => H5 k e x i c (all e) (ast_all i) (match c as c0 return opt_all c0 with Some a0 => ast_all a0 | None => Logic.I end)
    | AComp2 e x i y j c => H6 e x i y j c (ast_all e) (ast_all i) (ast_all j) (match c as c0 return opt_all c0 with Some a0 => ast_all a0 | None => Logic.I end)
    end.
End Ind.

Definition seen (s : state) (u : ast) : option object := option_map (obj_at s) (variable u s).
Definition same_at (s s' : state) (u : ast) : Prop :=
  match seen s u, seen s' u with
  | None, None | Some OSent, Some OSent | Some (OInst _), Some (OInst _) => True
  | Some (OVal v m), Some (OVal v' m') => v = v' /\ m = m'
  | _, _ => False
  end.
Definition fixed_at (s : state) (u : ast) : Prop :=
  match seen s u with Some (OVal _ (Some _)) => False | _ => True end.
Definition alike (x x' : rv) : Prop :=
  match x, x' with RSent, RSent | RInst _, RInst _ => True | RVal v, RVal v' => v = v' | _, _ => False end.

Section Steady.
  Variable globals : text -> option rv.
  Variable call : text -> list val -> res val.
  Variable outside : ast -> (ast -> option val) -> res val.
  Notation ev := (Spec_FuncRun.ev globals call outside).
  Hypothesis OUT : forall a g g', (forall u, In u (uses a) -> g u = g' u) -> outside a g = outside a g'.

  Fixpoint evs (l : list ast) (s : state) : res (list rv * state) :=
    match l with
    | [] => Ok ([], s)
    | a :: r => do p <- ev a s; do q <- evs r (snd p); Ok (fst p :: fst q, snd q)
    end.
  Fixpoint items (l : list ast) (s : state) : res (list val * state) :=
    match l with
    | [] => Ok ([], s)
    | a :: r => do p <- ev a s; item_of (fst p) (fun v => do q <- items r (snd p); Ok (v :: fst q, snd q))
    end.
  Fixpoint pairs (l : list (ast * ast)) (s : state) : res (list (val * val) * state) :=
    match l with
    | [] => Ok ([], s)
    | (a, b) :: r =>
        do p <- ev a s; item_of (fst p) (fun k => do p <- ev b (snd p); item_of (fst p) (fun v =>
        do q <- pairs r (snd p); Ok ((k, v) :: fst q, snd q)))
    end.
  Definition chain (isor : bool) := fix chain (l : list ast) (s : state) : res (rv * state) :=
    match l with
    | [] => unsupported
    | a :: r =>
        match r with
        | [] => ev a s
        | _ => do p <- ev a s; if Bool.eqb (is_true (fst p)) isor then Ok p else chain r (snd p)
        end
    end.
  Lemma ev_tuple l s : ev (ATuple l) s = do p <- items l s; Ok (RVal (VTuple (fst p)), snd p).
  Proof. reflexivity. Qed.
  Lemma ev_list l s : ev (AList l) s = do p <- items l s; Ok (RVal (VList (fst p)), snd p).
  Proof. reflexivity. Qed.
  Lemma ev_set l s : ev (ASet l) s = do p <- items l s; do _ <- hash_all (fst p); Ok (RVal (VSet (fold_left vadd (fst p) [])), snd p).
  Proof. reflexivity. Qed.
  Lemma ev_dict l s : ev (ADict l) s = do p <- pairs l s; do _ <- hash_all (map fst (fst p));
        Ok (RVal (VDict (fold_left (fun d kv => dput d (fst kv) (snd kv)) (fst p) [])), snd p).
  Proof. reflexivity. Qed.
  Lemma ev_bool b l s : ev (ABool b l) s = chain b l s.
  Proof. reflexivity. Qed.
  Lemma ev_call f l s : ev (ACall (AName f) l []) s =
    if is_global f s then do p <- evs l s; do vs <- args_of (fst p); do v <- call f vs; Ok (RVal v, snd p) else unsupported.
  Proof. reflexivity. Qed.

  (** *** two states *)
  Definition both_give {A} (R : A -> A -> Prop) (s s' : state) (r r' : res (A * state)) : Prop :=
    match r with
    | Ok (x, t) => t = s /\ exists x', r' = Ok (x', s') /\ R x x'
    | Err e => r' = Err e
    end.
  Lemma give_bind {A B} (R : A -> A -> Prop) (R' : B -> B -> Prop) s s' r r' (k k' : A * state -> res (B * state)) :
    both_give R s s' r r' -> (forall x x', R x x' -> both_give R' s s' (k (x, s)) (k' (x', s'))) ->
    both_give R' s s' (bind r k) (bind r' k').
  Proof.
    intros H K. destruct r as [[x t]|e]; cbn in H.
    - destruct H as (-> & x' & -> & H). cbn. auto.
    - subst r'. reflexivity.
  Qed.
  Lemma give_pure {A B} (R : B -> B -> Prop) s s' (r : res A) (k k' : A -> res (B * state)) :
    (forall x, both_give R s s' (k x) (k' x)) -> both_give R s s' (bind r k) (bind r k').
  Proof. intros H. destruct r; cbn; auto. Qed.
  Lemma give_ok {A} (R : A -> A -> Prop) s s' x x' : R x x' -> both_give R s s' (Ok (x, s)) (Ok (x', s')).
  Proof. cbn. eauto. Qed.
  Lemma give_err {A} (R : A -> A -> Prop) s s' e : both_give R s s' (Err e) (Err e).
  Proof. reflexivity. Qed.
  Lemma give_needs {B} (R : B -> B -> Prop) s s' x x' (k k' : val -> res (B * state)) : alike x x' ->
    (forall v, both_give R s s' (k v) (k' v)) -> both_give R s s' (needs x k) (needs x' k').
  Proof. destruct x, x'; cbn; try contradiction; intros H K; try reflexivity. subst. apply K. Qed.
  Lemma give_item_of {B} (R : B -> B -> Prop) s s' x x' (k k' : val -> res (B * state)) : alike x x' ->
    (forall v, both_give R s s' (k v) (k' v)) -> both_give R s s' (item_of x k) (item_of x' k').
  Proof. destruct x, x'; cbn; try contradiction; intros H K; try reflexivity. subst. apply K. Qed.
  Lemma alike_true x x' : alike x x' -> is_true x = is_true x'.
  Proof. destruct x, x'; cbn; try contradiction; congruence. Qed.
  Lemma alike_identical x x' y y' : alike x x' -> alike y y' -> identical x y = identical x' y'.
  Proof. destruct x, x', y, y'; cbn; try contradiction; intros; subst; try contradiction; reflexivity. Qed.
  Lemma alike_compare o x x' y y' : alike x x' -> alike y y' -> compare o x y = compare o x' y'.
  Proof.
    intros H K. unfold compare. rewrite (alike_identical _ _ _ _ H K).
    destruct (same_text o (T "is")); [reflexivity|]. destruct (same_text o (T "is not")); [reflexivity|].
    destruct x, x', y, y'; cbn in *; try contradiction; try reflexivity. now subst.
  Qed.
  Lemma alike_comparison o x x' y y' : alike x x' -> alike y y' -> comparison call o x y = comparison call o x' y'.
  Proof.
    intros H K. unfold comparison. rewrite (alike_compare o _ _ _ _ H K).
    destruct (same_text o (T "<=") || same_text o (T ">=")); [|reflexivity].
    destruct x, x', y, y'; cbn in *; try contradiction; try reflexivity. now subst.
  Qed.
  Lemma alike_args l : forall l', Forall2 alike l l' -> args_of l = args_of l'.
  Proof.
    induction l as [|x l IH]; intros l' H; inversion H; subst; [reflexivity|]. cbn. rewrite (IH _ H4).
    destruct x, y; cbn in *; try contradiction; try reflexivity. now subst.
  Qed.

  Section Two.
    Variables s s' : state.
    Definition agree (a : ast) : Prop :=
      (forall u, In u (uses a) -> same_at s s' u) /\ (forall u, In u (indexed a) -> fixed_at s u /\ fixed_at s' u).
    Definition holds (a : ast) : Prop := both_give alike s s' (ev a s) (ev a s').
    Lemma values_same u : same_at s s' u -> values s u = values s' u.
    Proof.
      unfold same_at, seen, values. destruct (variable u s) as [l|], (variable u s') as [l'|]; cbn; try contradiction; auto.
      - destruct (obj_at s l), (obj_at s' l'); try contradiction; auto. now intros [-> _].
      - destruct (obj_at s l); contradiction.
    Qed.
    Lemma other_holds a : agree a ->
      both_give alike s s' (do v <- outside a (values s); Ok (RVal v, s)) (do v <- outside a (values s'); Ok (RVal v, s')).
    Proof.
      intros [U _]. rewrite (OUT a (values s) (values s')) by (intros u I; apply values_same, U, I).
      apply give_pure. intros v. now apply give_ok.
    Qed.
    Lemma rv_same l l' : match obj_at s l, obj_at s' l' with
        | OSent, OSent | OInst _, OInst _ => True
        | OVal v m, OVal v' m' => v = v' /\ m = m'
        | _, _ => False end ->
      both_give alike s s' (do x <- rv_of (obj_at s l); Ok (x, s)) (do x <- rv_of (obj_at s' l'); Ok (x, s')).
    Proof.
      destruct (obj_at s l), (obj_at s' l'); try contradiction; cbn; try (intros _; split; [reflexivity|]; eexists; split; [reflexivity|]; exact I).
      intros [-> _]. split; [reflexivity|]. eexists; split; reflexivity.
    Qed.
    Lemma global_same n : same_at s s' (AName n) -> is_global n s = is_global n s'.
    Proof.
      unfold same_at, seen, is_global. cbn. destruct (assoc (names s) n) as [l|], (assoc (names s') n) as [l'|]; cbn; auto; try contradiction.
      destruct (obj_at s l); contradiction.
    Qed.
    Lemma agree_in a b : (forall u, In u (uses b) -> In u (uses a)) -> (forall u, In u (indexed b) -> In u (indexed a)) -> agree a -> agree b.
    Proof. intros U I [A1 A2]. split; auto. Qed.
    Lemma items_hold l : Forall (fun a => agree a -> holds a) l -> (forall a, In a l -> agree a) ->
      both_give eq s s' (items l s) (items l s').
    Proof.
      induction 1 as [|a l Ha _ IH]; intros A; cbn [items]; [now apply give_ok|].
      eapply give_bind; [apply Ha, A; now left|]. intros x x' R. cbn [fst snd]. apply give_item_of; [exact R|]. intros v.
      eapply give_bind; [apply IH; intros; apply A; now right|]. intros q q' ->. now apply give_ok.
    Qed.
    Lemma pairs_hold l : Forall (fun p => (agree (fst p) -> holds (fst p)) /\ (agree (snd p) -> holds (snd p))) l ->
      (forall p, In p l -> agree (fst p) /\ agree (snd p)) -> both_give eq s s' (pairs l s) (pairs l s').
    Proof.
      induction 1 as [|[a b] l [Ha Hb] _ IH]; intros A; cbn [pairs]; [now apply give_ok|]. cbn [fst snd] in *.
      destruct (A (a, b) (or_introl eq_refl)) as [Aa Ab]. cbn [fst snd] in *.
      eapply give_bind; [now apply Ha|]. intros x x' R. cbn [fst snd]. apply give_item_of; [exact R|]. intros k.
      eapply give_bind; [now apply Hb|]. intros y y' R'. cbn [fst snd]. apply give_item_of; [exact R'|]. intros v.
      eapply give_bind; [apply IH; intros; apply A; now right|]. intros q q' ->. now apply give_ok.
    Qed.
    Lemma evs_hold l : Forall (fun a => agree a -> holds a) l -> (forall a, In a l -> agree a) ->
      both_give (Forall2 alike) s s' (evs l s) (evs l s').
    Proof.
      induction 1 as [|a l Ha _ IH]; intros A; cbn [evs]; [now apply give_ok|].
      eapply give_bind; [apply Ha, A; now left|]. intros x x' R. cbn [fst snd].
      eapply give_bind; [apply IH; intros; apply A; now right|]. intros q q' Q. apply give_ok. now constructor.
    Qed.
    Lemma chain_holds b l : Forall (fun a => agree a -> holds a) l -> (forall a, In a l -> agree a) ->
      both_give alike s s' (chain b l s) (chain b l s').
    Proof.
      induction 1 as [|a l Ha _ IH]; intros A; cbn [chain]; [apply give_err|].
      destruct l as [|a' l]; [apply Ha, A; now left|].
      eapply give_bind; [apply Ha, A; now left|]. intros x x' R. cbn [fst snd]. rewrite (alike_true _ _ R).
      destruct (Bool.eqb (is_true x') b); [now apply give_ok|]. apply IH. intros; apply A; now right.
    Qed.
    Lemma item_same a v k : agree a -> fixed_at s a -> fixed_at s' a ->
      both_give eq s s' (item a v k s) (item a v k s').
    Proof.
      intros _ F F'. unfold item, fixed_at, seen in *.
      assert (P : both_give eq s s' (do x <- py_getitem v k; Ok (x, s)) (do x <- py_getitem v k; Ok (x, s'))).
      { apply give_pure. intros x. now apply give_ok. }
      assert (Q1 : match variable a s with
         | Some l => match obj_at s l, v with
                     | OVal _ (Some m), VDict d => do k' <- need_hash k;
                         match dfind d k' with Some x => Ok (x, s) | None => Ok (m, store s l (OVal (VDict (dput d k' m)) (Some m))) end
                     | _, _ => do x <- py_getitem v k; Ok (x, s) end
         | None => do x <- py_getitem v k; Ok (x, s) end = do x <- py_getitem v k; Ok (x, s)).
      { destruct (variable a s) as [l|]; [|reflexivity]. cbn in F. destruct (obj_at s l) as [|? [|]| | | |]; try reflexivity. contradiction. }
      rewrite Q1. clear Q1.
      destruct (variable a s') as [l|]; [|exact P]. cbn in F'. destruct (obj_at s' l) as [|? [|]| | | |]; try exact P. contradiction.
    Qed.
    Lemma all_hold : forall a, agree a -> holds a.
    Proof.
      apply (ast_all (fun a => agree a -> holds a)); unfold holds.
      - intros x [U _]. specialize (U (AName x) (or_introl eq_refl)). cbn [Spec_FuncRun.ev]. unfold same_at, seen in U. cbn [variable] in U.
        destruct (assoc (names s) x) as [l|], (assoc (names s') x) as [l'|]; cbn [option_map] in U.
        + now apply rv_same.
        + destruct (obj_at s l); contradiction.
        + contradiction.
        + destruct (globals x) as [[]|]; [apply give_ok; exact I|now apply give_ok|apply give_ok; exact I|apply give_err].
      - intros n _. now apply give_ok.
      - intros t A. now apply (other_holds (AStr t)).
      - intros x A. cbn [Spec_FuncRun.ev]. destruct (same_text x (T "None")); [now apply give_ok|].
        destruct (same_text x (T "True")); [now apply give_ok|]. destruct (same_text x (T "False")); [now apply give_ok|now apply other_holds].
      - intros o a IHa A. cbn [Spec_FuncRun.ev]. eapply give_bind; [apply IHa; exact A|]. intros x x' R. cbn [fst snd].
        apply give_needs; [exact R|]. intros v. apply give_pure. intros z. now apply give_ok.
      - intros o a b IHa IHb A. cbn [Spec_FuncRun.ev].
        eapply give_bind; [apply IHa; revert A; apply agree_in; cbn; intros; apply in_or_app; now left|]. intros x x' R. cbn [fst snd].
        eapply give_bind; [apply IHb; revert A; apply agree_in; cbn; intros; apply in_or_app; now right|]. intros y y' R'. cbn [fst snd].
        apply give_needs; [exact R|]. intros v. apply give_needs; [exact R'|]. intros w. apply give_pure. intros z. now apply give_ok.
      - intros a l IHa IHl A. cbn [Spec_FuncRun.ev]. destruct l as [|[o b] [|]]; try (now apply other_holds). inversion IHl as [|? ? IHb _]; subst. cbn [snd] in IHb.
        eapply give_bind; [apply IHa; revert A; apply agree_in; cbn; intros; apply in_or_app; now left|]. intros x x' R. cbn [fst snd].
        eapply give_bind; [apply IHb; revert A; apply agree_in; cbn; rewrite app_nil_r; intros; apply in_or_app; now right|]. intros y y' R'. cbn [fst snd].
        rewrite (alike_comparison o _ _ _ _ R R'). apply give_pure. intros z. now apply give_ok.
      - intros a IHa A. cbn [Spec_FuncRun.ev]. eapply give_bind; [apply IHa; exact A|]. intros x x' R. cbn [fst snd].
        rewrite (alike_true _ _ R). now apply give_ok.
      - intros b l IH A. rewrite !ev_bool. apply chain_holds; [exact IH|]. intros a I. revert A. apply agree_in; cbn; intros u J; apply in_flat_map; eauto.
      - intros a b c IHa IHb IHc A. cbn [Spec_FuncRun.ev].
        eapply give_bind; [apply IHa; revert A; apply agree_in; cbn; intros; rewrite !in_app_iff; auto|]. intros x x' R. cbn [fst snd].
        rewrite (alike_true _ _ R). destruct (is_true x'); [apply IHb|apply IHc]; revert A; apply agree_in; cbn; intros; rewrite !in_app_iff; auto.
      - intros a b IHa IHb A. cbn [Spec_FuncRun.ev].
        assert (Aa : agree a) by (revert A; apply agree_in; cbn; intros; rewrite ?in_app_iff; auto).
        eapply give_bind; [now apply IHa|]. intros x x' R. cbn [fst snd].
        eapply give_bind; [apply IHb; revert A; apply agree_in; cbn; intros; rewrite ?in_app_iff; auto|]. intros y y' R'. cbn [fst snd].
        apply give_needs; [exact R|]. intros v. apply give_needs; [exact R'|]. intros k.
        destruct A as [_ A]. destruct (A a (or_introl eq_refl)) as [F F'].
        eapply give_bind; [now apply item_same|]. intros z z' ->. now apply give_ok.
      - intros a x IHa A. cbn [Spec_FuncRun.ev]. destruct a; try (now apply (other_holds (AAttr _ x))).
        pose proof (proj1 A (AAttr (AName x0) x) (or_introl eq_refl)) as U. unfold same_at, seen in U.
        destruct (variable (AAttr (AName x0) x) s) as [l|], (variable (AAttr (AName x0) x) s') as [l'|]; cbn [option_map] in U.
        + now apply rv_same.
        + destruct (obj_at s l); contradiction.
        + contradiction.
        + now apply other_holds.
      - intros f l k IHf IHl _ A. assert (O : both_give alike s s' (do v <- outside (ACall f l k) (values s); Ok (RVal v, s)) (do v <- outside (ACall f l k) (values s'); Ok (RVal v, s'))) by now apply other_holds.
        destruct f; try exact O. destruct k; [|exact O]. rewrite !ev_call.
        rewrite (global_same x) by (apply (proj1 A); cbn; now left). destruct (is_global x s'); [|apply give_err].
        eapply give_bind; [apply evs_hold; [exact IHl|]|].
        + intros a I. revert A. apply agree_in; cbn; intros u J; rewrite app_nil_r; [right|]; apply in_flat_map; eauto.
        + intros vs vs' R. cbn [fst snd]. rewrite (alike_args _ _ R). apply give_pure. intros ws. apply give_pure. intros w. now apply give_ok.
      - intros l IH A. rewrite !ev_tuple. eapply give_bind; [apply items_hold; [exact IH|]|].
        + intros a I. revert A. apply agree_in; cbn; intros u J; apply in_flat_map; eauto.
        + intros q q' ->. now apply give_ok.
      - intros l IH A. rewrite !ev_list. eapply give_bind; [apply items_hold; [exact IH|]|].
        + intros a I. revert A. apply agree_in; cbn; intros u J; apply in_flat_map; eauto.
        + intros q q' ->. now apply give_ok.
      - intros l IH A. rewrite !ev_set. eapply give_bind; [apply items_hold; [exact IH|]|].
        + intros a I. revert A. apply agree_in; cbn; intros u J; apply in_flat_map; eauto.
        + intros q q' ->. cbn [fst snd]. apply give_pure. intros _. now apply give_ok.
      - intros l IH A. rewrite !ev_dict. eapply give_bind; [apply pairs_hold; [exact IH|]|].
        + intros q I. split; revert A; apply agree_in; cbn; intros u J; apply in_flat_map; exists q; rewrite in_app_iff; auto.
        + intros q q' ->. cbn [fst snd]. apply give_pure. intros _. now apply give_ok.
      - intros k e x i c _ _ _ A. now apply (other_holds (AComp k e x i c)).
      - intros e x i y j c _ _ _ _ A. now apply (other_holds (AComp2 e x i y j c)).
    Qed.
  End Two.

  (** *** values *)
  Definition plain_at (s : state) (u : ast) : Prop :=
    match seen s u with None | Some (OVal _ None) => True | _ => False end.
  Definition value_names (a : ast) : Prop :=
    forall x, In (AName x) (uses a) -> match globals x with None | Some (RVal _) => True | _ => False end.
  Lemma plain_same s u : plain_at s u -> same_at s s u.
  Proof. unfold plain_at, same_at. destruct (seen s u) as [[]|]; auto. Qed.
  Lemma indexed_uses : forall a u, In u (indexed a) -> (forall s, variable u s = None) \/ In u (uses a).
  Proof.
    assert (L : forall l u, Forall (fun a => forall u, In u (indexed a) -> (forall s, variable u s = None) \/ In u (uses a)) l ->
      In u (flat_map indexed l) -> (forall s, variable u s = None) \/ In u (flat_map uses l)).
    { intros l u H I. apply in_flat_map in I as (a & Ia & I). rewrite Forall_forall in H. destruct (H a Ia u I); [now left|].
      right. apply in_flat_map. eauto. }
    assert (Lp : forall (l : list (text * ast)) u, Forall (fun p => forall u, In u (indexed (snd p)) -> (forall s, variable u s = None) \/ In u (uses (snd p))) l ->
      In u (flat_map (fun p => indexed (snd p)) l) -> (forall s, variable u s = None) \/ In u (flat_map (fun p => uses (snd p)) l)).
    { intros l u H I. apply in_flat_map in I as (a & Ia & I). rewrite Forall_forall in H. destruct (H a Ia u I); [now left|].
      right. apply in_flat_map. eauto. }
    apply (ast_all (fun a => forall u, In u (indexed a) -> (forall s, variable u s = None) \/ In u (uses a))); cbn [indexed uses]; intros;
      rewrite ?in_app_iff in *; try contradiction; try (now auto).
    - destruct H1; [destruct (H u H1)|destruct (H0 u H1)]; auto.
    - destruct H1 as [H1|H1]; [destruct (H u H1); auto|]. destruct (Lp _ _ H0 H1); auto.
    - destruct H2 as [H2|[H2|H2]]; [destruct (H u H2)|destruct (H0 u H2)|destruct (H1 u H2)]; auto.
    - destruct H1 as [<-|H1].
      + destruct a; cbn [uses]; try (left; reflexivity); [right; left; now left|]. destruct a; try (left; reflexivity). right. left. now left.
      + rewrite in_app_iff in H1. destruct H1; [destruct (H u H1)|destruct (H0 u H1)]; auto.
    - destruct (H u H0) as [X|X]; [now left|]. right. destruct a; cbn [uses] in *; auto. destruct X as [<-|[]]. right. now left.
    - destruct H2 as [H2|[H2|H2]]; [destruct (H u H2)|destruct (L _ _ H0 H2)|destruct (Lp _ _ H1 H2)]; auto.
    - apply in_flat_map in H0 as (q & Iq & I). rewrite Forall_forall in H. destruct (H q Iq) as [A B]. rewrite in_app_iff in I.
      destruct I as [I|I]; [destruct (A u I) as [X|X]|destruct (B u I) as [X|X]]; auto; right; apply in_flat_map; exists q; rewrite in_app_iff; auto.
    - destruct H2 as [H2|[H2|H2]]; [destruct (L _ _ H H2)|destruct (H0 u H2)|]; cbn [In]; rewrite ?in_app_iff; auto.
      destruct c; [|contradiction]. destruct (H1 u H2); rewrite ?in_app_iff; auto.
    - destruct H3 as [H3|[H3|[H3|H3]]]; [destruct (H u H3)|destruct (H0 u H3)|destruct (H1 u H3)|]; cbn [In]; rewrite ?in_app_iff; auto 8.
      destruct c; [|contradiction]. destruct (H2 u H3); rewrite ?in_app_iff; auto 8.
  Qed.
  Lemma fixed_plain s a : (forall u, In u (uses a) -> plain_at s u) -> forall u, In u (indexed a) -> fixed_at s u.
  Proof.
    intros H u I. unfold fixed_at. destruct (indexed_uses a u I) as [N|U].
    - unfold seen. now rewrite N.
    - specialize (H u U). unfold plain_at in H. destruct (seen s u) as [[]|]; auto.
  Qed.
  Lemma agree_plain s a : (forall u, In u (uses a) -> plain_at s u) -> agree s s a.
  Proof. intros H. split; [intros u U; apply plain_same; auto|intros u U; split; eapply fixed_plain; eauto]. Qed.
  Lemma needs_val {B} x (k : val -> res (rv * B)) y t : (forall v y t, k v = Ok (y, t) -> exists w, y = RVal w) ->
    needs x k = Ok (y, t) -> exists w, y = RVal w.
  Proof. destruct x; cbn; try discriminate. eauto. Qed.
  Lemma rv_val o y (s t : state) : match o with OVal _ None => True | _ => False end ->
    (do x <- rv_of o; Ok (x, s)) = Ok (y, t) -> exists w, y = RVal w.
  Proof. destruct o; try contradiction. cbn. intros _ [= <- _]. eauto. Qed.
  Lemma all_values s : forall a, (forall u, In u (uses a) -> plain_at s u) -> value_names a ->
    forall x t, ev a s = Ok (x, t) -> exists v, x = RVal v.
  Proof.
    assert (O : forall a x t, (do v <- outside a (values s); Ok (RVal v, s)) = Ok (x, t) -> exists v, x = RVal v).
    { intros a x t. destruct (outside a (values s)); cbn; [|discriminate]. intros [= <- _]. eauto. }
    assert (ST : forall a x t, (forall u, In u (uses a) -> plain_at s u) -> ev a s = Ok (x, t) -> t = s).
    { intros a x t H E. pose proof (all_hold s s a (agree_plain s a H)) as A. unfold holds in A. rewrite E in A. apply A. }
    apply (ast_all (fun a => (forall u, In u (uses a) -> plain_at s u) -> value_names a -> forall x t, ev a s = Ok (x, t) -> exists v, x = RVal v)).
    - intros n P N x t. specialize (P (AName n) (or_introl eq_refl)). specialize (N n (or_introl eq_refl)). unfold plain_at, seen in P.
      cbn [variable] in P. cbn [Spec_FuncRun.ev]. destruct (assoc (names s) n) as [l|]; cbn [option_map] in P; [now apply rv_val|].
      destruct (globals n) as [[]|]; try contradiction; [|discriminate]. intros [= <- _]. eauto.
    - intros n _ _ x t [= <- _]. eauto.
    - intros n _ _. apply (O (AStr n)).
    - intros n _ _ x t. cbn [Spec_FuncRun.ev]. destruct (same_text n (T "None")); [intros [= <- _]; eauto|].
      destruct (same_text n (T "True")); [intros [= <- _]; eauto|]. destruct (same_text n (T "False")); [intros [= <- _]; eauto|apply O].
    - intros o a _ P N x t. cbn [Spec_FuncRun.ev]. destruct (ev a s) as [p|]; [|discriminate]. cbn [bind].
      apply needs_val. intros v y u. destruct (unary call o v); cbn; [|discriminate]. intros [= <- _]. eauto.
    - intros o a b IHa IHb P N x t. cbn [Spec_FuncRun.ev].
      destruct (ev a s) as [p|]; [|discriminate]. cbn [bind]. destruct (ev b (snd p)) as [q|]; [|discriminate]. cbn [bind].
      apply needs_val. intros v y u. apply needs_val. intros w y' u'. destruct (arithmetic call o v w); cbn; [|discriminate]. intros [= <- _]. eauto.
    - intros a l _ _ P N x t. cbn [Spec_FuncRun.ev]. destruct l as [|[o b] [|]]; try apply O.
      destruct (ev a s) as [p|]; [|discriminate]. cbn [bind]. destruct (ev b (snd p)) as [q|]; [|discriminate]. cbn [bind].
      destruct (comparison call o (fst p) (fst q)); [|discriminate]. intros [= <- _]. eauto.
    - intros a _ P N x t. cbn [Spec_FuncRun.ev]. destruct (ev a s) as [p|]; [|discriminate]. intros [= <- _]. eauto.
    - intros b l IH P N x t. rewrite ev_bool. revert x t.
      assert (P' : forall a, In a l -> (forall u, In u (uses a) -> plain_at s u) /\ value_names a).
      { intros a I. split; [intros u U; apply P; cbn; apply in_flat_map; eauto|intros y U; apply N; cbn; apply in_flat_map; eauto]. }
      clear P N. induction IH as [|a l Ha _ IH]; intros x t; cbn [chain]; [discriminate|].
      destruct (P' a (or_introl eq_refl)) as [Pa Na].
      destruct l as [|a' l]; [now apply Ha|]. destruct (ev a s) as [[y u]|] eqn:E; [|discriminate]. cbn [bind fst snd].
      pose proof (ST _ _ _ Pa E) as ->. destruct (Bool.eqb (is_true y) b).
      + intros [= <- _]. now apply (Ha Pa Na y s).
      + apply IH. intros; apply P'; now right.
    - intros a b c IHa IHb IHc P N x t. cbn [Spec_FuncRun.ev]. destruct (ev a s) as [[y u]|] eqn:E; [|discriminate]. cbn [bind fst snd].
      assert (Pa : forall u, In u (uses a) -> plain_at s u) by (intros w W; apply P; cbn; rewrite !in_app_iff; auto).
      pose proof (ST _ _ _ Pa E) as ->.
      destruct (is_true y); [apply IHb|apply IHc]; intros w W; try apply P; try apply N; cbn; rewrite !in_app_iff; auto.
    - intros a b _ _ P N x t. cbn [Spec_FuncRun.ev]. destruct (ev a s) as [p|]; [|discriminate]. cbn [bind]. destruct (ev b (snd p)) as [q|]; [|discriminate]. cbn [bind].
      apply needs_val. intros v y u. apply needs_val. intros w y' u'. destruct (item a v w (snd q)); cbn; [|discriminate]. intros [= <- _]. eauto.
    - intros a y _ P N x t. cbn [Spec_FuncRun.ev]. destruct a; try apply (O (AAttr _ y)).
      specialize (P (AAttr (AName x0) y) (or_introl eq_refl)). unfold plain_at, seen in P.
      destruct (variable (AAttr (AName x0) y) s) as [l|]; cbn [option_map] in P; [now apply rv_val|apply O].
    - intros f l k _ _ _ P N x t. assert (OO : (do v <- outside (ACall f l k) (values s); Ok (RVal v, s)) = Ok (x, t) -> exists v, x = RVal v) by apply O.
      destruct f; try exact OO. destruct k; [|exact OO]. rewrite ev_call. destruct (is_global x0 s); [|discriminate].
      destruct (evs l s) as [p|]; [|discriminate]. cbn [bind]. destruct (args_of (fst p)); [|discriminate]. cbn [bind].
      destruct (call x0 a); [|discriminate]. intros [= <- _]. eauto.
    - intros l _ _ _ x t. rewrite ev_tuple. destruct (items l s); [|discriminate]. intros [= <- _]. eauto.
    - intros l _ _ _ x t. rewrite ev_list. destruct (items l s); [|discriminate]. intros [= <- _]. eauto.
    - intros l _ _ _ x t. rewrite ev_set. destruct (items l s) as [p|]; [|discriminate]. cbn [bind]. destruct (hash_all (fst p)); [|discriminate]. intros [= <- _]. eauto.
    - intros l _ _ _ x t. rewrite ev_dict. destruct (pairs l s) as [p|]; [|discriminate]. cbn [bind]. destruct (hash_all (map fst (fst p))); [|discriminate]. intros [= <- _]. eauto.
    - intros k e y i c _ _ _ _ _. apply (O (AComp k e y i c)).
    - intros e y i z j c _ _ _ _ _ _. apply (O (AComp2 e y i z j c)).
  Qed.
  Lemma uses_shape : forall a u, In u (uses a) ->
    exists x, In (AName x) (uses a) /\ (u = AName x \/ exists y, u = AAttr (AName x) y).
  Proof.
    assert (M : forall A (f : A -> list ast) l u, (forall a, In a l -> forall u, In u (f a) -> exists x, In (AName x) (f a) /\ (u = AName x \/ exists y, u = AAttr (AName x) y)) ->
      In u (flat_map f l) -> exists x, In (AName x) (flat_map f l) /\ (u = AName x \/ exists y, u = AAttr (AName x) y)).
    { intros A f l u H I. apply in_flat_map in I as (a & Ia & I). destruct (H a Ia u I) as (x & X & S). exists x. split; [|exact S]. apply in_flat_map. eauto. }
    assert (E : forall l l' u, (exists x, In (AName x) l /\ (u = AName x \/ exists y, u = AAttr (AName x) y)) -> (forall v, In v l -> In v l') ->
      exists x, In (AName x) l' /\ (u = AName x \/ exists y, u = AAttr (AName x) y)).
    { intros l l' u (x & X & S) H. exists x. auto. }
    apply (ast_all (fun a => forall u, In u (uses a) -> exists x, In (AName x) (uses a) /\ (u = AName x \/ exists y, u = AAttr (AName x) y)));
      cbn [uses]; intros; rewrite ?in_app_iff in *; try contradiction; auto.
    - destruct H as [<-|[]]. exists x. split; [now left|now left].
    - destruct H1 as [H1|H1]; [eapply E; [exact (H u H1)|]|eapply E; [exact (H0 u H1)|]]; intros; rewrite in_app_iff; auto.
    - rewrite Forall_forall in H0. destruct H1 as [H1|H1]; [eapply E; [exact (H u H1)|]|eapply E; [exact (M _ (fun p => uses (snd p)) l u H0 H1)|]]; intros; rewrite in_app_iff; auto.
    - rewrite Forall_forall in H. now apply M.
    - destruct H2 as [H2|[H2|H2]]; [eapply E; [exact (H u H2)|]|eapply E; [exact (H0 u H2)|]|eapply E; [exact (H1 u H2)|]]; intros; rewrite !in_app_iff; auto.
    - destruct H1 as [H1|H1]; [eapply E; [exact (H u H1)|]|eapply E; [exact (H0 u H1)|]]; intros; rewrite in_app_iff; auto.
    - destruct a; cbn [uses] in *; auto. destruct H0 as [<-|[<-|[]]]; exists x0; split; [right; now left|right; eauto|right; now left|now left].
    - rewrite Forall_forall in H0, H1. destruct H2 as [H2|[H2|H2]]; [eapply E; [exact (H u H2)|]|eapply E; [exact (M _ uses l u H0 H2)|]|eapply E; [exact (M _ (fun p => uses (snd p)) k u H1 H2)|]]; intros; rewrite !in_app_iff; auto.
    - rewrite Forall_forall in H. now apply M.
    - rewrite Forall_forall in H. now apply M.
    - rewrite Forall_forall in H. now apply M.
    - rewrite Forall_forall in H. apply (M _ (fun p => uses (fst p) ++ uses (snd p))); [|exact H0]. intros q Q w W. destruct (H q Q) as [A B]. rewrite in_app_iff in W.
      destruct W as [W|W]; [eapply E; [exact (A w W)|]|eapply E; [exact (B w W)|]]; intros; rewrite in_app_iff; auto.
    - rewrite Forall_forall in H. destruct H2 as [<-|H2]; [exists x; split; [now left|now left]|]. rewrite !in_app_iff in H2.
      destruct H2 as [H2|[H2|H2]].
      + eapply E; [exact (M _ uses e u H H2)|]. intros. right. rewrite !in_app_iff. auto.
      + eapply E; [exact (H0 u H2)|]. intros. right. rewrite !in_app_iff. auto.
      + destruct c; [|contradiction]. eapply E; [exact (H1 u H2)|]. intros. right. rewrite !in_app_iff. auto.
    - destruct H3 as [<-|[<-|H3]]; [exists x; split; [now left|now left]|exists y; split; [right; now left|now left]|]. rewrite !in_app_iff in H3.
      destruct H3 as [H3|[H3|[H3|H3]]].
      + eapply E; [exact (H u H3)|]. intros. right. right. rewrite !in_app_iff. auto.
      + eapply E; [exact (H0 u H3)|]. intros. right. right. rewrite !in_app_iff. auto.
      + eapply E; [exact (H1 u H3)|]. intros. right. right. rewrite !in_app_iff. auto.
      + destruct c; [|contradiction]. eapply E; [exact (H2 u H3)|]. intros. right. right. rewrite !in_app_iff. auto.
  Qed.
End Steady.
