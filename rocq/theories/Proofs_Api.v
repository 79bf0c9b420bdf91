From Coq Require Import String List ZArith NArith Bool Arith Lia.
From Verif Require Import Model_Code Model_Eval Model_Converter Model_Api Spec_Frag Spec_Eval Spec_Converter
  Spec_Api Proofs_Code Proofs_Eval Proofs_Den Proofs_Scope Proofs_Frame Proofs_Converter.
Import ListNotations.

Lemma teqb_true a b : teqb a b = true <-> a = b.
Proof. unfold teqb. destruct (text_eq_dec a b); split; congruence. Qed.
Lemma teqb_false a b : teqb a b = false <-> a <> b.
Proof. unfold teqb. destruct (text_eq_dec a b); split; congruence. Qed.

Lemma add_labels_named l : forall n ls,
  NoDup (map fst ls ++ map fst l) -> ~ In n (map fst ls) -> ~ In n (map fst l) ->
  add_labels (Some n) ls l = Some (Some n, ls ++ l).
Proof.
  induction l as [|[m c] l IH]; intros n ls Hnd Hn Hl; cbn [add_labels]; [now rewrite app_nil_r|].
  cbn [map fst] in *.
  assert (H1 : existsb (fun p => teqb m (fst p)) ls = false).
  { apply not_true_is_false. intros E. apply existsb_exists in E. destruct E as (p & Hp & E).
    apply teqb_true in E. apply NoDup_remove_2 in Hnd. apply Hnd, in_or_app. left. rewrite E. now apply in_map. }
  rewrite H1. cbn [orb].
  assert (H2 : teqb m n = false) by (apply teqb_false; intros ->; apply Hl; now left).
  rewrite H2. rewrite IH; [now rewrite <- app_assoc| | |].
  - rewrite map_app. cbn. now rewrite <- app_assoc.
  - rewrite map_app, in_app_iff. cbn. intros [H|[H|[]]]; [auto|]. subst m. apply Hl. now left.
  - intros H. apply Hl. now right.
Qed.
Lemma add_labels_spec l : forall ls, NoDup (map fst ls ++ map fst l) ->
  (forallb (fun p => negb (is_plain (snd p))) l = true /\ add_labels None ls l = Some (None, ls ++ l)) \/
  (exists l1 n c l2, l = l1 ++ (n, c) :: l2 /\ is_plain c = true /\
     add_labels None ls l = Some (Some n, ls ++ l1 ++ l2)).
Proof.
  induction l as [|[m c] l IH]; intros ls Hnd; cbn [add_labels forallb]; [left; now rewrite app_nil_r|].
  cbn [map fst] in *.
  assert (H1 : existsb (fun p => teqb m (fst p)) ls = false).
  { apply not_true_is_false. intros E. apply existsb_exists in E. destruct E as (p & Hp & E).
    apply teqb_true in E. apply NoDup_remove_2 in Hnd. apply Hnd, in_or_app. left. rewrite E. now apply in_map. }
  rewrite H1. cbn [orb]. destruct (is_plain c) eqn:Ep; cbn [snd]; rewrite ?Ep; cbn [negb andb].
  - right. exists [], m, c, l. split; [reflexivity|]. split; [exact Ep|]. cbn [app]. apply add_labels_named.
    + now apply NoDup_remove_1 in Hnd.
    + intros H. apply NoDup_remove_2 in Hnd. apply Hnd, in_or_app. now left.
    + intros H. apply NoDup_remove_2 in Hnd. apply Hnd, in_or_app. now right.
  - destruct (IH (ls ++ [(m, c)])) as [[H2 H3]|(l1 & n & d & l2 & E & Hd & H3)].
    + rewrite map_app. cbn. now rewrite <- app_assoc.
    + left. split; [exact H2|]. rewrite H3. now rewrite <- app_assoc.
    + right. exists ((m, c) :: l1), n, d, l2. split; [now rewrite E|]. split; [exact Hd|].
      rewrite H3. now rewrite <- app_assoc.
Qed.
Lemma plain_this c : is_plain c = true -> honest c = true -> c = CThis.
Proof. destruct c; cbn; try discriminate; auto. destruct c2; discriminate. Qed.

Section Labels.
  Context {V W X : Type}.
  Variable pr : prims V W X.
  Variable args : list (text * V).
  Notation den := (den pr args).
  Notation store := (store pr args).

  Lemma labelsM_store l u : meq (labelsM (fun c => den c u) (map (fun p => (U (fst p), snd p)) l)) (store l u).
  Proof.
    induction l as [|[n c] l IH]; cbn [labelsM map Spec_Api.store fst snd]; [apply meq_refl|].
    apply bind_meq; [apply meq_refl|]. intros x. apply bind_meq; [apply meq_refl|]. intros _. exact IH.
  Qed.
  Lemma store_app l l' u : meq (store (l ++ l') u) (bind (store l u) (fun _ => store l' u)).
  Proof.
    induction l as [|[n c] l IH]; cbn [app Spec_Api.store]; [intros s; reflexivity|].
    eapply meq_trans; [|apply meq_sym, bind_assoc]. apply bind_meq; [apply meq_refl|]. intros x.
    eapply meq_trans; [|apply meq_sym, bind_assoc]. apply bind_meq; [apply meq_refl|]. intros _. exact IH.
  Qed.
  Lemma pres_store (N K : lname -> Prop) l u :
    (forall n c, In (n, c) l -> (forall m, In m (label_uses c) -> ~ N m) /\ (forall m, In m (writes c) -> ~ K m) /\ ~ K (U n)) ->
    pres N K (store l u) (store l u).
  Proof.
    induction l as [|[n c] l IH]; intros H; cbn [Spec_Api.store]; [apply pres_ret|].
    destruct (H n c (or_introl eq_refl)) as (H1 & H2 & H3).
    apply pres_bind; [now apply den_pres|]. intros x. apply pres_bind; [now apply pres_set|]. intros _.
    apply IH. intros m d Hd. apply H. now right.
  Qed.
  Lemma pres_meq (N K : lname -> Prop) {B} (m1 m m' m1' : @M V W X B) :
    meq m1 m -> meq m1' m' -> pres N K m m' -> pres N K m1 m1'.
  Proof. intros H1 H2 H s t Hst. rewrite H1, H2. now apply H. Qed.

  Definition NA (m : lname) : Prop := exists k, m = A k.
  Lemma userly_NA c : userly c -> forall m, In m (label_uses c) -> ~ NA m.
  Proof. intros H m Hm [k ->]. destruct (H _ Hm). discriminate. Qed.

  (** As [pres], but the labels only matter when there is a value. *)
  Definition presv (N : lname -> Prop) {B} (m m' : @M V W X B) : Prop := forall s t, eqx N s t ->
    fst (fst (m s)) = fst (fst (m' t)) /\ snd (m s) = snd (m' t) /\
    (forall b, snd (m s) = Val b -> eqx N (fst (m s)) (fst (m' t))).
  Lemma presv_of N K {B} (m m' : @M V W X B) : pres N K m m' -> presv N m m'.
  Proof. intros H s t Hst. destruct (H s t Hst) as (H1 & H2 & _). split; [apply H1|]. split; auto. Qed.
  Lemma presv_bind N {B C} (m m' : @M V W X B) (k k' : B -> @M V W X C) :
    presv N m m' -> (forall b, presv N (k b) (k' b)) -> presv N (bind m k) (bind m' k').
  Proof.
    intros Hm Hk s t H. destruct (Hm s t H) as (H1 & H2 & H3). unfold bind.
    destruct (m s) as [s' [b|x]], (m' t) as [t' r']; cbn [fst snd] in *; subst r'.
    - apply Hk. now apply (H3 b).
    - split; auto. split; auto. intros b Hb. discriminate.
  Qed.
  Lemma presv_meq N {B} (m1 m m' m1' : @M V W X B) :
    meq m1 m -> meq m1' m' -> presv N m m' -> presv N m1 m1'.
  Proof. intros H1 H2 H s t Hst. rewrite H1, H2. now apply H. Qed.

  (** labels of one side, from a value [u] on *)
  Lemma labelled_store k c l c' v :
    labelled k c l = Some c' -> labels_ok l -> userly c -> (forall n d, In (n, d) l -> userly d) ->
    presv NA (den c' v) (bind (den c v) (fun u => bind (store l u) (fun _ => ret u))).
  Proof.
    intros Hl (Hnd & Hh & Ho) Hc Hu.
    assert (Hdc : presv NA (den c v) (den c v)).
    { apply presv_of with (K := fun _ => False). apply den_pres; [now apply userly_NA|auto]. }
    destruct l as [|p l].
    { cbn in Hl. injection Hl as <-. eapply presv_meq; [apply meq_refl| |exact Hdc].
      eapply meq_trans; [|apply bind_ret_r]. apply bind_meq; [apply meq_refl|]. intros u s. reflexivity. }
    remember (p :: l) as L eqn:EL. unfold labelled in Hl. rewrite EL in Hl. rewrite <- EL in Hl. clear p l EL.
    destruct (add_labels_spec L [] Hnd) as [[Hp Ha]|(l1 & n & d & l2 & E & Hd & Ha)]; rewrite Ha in Hl;
      injection Hl as <-; cbn [Spec_Eval.den]; (apply presv_bind; [exact Hdc|]); intros u; cbn [app].
    - eapply presv_meq with (m := bind (set_label (A k) u) (fun _ => bind (store L u) (fun _ => ret u)));
        [|apply meq_refl|].
      { apply bind_meq; [apply meq_refl|]. intros _. apply bind_meq; [apply labelsM_store|]. intros. apply meq_refl. }
      intros s t Hst. set (k1 := fun _ : unit => bind (store L u) (fun _ => ret u)).
      change (bind (set_label (A k) u) k1 s) with (bind (store L u) (fun _ => ret u) (fst s, upd (snd s) (A k) u)).
      apply (presv_bind NA (store L u) (store L u) (fun _ => ret u) (fun _ => ret u)).
      + apply presv_of with (K := fun _ => False), pres_store. intros m e He.
        split; [now apply userly_NA, (Hu m)|]. split; auto.
      + intros. apply presv_of with (K := fun _ => False), pres_ret.
      + destruct Hst as [S1 S2]. split; [exact S1|]. intros m Hm. cbn. unfold upd.
        destruct (lname_eq_dec (A k) m) as [<-|]; [|auto]. exfalso. apply Hm. now exists k.
    - assert (Hdt : d = CThis).
      { apply plain_this; auto. rewrite forallb_forall in Hh. apply (Hh (n, d)).
        rewrite E. apply in_or_app. right. now left. }
      subst d.
      assert (Hn1 : ~ In n (map fst l1) /\ ~ In n (map fst l2)).
      { rewrite E, map_app in Hnd. cbn in Hnd. apply NoDup_remove_2 in Hnd. rewrite in_app_iff in Hnd. tauto. }
      eapply presv_meq with (m := bind (set_label (U n) u) (fun _ => bind (store l1 u) (fun _ => bind (store l2 u) (fun _ => ret u))))
                           (m' := bind (store l1 u) (fun _ => bind (set_label (U n) u) (fun _ => bind (store l2 u) (fun _ => ret u)))).
      { apply bind_meq; [apply meq_refl|]. intros _.
        eapply meq_trans; [apply bind_meq; [apply labelsM_store|intros; apply meq_refl]|].
        eapply meq_trans; [apply bind_meq; [apply store_app|intros; apply meq_refl]|].
        apply bind_assoc. }
      { rewrite E. eapply meq_trans; [apply bind_meq; [apply store_app|intros; apply meq_refl]|].
        eapply meq_trans; [apply bind_assoc|]. apply bind_meq; [apply meq_refl|]. intros _.
        cbn [Spec_Api.store Spec_Eval.den].
        eapply meq_trans; [apply bind_assoc|]. eapply meq_trans; [apply bind_ret_l|]. apply bind_assoc. }
      intros s t [S1 S2].
      destruct (pres_store (fun m => NA m \/ m = U n) (fun m => m = U n) l1 u) with
        (s := (fst s, upd (snd s) (U n) u)) (t := t) as (H1 & H2 & H3).
      + intros m e He.
        assert (HeL : In (m, e) L) by (rewrite E; apply in_or_app; now left).
        assert (HnL : In n (map fst L)).
        { rewrite E, map_app. apply in_or_app. right. now left. }
        destruct (Ho m e HeL n HnL) as [U1 U2]. split; [|split].
        * intros x Hx [Hna| Hxn]; [|subst x; auto]. revert Hna. now apply (userly_NA e (Hu m e HeL)).
        * intros x Hx Hxn. subst x. auto.
        * intros Heq. injection Heq as Heq. subst m. apply (proj1 Hn1). now apply (in_map fst _ _ He).
      + split; [exact S1|]. intros m Hm. cbn. unfold upd. destruct (lname_eq_dec (U n) m) as [Hnm|]; [|apply S2]; [|tauto].
        exfalso. apply Hm. right. now symmetry.
      + assert (HU : snd (fst (store l1 u (fst s, upd (snd s) (U n) u))) (U n) = Some u).
        { rewrite H3 by reflexivity. cbn. unfold upd. now destruct (lname_eq_dec (U n) (U n)). }
        set (k1 := fun _ : unit => bind (store l2 u) (fun _ => ret u)) in *.
        change (bind (set_label (U n) u) (fun _ => bind (store l1 u) k1) s) with
          (bind (store l1 u) k1 (fst s, upd (snd s) (U n) u)).
        unfold bind.
        destruct (store l1 u (fst s, upd (snd s) (U n) u)) as [s' [[]|x]], (store l1 u t) as [t' r'];
          cbn [fst snd] in *; subst r'.
        * change (set_label (U n) u t') with (((fst t', upd (snd t') (U n) u), @Val X unit tt)). cbn iota beta.
          apply (presv_bind NA (store l2 u) (store l2 u) (fun _ => ret u) (fun _ => ret u)).
          -- apply presv_of with (K := fun _ => False), pres_store. intros m e He. split; [|auto].
             apply userly_NA, (Hu m). rewrite E. apply in_or_app. right. now right.
          -- intros. apply presv_of with (K := fun _ => False), pres_ret.
          -- destruct H1 as [T1 T2]. split; [exact T1|]. intros m Hm. cbn. unfold upd.
             destruct (lname_eq_dec (U n) m) as [Hnm|Hne]; [subst m; exact HU|]. apply T2. intros [?|?]; [tauto|congruence].
        * cbn. split; [apply H1|]. split; [reflexivity|]. intros b Hb. discriminate.
  Qed.

  Lemma den_cpipe a b v : meq (den (cpipe a b) v) (bind (den a v) (den b)).
  Proof.
    eapply meq_trans; [apply den_in_turn|]. rewrite stages_cpipe.
    eapply meq_trans; [apply in_turn_app|]. apply bind_meq.
    - apply meq_sym, den_in_turn.
    - intros u. apply meq_sym, den_in_turn.
  Qed.
  Lemma api_pipe_reads k k' a b li lo c v :
    api_pipe k k' a b li lo = Some c -> labels_ok li -> labels_ok lo ->
    userly a -> userly b -> (forall n d, In (n, d) li -> userly d) -> (forall n d, In (n, d) lo -> userly d) ->
    presv NA (den c v) (labelled_pipe pr args a b li lo v).
  Proof.
    intros H Hli Hlo Ha Hb Hui Huo. unfold api_pipe in H.
    destruct (labelled k a li) as [a'|] eqn:Ea; [|discriminate].
    destruct (labelled k' b lo) as [b'|] eqn:Eb; [|discriminate]. injection H as <-.
    eapply presv_meq; [apply den_cpipe| |
      apply presv_bind; [apply (labelled_store k a li a' v Ea); auto|
                         intros u; apply (labelled_store k' b lo b' u Eb); auto]].
    unfold labelled_pipe. apply meq_sym. eapply meq_trans; [apply bind_assoc|]. apply bind_meq; [apply meq_refl|].
    intros u. eapply meq_trans; [apply bind_assoc|]. apply bind_meq; [apply meq_refl|]. intros _ s. reflexivity.
  Qed.
  Lemma presv_trans N {B} (m m' m'' : @M V W X B) : presv N m m' -> presv N m' m'' -> presv N m m''.
  Proof.
    intros H H' s t E. destruct (H s t E) as (A1 & A2 & A3).
    assert (R : eqx N t t) by (split; auto). destruct (H' t t R) as (B1 & B2 & B3).
    split; [congruence|]. split; [congruence|]. intros b Hb. destruct (A3 b Hb) as [C1 C2].
    rewrite A2 in Hb. destruct (B3 b Hb) as [D1 D2]. split; [congruence|]. intros n Hn. rewrite C2, D2; auto.
  Qed.
  Lemma mapM_app {A} (f : A -> @M V W X V) l l' :
    meq (mapM f (l ++ l')) (bind (mapM f l) (fun us => bind (mapM f l') (fun ks => ret (us ++ ks)))).
  Proof.
    induction l as [|x l IH]; cbn [app mapM].
    - intros s. unfold bind at 1, ret at 1. intros. symmetry. apply (bind_ret_r (mapM f l') s).
    - eapply meq_trans; [|apply meq_sym, bind_assoc]. apply bind_meq; [apply meq_refl|]. intros y.
      eapply meq_trans; [apply bind_meq; [exact IH|intros z; apply meq_refl]|].
      eapply meq_trans; [apply bind_assoc|]. eapply meq_trans; [|apply meq_sym, bind_assoc].
      apply bind_meq; [apply meq_refl|]. intros us. eapply meq_trans; [apply bind_assoc|].
      intros s. unfold bind, ret. destruct (mapM f l' s) as [s' [ks|e]]; reflexivity.
  Qed.
  Lemma labelled_userly k a l a' : labelled k a l = Some a' -> userly a -> (forall n d, In (n, d) l -> userly d) -> userly a'.
  Proof.
    intros H Ha Hu. destruct l as [|p l]; [injection H as <-; exact Ha|].
    unfold labelled in H. destruct (add_labels None [] (p :: l)) as [[name ls]|] eqn:E; [|discriminate]. injection H as <-.
    assert (G : forall l name0 ls0 name ls, add_labels name0 ls0 l = Some (name, ls) ->
      (forall n d, In (n, d) ls0 -> userly d) -> (forall n d, In (n, d) l -> userly d) -> forall n d, In (n, d) ls -> userly d).
    { clear. induction l as [|[n c] l IH]; intros name0 ls0 name ls E H0 H m d I; cbn [add_labels] in E.
      - injection E as _ <-. eauto.
      - destruct (_ || _); [discriminate|]. destruct (match name0 with None => is_plain c | Some _ => false end).
        + apply (IH _ _ _ _ E H0 (fun m d J => H m d (or_intror J)) m d I).
        + apply (IH _ _ _ _ E) with (n := m); auto.
          * intros m0 d0 J. apply in_app_or in J as [J|[J|[]]]; [now apply (H0 m0)|]. injection J as <- <-. apply (H n). now left.
          * intros m0 d0 J. apply (H m0). now right. }
    intros n I. cbn [label_uses] in I. apply in_app_or in I as [I|I]; [now apply Ha|].
    apply in_flat_map in I as ([m d] & J & I). apply in_map_iff in J as ([m0 d0] & Q & J). injection Q as _ ->. cbn [snd] in I.
    exact (G _ _ _ _ _ E (fun n d (F : In (n, d) []) => match F with end) Hu m0 d J n I).
  Qed.
  Lemma den_mapM l v : (forall c, In c l -> userly c) -> presv NA (mapM (fun c => den c v) l) (mapM (fun c => den c v) l).
  Proof.
    induction l as [|c l IH]; intros H; cbn [mapM].
    - apply presv_of with (K := fun _ => False), pres_ret.
    - apply presv_bind.
      + apply presv_of with (K := fun _ => False). apply den_pres; [apply userly_NA; apply H; now left|auto].
      + intros y. apply presv_bind; [apply IH; intros d I; apply H; now right|].
        intros ys. apply presv_of with (K := fun _ => False), pres_ret.
  Qed.
  Lemma api_pipe_func_reads k k' a f xs kw li lo c v :
    api_pipe_func k k' a f xs kw li lo = Some c -> labels_ok li -> labels_ok lo ->
    userly a -> (forall d, In d xs -> userly d) -> (forall n d, In (n, d) kw -> userly d) ->
    (forall n d, In (n, d) li -> userly d) -> (forall n d, In (n, d) lo -> userly d) ->
    presv NA (den c v) (labelled_call pr args a f xs kw li lo v).
  Proof.
    intros H Hli Hlo Ha Hx Hk Hui Huo. unfold api_pipe_func in H.
    destruct (labelled k a li) as [a'|] eqn:Ea; [|discriminate].
    assert (Ua : userly a') by (now apply (labelled_userly k a li)).
    assert (Uk : forall d, In d (map snd kw) -> userly d).
    { intros d I. apply in_map_iff in I as ([n d0] & <- & I). now apply (Hk n). }
    set (call := ccall (Some (CGlob f)) (a' :: xs) kw) in *.
    assert (Uc : userly call).
    { intros n I. unfold call, ccall in I. cbn [label_uses flat_map app] in I. apply in_app_or in I as [I|I]; [now apply Ua|].
      apply in_flat_map in I as (d & I & J). apply in_app_or in I as [I|I]; [now apply (Hx d)|now apply (Uk d)]. }
    assert (RD : meq (den call v) (bind (den a' v) (fun u => bind (mapM (fun c => den c v) xs) (fun us =>
      bind (mapM (fun c => den c v) (map snd kw)) (fun ks =>
      prim (op pr (OCall (S (length xs)) (map fst kw)) (globv pr f :: u :: us ++ ks))))))).
    { unfold call, ccall. cbn [Spec_Eval.den length app]. intros s.
      cbn [mapM Spec_Eval.den]. unfold bind, ret. destruct (den a' v s) as [s1 [u|e]]; [|reflexivity].
      rewrite (mapM_app (fun c => den c v) xs (map snd kw) s1). unfold bind, ret.
      destruct (mapM (fun c => den c v) xs s1) as [s2 [us|e]]; [|reflexivity].
      destruct (mapM (fun c => den c v) (map snd kw) s2) as [s3 [ks|e]]; reflexivity. }
    apply presv_trans with (bind (den call v) (fun u => bind (store lo u) (fun _ => ret u))).
    { now apply (labelled_store k' call lo c v H). }
    assert (ST : forall u, presv NA (bind (store lo u) (fun _ => ret u)) (bind (store lo u) (fun _ => ret u))).
    { intros u. apply presv_bind; [|intros _; apply presv_of with (K := fun _ => False), pres_ret].
      apply presv_of with (K := fun _ => False), pres_store. intros n d I. split; [|auto]. apply userly_NA. now apply (Huo n). }
    eapply presv_meq; [apply bind_meq; [exact RD|intros u; apply meq_refl]| |].
    2:{ apply presv_bind; [|exact ST]. apply presv_bind; [now apply (labelled_store k a li a' v Ea)|].
        intros u. apply presv_bind; [now apply den_mapM|]. intros us. apply presv_bind; [now apply den_mapM|].
        intros ks. apply presv_of with (K := fun _ => False), pres_prim. }
    unfold labelled_call. intros s. unfold bind, ret. destruct (den a v s) as [s1 [u|e]]; [|reflexivity].
    destruct (store li u s1) as [s2 [[]|e]]; [|reflexivity].
    destruct (mapM (fun c => den c v) xs s2) as [s3 [us|e]]; [|reflexivity].
    destruct (mapM (fun c => den c v) (map snd kw) s3) as [s4 [ks|e]]; reflexivity.
  Qed.
End Labels.

(** item/attr chains *)
Section Paths.
  Context {V W X : Type}.
  Variable pr : prims V W X.
  Variable args : list (text * V).
  Notation den := (den pr args).

  Lemma den_citem idx : forall a v, meq (den (fold_left (fun a i => COp OItem [a; i]) idx a) v)
    (bind (den a v) (lookupsM pr (fun c => den c v) OItem idx)).
  Proof.
    induction idx as [|i idx IH]; intros a v; cbn [fold_left].
    - apply meq_sym, bind_ret_r.
    - eapply meq_trans; [apply IH|]. cbn [Spec_Eval.den mapM lookupsM]. intros s. unfold bind, ret.
      destruct (den a v s) as [s1 [va|x]]; auto. destruct (den i v s1) as [s2 [vi|x]]; auto.
  Qed.
  Lemma den_cattr idx : forall a v, meq (den (fold_left CAttr idx a) v)
    (bind (den a v) (lookupsM pr (fun c => den c v) OGetattr idx)).
  Proof.
    induction idx as [|i idx IH]; intros a v; cbn [fold_left].
    - apply meq_sym, bind_ret_r.
    - eapply meq_trans; [apply IH|]. cbn [Spec_Eval.den lookupsM]. intros s. unfold bind, ret.
      destruct (den a v s) as [s1 [va|x]]; auto. destruct (den i v s1) as [s2 [vi|x]]; auto.
  Qed.
End Paths.

(** a condition or branch of If with a plain variable as its input *)
Section Fed.
  Variables (wordch : N -> bool) (srepr : text -> text) (gname : nat -> text) (pnum : list nat -> nat)
            (pname : text -> text) (hname : list nat -> text).
  Notation gen := (gen wordch srepr gname pnum pname hname).
  Lemma fed_plain c : forall q e, simple wordch (print srepr gname pnum e) = true ->
    gen true q c e = gen false q c e.
  Proof.
    induction c; intros q e H; try (cbn [Model_Code.gen]; now rewrite attach_simple).
    cbn [Model_Code.gen]. now rewrite IHc1.
  Qed.
End Fed.

Section IfAlone.
  Context {V W X : Type}.
  Variable pr : prims V W X.
  Variables (wordch : N -> bool) (srepr : text -> text) (gname : nat -> text) (pnum : list nat -> nat)
            (pname : text -> text) (hname : list nat -> text) (tname : text -> text).
  Variable args : list (text * V).
  Notation alone := (alone wordch srepr gname pnum pname hname pr args).
  Notation alone_in_turn := (alone_in_turn wordch srepr gname pnum pname hname tname pr args).
  Lemma alone_app l l' : forall i x v,
    meq (alone_in_turn i x (l ++ l') v)
        (bind (alone_in_turn i x l v) (alone_in_turn (i + length l) (Nat.iter (length l) tname x) l')).
  Proof.
    induction l as [|c l IH]; intros i x v; cbn [app Spec_Converter.alone_in_turn length Nat.iter].
    - rewrite Nat.add_0_r. intros s. reflexivity.
    - intros s. rewrite (bind_assoc _ _ _ s). apply bind_meq; [apply meq_refl|]. intros u.
      eapply meq_trans; [apply IH|]. rewrite Nat.add_succ_r. cbn [plus].
      assert (E : forall n y, Nat.iter n tname (tname y) = tname (Nat.iter n tname y)).
      { clear. induction n; intros y; [auto|].
        change (Nat.iter (S n) tname (tname y)) with (tname (Nat.iter n tname (tname y))). now rewrite IHn. }
      rewrite E. apply meq_refl.
  Qed.
  Lemma alone_if q x nc co t f v : forallb wordch x = true ->
    meq (alone q x (CIf nc co t f) v)
        (bind (match co with None => ret v | Some c => alone (0 :: q) x c v end) (fun b =>
         bind (prim (truth pr b)) (fun b =>
         if b then match t with None => ret v | Some c => alone (1 :: q) x c v end
         else match f with None => ret v | Some c => alone (2 :: q) x c v end))).
  Proof.
    intros Hx. apply (word_simple wordch) in Hx. unfold alone. cbn [gen print]. rewrite Hx. cbn [orb eval].
    assert (HN : meq (eval pr ((x, v) :: args) (PName x)) (ret v)).
    { intros s. cbn. destruct (text_eq_dec x x); [reflexivity|congruence]. }
    apply bind_meq.
    - destruct co; [rewrite fed_plain by exact Hx; apply meq_refl|exact HN].
    - intros b. apply bind_meq; [apply meq_refl|]. intros [].
      + destruct t; [rewrite fed_plain by exact Hx; apply meq_refl|exact HN].
      + destruct f; [rewrite fed_plain by exact Hx; apply meq_refl|exact HN].
  Qed.
End IfAlone.
