From Coq Require Import String List ZArith NArith Bool Arith Lia Sorted Permutation.
From Verif Require Import Model_PyVal Model_Code Model_Eval Model_Python Model_Api Spec_Frag Spec_Eval
  Spec_Reducers Spec_Converter Spec_Coll Proofs_PyVal Proofs_Reducers Proofs_DictReducers Proofs_Den.
Import ListNotations.
Open Scope list_scope.
Notation mbind := Model_Eval.bind.

(** adding items one after the other *)
Fixpoint pushes (k : ckind) (acc : val) (l : list (list val)) : res val :=
  match l with
  | [] => Ok acc
  | vs :: r => match py_push k acc vs with Ok a => pushes k a r | Err e => Err e end
  end.
Lemma pushes_list l : forall a, pushes KList (VList a) (map (fun x => [x]) l) = Ok (VList (a ++ l)).
Proof. induction l as [|x l IH]; intros a; cbn; [now rewrite app_nil_r|]. rewrite IH. now rewrite <- app_assoc. Qed.
Lemma pushes_src l : forall a, pushes KSrc (VList a) (map (fun x => [x]) l) = Ok (VList (a ++ l)).
Proof. induction l as [|x l IH]; intros a; cbn; [now rewrite app_nil_r|]. rewrite IH. now rewrite <- app_assoc. Qed.
Lemma pushes_tuple l : forall a, pushes KTuple (VTuple a) (map (fun x => [x]) l) = Ok (VTuple (a ++ l)).
Proof. induction l as [|x l IH]; intros a; cbn; [now rewrite app_nil_r|]. rewrite IH. now rewrite <- app_assoc. Qed.
Lemma pushes_set l : hash_all l -> forall a, pushes KSet (VSet a) (map (fun x => [x]) l) = Ok (VSet (fold_left vadd l a)).
Proof.
  induction l as [|x l IH]; intros H a; cbn; [reflexivity|]. rewrite (H x (or_introl eq_refl)).
  apply IH. intros y Hy. apply H. now right.
Qed.
Definition fold_dict (l : list (val * val)) (a : list (val * val)) : list (val * val) :=
  fold_left (fun d p => dput d (fst p) (snd p)) l a.
Lemma py_push_dict d a b : py_push KDict (VDict d) [a; b] = if hashable a then Ok (VDict (dput d a b)) else Err TypeError.
Proof. destruct a as [| | | | |l| | |]; try reflexivity; destruct l as [|? [|? [|? ?]]]; reflexivity. Qed.
Lemma pushes_dict l : hash_all (map fst l) -> forall a,
  pushes KDict (VDict a) (map (fun p => [fst p; snd p]) l) = Ok (VDict (fold_dict l a)).
Proof.
  induction l as [|[k x] l IH]; intros H a; [reflexivity|]. cbn [map fst snd pushes]. rewrite py_push_dict, (H k (or_introl eq_refl)).
  apply IH. intros y Hy. apply H. now right.
Qed.
Lemma pushes_dict_pairs l : hash_all (map fst l) -> forall a,
  pushes KDict (VDict a) (map (fun p => [VTuple [fst p; snd p]]) l) = Ok (VDict (fold_dict l a)).
Proof.
  induction l as [|[k x] l IH]; intros H a; cbn; [reflexivity|]. rewrite (H k (or_introl eq_refl)).
  apply IH. intros y Hy. apply H. now right.
Qed.
Lemma pushes_srcpair l : forall a,
  pushes KSrcPair (VList a) (map (fun p => [fst p; snd p]) l) = Ok (VList (a ++ map (fun p => VTuple [fst p; snd p]) l)).
Proof. induction l as [|x l IH]; intros a; cbn; [now rewrite app_nil_r|]. rewrite IH. now rewrite <- app_assoc. Qed.

Lemma last_value_snoc l k v q : last_value (l ++ [(k, v)]) q = if py_eq k q then Some v else last_value l q.
Proof.
  induction l as [|[k' v'] l IH]; cbn; [destruct (py_eq k q); reflexivity|].
  rewrite IH. destruct (py_eq k q); auto.
Qed.
Lemma fold_dict_of l : hash_all (map fst l) -> dict_of l (fold_dict l []) /\ keys_ok (fold_dict l []).
Proof.
  induction l as [|[k v] l IH] using rev_ind; intros H; [split; [split; reflexivity|constructor]|].
  assert (Hl : hash_all (map fst l)) by (intros x Hx; apply H; rewrite map_app; apply in_or_app; now left).
  assert (Hk : hashable k = true) by (apply H; rewrite map_app; apply in_or_app; right; now left).
  destruct (IH Hl) as [[I1 I2] I3]. unfold fold_dict. rewrite fold_left_app. fold (fold_dict l []). cbn [fold_left fst snd].
  split; [split|].
  - rewrite map_fst_dput, I1, map_app. cbn [map fst]. rewrite distinct_snoc; [reflexivity|].
    rewrite map_app in H. exact H.
  - intros q Hq. rewrite dfind_dput by auto. rewrite last_value_snoc. destruct (py_eq k q); auto.
  - now apply dput_keys_ok.
Qed.

(** sorting *)
Definition le (a b : val * val) : Prop := py_lt (fst b) (fst a) = Ok false.
Definition tiep (a b : val * val) : bool :=
  match py_lt (fst a) (fst b), py_lt (fst b) (fst a) with Ok false, Ok false => true | _, _ => false end.
Lemma tiep_true a b : tiep a b = true -> py_lt (fst a) (fst b) = Ok false /\ py_lt (fst b) (fst a) = Ok false.
Proof. unfold tiep. destruct (py_lt (fst a) (fst b)) as [[]|]; try discriminate. destruct (py_lt (fst b) (fst a)) as [[]|]; try discriminate. auto. Qed.

Lemma ordered_incl l l' : ordered l -> (forall x, In x l' -> In x l) -> ordered l'.
Proof.
  intros H Hi x y Hx Hy. destruct (H x y (Hi x Hx) (Hi y Hy)) as (H1 & H2 & H3). split; auto.
Qed.
Lemma insert_ok U x l : ordered (map fst U) -> (forall z, In z (x :: l) -> In z U) -> StronglySorted le l ->
  exists r, insert x l = Ok r /\ Permutation (x :: l) r /\ StronglySorted le r /\
    (forall a, In a U -> filter (tiep a) r = filter (tiep a) (x :: l)).
Proof.
  intros HU. induction l as [|y l IH]; intros HI Hs.
  - exists [x]. split; [reflexivity|]. split; [auto|]. split; [repeat constructor|]. auto.
  - assert (Hx : In (fst x) (map fst U)) by (apply in_map, HI; now left).
    assert (Hy : In (fst y) (map fst U)) by (apply in_map, HI; right; now left).
    destruct (HU (fst y) (fst x) Hy Hx) as ((b & Hb) & H2 & H3). cbn [insert bind]. rewrite Hb. cbn [bind].
    inversion Hs as [|? ? Hs' Hall]; subst. destruct b.
    + destruct IH as (r & Er & Pr & Sr & Fr); auto.
      { intros z [->|Hz]; apply HI; [now left|right; now right]. }
      rewrite Er. cbn [bind]. exists (y :: r). split; [reflexivity|]. split; [|split].
      * rewrite perm_swap. now constructor.
      * constructor; auto. apply Forall_forall. intros z Hz.
        apply Permutation_sym in Pr. apply (Permutation_in _ Pr) in Hz. destruct Hz as [->|Hz].
        -- unfold le. now apply H2.
        -- rewrite Forall_forall in Hall. now apply Hall.
      * intros a Ha. cbn [filter]. rewrite (Fr a Ha). cbn [filter].
        destruct (tiep a y) eqn:E1, (tiep a x) eqn:E2; auto. exfalso.
        apply tiep_true in E1. apply tiep_true in E2. destruct E1 as [E1 E1'], E2 as [E2 E2'].
        destruct (HU (fst y) (fst a)) as (_ & _ & K); auto. { now apply in_map. }
        specialize (K (fst x) Hx E1' E2). congruence.
    + exists (x :: y :: l). split; [reflexivity|]. split; [auto|]. split; [|auto].
      constructor; auto. constructor; auto. rewrite Forall_forall in *. intros z Hz.
      specialize (Hall z Hz). unfold le in *.
      assert (Hz' : In (fst z) (map fst U)) by (apply in_map, HI; right; now right).
      destruct (HU (fst z) (fst y) Hz' Hy) as (_ & _ & K). now apply K.
Qed.
Lemma isort_ok U l : ordered (map fst U) -> (forall z, In z l -> In z U) ->
  exists r, isort l = Ok r /\ Permutation l r /\ StronglySorted le r /\
    (forall a, In a U -> filter (tiep a) r = filter (tiep a) l).
Proof.
  intros HU. induction l as [|x l IH]; intros HI; cbn [isort].
  - exists []. repeat split; auto. constructor.
  - destruct IH as (r & Er & Pr & Sr & Fr); [intros; apply HI; now right|]. rewrite Er. cbn [bind].
    destruct (insert_ok U x r) as (r2 & E2 & P2 & S2 & F2); auto.
    { intros z [->|Hz]; apply HI; [now left|right]. apply Permutation_sym in Pr. now apply (Permutation_in _ Pr). }
    exists r2. split; [exact E2|]. split; [rewrite <- P2; now constructor|]. split; [exact S2|].
    intros a Ha. rewrite F2 by exact Ha. cbn [filter]. now rewrite Fr.
Qed.
Lemma filter_rev {B} (p : B -> bool) l : filter p (rev l) = rev (filter p l).
Proof.
  induction l as [|x l IH]; cbn; [reflexivity|]. rewrite filter_app, IH. cbn. destruct (p x); cbn; [reflexivity|now rewrite app_nil_r].
Qed.
Lemma StronglySorted_snoc {B} (R : B -> B -> Prop) l x :
  StronglySorted R l -> Forall (fun y => R y x) l -> StronglySorted R (l ++ [x]).
Proof.
  induction l as [|y l IH]; intros Hs Hf; cbn; [repeat constructor|].
  inversion Hs; inversion Hf; subst. constructor; auto. apply Forall_app. split; auto.
Qed.
Lemma StronglySorted_rev {B} (R : B -> B -> Prop) l : StronglySorted R l -> StronglySorted (fun a b => R b a) (rev l).
Proof.
  induction 1 as [|x l Hs IH Hf]; cbn; [constructor|]. apply StronglySorted_snoc; auto.
  rewrite Forall_forall in *. intros y Hy. apply Hf. now apply in_rev.
Qed.
Definition keyed (key : val -> val) (l : list val) : list (val * val) := map (fun x => (key x, x)) l.
Lemma keyed_snd key r : (forall p, In p r -> fst p = key (snd p)) -> keyed key (map snd r) = r.
Proof.
  induction r as [|[k x] r IH]; intros H; [reflexivity|]. cbn. unfold keyed in *. rewrite IH by (intros; apply H; now right).
  f_equal. f_equal. symmetry. exact (H (k, x) (or_introl eq_refl)).
Qed.
Lemma keyed_fst key l : map fst (keyed key l) = map key l.
Proof. unfold keyed. rewrite map_map. reflexivity. Qed.
Lemma keyed_snd' key l : map snd (keyed key l) = l.
Proof. unfold keyed. rewrite map_map. apply map_id. Qed.
Lemma filter_keyed key a l : filter (tiep (key a, a)) (keyed key l) = keyed key (filter (tie key a) l).
Proof.
  unfold keyed. induction l as [|x l IH]; [reflexivity|]. cbn [map filter]. rewrite IH.
  change (tiep (key a, a) (key x, x)) with (tie key a x). destruct (tie key a x); reflexivity.
Qed.
Lemma keyed_inj key l l' : keyed key l = keyed key l' -> l = l'.
Proof. intros H. rewrite <- (keyed_snd' key l), H. apply keyed_snd'. Qed.
Lemma sorted_map {B C} (R : C -> C -> Prop) (f : B -> C) l :
  StronglySorted R (map f l) -> StronglySorted (fun a b => R (f a) (f b)) l.
Proof.
  induction l as [|x l IH]; intros H; [constructor|]. cbn in H. inversion H; subst. constructor; auto.
  rewrite Forall_map in H3. exact H3.
Qed.
Lemma sort_pairs_ok key rv xs : ordered (map key xs) ->
  exists ys, sort_pairs rv (keyed key xs) = Ok ys /\ sorted_by key rv xs ys.
Proof.
  intros Ho. set (l := keyed key xs).
  assert (HU : ordered (map fst l)) by (unfold l; now rewrite keyed_fst).
  assert (K : forall r, (forall p, In p r -> In p l) -> keyed key (map snd r) = r).
  { intros r Hr. apply keyed_snd. intros p Hp. apply Hr in Hp. unfold l, keyed in Hp. apply in_map_iff in Hp.
    destruct Hp as (x & <- & _). reflexivity. }
  assert (Ht : forall a, In a xs -> In (key a, a) l) by (intros a Ha; unfold l, keyed; apply in_map_iff; eauto).
  unfold sort_pairs. destruct rv.
  - destruct (isort_ok l (rev l) HU) as (r & Er & Pr & Sr & Fr). { intros z Hz. now apply in_rev in Hz. }
    rewrite Er. cbn [bind]. exists (map snd (rev r)). split; [reflexivity|].
    assert (P1 : Permutation l (rev r)) by (rewrite <- Permutation_rev, <- Pr; apply Permutation_rev).
    assert (K1 := K (rev r) ltac:(intros p Hp; apply Permutation_sym in P1; now apply (Permutation_in _ P1))).
    split; [|split].
    + rewrite <- (keyed_snd' key xs). now apply Permutation_map.
    + apply StronglySorted_rev in Sr. rewrite <- K1 in Sr. apply sorted_map in Sr. exact Sr.
    + intros a Ha. apply (keyed_inj key). rewrite <- !filter_keyed. rewrite K1. fold l.
      rewrite filter_rev, (Fr _ (Ht a Ha)), filter_rev. apply rev_involutive.
  - destruct (isort_ok l l HU) as (r & Er & Pr & Sr & Fr); auto.
    rewrite Er. cbn [bind]. exists (map snd r). split; [reflexivity|].
    assert (K1 := K r ltac:(intros p Hp; apply Permutation_sym in Pr; now apply (Permutation_in _ Pr))).
    split; [|split].
    + rewrite <- (keyed_snd' key xs). now apply Permutation_map.
    + rewrite <- K1 in Sr. apply sorted_map in Sr. exact Sr.
    + intros a Ha. apply (keyed_inj key). rewrite <- !filter_keyed. rewrite K1. fold l. apply Fr. auto.
Qed.

(** evaluation *)
Section E.
  Context {W : Type}.
  Variable call : val -> list val -> list (text * val) -> W -> W * out exc val.
  Variable getattr : val -> string -> W -> W * out exc val.
  Variable args : list (text * val).
  Notation pr := (python call getattr).
  Notation den := (den pr args).
  Notation gives := (gives call getattr args).
  Notation kept := (kept call getattr args).

  Lemma push_then {B} k acc vs (m : val -> @M val W exc B) s :
    mbind (prim (push pr k acc vs)) m s = match py_push k acc vs with Ok a => m a s | Err e => (s, Exc e) end.
  Proof. unfold mbind, prim. cbn. destruct s, (py_push k acc vs); reflexivity. Qed.
  Lemma truth_then {B} b (m : bool -> @M val W exc B) s : mbind (prim (truth pr b)) m s = m (truthy b) s.
  Proof. unfold mbind, prim. cbn. destruct s; reflexivity. Qed.
  Lemma gives_then {B} c v x (m : val -> @M val W exc B) s : gives c v x -> mbind (den c v) m s = m x s.
  Proof. intros H. unfold mbind. now rewrite H. Qed.

  Lemma make_conv e i : make e = Some i -> item_conv i = conv_of e.
  Proof. destruct e; cbn; intros H; now injection H as <-. Qed.
  (** the condition of an entry *)
  Lemma make_cond e i v b : make e = Some i -> kept v e b ->
    match item_cond i with None => b = true | Some c => exists x, gives c v x /\ truthy x = b end.
  Proof.
    intros Hm Hk. destruct Hk.
    - injection Hm as <-. reflexivity.
    - injection Hm as <-. cbn [item_cond]. exists (VBool (negb (is_none x))). split; [|reflexivity].
      intros s. cbn [Spec_Eval.den mapM]. unfold mbind at 1 2. rewrite (H s).
      destruct s, x; reflexivity.
    - cbn [make optional] in Hm. injection Hm as <-.
      cbn [item_cond].
      assert (E : match l with LNone => COp (OBin (T "is not")) [c; CLit LNone]
                  | _ => COp (OBin (T "!=")) [c; CLit l] end = COp (OBin (T "!=")) [c; CLit l]) by (destruct l; congruence).
      exists (VBool (negb (py_eq x (litval call getattr l)))). split; [|reflexivity].
      intros s. transitivity (den (COp (OBin (T "!=")) [c; CLit l]) v s).
      { f_equal. f_equal. destruct l; congruence. }
      cbn [Spec_Eval.den mapM]. unfold mbind at 1 2. rewrite (H0 s). destruct s. reflexivity.
    - injection Hm as <-. cbn [item_cond]. exists (VBool (negb (truthy b))). split; [|reflexivity].
      intros t. cbn [Spec_Eval.den mapM]. unfold mbind at 1 2. rewrite (H t). destruct t. reflexivity.
    - injection Hm as <-. cbn [item_cond]. eauto.
  Qed.

  Definition done (k : ckind) (acc : val) (vss : list (list val)) : @M val W exc val :=
    fun s => (s, of_res (pushes k acc vss)).
  Lemma lines_pushes k v : forall l is xss, make_all l = Some is ->
    Forall2 (contributes call getattr args v) l xss ->
    forall acc s, linesM pr (fun c => den c v) k (map (fun i => (item_cond i, item_conv i)) is) acc s
      = done k acc (map (fun x => [x]) (concat xss)) s.
  Proof.
    intros l. induction l as [|e l IH]; intros is xss Hm HF acc s; inversion HF; subst; clear HF; cbn [make_all] in Hm.
    - injection Hm as <-. reflexivity.
    - destruct (make e) as [i|] eqn:Ei; [|discriminate]. destruct (make_all l) as [is'|] eqn:El; [|discriminate].
      injection Hm as <-. cbn [map linesM fst snd concat]. rewrite (make_conv _ _ Ei).
      specialize (IH is' _ eq_refl H3).
      assert (HB : forall x, gives (conv_of e) v x ->
        mbind (den (conv_of e) v) (fun v0 => mbind (prim (push pr k acc [v0]))
          (fun acc' => linesM pr (fun c => den c v) k (map (fun i => (item_cond i, item_conv i)) is') acc')) s
        = done k acc (map (fun x => [x]) ([x] ++ concat l')) s).
      { intros x Hx. rewrite (gives_then _ _ x) by auto. rewrite push_then. unfold done. cbn [app map pushes].
        destruct (py_push k acc [x]); [apply IH|reflexivity]. }
      inversion H1; subst.
      + assert (K := make_cond e i v true Ei H). destruct (item_cond i) as [c|]; cbn [whenM]; [|now apply HB].
        destruct K as (b & Hb & Tb). rewrite (gives_then _ _ b) by auto. rewrite truth_then, Tb. now apply HB.
      + assert (K := make_cond e i v false Ei H). destruct (item_cond i) as [c|]; [|discriminate]. cbn [whenM].
        destruct K as (b & Hb & Tb). rewrite (gives_then _ _ b) by auto. rewrite truth_then, Tb. apply IH.
  Qed.

  Lemma kept_fun v e b b' : kept v e b -> kept v e b' -> forall (s : @st val W), b = b'.
  Proof.
    intros H H' s. destruct H; inversion H'; subst; auto;
      match goal with A : gives ?c v ?x, B : gives ?c v ?y |- _ =>
        let E := fresh in assert (E : x = y) by (specialize (A s); specialize (B s); congruence); subst end; reflexivity.
  Qed.
  Lemma pairs_pushes v : forall l is xss, make_pairs l = Some is ->
    Forall2 (contributes2 call getattr args v) l xss ->
    forall acc s, linesM pr (fun c => den c v) KDict
        (map (fun p => (pair_cond p, COp OTuple [item_conv (fst p); item_conv (snd p)])) is) acc s
      = done KDict acc (map (fun p => [VTuple [fst p; snd p]]) (concat xss)) s.
  Proof.
    intros l. induction l as [|[ea eb] l IH]; intros is xss Hm HF acc s; inversion HF; subst; clear HF; cbn [make_pairs] in Hm.
    - injection Hm as <-. reflexivity.
    - rename y into ps0. destruct (make ea) as [i|] eqn:Ei; [|discriminate]. destruct (make eb) as [j|] eqn:Ej; [|discriminate].
      destruct (make_pairs l) as [is'|] eqn:El; [|discriminate].
      injection Hm as <-. cbn [map linesM fst snd concat]. rewrite (make_conv _ _ Ei), (make_conv _ _ Ej).
      specialize (IH is' _ eq_refl H3).
      set (rest := fun acc' => linesM pr (fun c => den c v) KDict
        (map (fun p => (pair_cond p, COp OTuple [item_conv (fst p); item_conv (snd p)])) is') acc') in *.
      assert (HB : forall x y, gives (conv_of ea) v x -> gives (conv_of eb) v y ->
        mbind (den (COp OTuple [conv_of ea; conv_of eb]) v) (fun v0 => mbind (prim (push pr KDict acc [v0])) rest) s
        = done KDict acc (map (fun p => [VTuple [fst p; snd p]]) ([(x, y)] ++ concat l')) s).
      { intros x y Hx Hy. rewrite (gives_then _ _ (VTuple [x; y])).
        2: { intros t. cbn [Spec_Eval.den mapM]. unfold mbind at 1 2. rewrite (Hx t). unfold mbind at 1 2. rewrite (Hy t).
             destruct t. reflexivity. }
        rewrite push_then. unfold done. cbn [app map pushes fst snd].
        destruct (py_push KDict acc [VTuple [x; y]]); [apply IH|reflexivity]. }
      assert (GC : exists b, kept v ea b /\ (b = true -> exists b', kept v eb b' /\
                 (b' = true -> exists x y, gives (conv_of ea) v x /\ gives (conv_of eb) v y /\ ps0 = [(x, y)]) /\
                 (b' = false -> ps0 = [])) /\ (b = false -> ps0 = [])).
      { inversion H1; subst; cbn [fst snd] in *.
        - exists true. split; auto. split; [|discriminate]. intros _. exists true. split; auto. split; [|discriminate]. eauto.
        - exists false. split; auto. split; [discriminate|auto].
        - exists true. split; auto. split; [|discriminate]. intros _. exists false. split; auto. split; [discriminate|auto]. }
      destruct GC as (ba & Ka & Ga & Gn).
      assert (Ca := make_cond ea i v ba Ei Ka). unfold pair_cond. cbn [fst snd].
      destruct ba.
      + destruct (Ga eq_refl) as (bb & Kb & Gb & Gc). assert (Cb := make_cond eb j v bb Ej Kb).
        assert (Fin : whenM pr (fun c => den c v)
                   match item_cond j with Some c => Some c | None => None end
                   (mbind (den (COp OTuple [conv_of ea; conv_of eb]) v)
                      (fun v0 => mbind (prim (push pr KDict acc [v0])) rest)) (rest acc) s
                 = done KDict acc (map (fun p => [VTuple [fst p; snd p]]) (ps0 ++ concat l')) s /\
                 match item_cond j with None => bb = true | Some _ => True end).
        { destruct bb.
          - destruct (Gb eq_refl) as (x & y & Hx & Hy & ->). split; [|destruct (item_cond j); auto].
            destruct (item_cond j) as [c|]; cbn [whenM]; [|now apply HB].
            destruct Cb as (b & Hb & Tb). rewrite (gives_then _ _ b) by auto. rewrite truth_then, Tb. now apply HB.
          - rewrite (Gc eq_refl). destruct (item_cond j) as [c|]; [|discriminate]. split; auto. cbn [whenM].
            destruct Cb as (b & Hb & Tb). rewrite (gives_then _ _ b) by auto. rewrite truth_then, Tb. apply IH. }
        destruct Fin as [Fin Fin2].
        destruct (item_cond i) as [ci|].
        * destruct Ca as (x & Hx & Tx). destruct (item_cond j) as [cj|]; cbn [whenM] in *.
          -- assert (E : forall t, den (CBool false [ci; cj]) v t = den cj v t).
             { intros t. cbn [Spec_Eval.den boolM]. rewrite (gives_then _ _ x) by auto. rewrite truth_then, Tx. reflexivity. }
             unfold mbind at 1. rewrite E. exact Fin.
          -- rewrite (gives_then _ _ x) by auto. rewrite truth_then, Tx. exact Fin.
        * destruct (item_cond j) as [cj|]; exact Fin.
      + rewrite (Gn eq_refl). destruct (item_cond i) as [ci|]; [|discriminate].
        destruct Ca as (x & Hx & Tx). destruct (item_cond j) as [cj|]; cbn [whenM] in *.
        * rewrite (gives_then (CBool false [ci; cj]) _ x).
          2: { intros t. cbn [Spec_Eval.den boolM]. rewrite (gives_then _ _ x) by auto. rewrite truth_then, Tx. reflexivity. }
          rewrite truth_then, Tx. apply IH.
        * rewrite (gives_then _ _ x) by auto. rewrite truth_then, Tx. apply IH.
  Qed.

  Lemma make_all_req l is v xss : make_all l = Some is -> existsb is_opt is = false ->
    Forall2 (contributes call getattr args v) l xss ->
    forall s : @st val W, mapM (fun c => den c v) (map item_conv is) s = (s, Val (concat xss)).
  Proof.
    intros Hm Hn HF s. revert is Hm Hn. induction HF as [|e xs l xss Hc HF IH]; intros is Hm Hn; cbn [make_all] in Hm.
    - injection Hm as <-. reflexivity.
    - destruct (make e) as [i|] eqn:Ei; [|discriminate]. destruct (make_all l) as [is'|] eqn:El; [|discriminate].
      injection Hm as <-. cbn [existsb] in Hn. apply orb_false_iff in Hn. destruct Hn as [Hi Hn].
      cbn [map mapM concat]. rewrite (make_conv _ _ Ei). inversion Hc; subst.
      + rewrite (gives_then _ _ x) by auto. unfold mbind at 1. rewrite (IH is') by auto. reflexivity.
      + assert (K := make_cond e i v false Ei H). destruct i; [discriminate|discriminate].
  Qed.
  Lemma make_pairs_req l is v xss : make_pairs l = Some is ->
    existsb (fun p => is_opt (fst p) || is_opt (snd p)) is = false ->
    Forall2 (contributes2 call getattr args v) l xss ->
    forall s : @st val W, mapM (fun c => den c v) (flat_map (fun p => [item_conv (fst p); item_conv (snd p)]) is) s
      = (s, Val (flat_map (fun p => [fst p; snd p]) (concat xss))).
  Proof.
    intros Hm Hn HF s. revert is Hm Hn. induction HF as [|[ea eb] xs l xss Hc HF IH]; intros is Hm Hn; cbn [make_pairs] in Hm.
    - injection Hm as <-. reflexivity.
    - destruct (make ea) as [i|] eqn:Ei; [|discriminate]. destruct (make eb) as [j|] eqn:Ej; [|discriminate].
      destruct (make_pairs l) as [is'|] eqn:El; [|discriminate].
      injection Hm as <-. cbn [existsb fst snd] in Hn. apply orb_false_iff in Hn. destruct Hn as [Hi Hn].
      apply orb_false_iff in Hi. destruct Hi as [Hi Hj].
      cbn [flat_map mapM concat app fst snd]. rewrite (make_conv _ _ Ei), (make_conv _ _ Ej).
      inversion Hc; subst; cbn [fst snd] in *.
      + rewrite (gives_then _ _ x) by auto. unfold mbind at 1. rewrite (gives_then _ _ y) by auto.
        unfold mbind at 1. rewrite (IH is') by auto. reflexivity.
      + assert (K := make_cond ea i v false Ei H). destruct i; [discriminate|discriminate].
      + assert (K := make_cond eb j v false Ej H0). destruct j; [discriminate|discriminate].
  Qed.
  Lemma build_set_ok l : hash_all l -> forall a, build_set l a = Ok (fold_left vadd l a).
  Proof.
    induction l as [|x l IH]; intros H a; [reflexivity|]. cbn. rewrite (H x (or_introl eq_refl)).
    apply IH. intros y Hy. apply H. now right.
  Qed.
  Lemma build_dict_ok l : hash_all (map fst l) -> forall a,
    build_dict (flat_map (fun p => [fst p; snd p]) l) a = Ok (fold_dict l a).
  Proof.
    induction l as [|x l IH]; intros H a; [reflexivity|]. cbn. rewrite (H (fst x) (or_introl eq_refl)).
    apply IH. intros y Hy. apply H. now right.
  Qed.

  Lemma coll_den k l is v xss : make_all l = Some is -> fits k (concat xss) ->
    Forall2 (contributes call getattr args v) l xss -> gives (coll k is) v (holding k (concat xss)).
  Proof.
    intros Hm Hfit HF s. unfold coll. destruct (existsb is_opt is) eqn:Eo.
    - cbn [Spec_Eval.den]. unfold mbind at 1, prim1. cbn [start finish python].
      destruct s as [w L]. cbn [fst snd]. unfold mbind at 1. rewrite (lines_pushes k v l is xss Hm HF). unfold done.
      destruct k; try destruct Hfit.
      + rewrite pushes_list. reflexivity.
      + rewrite pushes_tuple. reflexivity.
      + rewrite pushes_set by exact Hfit. cbn. rewrite fold_vadd_nil by exact Hfit. reflexivity.
    - cbn [Spec_Eval.den]. unfold mbind at 1. rewrite (make_all_req l is v xss Hm Eo HF). destruct s as [w L].
      destruct k; try destruct Hfit; try reflexivity.
      cbn. rewrite build_set_ok by exact Hfit. cbn. rewrite fold_vadd_nil by exact Hfit. reflexivity.
  Qed.
  Lemma dict_den l is v xss : make_pairs l = Some is -> hash_all (map fst (concat xss)) ->
    Forall2 (contributes2 call getattr args v) l xss -> gives (dict is) v (VDict (fold_dict (concat xss) [])).
  Proof.
    intros Hm Hfit HF s. unfold dict. destruct (existsb _ is) eqn:Eo.
    - cbn [Spec_Eval.den]. unfold mbind at 1, prim1. cbn [start finish python].
      destruct s as [w L]. cbn [fst snd]. unfold mbind at 1. rewrite (pairs_pushes v l is xss Hm HF). unfold done.
      rewrite pushes_dict_pairs by exact Hfit. reflexivity.
    - cbn [Spec_Eval.den]. unfold mbind at 1. rewrite (make_pairs_req l is v xss Hm Eo HF). destruct s as [w L].
      cbn. rewrite build_dict_ok by exact Hfit. reflexivity.
  Qed.

  (** comprehensions *)
  Lemma comp_pushes (body : val -> val -> @M val W exc val) k xs vsss :
    Forall2 (fun x vss => forall acc s, body x acc s = done k acc vss s) xs vsss ->
    forall acc s, iterate body (list_iter xs) acc s = done k acc (concat vsss) s.
  Proof.
    induction 1 as [|x vss xs vsss Hb HF IH]; intros acc s; destruct s as [w L]; cbn [list_iter iterate fst snd]; [reflexivity|].
    rewrite Hb. unfold done. cbn [concat].
    assert (E : forall l' l a, pushes k a (l ++ l') = match pushes k a l with Ok a => pushes k a l' | Err e => Err e end).
    { clear. induction l as [|y l IH]; intros a; cbn; [reflexivity|]. destruct (py_push k a y); auto. }
    rewrite E. destruct (pushes k acc vss); cbn; [apply IH|reflexivity].
  Qed.
  Lemma comprehend_ok (body : val -> val -> @M val W exc val) k v xs vsss :
    items_of v = Ok xs ->
    Forall2 (fun x vss => forall acc s, body x acc s = done k acc vss s) xs vsss ->
    forall s, comprehend pr k v body s =
      (s, of_res (pushes k (match k with KList | KSrc | KSrcPair => VList [] | KTuple => VTuple []
                     | KSet => VSet [] | KDict => VDict [] end) (concat vsss))).
  Proof.
    intros Hi HF [w L]. unfold comprehend. unfold mbind at 1, prim. cbn [Model_Eval.iter python fst snd]. rewrite Hi.
    unfold mbind at 1, prim1. cbn [start python fst snd]. unfold mbind at 1.
    rewrite (comp_pushes _ _ _ _ HF). unfold done. destruct (pushes _ _ _); reflexivity.
  Qed.
  Lemma yields_body k co e x ys : yields call getattr args co e x ys -> forall acc s,
    whenM pr (fun c => den c x) co (mbind (mapM (fun c => den c x) [e]) (fun vs => prim (push pr k acc vs))) (ret acc) s
    = done k acc (map (fun y => [y]) ys) s.
  Proof.
    intros H acc s.
    assert (HB : forall y, gives e x y -> mbind (mapM (fun c => den c x) [e]) (fun vs => prim (push pr k acc vs)) s
              = done k acc [[y]] s).
    { intros y Hy. cbn [mapM]. unfold mbind at 1 2. rewrite (Hy s). destruct s. unfold done. cbn.
      destruct (py_push k acc [y]); reflexivity. }
    inversion H; subst.
    - inversion H0; subst; cbn [whenM]; [now apply HB|]. rewrite (gives_then _ _ b) by auto. rewrite truth_then. destruct (truthy b); [now apply HB|discriminate].
    - inversion H0; subst; cbn [whenM]. rewrite (gives_then _ _ b) by auto. rewrite truth_then. destruct (truthy b); [discriminate|reflexivity].
  Qed.
  Lemma yields2_body k co ek ev x ys : yields2 call getattr args co ek ev x ys -> forall acc s,
    whenM pr (fun c => den c x) co (mbind (mapM (fun c => den c x) [ek; ev]) (fun vs => prim (push pr k acc vs))) (ret acc) s
    = done k acc (map (fun p => [fst p; snd p]) ys) s.
  Proof.
    intros H acc s.
    assert (HB : forall y z, gives ek x y -> gives ev x z ->
       mbind (mapM (fun c => den c x) [ek; ev]) (fun vs => prim (push pr k acc vs)) s = done k acc [[y; z]] s).
    { intros y z Hy Hz. cbn [mapM]. unfold mbind at 1 2. rewrite (Hy s). unfold mbind at 1 2. rewrite (Hz s).
      destruct s. unfold done. cbn [pushes]. change (mbind (ret []) (fun vs => ret (z :: vs))) with (@ret val W exc _ [z]).
      unfold mbind, ret, prim. cbn [push python fst snd].
      destruct (py_push k acc [y; z]); reflexivity. }
    inversion H; subst.
    - inversion H0; subst; cbn [whenM]; [now apply HB|]. rewrite (gives_then _ _ b0) by auto. rewrite truth_then. destruct (truthy b0); [now apply HB|discriminate].
    - inversion H0; subst; cbn [whenM]. rewrite (gives_then _ _ b) by auto. rewrite truth_then. destruct (truthy b); [discriminate|reflexivity].
  Qed.
  Lemma concat_map_map {B C} (f : B -> C) l : concat (map (map f) l) = map f (concat l).
  Proof. symmetry. apply concat_map. Qed.
  Lemma comp_den k co e v xs yss : items_of v = Ok xs -> Forall2 (yields call getattr args co e) xs yss ->
    forall s, den (CComp k [e] co) v s =
      (s, of_res (pushes k (match k with KList | KSrc | KSrcPair => VList [] | KTuple => VTuple []
                     | KSet => VSet [] | KDict => VDict [] end) (map (fun y => [y]) (concat yss)))).
  Proof.
    intros Hi HF s. cbn [Spec_Eval.den]. rewrite <- concat_map_map. apply (comprehend_ok _ k v xs); auto.
    clear Hi. induction HF; cbn [map]; constructor; auto. intros acc t. now apply yields_body.
  Qed.
  Lemma comp2_den k co ek ev v xs yss : items_of v = Ok xs -> Forall2 (yields2 call getattr args co ek ev) xs yss ->
    forall s, den (CComp k [ek; ev] co) v s =
      (s, of_res (pushes k (match k with KList | KSrc | KSrcPair => VList [] | KTuple => VTuple []
                     | KSet => VSet [] | KDict => VDict [] end) (map (fun p => [fst p; snd p]) (concat yss)))).
  Proof.
    intros Hi HF s. cbn [Spec_Eval.den]. rewrite <- concat_map_map. apply (comprehend_ok _ k v xs); auto.
    clear Hi. induction HF; cbn [map]; constructor; auto. intros acc t. now apply yields2_body.
  Qed.

  (** sorting *)
  Lemma keys_ok_of k key xs : keyfun call k key xs -> forall w,
    keys_of call (match k with NoKey => VNone | Key g => VObj g end) xs w = (w, Val (keyed key xs)).
  Proof.
    intros Hk w. induction xs as [|x xs IH]; [reflexivity|].
    assert (Hk' : keyfun call k key xs) by (destruct k; cbn in *; intros; apply Hk; now right).
    specialize (IH Hk'). cbn [keys_of]. destruct k; cbn in Hk.
    - rewrite IH. unfold keyed. cbn [map]. rewrite (Hk x (or_introl eq_refl)). reflexivity.
    - rewrite Hk by now left. rewrite IH. reflexivity.
  Qed.
  Lemma sorted_ok k key rv src xs : items_of src = Ok xs -> keyfun call k key xs -> ordered (map key xs) ->
    exists ys, sorted_by key rv xs ys /\
      forall w, py_sorted call src (match k with NoKey => VNone | Key g => VObj g end) (VBool rv) w = (w, Val ys).
  Proof.
    intros Hi Hk Ho. destruct (sort_pairs_ok key rv xs Ho) as (ys & E & S). exists ys. split; auto.
    intros w. unfold py_sorted. rewrite Hi, (keys_ok_of k key xs Hk). cbn [truthy]. now rewrite E.
  Qed.
  Definition pairv (p : val * val) : val := VTuple [fst p; snd p].
  Lemma pair_list_ok ps : pair_list (map pairv ps) = Ok (flat_map (fun p => [fst p; snd p]) ps).
  Proof. induction ps as [|p ps IH]; [reflexivity|]. unfold pair_list in *. cbn [map fold_right]. rewrite IH. reflexivity. Qed.
  Lemma perm_pairs ps ys : Permutation (map pairv ps) ys -> exists qs, ys = map pairv qs /\ Permutation ps qs.
  Proof.
    intros H. destruct (Permutation_map_inv pairv ps (Permutation_sym H)) as (qs & -> & Hq).
    exists qs. split; auto.
  Qed.
  Lemma op3_den o src k rv u v s : den src v s = (s, Val u) ->
    den (COp o [src; key_code k; CLit (LBool rv)]) v s =
    prim (py_op call getattr o [u; match k with NoKey => VNone | Key g => VObj g end; VBool rv]) s.
  Proof. intros H. cbn [Spec_Eval.den mapM]. unfold mbind at 1 2. rewrite H. destruct k; reflexivity. Qed.
  Lemma sorted_den o src k rv xs ys v s : den src v s = (s, Val (VList xs)) ->
    (forall w, py_sorted call (VList xs) (match k with NoKey => VNone | Key g => VObj g end) (VBool rv) w = (w, Val ys)) ->
    den (COp o [src; key_code k; CLit (LBool rv)]) v s =
    match o with
    | OSortedList => (s, Val (VList ys))
    | OSortedTuple => (s, Val (VTuple ys))
    | OSortedDict => (s, of_res (do l2 <- pair_list ys; do d <- build_dict l2 []; Ok (VDict d)))
    | _ => den (COp o [src; key_code k; CLit (LBool rv)]) v s
    end.
  Proof.
    intros H Hs. destruct o; try reflexivity; rewrite (op3_den _ src k rv _ v s H);
      destruct s as [w L]; unfold prim, py_op; cbn [fst snd]; rewrite Hs; reflexivity.
  Qed.
End E.
