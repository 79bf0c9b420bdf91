(** Properties C28, C29, C30, C31, C35. *)
From Coq Require Import String List ZArith Bool Lia.
From Verif Require Import Model_PyVal Proofs_PyVal Model_Reducers Spec_Reducers Proofs_Reducers Proofs_DictReducers.
Import ListNotations.
Local Open Scope Z_scope.

(** ** C28 *)
Theorem C28_sum : forall (Row : Type) (f g : Row -> val) (rows : list Row),
  (forall r, In r rows -> number (f r) <> None \/ truthy (f r) = false) ->
  exists v, outcome Sum f g rows = Ok (Some v) /\ as_int v = Some (total (map f rows)).
Proof.
  intros Row f g rows H. unfold outcome, reduce_rows. destruct rows as [|r rows].
  - simpl. eauto.
  - rewrite run_cons, step_plain. cbn [init_stmt bind].
    destruct (sum_run f g rows _ _ (addend_or_zero _ (H r (or_introl eq_refl)))) as (v & -> & Hv).
    { intros; apply H; right; auto. }
    simpl. eexists; split; eauto.
Qed.

Theorem C28_sum_or_none : forall (Row : Type) (f g : Row -> val) (rows : list Row),
  (forall r, In r rows -> number (f r) <> None) ->
  ((rows = [] \/ exists r, In r rows /\ f r = VNone) -> outcome SumOrNone f g rows = Ok (Some VNone)) /\
  (rows <> [] -> (forall r, In r rows -> f r <> VNone) ->
   exists v, outcome SumOrNone f g rows = Ok (Some v) /\ as_int v = Some (total (map f rows))).
Proof.
  intros Row f g rows H. unfold outcome, reduce_rows. destruct rows as [|r rows].
  - split; [auto|congruence].
  - assert (H' : forall x, In x rows -> number (f x) <> None) by (intros; apply H; right; auto).
    destruct (number (f r)) as [z|] eqn:N; [|destruct (H r); simpl; auto].
    rewrite run_cons, step_plain. cbn [init_stmt bind]. split.
    + intros [Q|(x & Hx & Ex)]; [discriminate|].
      destruct (as_int (f r)) as [z'|] eqn:A.
      * destruct Hx as [->|Hx]; [rewrite Ex in A; discriminate|].
        destruct (sum_or_none_run f g rows _ _ A H') as (v & -> & Hv).
        assert (existsb is_none (map f rows) = true) as Q.
        { apply existsb_exists. exists (f x). rewrite Ex. split; auto. rewrite <- Ex. apply in_map; auto. }
        rewrite Q in Hv. subst. auto.
      * destruct (f r); try discriminate. rewrite sum_or_none_run_none; auto.
    + intros _ Q. assert (A : as_int (f r) = Some z).
      { destruct (f r) eqn:E; try discriminate; auto. destruct (Q r); simpl; auto. }
      destruct (sum_or_none_run f g rows _ _ A H') as (v & -> & Hv).
      assert (existsb is_none (map f rows) = false) as Q'.
      { apply not_true_is_false. intros B. apply existsb_exists in B as (w & Hw & Ew).
        apply in_map_iff in Hw as (x & <- & Hx). apply (Q x); simpl; auto. destruct (f x); auto; discriminate. }
      rewrite Q' in Hv. exists v. split; auto. rewrite Hv. simpl. rewrite (total_cons _ _ z N). auto.
Qed.

Theorem C28_count : forall (Row : Type) (f g : Row -> val) (rows : list Row),
  outcome Count f g rows = Ok (Some (VInt (Z.of_nat (length rows)))).
Proof.
  intros. unfold outcome, reduce_rows. destruct rows as [|r rows]; auto.
  rewrite run_cons, step_plain. cbn [init_stmt bind]. rewrite count_run.
  replace (1 + Z.of_nat (length rows)) with (Z.of_nat (length (r :: rows))) by (simpl length; lia). reflexivity.
Qed.

Theorem C28_count_distinct : forall (Row : Type) (f g : Row -> val) (rows : list Row),
  (forall r, In r rows -> hashable (f r) = true) ->
  outcome CountDistinct f g rows = Ok (Some (VInt (Z.of_nat (length (distinct (map f rows)))))).
Proof.
  intros Row f g rows H. unfold outcome, reduce_rows. destruct rows as [|r rows]; auto.
  rewrite run_cons, step_plain. cbn [init_stmt bind]. unfold need_hash. rewrite H by (left; auto). cbn [bind].
  rewrite count_distinct_run by (intros; apply H; right; auto).
  replace (fold_left vadd (map f rows) [f r]) with (fold_left vadd (map f (r :: rows)) []) by auto.
  rewrite fold_vadd_nil; [reflexivity|].
  intros x Hx. apply in_map_iff in Hx as (y & <- & Hy). apply H; auto.
Qed.

(** What [distinct] means: the listed values are pairwise different and
    every value occurs among them. *)
Theorem C28_distinct_spec : forall l, (forall x, In x l -> hashable x = true) ->
  (forall x, In x l -> exists y, In y (distinct l) /\ py_eq y x = true) /\
  (forall d1 x d2, distinct l = d1 ++ x :: d2 -> forall y, In y (d1 ++ d2) -> py_eq y x = false).
Proof.
  intros l H. split.
  - intros x Hx. assert (M : vmem (distinct l) x = true).
    { rewrite vmem_distinct by auto. apply existsb_exists. exists x. split; auto. apply py_eq_refl; auto. }
    apply existsb_exists in M. auto.
  - intros. eapply distinct_pairwise; eauto.
Qed.

Example C28_case :
  let rows := [VInt 3; VNone; VBool true; VInt 1] in
  (forall r, In r rows -> number r <> None) /\
  outcome Sum (fun r => r) (fun r => r) rows = Ok (Some (VInt 5)) /\
  outcome SumOrNone (fun r => r) (fun r => r) rows = Ok (Some VNone) /\
  outcome CountDistinct (fun r => r) (fun r => r) rows = Ok (Some (VInt 3)) /\
  outcome Count (fun r => r) (fun r => r) rows = Ok (Some (VInt 4)).
Proof.
  cbn zeta. split; [|repeat split].
  intros r [<-|[<-|[<-|[<-|[]]]]]; discriminate.
Qed.

(** ** C29 *)
Theorem C29_max_min : forall (Row : Type) (f g : Row -> val) (rows : list Row),
  ordered (filter (fun v => negb (is_none v)) (map f rows)) ->
  exists rmax rmin rmaxrow rminrow,
    outcome Max f g rows = Ok (Some rmax) /\ outcome Min f g rows = Ok (Some rmin) /\
    outcome MaxRow f g rows = Ok (Some rmaxrow) /\ outcome MinRow f g rows = Ok (Some rminrow) /\
    ((forall r, In r rows -> f r = VNone) -> rmax = VNone /\ rmin = VNone /\ rmaxrow = VNone /\ rminrow = VNone) /\
    ((exists r, In r rows /\ f r <> VNone) ->
      exists x y, first_max f rows x /\ first_min f rows y /\
        rmax = f x /\ rmin = f y /\ rmaxrow = g x /\ rminrow = g y).
Proof.
  intros Row f g rows O. unfold outcome, reduce_rows.
  destruct (best_spec f py_lt rows [] None) as (mx & Bx & Sx); [exact O|intros ? []|].
  destruct (best_spec f (fun a b => py_lt b a) rows [] None) as (mn & Bn & Sn); [apply ordered_flip; exact O|intros ? []|].
  pose proof (max_run f g rows None) as R1. pose proof (min_run f g rows None) as R2.
  pose proof (maxrow_run f g rows None) as R3. pose proof (minrow_run f g rows None) as R4.
  simpl in R1, R2, R3, R4. rewrite R1, R2, R3, R4, Bx, Bn. cbn [bind]. simpl in Sx, Sn.
  exists (match mx with Some x => f x | None => VNone end), (match mn with Some x => f x | None => VNone end),
         (match mx with Some x => g x | None => VNone end), (match mn with Some x => g x | None => VNone end).
  split; [destruct mx; reflexivity|]. split; [destruct mn; reflexivity|].
  split; [destruct mx; reflexivity|]. split; [destruct mn; reflexivity|]. split.
  - intros H. destruct mx as [x|].
    { destruct Sx as (b & a & -> & N & _). destruct N. apply H. apply in_or_app; simpl; auto. }
    destruct mn as [x|]; auto.
    { destruct Sn as (b & a & -> & N & _). destruct N. apply H. apply in_or_app; simpl; auto. }
  - intros (r & Hr & N). destruct mx as [x|]; [|destruct N; auto]. destruct mn as [y|]; [|destruct N; auto].
    exists x, y. repeat split; auto.
Qed.

(** Numbers are ordered, and so are strings. *)
Theorem C29_numbers_and_strings_are_ordered : forall l,
  (forall x, In x l -> as_int x <> None) \/ (forall x, In x l -> exists s, x = VStr s) -> ordered l.
Proof. intros l [H|H]; [apply ints_ordered|apply strs_ordered]; auto. Qed.

Example C29_case :
  let rows := [(VNone, VInt 0); (VInt 5, VInt 1); (VInt 7, VInt 2); (VInt 7, VInt 3); (VInt (-1), VInt 4)] in
  ordered (filter (fun v => negb (is_none v)) (map fst rows)) /\
  outcome MaxRow fst snd rows = Ok (Some (VInt 2)) /\ outcome Min fst snd rows = Ok (Some (VInt (-1))).
Proof.
  cbn zeta. split; [|split; reflexivity]. apply ints_ordered.
  intros x [<-|[<-|[<-|[<-|[]]]]]; discriminate.
Qed.

(** ** C30 *)
Theorem C30_sequences : forall (Row : Type) (f g : Row -> val) (rows : list Row),
  outcome First f g rows = Ok (Some (hd VNone (map f rows))) /\
  outcome Last f g rows = Ok (Some (last (map f rows) VNone)) /\
  outcome Array f g rows = Ok (Some (if rows then VNone else VList (map f rows))) /\
  ((forall r, In r rows -> hashable (f r) = true) ->
   outcome ArrayDistinct f g rows = Ok (Some (if rows then VNone else VList (distinct (map f rows))))).
Proof.
  intros Row f g rows. unfold outcome, reduce_rows. destruct rows as [|r rows].
  { repeat split; auto. }
  rewrite !run_cons, !step_plain. cbn [init_stmt bind].
  rewrite first_run, last_run, array_run. cbn [bind]. split; [reflexivity|]. split; [|split; [reflexivity|]].
  - simpl. destruct rows; auto. cbn [map]. do 2 f_equal.
    set (l := map f rows). generalize (f r0). clear. induction l; intros; simpl in *; auto.
  - intros H. unfold need_hash. rewrite H by (left; auto). cbn [bind].
    change (VDict [(f r, VNone)]) with (VDict (map (fun k => (k, VNone)) [f r])).
    rewrite array_distinct_run by (intros; apply H; right; auto). simpl.
    rewrite map_map, map_id.
    replace (fold_left vadd (map f rows) [f r]) with (fold_left vadd (map f (r :: rows)) []) by auto.
    rewrite fold_vadd_nil; [reflexivity|].
    intros x Hx. apply in_map_iff in Hx as (y & <- & Hy). apply H; auto.
Qed.
Example C30_case :
  let rows := [VInt 2; VStr "a"; VBool true; VInt 1; VInt 2] in
  (forall r, In r rows -> hashable r = true) /\
  outcome ArrayDistinct (fun r => r) (fun r => r) rows = Ok (Some (VList [VInt 2; VStr "a"; VBool true])) /\
  outcome Last (fun r => r) (fun r => r) rows = Ok (Some (VInt 2)).
Proof. cbn zeta. split; [intros r [<-|[<-|[<-|[<-|[<-|[]]]]]]; reflexivity|split; reflexivity]. Qed.

(** ** C31 *)
Section Dict_proofs.
  Context {Row : Type}.
  Variables key value : Row -> val.

  Definition post_spec (D b : builtin) (Rel : val -> val -> Prop) : Prop :=
    forall d, (forall kv, In kv d -> exists c, Rel (snd kv) c) ->
      exists d', post_of D (VDict d) = Ok (VDict d') /\
        Forall2 (fun kv kv' => fst kv' = fst kv /\
                   forall c, Rel (snd kv) c -> exists w, post_of b c = Ok w /\ same_value (snd kv') w) d d'.

  Lemma post_id D b (Rel : val -> val -> Prop) :
    (forall d, post_of D (VDict d) = Ok (VDict d)) ->
    (forall v c, Rel v c -> exists w, post_of b c = Ok w /\ same_value v w) ->
    post_spec D b Rel.
  Proof.
    intros HD HR d _. exists d. split; auto. induction d; constructor; auto.
  Qed.

  Lemma finish_dict D b (Rel : val -> val -> Prop) rows :
    post_spec D b Rel ->
    (exists d, run_alone (plain D key value) None rows = Ok (Some (VDict d)) /\ good key value b Rel rows d) ->
    exists d, outcome D key value rows = Ok (Some (VDict d)) /\
      map fst d = distinct (map key rows) /\
      forall k v, In (k, v) d -> exists w,
        outcome b value value (rows_of key k rows) = Ok (Some w) /\ same_value v w.
  Proof.
    intros P (d & E & K & F). rewrite Forall_forall in F.
    destruct (P d) as (d' & E' & F2).
    { intros kv Hkv. destruct (F kv Hkv) as (c & _ & R). eauto. }
    exists d'. unfold outcome, reduce_rows. rewrite E. simpl. rewrite E'. split; auto. split.
    - rewrite <- K. clear - F2. induction F2 as [|x y l m (Hxy & _) _ IH]; simpl; congruence.
    - intros k v Hin. clear K E'.
      assert (exists kv, In kv d /\ fst kv = k /\
        forall c, Rel (snd kv) c -> exists w, post_of b c = Ok w /\ same_value v w) as (kv & Hkv & <- & Hc).
      { clear - F2 Hin. induction F2 as [|x y l m (Hxy & G) _ IH]; [destruct Hin|].
        destruct Hin as [->|Hin]; [|destruct (IH Hin) as (kv & ? & ?); exists kv; simpl; auto].
        exists x. simpl in *. auto. }
      destruct (F kv Hkv) as (c & Rc & R). rewrite Rc. simpl. destruct (Hc c R) as (w & -> & S). simpl. eauto.
  Qed.

  Lemma fold_right_ext {A B} (f g : A -> B -> B) i l :
    (forall a x, f a x = g a x) -> fold_right f i l = fold_right g i l.
  Proof. intros H. induction l; simpl; auto. rewrite IHl; auto. Qed.
  Lemma post_fold D e (sel : val -> option val) :
    (forall d, post_of D (VDict d) = bind (fold_right (fun kv r => do r' <- r;
        match sel (snd kv) with Some x => Ok ((fst kv, x) :: r') | None => Err e end) (Ok []) d) (fun d' => Ok (VDict d'))) ->
    forall b (Rel : val -> val -> Prop), (forall v c, Rel v c -> exists x w, sel v = Some x /\ post_of b c = Ok w /\ same_value x w) ->
    post_spec D b Rel.
  Proof.
    intros HD b Rel HR d Hd.
    enough (exists d', fold_right (fun kv r => do r' <- r;
        match sel (snd kv) with Some x => Ok ((fst kv, x) :: r') | None => Err e end) (Ok []) d = Ok d' /\
        Forall2 (fun kv kv' => fst kv' = fst kv /\
                   forall c, Rel (snd kv) c -> exists w, post_of b c = Ok w /\ same_value (snd kv') w) d d') as (d' & E & F).
    { exists d'. rewrite HD, E. auto. }
    clear HD. induction d as [|[k v] d IH]; simpl.
    - exists []. auto.
    - destruct IH as (d' & -> & F); [intros; apply Hd; right; auto|]. simpl.
      destruct (Hd (k, v) (or_introl eq_refl)) as (c & Rc). simpl in Rc.
      destruct (HR v c Rc) as (x & w & Ex & _). rewrite Ex.
      exists ((k, x) :: d'). split; auto. constructor; auto. simpl. split; auto.
      intros c' Rc'. destruct (HR v c' Rc') as (x' & w' & Ex' & Ew & S). assert (x' = x) by congruence. subst. eauto.
  Qed.
End Dict_proofs.

Ltac fin := cbn [bind] in *; eauto.
Ltac hk := unfold need_hash; repeat match goal with H : hashable ?k = true |- context [hashable ?k] => rewrite H end; cbn [bind].

Theorem C31_dict_reducers_per_key :
  forall (Row : Type) (key value : Row -> val) (D b : builtin) (rows : list Row),
  plain_of D = Some b ->
  (forall r, In r rows -> hashable (key r) = true) ->
  values_ok D (map value rows) ->
  (relevant D value rows = [] -> outcome D key value rows = Ok (Some VNone)) /\
  (relevant D value rows <> [] ->
   exists d, outcome D key value rows = Ok (Some (VDict d)) /\
     map fst d = distinct (map key (relevant D value rows)) /\
     forall k v, In (k, v) d -> exists w,
       outcome b value value (rows_of key k rows) = Ok (Some w) /\ same_value v w).
Proof.
  intros Row key value D b rows HD Hk Hv.
  assert (skip : forall b' (keep : Row -> bool) f g,
    (forall c r, keep r = false -> step_alone (plain b' f g) c r = Ok c) ->
    forall rows, outcome b' f g rows = outcome b' f g (filter keep rows)).
  { intros b' keep f g Hs rs. unfold outcome, reduce_rows. rewrite (run_skip f g b' keep Hs rs). auto. }
  assert (lift : forall (Rel : val -> val -> Prop) (Pv : val -> Prop),
    (forall r, In r (relevant D value rows) -> Pv (value r)) ->
    (forall k x y, hashable k = true -> Pv x ->
      exists v c, init_stmt D (Ok k) (Ok x) = Ok (Some (VDict [(k, v)])) /\
                init_stmt b (Ok x) (Ok y) = Ok (Some c) /\ Rel v c) ->
    (forall d k x y, hashable k = true -> Pv x -> dfind d k = None ->
      exists v c, reduce_stmt D (Ok (VDict d)) (Some (VDict d)) (Ok k) (Ok x) = Ok (Some (VDict (dput d k v))) /\
                init_stmt b (Ok x) (Ok y) = Ok (Some c) /\ Rel v c) ->
    (forall d k x y v c, hashable k = true -> Pv x -> dfind d k = Some v -> Rel v c ->
      exists v' c', reduce_stmt D (Ok (VDict d)) (Some (VDict d)) (Ok k) (Ok x) = Ok (Some (VDict (dput d k v'))) /\
                reduce_stmt b (Ok c) (Some c) (Ok x) (Ok y) = Ok (Some c') /\ Rel v' c') ->
    post_spec D b Rel ->
    relevant D value rows <> [] ->
    exists d, outcome D key value (relevant D value rows) = Ok (Some (VDict d)) /\
     map fst d = distinct (map key (relevant D value rows)) /\
     forall k v, In (k, v) d -> exists w,
       outcome b value value (rows_of key k (relevant D value rows)) = Ok (Some w) /\ same_value v w).
  { intros Rel Pv HP H1 H2 H3 H4 Hne. eapply finish_dict; eauto.
    eapply (gen_all key value D b Rel Pv); eauto.
    intros x Hx. split; auto. apply Hk. destruct D; auto; apply filter_In in Hx; tauto. }
  assert (Hval : forall r, In r rows -> In (value r) (map value rows)) by (intros; apply in_map; auto).
  destruct D; try discriminate HD; injection HD as <-; cbn [relevant values_ok] in *;
    (split; [intros E|intros Hne]).
  - (* Dict *) subst; reflexivity.
  - apply (lift eq (fun _ => True)); auto.
    + intros k x y H _. exists x, x. simpl. hk. auto.
    + intros d k x y H _ _. exists x, x. simpl. hk. auto.
    + intros d k x y v c H _ _ _. exists x, x. simpl. hk. auto.
    + apply post_id; auto. intros v c ->. exists c. split; auto. left; auto.
  - (* DictArray *) subst; reflexivity.
  - apply (lift (fun v c => v = c /\ exists l, v = VList l) (fun _ => True)); auto.
    + intros k x y H _. exists (VList [x]), (VList [x]). simpl. hk. eauto 6.
    + intros d k x y H _ F. exists (VList [x]), (VList [x]). simpl. hk. simpl. rewrite ?F. simpl. hk. eauto 6.
    + intros d k x y v c H _ F (<- & l & ->). exists (VList (l ++ [x])), (VList (l ++ [x])). simpl. hk. simpl. rewrite ?F. simpl. hk. simpl. eauto 6.
    + apply post_id; auto. intros v c (<- & _). exists v. split; auto. left; auto.
  - (* DictArrayDistinct *) subst; reflexivity.
  - apply (lift (fun v c => v = c /\ exists l, v = VDict l) (fun v => hashable v = true)); auto.
    + intros k x y H Hx. exists (VDict [(x, VNone)]), (VDict [(x, VNone)]). simpl. hk. simpl. eauto 6.
    + intros d k x y H Hx F. exists (VDict [(x, VNone)]), (VDict [(x, VNone)]). simpl. hk. simpl. rewrite ?F. simpl. hk. simpl. eauto 6.
    + intros d k x y v c H Hx F (<- & l & ->). exists (VDict (dput l x VNone)), (VDict (dput l x VNone)). simpl.
      hk. simpl. rewrite ?F. simpl. hk. simpl. eauto 6.
    + apply (post_fold _ AttributeError (fun v => match v with VDict l => Some (VList (map fst l)) | _ => None end)).
      * intros d. cbn [post_of]. f_equal. apply fold_right_ext. intros kv [r'|]; simpl; auto. destruct (snd kv); auto.
      * intros v c (<- & l & ->). exists (VList (map fst l)), (VList (map fst l)). simpl. repeat split; auto. left; auto.
  - (* DictSum *) subst; reflexivity.
  - apply (lift (fun v c => exists z, as_int v = Some z /\ as_int c = Some z)
                (fun v => number v <> None \/ truthy v = false)); auto.
    + intros k x y H Hx. pose proof (addend_or_zero x Hx) as A.
      exists (VInt (0 + addend x)), (py_or x (VInt 0)). cbn [init_stmt bind]. hk. cbn [bind].
      rewrite (py_add_int (VInt 0) _ 0 _ eq_refl A). simpl. eauto 6.
    + intros d k x y H Hx F. pose proof (addend_or_zero x Hx) as A.
      exists (VInt (0 + addend x)), (py_or x (VInt 0)). cbn [reduce_stmt init_stmt bind lookup_default]. hk. cbn [bind]. rewrite ?F.
      rewrite (py_add_int (VInt 0) _ 0 _ eq_refl A). simpl. hk. simpl. eauto 6.
    + intros d k x y v c H Hx F (z & Hv' & Hc). pose proof (addend_or_zero x Hx) as A.
      exists (VInt (z + addend x)), (VInt (z + addend x)). cbn [reduce_stmt bind lookup_default iadd]. hk. cbn [bind]. rewrite ?F.
      rewrite (py_add_int v _ z _ Hv' A), (py_add_int c _ z _ Hc A). simpl. hk. simpl. eauto 6.
    + apply post_id; auto. intros v c (z & ? & ?). exists c. split; auto. right; eauto.
  - (* DictSumOrNone *) subst; reflexivity.
  - apply (lift (fun v c => (v = VNone /\ c = VNone) \/ exists z, as_int v = Some z /\ as_int c = Some z)
                (fun v => number v <> None)); auto.
    + intros k x y H Hx. exists x, x. simpl. hk. split; auto. split; auto.
      destruct x; simpl in *; eauto; congruence.
    + intros d k x y H Hx F. simpl. hk. destruct (is_none x) eqn:N.
      * destruct x; try discriminate. exists VNone, VNone. auto.
      * destruct (as_int x) as [z|] eqn:A; [|destruct x; simpl in *; congruence].
        exists (VInt (0 + z)), x. cbn [bind lookup_default]. hk. cbn [bind]. rewrite ?F. cbn [is_none].
        rewrite (py_add_int (VInt 0) x 0 _ eq_refl A). cbn [bind set_item]. hk. cbn [bind]. simpl; eauto 8.
    + intros d k x y v c H Hx F R. simpl. hk. destruct (is_none x) eqn:N.
      * exists VNone, VNone. cbn [bind]. auto.
      * destruct (as_int x) as [z|] eqn:A; [|destruct x; simpl in *; congruence].
        cbn [bind lookup_default]. hk. cbn [bind]. rewrite ?F.
        destruct R as [(-> & ->)|(z' & Av & Ac)].
        -- exists VNone, VNone. cbn [is_none]. rewrite dput_same by auto. auto.
        -- exists (VInt (z' + z)), (VInt (z' + z)).
           rewrite (py_add_int _ x _ _ Av A), (py_add_int _ x _ _ Ac A).
           assert (is_none v = false) as -> by (destruct v; auto; discriminate).
           assert (is_none c = false) as -> by (destruct c; auto; discriminate).
           cbn [bind set_item]. hk. cbn [bind as_int]. eauto 8.
    + apply post_id; auto. intros v c [(-> & ->)|?]; [exists VNone|exists c]; (split; [auto|]); [left|right]; auto.
  - (* DictMax *)
    rewrite (skip DictMax (fun r => negb (is_none (value r)))), E; auto.
    intros c r K. rewrite step_plain. destruct (is_none (value r)) eqn:N; [|discriminate].
    destruct c; simpl; rewrite N; auto.
  - rewrite (skip DictMax (fun r => negb (is_none (value r)))).
    2:{ intros c r K. rewrite step_plain. destruct (is_none (value r)) eqn:N; [|discriminate].
        destruct c; simpl; rewrite N; auto. }
    destruct (lift (fun v c => v = c /\ In v (map value rows) /\ v <> VNone)
                   (fun v => In v (map value rows) /\ v <> VNone)) as (d & E1 & E2 & E3); auto.
    + intros r Hr. apply filter_In in Hr as (Hr & N). split; auto. destruct (value r); discriminate || congruence.
    + intros k x y H (Hin & N). exists x, x. simpl. destruct x; try congruence; cbn [is_none bind]; hk; auto.
    + intros d k x y H (Hin & N) F. exists x, x. simpl.
      assert (is_none x = false) as -> by (destruct x; auto; congruence).
      hk. simpl. rewrite ?F. simpl. hk. auto.
    + intros d k x y v c H (Hin & N) F (<- & Iv & Nv). simpl.
      assert (is_none x = false) as -> by (destruct x; auto; congruence).
      hk. simpl. rewrite ?F. simpl. hk. simpl. rewrite ?F. simpl.
      destruct (Hv v x Iv Hin Nv N) as ([|] & ->); simpl.
      * exists x, x. hk. auto.
      * exists v, v. rewrite dput_same by auto. auto.
    + apply post_id; auto. intros v c (<- & _). exists v. split; auto. left; auto.
    + exists d. split; auto. split; auto. intros k v Hkv. destruct (E3 k v Hkv) as (w & Ew & S). exists w. split; auto.
      rewrite <- Ew. rewrite (skip Max (fun r => negb (is_none (value r)))).
      * f_equal. unfold rows_of. clear. induction rows as [|r rows IH]; simpl; auto.
        destruct (py_eq k (key r)) eqn:Q; destruct (is_none (value r)) eqn:N; simpl; rewrite ?Q, ?N; simpl; rewrite ?IH; auto.
      * intros c r K. rewrite step_plain. destruct (is_none (value r)) eqn:N; [|discriminate]. destruct c; simpl; rewrite N; auto.
  - (* DictMin *)
    rewrite (skip DictMin (fun r => negb (is_none (value r)))), E; auto.
    intros c r K. rewrite step_plain. destruct (is_none (value r)) eqn:N; [|discriminate].
    destruct c; simpl; rewrite N; auto.
  - rewrite (skip DictMin (fun r => negb (is_none (value r)))).
    2:{ intros c r K. rewrite step_plain. destruct (is_none (value r)) eqn:N; [|discriminate].
        destruct c; simpl; rewrite N; auto. }
    destruct (lift (fun v c => v = c /\ In v (map value rows) /\ v <> VNone)
                   (fun v => In v (map value rows) /\ v <> VNone)) as (d & E1 & E2 & E3); auto.
    + intros r Hr. apply filter_In in Hr as (Hr & N). split; auto. destruct (value r); discriminate || congruence.
    + intros k x y H (Hin & N). exists x, x. simpl. destruct x; try congruence; cbn [is_none bind]; hk; auto.
    + intros d k x y H (Hin & N) F. exists x, x. simpl.
      assert (is_none x = false) as -> by (destruct x; auto; congruence).
      hk. simpl. rewrite ?F. simpl. hk. auto.
    + intros d k x y v c H (Hin & N) F (<- & Iv & Nv). simpl.
      assert (is_none x = false) as -> by (destruct x; auto; congruence).
      hk. simpl. rewrite ?F. simpl. hk. simpl. rewrite ?F. simpl.
      destruct (Hv x v Hin Iv N Nv) as ([|] & ->); simpl.
      * exists x, x. hk. auto.
      * exists v, v. rewrite dput_same by auto. auto.
    + apply post_id; auto. intros v c (<- & _). exists v. split; auto. left; auto.
    + exists d. split; auto. split; auto. intros k v Hkv. destruct (E3 k v Hkv) as (w & Ew & S). exists w. split; auto.
      rewrite <- Ew. rewrite (skip Min (fun r => negb (is_none (value r)))).
      * f_equal. unfold rows_of. clear. induction rows as [|r rows IH]; simpl; auto.
        destruct (py_eq k (key r)) eqn:Q; destruct (is_none (value r)) eqn:N; simpl; rewrite ?Q, ?N; simpl; rewrite ?IH; auto.
      * intros c r K. rewrite step_plain. destruct (is_none (value r)) eqn:N; [|discriminate]. destruct c; simpl; rewrite N; auto.
  - (* DictCount *) subst; reflexivity.
  - apply (lift (fun v c => v = c /\ exists n, v = VInt n) (fun _ => True)); auto.
    + intros k x y H _. exists (VInt 1), (VInt 1). simpl. hk. eauto 6.
    + intros d k x y H _ F. exists (VInt 1), (VInt 1). simpl. hk. simpl. rewrite ?F. simpl. hk. eauto 6.
    + intros d k x y v c H _ F (<- & n & ->). exists (VInt (n + 1)), (VInt (n + 1)). simpl. hk. simpl. rewrite ?F.
      simpl. hk. simpl. rewrite ?F. simpl. hk. eauto 6.
    + apply post_id; auto. intros v c (<- & _). exists v. split; auto. left; auto.
  - (* DictCountDistinct *) subst; reflexivity.
  - apply (lift (fun v c => v = c /\ exists l, v = VSet l /\ l <> []) (fun v => hashable v = true)); auto.
    + intros k x y H Hx. exists (VSet [x]), (VSet [x]). simpl. hk. simpl.
      split; auto. split; auto. split; auto. exists [x]. split; auto. discriminate.
    + intros d k x y H Hx F. exists (VSet [x]), (VSet [x]). simpl. hk. simpl. rewrite ?F. simpl.
      hk. split; auto. split; auto. split; auto. exists [x]. split; auto. discriminate.
    + intros d k x y v c H Hx F (<- & l & -> & Hl). exists (VSet (vadd l x)), (VSet (vadd l x)). simpl.
      hk. simpl. rewrite ?F. simpl. hk. simpl. rewrite ?F. simpl.
      split; auto. split; auto. split; auto. exists (vadd l x). split; auto. unfold vadd. destruct (vmem l x); auto.
      destruct l; discriminate.
    + apply (post_fold _ TypeError (fun v => match v with VSet l => Some (VInt (Z.of_nat (length l))) | _ => None end)).
      * intros d. cbn [post_of]. f_equal. apply fold_right_ext. intros kv [r'|]; simpl; auto. destruct (snd kv); auto.
      * intros v c (<- & l & -> & Hl). destruct l as [|x l]; [congruence|].
        exists (VInt (Z.of_nat (length (x :: l)))), (VInt (Z.of_nat (length (x :: l)))).
        split; auto. split; [reflexivity|left; auto].
  - (* DictFirst *) subst; reflexivity.
  - apply (lift eq (fun _ => True)); auto.
    + intros k x y H _. exists x, x. simpl. hk. auto.
    + intros d k x y H _ F. exists x, x. simpl. hk. simpl. rewrite ?F. simpl. hk. auto.
    + intros d k x y v c H _ F <-. exists v, v. simpl. hk. simpl. rewrite ?F. simpl. rewrite dput_same by auto. auto.
    + apply post_id; auto. intros v c ->. exists c. split; auto. left; auto.
  - (* DictLast *) subst; reflexivity.
  - apply (lift eq (fun _ => True)); auto.
    + intros k x y H _. exists x, x. simpl. hk. auto.
    + intros d k x y H _ _. exists x, x. simpl. hk. auto.
    + intros d k x y v c H _ _ _. exists x, x. simpl. hk. auto.
    + apply post_id; auto. intros v c ->. exists c. split; auto. left; auto.
Qed.

Example C31_case :
  let rows := [(VStr "a", VInt 1); (VStr "b", VNone); (VStr "a", VInt 5)] in
  (forall r, In r rows -> hashable (fst r) = true) /\ values_ok DictSum (map snd rows) /\ values_ok DictMax (map snd rows) /\
  outcome DictSum fst snd rows = Ok (Some (VDict [(VStr "a", VInt 6); (VStr "b", VInt 0)])) /\
  outcome DictMax fst snd rows = Ok (Some (VDict [(VStr "a", VInt 5)])).
Proof.
  cbn zeta. split; [intros r [<-|[<-|[<-|[]]]]; reflexivity|]. split; [|split; [|split; reflexivity]].
  - intros r [<-|[<-|[<-|[]]]]; left; discriminate.
  - intros x y [<-|[<-|[<-|[]]]] [<-|[<-|[<-|[]]]] N M; cbn [snd] in *; try congruence; eexists; reflexivity.
Qed.

(** ** C35
    Functions and inline expressions are folded over the rows, starting from
    `initial`.  Not covered (and false, see below): built-in ReduceFuncs, and the
    group without rows. *)
Theorem C35_initial_seeds_functions_partial :
  forall (Row : Type) f (e : Row -> res val) xs i dflt u (rows : list Row),
  rows <> [] ->
  reduce_rows (mkReduce (Fun f) e xs None (Some (Ok i)) dflt u) rows =
  match seeded f e (fun r => eval_all xs r) i rows with
  | Ok v => Ok (Some v)
  | Err x => Err x
  end.
Proof.
  intros Row f e xs i dflt u rows Hne. unfold reduce_rows.
  assert (R : forall rows c, run_alone (mkReduce (Fun f) e xs None (Some (Ok i)) dflt u) (Some c) rows =
              match seeded f e (fun r => eval_all xs r) c rows with Ok v => Ok (Some v) | Err x => Err x end).
  { clear rows Hne. induction rows as [|r rows IH]; intros c; auto.
    cbn [run_alone step_alone condition bind run_two red expr extras seeded].
    destruct (e r); cbn [bind]; auto. destruct (eval_all xs r); cbn [bind]; auto. destruct (f c a a0); cbn [bind]; auto. }
  destruct rows as [|r rows]; [congruence|].
  cbn [run_alone step_alone condition bind run_init red initial expr extras seeded].
  destruct (e r); cbn [bind]; auto. destruct (eval_all xs r); cbn [bind]; auto. destruct (f i a a0); cbn [bind]; auto.
  rewrite R. destruct (seeded _ _ _ _ _); reflexivity.
Qed.
Example C35_case :
  let sub a b (_ : list val) := match a, b with VInt x, VInt y => Ok (VInt (x - y)) | _, _ => Err TypeError end in
  reduce_rows (mkReduce (Fun sub) (fun r => Ok (VInt r)) [] None (Some (Ok (VInt 100))) None false) [1; 2; 3] = Ok (Some (VInt 94)).
Proof. reflexivity. Qed.

(** Without rows (a filtered reduce, or an aggregate of nothing) the seed is
    lost: the internal sentinel object is returned instead. *)
Theorem C35_no_rows_refuted :
  exists (f : val -> val -> list val -> res val) (e : Z -> res val) i,
    seeded f e (fun _ => Ok []) i [] = Ok i /\
    reduce_rows (mkReduce (Fun f) e [] None (Some (Ok i)) None false) [] = Ok None.
Proof. exists (fun a _ _ => Ok a), (fun _ => Ok VNone), (VInt 0). split; reflexivity. Qed.

(** initial with the built-in reducers: Sum/Count/Array and the dict reducers
    fail on the first row, Max and First lose the seed. *)
Theorem C35_builtin_initial_refuted :
  forall (vs : list Z), vs <> [] ->
  let run b i := reduce_rows (mkReduce (Builtin b) (fun z : Z => Ok (VInt z)) [fun z => Ok (VInt z)] None
                                (Some (Ok i)) (Some (Ok (builtin_default b))) false) vs in
  run Sum (VInt 10) = Err TypeError /\ run Count (VInt 10) = Err TypeError /\
  run Array (VList []) = Err AttributeError /\ run CountDistinct (VSet []) = Err AttributeError /\
  run Dict (VDict []) = Err TypeError /\
  run First (VInt 10) = Ok (Some VNone) /\
  (forall z, vs = [z] -> z <= 10 -> run Max (VInt 10) = Ok (Some VNone)).
Proof.
  intros vs Hne run. destruct vs as [|z vs]; [congruence|].
  repeat (split; [reflexivity|]). split.
  - subst run. cbv beta. unfold reduce_rows.
    enough (forall rows, run_alone (mkReduce (Builtin First) (fun z : Z => Ok (VInt z)) [fun z => Ok (VInt z)] None
               (Some (Ok (VInt 10))) (Some (Ok (builtin_default First))) false) None rows = Ok None) as -> by reflexivity.
    induction rows; auto.
  - intros z' Q Hz. injection Q as -> ->. unfold run, reduce_rows. simpl.
    destruct (Z.ltb_spec 10 z'); [lia|]. reflexivity.
Qed.

Print Assumptions C28_sum.
Print Assumptions C28_sum_or_none.
Print Assumptions C28_count.
Print Assumptions C28_count_distinct.
Print Assumptions C28_distinct_spec.
Print Assumptions C29_max_min.
Print Assumptions C29_numbers_and_strings_are_ordered.
Print Assumptions C30_sequences.
Print Assumptions C31_dict_reducers_per_key.
Print Assumptions C35_initial_seeds_functions_partial.
Print Assumptions C35_no_rows_refuted.
Print Assumptions C35_builtin_initial_refuted.
