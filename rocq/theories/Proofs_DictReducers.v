From Coq Require Import String List ZArith Bool Lia.
From Verif Require Import Model_PyVal Proofs_PyVal Model_Reducers Spec_Reducers Proofs_Reducers.
Import ListNotations.
Local Open Scope Z_scope.

Lemma distinct_snoc l x : hash_all (l ++ [x]) -> distinct (l ++ [x]) = vadd (distinct l) x.
Proof.
  intros H. rewrite <- (fold_vadd_nil (l ++ [x])) by auto.
  rewrite fold_left_app. simpl. rewrite fold_vadd_nil; auto.
  intros y Hy. apply H. apply in_or_app; auto.
Qed.
Lemma vmem_distinct l x : hash_all l -> hashable x = true -> vmem (distinct l) x = vmem l x.
Proof.
  intros Hl Hx. destruct (vmem l x) eqn:E.
  - apply not_false_is_true. intros F. rewrite vmem_In_false in F.
    unfold vmem in E. apply existsb_exists in E as (y & Hy & Ey).
    revert F Hy Ey Hl. induction l as [|z l IH]; intros F Hy Ey Hl; [destruct Hy|].
    simpl in F. assert (Fz := F z (or_introl eq_refl)).
    destruct Hy as [->|Hy]; [congruence|].
    apply IH; auto; [|intros w Hw; apply Hl; right; auto].
    intros w Hw. apply F. right. apply filter_In. split; auto.
    destruct (py_eq z w) eqn:Ez; auto. exfalso.
    (* w distinct in l; if z == w then w == x would contradict, but that is what we want *)
    destruct (py_eq w x) eqn:Ew.
    + rewrite (py_eq_trans z w x) in Fz; auto; try discriminate; apply Hl; [left; auto|right; apply distinct_incl; auto].
    + (* w <> x: no contradiction from this w; use y instead *)
      assert (G : forall u, In u (distinct l) -> py_eq u x = true -> False).
      { intros u Hu Eu. destruct (py_eq z u) eqn:Ezu.
        - rewrite (py_eq_trans z u x) in Fz; auto; try discriminate; apply Hl; [left; auto|right; apply distinct_incl; auto].
        - rewrite (F u) in Eu; [discriminate|]. right. apply filter_In. rewrite Ezu. auto. }
      clear - G Hy Ey Hl Hx.
      assert (Hl' : hash_all l) by (intros v Hv; apply Hl; right; auto). clear Hl.
      revert G. induction l as [|a l IH]; intros G; [destruct Hy|].
      destruct (py_eq a x) eqn:Ea; [apply (G a); simpl; auto|].
      destruct Hy as [->|Hy]; [congruence|]. apply IH; auto.
      * intros v Hv; apply Hl'; right; auto.
      * intros u Hu Eu. apply (G u); auto. simpl. right. apply filter_In. split; auto.
        destruct (py_eq a u) eqn:Eau; auto. rewrite (py_eq_trans a u x) in Ea; auto; try discriminate; apply Hl'; [left; auto|right; apply distinct_incl; auto].
  - apply vmem_In_false. intros y Hy. rewrite vmem_In_false in E. apply E. apply distinct_incl; auto.
Qed.

Lemma map_fst_dput {V} (d : list (val * V)) k v : map fst (dput d k v) = vadd (map fst d) k.
Proof.
  unfold vadd, vmem. induction d as [|[k' v'] d IH]; simpl; auto.
  destruct (py_eq k' k); simpl; auto. rewrite IH. destruct (existsb _ _); auto.
Qed.
Lemma dfind_none {V} (d : list (val * V)) k : dfind d k = None <-> vmem (map fst d) k = false.
Proof.
  induction d as [|[k' v'] d IH]; simpl; [split; auto|].
  destruct (py_eq k' k); simpl; [split; discriminate|auto].
Qed.
Lemma dfind_split {V} (d : list (val * V)) k v : dfind d k = Some v ->
  exists d1 k' d2, d = d1 ++ (k', v) :: d2 /\ py_eq k' k = true /\
    (forall w, dput d k w = d1 ++ (k', w) :: d2).
Proof.
  induction d as [|[k' v'] d IH]; simpl; [discriminate|]. destruct (py_eq k' k) eqn:E.
  - intros H. injection H as ->. exists [], k', d. auto.
  - intros H. destruct (IH H) as (d1 & k2 & d2 & -> & E2 & P). exists ((k', v') :: d1), k2, d2.
    split; auto. split; auto. intros w. simpl. rewrite P. auto.
Qed.
Lemma dput_same {V} (d : list (val * V)) k v : dfind d k = Some v -> dput d k v = d.
Proof. intros H. destruct (dfind_split _ _ _ H) as (d1 & k' & d2 & -> & _ & P). apply P. Qed.
Lemma dput_new {V} (d : list (val * V)) k v : dfind d k = None -> dput d k v = d ++ [(k, v)].
Proof.
  induction d as [|[k' v'] d IH]; simpl; auto. destruct (py_eq k' k); [discriminate|].
  intros H. rewrite IH; auto.
Qed.
Lemma distinct_pairwise l d1 x d2 : hash_all l -> distinct l = d1 ++ x :: d2 ->
  forall y, In y (d1 ++ d2) -> py_eq y x = false.
Proof.
  revert d1 x d2. induction l as [|z l IH]; intros d1 x d2 Hl E; [destruct d1; discriminate|].
  simpl in E.
  assert (Hl' : hash_all l) by (intros w Hw; apply Hl; right; auto).
  assert (K : forall u, In u (distinct l) -> hashable u = true) by (intros u Hu; apply Hl'; apply distinct_incl; auto).
  assert (Hz : hashable z = true) by (apply Hl; left; auto).
  assert (PW : forall l0 d1 x d2, (forall d1 x d2, l0 = d1 ++ x :: d2 -> forall y, In y (d1 ++ d2) -> py_eq y x = false) ->
     filter (fun y => negb (py_eq z y)) l0 = d1 ++ x :: d2 -> forall y, In y (d1 ++ d2) -> py_eq y x = false).
  { clear. induction l0 as [|a l0 IH]; intros d1 x d2 H E y Hy; [destruct d1; discriminate|].
    assert (H' : forall d1 x d2, l0 = d1 ++ x :: d2 -> forall y, In y (d1 ++ d2) -> py_eq y x = false).
    { intros e1 u e2 -> w Hw. apply (H (a :: e1) u e2 eq_refl). right; auto. }
    simpl in E. destruct (py_eq z a); simpl in E; [eapply IH; eauto|].
    destruct d1 as [|b d1]; simpl in E; injection E as <- E.
    - simpl in Hy. apply (H [] a l0 eq_refl). simpl. subst d2. apply filter_In in Hy. tauto.
    - destruct Hy as [<-|Hy].
      + assert (In x l0). { assert (In x (d1 ++ x :: d2)) by (apply in_or_app; simpl; auto). rewrite <- E in H0. apply filter_In in H0. tauto. }
        apply in_split in H0 as (e1 & e2 & ->). apply (H (a :: e1) x e2 eq_refl). left; auto.
      + eapply IH; eauto. }
  destruct d1 as [|b d1]; simpl in E; injection E as <- E; intros y Hy.
  - subst d2. simpl in Hy. apply filter_In in Hy as [Hy N]. rewrite py_eq_sym by auto.
    destruct (py_eq z y); auto; discriminate.
  - destruct Hy as [<-|Hy].
    + assert (In x (filter (fun y => negb (py_eq z y)) (distinct l))) by (rewrite E; apply in_or_app; simpl; auto).
      apply filter_In in H as [H N]. destruct (py_eq z x); auto; discriminate.
    + apply (PW (distinct l) d1 x d2); auto. intros e1 u e2 Q. apply (IH e1 u e2); auto.
Qed.

Section Gen.
  Context {Row : Type}.
  Variables key value : Row -> val.
  Variables D b : builtin.
  Variable Rel : val -> val -> Prop.
  Variable Pv : val -> Prop.
  Hypothesis Hinit : forall k x y, hashable k = true -> Pv x ->
    exists v c, init_stmt D (Ok k) (Ok x) = Ok (Some (VDict [(k, v)])) /\
                init_stmt b (Ok x) (Ok y) = Ok (Some c) /\ Rel v c.
  Hypothesis Hnew : forall d k x y, hashable k = true -> Pv x -> dfind d k = None ->
    exists v c, reduce_stmt D (Ok (VDict d)) (Some (VDict d)) (Ok k) (Ok x) = Ok (Some (VDict (dput d k v))) /\
                init_stmt b (Ok x) (Ok y) = Ok (Some c) /\ Rel v c.
  Hypothesis Hold : forall d k x y v c, hashable k = true -> Pv x -> dfind d k = Some v -> Rel v c ->
    exists v' c', reduce_stmt D (Ok (VDict d)) (Some (VDict d)) (Ok k) (Ok x) = Ok (Some (VDict (dput d k v'))) /\
                reduce_stmt b (Ok c) (Some c) (Ok x) (Ok y) = Ok (Some c') /\ Rel v' c'.

  Definition good (seen : list Row) (d : list (val * val)) : Prop :=
    map fst d = distinct (map key seen) /\
    Forall (fun kv => exists c,
      run_alone (plain b value value) None (rows_of key (fst kv) seen) = Ok (Some c) /\ Rel (snd kv) c) d.

  Lemma rows_of_snoc k seen r :
    rows_of key k (seen ++ [r]) = rows_of key k seen ++ (if py_eq k (key r) then [r] else []).
  Proof. unfold rows_of. rewrite filter_app. reflexivity. Qed.

  Lemma gen_step seen d r :
    (forall x, In x (seen ++ [r]) -> hashable (key x) = true /\ Pv (value x)) ->
    good seen d ->
    exists d', step_alone (plain D key value) (Some (VDict d)) r = Ok (Some (VDict d')) /\ good (seen ++ [r]) d'.
  Proof.
    intros H (E & F).
    assert (HK : hash_all (map key (seen ++ [r]))).
    { intros x Hx. apply in_map_iff in Hx as (w & <- & Hw). apply H; auto. }
    assert (HKs : hash_all (map key seen)).
    { intros x Hx. apply HK. rewrite map_app. apply in_or_app; auto. }
    destruct (H r) as (Hk & Hv); [apply in_or_app; simpl; auto|].
    assert (Dk : distinct (map key (seen ++ [r])) = vadd (map fst d) (key r)).
    { rewrite map_app in *. simpl in *. rewrite distinct_snoc by auto. rewrite E. auto. }
    rewrite step_plain.
    destruct (dfind d (key r)) as [v|] eqn:Fd.
    - destruct (dfind_split _ _ _ Fd) as (d1 & k' & d2 & -> & Ek & P).
      rewrite Forall_forall in F.
      destruct (F (k', v)) as (c & Rc & Rl); [apply in_or_app; simpl; auto|]. simpl in Rc, Rl.
      destruct (Hold _ _ (value r) (value r) _ c Hk Hv Fd Rl) as (v' & c' & E1 & E2 & R').
      exists (d1 ++ (k', v') :: d2). rewrite E1, P. split; auto. split.
      + rewrite Dk. rewrite <- (map_fst_dput _ _ v'), P. auto.
      + apply Forall_forall. intros [k2 w] Hin. cbn [fst snd].
        assert (Cs : (k2, w) = (k', v') \/ In (k2, w) (d1 ++ d2)).
        { apply in_app_or in Hin as [|[|]]; auto; right; apply in_or_app; auto. }
        rewrite rows_of_snoc. destruct Cs as [Cs|Cs].
        * injection Cs as -> ->. rewrite Ek. rewrite run_alone_app, Rc. cbn [bind run_alone].
          rewrite step_plain, E2. simpl. eauto.
        * assert (Nk : py_eq k2 k' = false).
          { rewrite map_app in E. simpl in E. eapply distinct_pairwise; [exact HKs|symmetry; exact E|].
            rewrite <- map_app. change k2 with (fst (k2, w)). apply in_map; auto. }
          assert (In k2 (map key seen) /\ In k' (map key seen)) as [I2 I'].
          { split; apply distinct_incl; rewrite <- E, map_app; simpl; apply in_or_app; simpl; auto.
            apply in_app_or in Cs as [Cs|Cs]; [left|right; right]; change k2 with (fst (k2, w)); apply in_map; auto. }
          assert (py_eq k2 (key r) = false) as ->.
          { destruct (py_eq k2 (key r)) eqn:Q; auto. rewrite (py_eq_trans k2 (key r) k') in Nk; auto; try discriminate.
            rewrite py_eq_sym; auto. }
          rewrite app_nil_r. destruct (F (k2, w)) as (c2 & ? & ?); eauto.
          apply in_app_or in Cs as [|]; apply in_or_app; simpl; auto.
    - destruct (Hnew _ _ (value r) (value r) Hk Hv Fd) as (v & c & E1 & E2 & R').
      exists (dput d (key r) v). rewrite E1. split; auto. split; [rewrite Dk, map_fst_dput; auto|].
      rewrite dput_new by auto. apply dfind_none in Fd. pose proof Fd as Fd'.
      rewrite E, vmem_distinct in Fd by auto. rewrite vmem_In_false in Fd.
      apply Forall_app. split.
      + rewrite Forall_forall in F |- *. intros [k2 w] Hin. cbn [fst snd].
        rewrite rows_of_snoc.
        assert (py_eq k2 (key r) = false) as ->.
        { rewrite vmem_In_false in Fd'. apply Fd'. change k2 with (fst (k2, w)). apply in_map; auto. }
        rewrite app_nil_r. apply (F _ Hin).
      + constructor; [|constructor]. cbn [fst snd]. rewrite rows_of_snoc, py_eq_refl by auto.
        assert (rows_of key (key r) seen = []) as ->.
        { unfold rows_of. clear - Fd Hk HKs. induction seen as [|a seen IH]; simpl; auto.
          simpl in HKs.
          rewrite py_eq_sym by (auto; apply HKs; left; auto). rewrite Fd by (left; auto).
          apply IH; [intros x Hx; apply HKs; right; auto|]. intros y Hy. apply Fd. right; auto. }
        cbn [app run_alone]. rewrite step_plain, E2. simpl. eauto.
  Qed.

  Lemma gen_run rest : forall seen d,
    (forall x, In x (seen ++ rest) -> hashable (key x) = true /\ Pv (value x)) ->
    good seen d ->
    exists d', run_alone (plain D key value) (Some (VDict d)) rest = Ok (Some (VDict d')) /\ good (seen ++ rest) d'.
  Proof.
    induction rest as [|r rest IH]; intros seen d H G.
    - exists d. rewrite app_nil_r. auto.
    - destruct (gen_step seen d r) as (d1 & E1 & G1); auto.
      { intros x Hx. apply H. rewrite in_app_iff in *. simpl in *. tauto. }
      destruct (IH (seen ++ [r]) d1) as (d2 & E2 & G2); auto.
      { intros x Hx. apply H. rewrite !in_app_iff in *. simpl in *. tauto. }
      exists d2. rewrite run_cons, E1. rewrite <- app_assoc in G2. auto.
  Qed.

  Lemma gen_all rows : rows <> [] ->
    (forall x, In x rows -> hashable (key x) = true /\ Pv (value x)) ->
    exists d, run_alone (plain D key value) None rows = Ok (Some (VDict d)) /\ good rows d.
  Proof.
    destruct rows as [|r rest]; [congruence|]. intros _ H.
    destruct (H r) as (Hk & Hv); [left; auto|].
    destruct (Hinit (key r) (value r) (value r) Hk Hv) as (v & c & E1 & E2 & R').
    rewrite run_cons, step_plain, E1. cbn [bind].
    apply (gen_run rest [r]); [exact H|]. split; auto.
    constructor; [|constructor]. cbn [fst snd]. unfold rows_of. simpl. rewrite py_eq_refl by auto.
    cbn [run_alone]. rewrite step_plain, E2. simpl. eauto.
  Qed.
End Gen.

(** Rows on which both the dict reducer and the plain one do nothing *)
Lemma run_skip {Row} (f g : Row -> val) b (keep : Row -> bool) :
  (forall c r, keep r = false -> step_alone (plain b f g) c r = Ok c) ->
  forall rows c, run_alone (plain b f g) c rows = run_alone (plain b f g) c (filter keep rows).
Proof.
  intros H rows. induction rows as [|r rows IH]; intros c; auto. simpl filter.
  destruct (keep r) eqn:K; rewrite ?run_cons.
  - destruct (step_alone _ _ _); simpl; auto.
  - rewrite H by auto. simpl. auto.
Qed.
