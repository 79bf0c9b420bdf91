From Coq Require Import String List ZArith Bool Lia.
From Verif Require Import Model_PyVal Proofs_PyVal Model_Reducers Spec_Reducers.
Import ListNotations.
Local Open Scope Z_scope.

Section P.
  Context {Row : Type}.
  Variables f g : Row -> val.
  Implicit Type rows : list Row.
  Notation pl b := (plain b f g).

  Lemma step_plain b c row :
    step_alone (pl b) c row =
    match c with
    | None => init_stmt b (Ok (f row)) (Ok (g row))
    | Some v => reduce_stmt b (Ok v) (Some v) (Ok (f row)) (Ok (g row))
    end.
  Proof. destruct c; reflexivity. Qed.

  Lemma run_cons b c row rows :
    run_alone (pl b) c (row :: rows) = bind (step_alone (pl b) c row) (fun c' => run_alone (pl b) c' rows).
  Proof. reflexivity. Qed.

  Lemma run_alone_app (o : reduce_obj Row) r1 : forall c r2,
    run_alone o c (r1 ++ r2) = bind (run_alone o c r1) (fun c' => run_alone o c' r2).
  Proof.
    induction r1 as [|row r1 IH]; intros c r2; simpl; auto.
    destruct (step_alone o c row); simpl; auto.
  Qed.

  (** *** numbers *)
  Lemma number_or_zero v z : number v = Some z -> as_int (py_or v (VInt 0)) = Some z.
  Proof.
    destruct v; simpl; try discriminate; intros H; injection H as <-; auto.
    - destruct b; auto.
    - unfold py_or. simpl. destruct (Z.eqb_spec z0 0) as [->|n]; simpl; auto.
  Qed.
  Lemma py_add_int a b x y : as_int a = Some x -> as_int b = Some y -> py_add a b = Ok (VInt (x + y)).
  Proof. unfold py_add. intros -> ->. reflexivity. Qed.
  Lemma total_cons v l z : number v = Some z -> total (v :: l) = z + total l.
  Proof. unfold total. simpl. intros ->. reflexivity. Qed.

  Definition addend (v : val) : Z := match number v with Some z => z | None => 0 end.
  Lemma addend_or_zero v : number v <> None \/ truthy v = false -> as_int (py_or v (VInt 0)) = Some (addend v).
  Proof.
    unfold addend. intros [H|H].
    - destruct (number v) eqn:E; [|congruence]. apply number_or_zero; auto.
    - unfold py_or. rewrite H. simpl. destruct v; simpl in *; auto; try (destruct b; auto; discriminate).
      apply negb_false_iff, Z.eqb_eq in H. subst; auto.
  Qed.
  Lemma total_cons' v l : total (v :: l) = addend v + total l.
  Proof. reflexivity. Qed.
  Lemma sum_run rows : forall c z, as_int c = Some z ->
    (forall r, In r rows -> number (f r) <> None \/ truthy (f r) = false) ->
    exists v, run_alone (pl Sum) (Some c) rows = Ok (Some v) /\
              as_int v = Some (z + total (map f rows)).
  Proof.
    induction rows as [|row rows IH]; intros c z Hc Hn.
    - exists c. split; auto. unfold total; simpl. rewrite Z.add_0_r; auto.
    - rewrite run_cons, step_plain. simpl.
      unfold iadd. rewrite (py_add_int _ _ _ _ Hc (addend_or_zero _ (Hn row (or_introl eq_refl)))). simpl.
      destruct (IH (VInt (z + addend (f row))) (z + addend (f row)) eq_refl) as (v & R & Hv); [intros; apply Hn; right; auto|].
      exists v. split; auto. rewrite Hv, total_cons'. f_equal. lia.
  Qed.

  Lemma sum_or_none_run_none rows :
    (forall r, In r rows -> number (f r) <> None) ->
    run_alone (pl SumOrNone) (Some VNone) rows = Ok (Some VNone).
  Proof.
    induction rows as [|row rows IH]; intros Hn; auto.
    rewrite run_cons, step_plain. simpl.
    destruct (is_none (f row)); simpl; apply IH; intros; apply Hn; right; auto.
  Qed.
  Lemma sum_or_none_run rows : forall c z, as_int c = Some z ->
    (forall r, In r rows -> number (f r) <> None) ->
    exists v, run_alone (pl SumOrNone) (Some c) rows = Ok (Some v) /\
      if existsb is_none (map f rows) then v = VNone
      else as_int v = Some (z + total (map f rows)).
  Proof.
    induction rows as [|row rows IH]; intros c z Hc Hn.
    - exists c. split; auto. simpl. unfold total; simpl. rewrite Z.add_0_r; auto.
    - rewrite run_cons, step_plain. simpl.
      assert (Hn' : forall r, In r rows -> number (f r) <> None) by (intros; apply Hn; right; auto).
      destruct (number (f row)) as [y|] eqn:E; [|destruct (Hn row); simpl; auto].
      destruct (is_none (f row)) eqn:N; simpl.
      + rewrite sum_or_none_run_none by auto. eauto.
      + assert (is_none c = false) as -> by (destruct c; try discriminate; auto).
        assert (A : as_int (f row) = Some y) by (destruct (f row); try discriminate; auto).
        rewrite (py_add_int _ _ _ _ Hc A). simpl.
        destruct (IH (VInt (z + y)) (z + y) eq_refl Hn') as (v & R & Hv).
        exists v. split; auto. destruct (existsb is_none (map f rows)); auto.
        rewrite Hv, (total_cons _ _ y E). f_equal. lia.
  Qed.

  Lemma count_run rows : forall n,
    run_alone (pl Count) (Some (VInt n)) rows = Ok (Some (VInt (n + Z.of_nat (length rows)))).
  Proof.
    induction rows as [|row rows IH]; intros n.
    - simpl. rewrite Z.add_0_r; auto.
    - rewrite run_cons, step_plain. simpl. rewrite IH. do 3 f_equal. simpl length. lia.
  Qed.

  (** *** distinct *)
  Lemma vmem_In_false l x : vmem l x = false <-> forall y, In y l -> py_eq y x = false.
  Proof.
    unfold vmem. split.
    - intros H y Hy. destruct (py_eq y x) eqn:E; auto.
      rewrite <- H. symmetry. apply existsb_exists. eauto.
    - intros H. apply not_true_is_false. intros E. apply existsb_exists in E as (y & Hy & Ey).
      rewrite H in Ey; auto; discriminate.
  Qed.
  Definition hash_all (l : list val) := forall x, In x l -> hashable x = true.
  Lemma distinct_incl l x : In x (distinct l) -> In x l.
  Proof.
    induction l as [|y l IH]; simpl; auto. intros [->|H]; auto. apply filter_In in H as [H _]; auto.
  Qed.

  Definition without (acc l : list val) : list val := filter (fun y => negb (vmem acc y)) l.

  Lemma fold_vadd l : forall acc, hash_all acc -> hash_all l ->
    fold_left vadd l acc = acc ++ without acc (distinct l).
  Proof.
    induction l as [|x l IH]; intros acc Ha Hl; simpl.
    - rewrite app_nil_r; auto.
    - assert (Hx : hashable x = true) by (apply Hl; left; auto).
      assert (Hl' : hash_all l) by (intros y Hy; apply Hl; right; auto).
      assert (FF : forall P Q : val -> bool, forall d, filter P (filter Q d) = filter (fun y => P y && Q y) d).
      { intros P Q d. induction d as [|y d IHd]; simpl; auto. destruct (Q y) eqn:Ey; simpl; rewrite IHd; destruct (P y); auto. }
      unfold vadd at 2. destruct (vmem acc x) eqn:E; simpl.
      + rewrite IH by auto. f_equal. unfold without. rewrite FF.
        apply filter_ext_in. intros y Hy. apply distinct_incl in Hy.
        destruct (py_eq x y) eqn:Exy; simpl; [|rewrite andb_true_r; auto].
        rewrite andb_false_r.
        unfold vmem in E. apply existsb_exists in E as (w & Hw & Ew).
        assert (vmem acc y = true) as ->; auto.
        apply existsb_exists. exists w. split; auto. eapply py_eq_trans; eauto.
      + rewrite IH.
        * rewrite <- app_assoc. simpl. f_equal. f_equal. unfold without. rewrite FF. 
          apply filter_ext_in. intros y Hy. unfold vmem. rewrite existsb_app. simpl.
          rewrite orb_false_r, negb_orb. auto.
        * intros y Hy. apply in_app_or in Hy as [|[<-|[]]]; auto.
        * auto.
  Qed.
  Lemma fold_vadd_nil l : hash_all l -> fold_left vadd l [] = distinct l.
  Proof.
    intros H. rewrite fold_vadd; auto; [|intros ? []]. simpl. unfold without.
    induction (distinct l); simpl; auto. f_equal; auto.
  Qed.

  Lemma count_distinct_run rows : forall l,
    (forall r, In r rows -> hashable (f r) = true) ->
    run_alone (pl CountDistinct) (Some (VSet l)) rows = Ok (Some (VSet (fold_left vadd (map f rows) l))).
  Proof.
    induction rows as [|row rows IH]; intros l H; auto.
    rewrite run_cons, step_plain. simpl. unfold need_hash. rewrite H by (left; auto). simpl.
    apply IH. intros; apply H; right; auto.
  Qed.

  Lemma dput_none_keys l x : map (fun k => (k, VNone)) (vadd l x) = dput (map (fun k => (k, VNone)) l) x VNone.
  Proof.
    unfold vadd, vmem. induction l as [|y l IH]; simpl; auto.
    destruct (py_eq y x); simpl; auto. rewrite <- IH. destruct (existsb _ l); auto.
  Qed.
  Lemma array_distinct_run rows : forall l,
    (forall r, In r rows -> hashable (f r) = true) ->
    run_alone (pl ArrayDistinct) (Some (VDict (map (fun k => (k, VNone)) l))) rows =
    Ok (Some (VDict (map (fun k => (k, VNone)) (fold_left vadd (map f rows) l)))).
  Proof.
    induction rows as [|row rows IH]; intros l H; auto.
    rewrite run_cons, step_plain. simpl. unfold need_hash. rewrite H by (left; auto). simpl.
    rewrite <- dput_none_keys. apply IH. intros; apply H; right; auto.
  Qed.

  (** *** sequences *)
  Lemma first_run rows : forall c, run_alone (pl First) (Some c) rows = Ok (Some c).
  Proof. induction rows as [|row rows IH]; intros c; auto. rewrite run_cons, step_plain. simpl. auto. Qed.
  Lemma last_run rows : forall c, run_alone (pl Last) (Some c) rows = Ok (Some (last (map f rows) c)).
  Proof.
    induction rows as [|row rows IH]; intros c; auto.
    rewrite run_cons, step_plain. simpl. rewrite IH. destruct rows; auto.
    do 2 f_equal. cbn [map]. generalize (map f rows). intros l. revert c row. clear.
    intros. generalize (f r). induction l; intros; simpl in *; auto.
  Qed.
  Lemma array_run rows : forall l,
    run_alone (pl Array) (Some (VList l)) rows = Ok (Some (VList (l ++ map f rows))).
  Proof.
    induction rows as [|row rows IH]; intros l.
    - simpl. rewrite app_nil_r; auto.
    - rewrite run_cons, step_plain. simpl. rewrite IH, <- app_assoc. auto.
  Qed.

  (** *** extremes: one argument for Max/Min/MaxRow/MinRow.
      [lt a b]: b is better than a. *)
  Section Best.
    Variable lt : val -> val -> res bool.
    Definition sel_ordered (l : list val) : Prop :=
      forall x y, In x l -> In y l ->
        (exists b, lt x y = Ok b) /\ (lt x y = Ok true -> lt y x = Ok false) /\
        (forall z, In z l -> lt x y = Ok false -> lt y z = Ok false -> lt x z = Ok false).
    Definition first_best (rows : list Row) (x : Row) : Prop :=
      exists before after, rows = before ++ x :: after /\ f x <> VNone /\
        (forall y, In y before -> f y <> VNone -> lt (f y) (f x) = Ok true) /\
        (forall y, In y after -> f y <> VNone -> lt (f x) (f y) = Ok false).
    Definition nonnull rows := filter (fun v => negb (is_none v)) (map f rows).

    (** a fold that keeps the best row so far *)
    Fixpoint best (cur : option Row) rows : res (option Row) :=
      match rows with
      | [] => Ok cur
      | r :: rest =>
          if is_none (f r) then best cur rest
          else match cur with
               | None => best (Some r) rest
               | Some x => do b <- lt (f x) (f r); best (if (b : bool) then Some r else cur) rest
               end
      end.
    Lemma in_nonnull rows r : In r rows -> f r <> VNone -> In (f r) (nonnull rows).
    Proof.
      intros H N. apply filter_In. split; [apply in_map; auto|]. destruct (f r); auto.
    Qed.
    Lemma best_spec rows : forall seen cur,
      sel_ordered (nonnull (seen ++ rows)) ->
      (match cur with None => forall r, In r seen -> f r = VNone | Some x => first_best seen x end) ->
      exists r, best cur rows = Ok r /\
        match r with
        | None => forall x, In x (seen ++ rows) -> f x = VNone
        | Some x => first_best (seen ++ rows) x
        end.
    Proof.
      induction rows as [|r rows IH]; intros seen cur O Hc; simpl.
      - exists cur. rewrite app_nil_r. auto.
      - replace (seen ++ r :: rows) with ((seen ++ [r]) ++ rows) in * by (rewrite <- app_assoc; auto).
        destruct (is_none (f r)) eqn:N.
        + apply IH; auto. destruct (f r) eqn:Er; try discriminate.
          destruct cur as [x|].
          * destruct Hc as (b & a & -> & Hx & H1 & H2). exists b, (a ++ [r]).
            split; [rewrite <- app_assoc; auto|]. split; auto. split; auto.
            intros y Hy. apply in_app_or in Hy as [|[<-|[]]]; auto. congruence.
          * intros y Hy. apply in_app_or in Hy as [|[<-|[]]]; auto.
        + assert (Hr : f r <> VNone) by (destruct (f r); congruence || discriminate).
          assert (Rin : In (f r) (nonnull ((seen ++ [r]) ++ rows))).
          { apply in_nonnull; auto. rewrite !in_app_iff. simpl. auto. }
          destruct cur as [x|].
          * destruct Hc as (b & a & E & Hx & H1 & H2).
            assert (Xin : In (f x) (nonnull ((seen ++ [r]) ++ rows))).
            { apply in_nonnull; auto. rewrite E, !in_app_iff. simpl. auto. }
            assert (Yin : forall y, In y seen -> f y <> VNone -> In (f y) (nonnull ((seen ++ [r]) ++ rows))).
            { intros y Hy Ny. apply in_nonnull; auto. rewrite !in_app_iff. auto. }
            destruct (O _ _ Xin Rin) as ((bb & Eb) & As & Tr). rewrite Eb. simpl.
            apply IH; auto. destruct bb.
            -- exists seen, []. split; [auto|]. split; auto. split; [|intros ? []].
               intros y Hy Ny. pose proof (Yin y Hy Ny) as Yi.
               destruct (O _ _ Yi Rin) as ((b2 & E2) & As2 & Tr2). destruct b2; auto. exfalso.
               (* y not< r , and x < r ; so r not< x; y: not(y<r), ... *)
               assert (lt (f x) (f y) = Ok false).
               { rewrite E in Hy. apply in_app_or in Hy as [Hy|[<-|Hy]].
                 - destruct (O _ _ Yi Xin) as (_ & As3 & _). apply As3. auto.
                 - congruence.
                 - auto. }
               destruct (O _ _ Xin Yi) as (_ & _ & Tr3). rewrite (Tr3 _ Rin) in Eb; auto; discriminate.
            -- exists b, (a ++ [r]). split; [rewrite E, <- app_assoc; auto|]. split; auto. split; auto.
               intros y Hy Ny. apply in_app_or in Hy as [|[<-|[]]]; auto.
          * apply IH; auto. exists seen, []. split; auto. split; auto. split; [|intros ? []].
            intros y Hy Ny. destruct Ny. auto.
    Qed.
  End Best.

  Definition row_cell (x : option Row) : cell :=
    match x with None => None | Some r => Some (VTuple [f r; g r]) end.
  Definition val_cell (x : option Row) : cell :=
    match x with None => None | Some r => Some (f r) end.

  Lemma max_run rows : forall cur,
    run_alone (pl Max) (val_cell cur) rows = bind (best py_lt cur rows) (fun x => Ok (val_cell x)).
  Proof.
    induction rows as [|r rows IH]; intros cur; auto. rewrite run_cons, step_plain. cbn [best].
    destruct cur as [x|]; simpl; destruct (is_none (f r)); simpl.
    - apply (IH (Some x)).
    - destruct (py_lt (f x) (f r)) as [[|]|]; simpl; auto. apply (IH (Some r)). apply (IH (Some x)).
    - apply (IH None).
    - apply (IH (Some r)).
  Qed.
  Lemma min_run rows : forall cur,
    run_alone (pl Min) (val_cell cur) rows = bind (best (fun a b => py_lt b a) cur rows) (fun x => Ok (val_cell x)).
  Proof.
    induction rows as [|r rows IH]; intros cur; auto. rewrite run_cons, step_plain. cbn [best].
    destruct cur as [x|]; simpl; destruct (is_none (f r)); simpl.
    - apply (IH (Some x)).
    - destruct (py_lt (f r) (f x)) as [[|]|]; simpl; auto. apply (IH (Some r)). apply (IH (Some x)).
    - apply (IH None).
    - apply (IH (Some r)).
  Qed.
  Lemma maxrow_run rows : forall cur,
    run_alone (pl MaxRow) (row_cell cur) rows = bind (best py_lt cur rows) (fun x => Ok (row_cell x)).
  Proof.
    induction rows as [|r rows IH]; intros cur; auto. rewrite run_cons, step_plain. cbn [best].
    destruct cur as [x|]; simpl; destruct (is_none (f r)); simpl.
    - apply (IH (Some x)).
    - destruct (py_lt (f x) (f r)) as [[|]|]; simpl; auto. apply (IH (Some r)). apply (IH (Some x)).
    - apply (IH None).
    - apply (IH (Some r)).
  Qed.
  Lemma minrow_run rows : forall cur,
    run_alone (pl MinRow) (row_cell cur) rows = bind (best (fun a b => py_lt b a) cur rows) (fun x => Ok (row_cell x)).
  Proof.
    induction rows as [|r rows IH]; intros cur; auto. rewrite run_cons, step_plain. cbn [best].
    destruct cur as [x|]; simpl; destruct (is_none (f r)); simpl.
    - apply (IH (Some x)).
    - destruct (py_lt (f r) (f x)) as [[|]|]; simpl; auto. apply (IH (Some r)). apply (IH (Some x)).
    - apply (IH None).
    - apply (IH (Some r)).
  Qed.

  Lemma ordered_flip l : ordered l -> sel_ordered (fun a b => py_lt b a) l.
  Proof.
    intros O x y Hx Hy. destruct (O y x Hy Hx) as (T & A & _). split; auto. split; auto.
    intros z Hz E1 E2. destruct (O z y Hz Hy) as (_ & _ & Tr). exact (Tr x Hx E2 E1).
  Qed.
End P.

Lemma ints_ordered (l : list val) : (forall x, In x l -> as_int x <> None) -> ordered l.
Proof.
  intros H x y Hx Hy.
  assert (L : forall a b p q, as_int a = Some p -> as_int b = Some q -> py_lt a b = Ok (p <? q)).
  { intros a b p q Ha Hb. destruct a; try discriminate; destruct b; try discriminate; simpl in *;
      injection Ha as <-; injection Hb as <-; auto. }
  destruct (as_int x) as [p|] eqn:Ex; [|destruct (H x); auto].
  destruct (as_int y) as [q|] eqn:Ey; [|destruct (H y); auto].
  rewrite (L x y p q), (L y x q p) by auto. split; [eauto|]. split.
  - intros E. injection E as E. f_equal. lia.
  - intros z Hz. destruct (as_int z) as [r|] eqn:Ez; [|destruct (H z); auto].
    rewrite (L y z q r), (L x z p r) by auto. intros E1 E2. injection E1 as E1. injection E2 as E2. f_equal. lia.
Qed.
Lemma strs_ordered (l : list val) : (forall x, In x l -> exists s, x = VStr s) -> ordered l.
Proof.
  intros H x y Hx Hy. destruct (H x Hx) as [s ->], (H y Hy) as [t ->]. simpl.
  split; [eauto|]. split.
  - intros E. injection E as E. f_equal. destruct (str_lt t s) eqn:F; auto.
    pose proof (str_lt_trans _ _ _ E F). rewrite str_lt_irrefl in H0. discriminate.
  - intros z Hz. destruct (H z Hz) as [u ->]. simpl. intros E1 E2. injection E1 as E1. injection E2 as E2. f_equal.
    destruct (str_lt s u) eqn:F; auto. exfalso.
    destruct (str_lt u t) eqn:G.
    + rewrite (str_lt_trans s u t) in E1; auto; discriminate.
    + pose proof (str_lt_total _ _ G E2). subst. congruence.
Qed.
