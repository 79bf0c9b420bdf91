(** When building a conversion with reduces fails with "nested aggregation". *)
From Coq Require Import String List ZArith NArith Bool Arith Lia.
From Verif Require Import Model_Code Model_Heap Spec_Heap Proofs_Heap Props_Heap Model_Args Spec_Args Proofs_Code Proofs_Deps Proofs_Args
  Model_AggDeps Spec_AggDeps Proofs_AggDeps.
Import ListNotations.

Lemma nested_spec h : nested h = true <->
  exists j o id d, nth_error h j = Some o /\ payload o = NReduce id /\ In d (deps o) /\ is_reduce h d = true.
Proof.
  unfold nested. rewrite existsb_exists. split.
  - intros (o & Ho & H). apply In_nth_error in Ho as (j & Hj). destruct (payload o) as [x|n|r|] eqn:P; try discriminate.
    apply existsb_exists in H as (d & Hd & H). exists j, o, r, d. auto.
  - intros (j & o & id & d & Hj & P & Hd & R). exists o. split; [eapply nth_error_In; eauto|].
    rewrite P. apply existsb_exists. eauto.
Qed.
Lemma is_reduce_dpx h h' d : dpx h h' -> (d < length h)%nat -> is_reduce h' d = is_reduce h d.
Proof.
  intros D L. destruct (valid_nth _ _ L) as [o E]. destruct (D _ _ E) as (o' & E' & _ & P).
  unfold is_reduce. rewrite E, E', P. reflexivity.
Qed.
Lemma bool_ext (a b : bool) : (a = true <-> b = true) -> a = b.
Proof. destruct a, b; intros [H1 H2]; auto; try (symmetry; auto); try (specialize (H2 eq_refl); congruence). Qed.

(** *** regions: objects built by [build] are not reduces *)
Definition region (b : nat) (h : oheap) : Prop :=
  (b <= length h)%nat /\
  forall j o, (b <= j)%nat -> nth_error h j = Some o ->
    (forall r, payload o <> NReduce r) /\ (forall p, pred o = Some p -> (b <= p)%nat).
Definition RPost {A} (b : nat) (ok : A -> Prop) (r : res node A) : Prop :=
  match r with Done h a => region b h /\ ok a | _ => True end.
Lemma RPost_then {A B} b (ok : A -> Prop) (ok2 : B -> Prop) r k :
  RPost b ok r -> (forall h a, region b h -> ok a -> RPost b ok2 (k h a)) -> RPost b ok2 (andthen r k).
Proof. destruct r as [h a| |]; simpl; auto. intros [H1 H2] H. auto. Qed.
Lemma region_update b h i f :
  region b h ->
  (forall o, payload (f o) = payload o /\ (pred (f o) = pred o \/ exists q, pred (f o) = Some q /\ (b <= q)%nat)) ->
  region b (update h i f).
Proof.
  intros [L R] F. split; [rewrite length_update; auto|]. intros j o Hj Ho.
  destruct (Nat.eq_dec i j) as [->|ne].
  - destruct (nth_error h j) as [x|] eqn:E.
    + rewrite (nth_update_eq _ _ _ _ E) in Ho. inversion Ho; subst o. destruct (R _ _ Hj E) as [R1 R2].
      destruct (F x) as [P Q]. rewrite P. split; [auto|]. intros p Hp. destruct Q as [Q|(q & Q & Lq)].
      * rewrite Q in Hp. auto.
      * rewrite Q in Hp. inversion Hp; subst. auto.
    + exfalso. apply nth_error_None in E. assert (nth_error (update h j f) j = None); [|congruence].
      apply nth_error_None. rewrite length_update. auto.
  - rewrite nth_update_ne in Ho by auto. eauto.
Qed.
Lemma region_app b h o :
  region b h -> (forall r, payload o <> NReduce r) -> (forall p, pred o = Some p -> (b <= p)%nat) ->
  region b (h ++ [o]).
Proof.
  intros [L R] P Q. split; [rewrite app_length; lia|]. intros j x Hj Hx.
  destruct (Nat.lt_ge_cases j (length h)) as [Lj|Lj].
  - rewrite nth_error_app1 in Hx by auto. eauto.
  - rewrite nth_error_app2 in Hx by auto. destruct (j - length h)%nat as [|k]; [|destruct k; discriminate].
    inversion Hx; subst x. auto.
Qed.
Lemma region_ensure b i l : forall h, region b h -> region b (ensure h i l).
Proof.
  induction l as [|d l IH]; intros h R; [exact R|]. unfold ensure. cbn [fold_left]. apply IH.
  apply region_update; auto.
Qed.
Lemma region_done b h p is :
  region b h -> (forall r, p <> NReduce r) -> RPost b (fun i => (b <= i)%nat) (done h p is).
Proof.
  intros R P. unfold done, make, new. simpl. split; [|apply R].
  apply region_ensure. apply region_app; simpl; auto. discriminate.
Qed.
Lemma region_clone_loop b n : forall h conv h',
  clone_loop n h conv = Done h' tt -> region b h -> (b <= conv)%nat -> region b h'.
Proof.
  induction n as [|n IH]; intros h conv h' E R L; [discriminate|]. cbn [clone_loop] in E.
  destruct (nth_error h conv) as [o|] eqn:Ho; [|discriminate].
  destruct (pred o) as [p|] eqn:Hp; [|inversion E; subst; auto].
  unfold clone1 in E. destruct (nth_error h p) as [op|] eqn:Hop; [|discriminate].
  destruct R as [Lh R]. destruct (R _ _ L Ho) as [_ Rp]. specialize (Rp _ Hp).
  destruct (R _ _ Rp Hop) as [R1 R2].
  apply (IH _ _ _ E); [|exact Lh]. apply region_update.
  - apply region_app; [split; auto|auto|auto].
  - intros x. split; [reflexivity|]. right. exists (length h). split; [reflexivity|auto].
Qed.
Lemma region_clone b m h i : region b h -> (b <= i)%nat -> RPost b (fun j => (b <= j)%nat) (clone m h i).
Proof.
  intros [Lh R] L. unfold clone, clone1. destruct (nth_error h i) as [o|] eqn:Ho; [|exact I].
  destruct (R _ _ L Ho) as [R1 R2].
  destruct (clone_loop _ _ _) as [h2 []| |] eqn:E; simpl; auto. split; [|auto].
  apply (region_clone_loop _ _ _ _ _ E); [|auto]. apply region_app; [split; auto|auto|auto].
Qed.
Lemma region_set_input b n : forall h conv input h',
  set_input_loop n h conv input = Done h' tt -> region b h -> (b <= input)%nat -> region b h'.
Proof.
  induction n as [|n IH]; intros h conv input h' E R L; [discriminate|]. cbn [set_input_loop] in E.
  destruct (nth_error h conv) as [o|] eqn:Ho; [|discriminate].
  destruct (pred o) as [p|] eqn:Hp.
  - apply (IH _ _ _ _ E); auto. apply region_update; auto.
  - inversion E; subst h'. apply region_update; [apply region_update; auto|].
    intros x. split; [reflexivity|]. right. exists input. split; [reflexivity|auto].
Qed.
Lemma region_pipe b m h i j :
  region b h -> (b <= i)%nat -> (b <= j)%nat ->
  RPost b (fun r => (b <= r)%nat) (pipe lname (fun _ _ => NOther) m h i j None None).
Proof.
  intros R Li Lj. unfold Model_Heap.pipe. pose proof (region_clone b m h i R Li) as C1.
  destruct (clone m h i) as [h1 s| |]; simpl in *; auto. destruct C1 as [R1 L1].
  pose proof (region_clone b m h1 j R1 Lj) as C2.
  destruct (clone m h1 j) as [h2 n| |]; simpl in *; auto. destruct C2 as [R2 L2].
  unfold set_predefined_input. destruct (set_input_loop _ _ _ _) as [h3 []| |] eqn:E; simpl; auto.
  split; [|auto]. exact (region_set_input _ _ _ _ _ _ E R2 L1).
Qed.
Lemma region_each {X Y} b (f : X -> oheap -> res node Y) (ok : Y -> Prop) l :
  Forall (fun x => forall h, region b h -> RPost b ok (f x h)) l ->
  forall h, region b h -> RPost b (Forall ok) (each f l h).
Proof.
  induction 1 as [|x l Hx Hl IH]; intros h R; cbn [each].
  - simpl. auto.
  - eapply RPost_then; [apply Hx; auto|]. intros h1 y R1 O1.
    eapply RPost_then; [apply IH; auto|]. intros h2 ys R2 O2. simpl. auto.
Qed.
Lemma region_opt b m o :
  optP (fun c => forall h, region b h -> RPost b (fun i => (b <= i)%nat) (build m c h)) o ->
  forall h, region b h -> RPost b (fun _ : list nat => True)
    (match o with None => Done h [] | Some c => andthen (build m c h) (fun h i => Done h [i]) end).
Proof.
  destruct o as [c|]; simpl; intros H h R; auto.
  eapply RPost_then; [apply H; auto|]. intros h1 i R1 O1. simpl. auto.
Qed.
Lemma region_build b m c : forall h, region b h -> RPost b (fun i => (b <= i)%nat) (build m c h).
Proof.
  induction c using cv_ind'; intros h R; cbn [build]; try (apply region_done; [auto|discriminate]);
    repeat match goal with
    | |- RPost _ _ (done _ _ _) => apply region_done; [assumption|discriminate]
    | |- RPost _ _ (pipe _ _ _ _ _ _ _ _) => apply region_pipe; assumption
    | |- RPost _ _ (andthen (build _ _ _) _) =>
        eapply RPost_then; [match goal with K : forall h, region b h -> _ |- _ => apply K; assumption end|];
        intros ? ? ? ?
    | |- RPost _ _ (andthen (each (build _) _ _) _) =>
        eapply RPost_then; [eapply region_each; [eassumption|assumption]|]; intros ? ? ? ?
    | |- RPost _ _ (andthen (match _ with None => _ | Some _ => _ end) _) =>
        eapply RPost_then; [eapply region_opt; [eassumption|assumption]|]; intros ? ? ? ?
    end.
  - (* CItems *)
    eapply RPost_then; [apply (region_each b _ (fun _ : list nat => True))|].
    + eapply Forall_impl; [|exact H]. intros [co e] [Hc He] kh0 R0. cbn [fst snd] in *.
      eapply RPost_then; [apply region_opt; eauto|]. intros kh1 i R1 O1.
      eapply RPost_then; [apply He; auto|]. intros kh2 j R2 O2. simpl. auto.
    + auto.
    + intros kh1 is R1 O1. apply region_done; [auto|discriminate].
  - (* CCache *)
    eapply RPost_then; [apply (region_each b _ (fun _ : lname * nat => True))|].
    + eapply Forall_impl; [|exact H]. intros [nl e] He kh0 R0. cbn [fst snd] in *.
      eapply RPost_then; [apply He; auto|]. intros kh2 j R2 O2. simpl. auto.
    + auto.
    + intros kh1 ls' R1 O1. unfold wrap_labels. simpl. split; [|apply R1].
      apply region_app; simpl; auto; discriminate.
  - (* CTap *)
    eapply RPost_then; [apply (region_each b _ (fun _ : nat => True))|].
    + eapply Forall_impl; [|exact H]. intros [k l] He kh0 R0. cbn [fst snd] in *.
      eapply RPost_then; [eapply region_each; eauto|]. intros kh2 js R2 O2.
      pose proof (region_done b kh2 NOther js R2 ltac:(discriminate)) as K.
      destruct (done kh2 NOther js); simpl in *; tauto.
    + auto.
    + intros kh1 is R1 O1. apply region_done; [auto|discriminate].
Qed.
Lemma build_clean m c h h' i :
  wf h -> nested h = false -> build m c h = Done h' i -> nested h' = false.
Proof.
  intros W N E.
  assert (R : region (length h) h).
  { split; [auto|]. intros j o Hj Ho. apply nth_error_None in Hj. congruence. }
  pose proof (region_build (length h) m c h R) as K. rewrite E in K. destruct K as [[_ K] _].
  pose proof (build_ok nat (fun _ => []) eq_refl False m c h W) as B. rewrite E in B. destruct B as (_ & P & _).
  destruct (nested h') eqn:X; auto. apply nested_spec in X as (j & o & id & d & Hj & Pj & Hd & Rd).
  assert (T : nested h = true); [|congruence]. apply nested_spec.
  destruct (Nat.lt_ge_cases j (length h)) as [L|L].
  - destruct (valid_nth _ _ L) as [o' E']. assert (o' = o) by (apply P in E'; congruence). subst o'.
    exists j, o, id, d. split; [auto|]. split; [auto|]. split; [auto|].
    rewrite <- (is_reduce_dpx h h'); auto using preserved_dpx. eapply W; eauto.
  - destruct (K _ _ L Hj) as [K1 _]. destruct (K1 _ Pj).
Qed.

(** *** pipe *)
Lemma clone_loop_origin n : forall (h : oheap) conv h',
  clone_loop n h conv = Done h' tt ->
  forall j o', nth_error h' j = Some o' ->
  exists j0 o, nth_error h j0 = Some o /\ payload o' = payload o /\ deps o' = deps o.
Proof.
  induction n as [|n IH]; intros h conv h' E j o' Hj; [discriminate|]. cbn [clone_loop] in E.
  destruct (nth_error h conv) as [o|] eqn:Ho; [|discriminate].
  destruct (pred o) as [p|] eqn:Hp; [|inversion E; subst; eauto].
  unfold clone1 in E. destruct (nth_error h p) as [op|] eqn:Hop; [|discriminate].
  destruct (IH _ _ _ E _ _ Hj) as (j0 & x & Hx & P & D).
  assert (Hx' : exists y, nth_error (h ++ [op]) j0 = Some y /\ payload x = payload y /\ deps x = deps y).
  { destruct (Nat.eq_dec conv j0) as [->|ne].
    - rewrite (nth_update_eq _ _ _ _ (nth_app_old _ op _ _ Ho)) in Hx. inversion Hx; subst x.
      exists o. split; [apply nth_app_old; auto|]. auto.
    - rewrite nth_update_ne in Hx by auto. eauto. }
  destruct Hx' as (y & Hy & P' & D').
  destruct (Nat.lt_ge_cases j0 (length h)) as [L|L].
  - rewrite nth_error_app1 in Hy by auto. exists j0, y. split; [auto|]. split; congruence.
  - rewrite nth_error_app2 in Hy by auto. destruct (j0 - length h)%nat as [|k]; [|destruct k; discriminate].
    inversion Hy; subst y. exists p, op. split; [auto|]. split; congruence.
Qed.
Lemma clone_origin m (h : oheap) i h' i' :
  clone m h i = Done h' i' ->
  forall j o', nth_error h' j = Some o' ->
  exists j0 o, nth_error h j0 = Some o /\ payload o' = payload o /\ deps o' = deps o.
Proof.
  unfold clone, clone1. destruct (nth_error h i) as [o|] eqn:Ho; [|discriminate].
  destruct (clone_loop _ _ _) as [h2 []| |] eqn:E; try discriminate.
  intros R j o' Hj. inversion R; subst h2 i'.
  destruct (clone_loop_origin _ _ _ _ E _ _ Hj) as (j0 & x & Hx & P & D).
  destruct (Nat.lt_ge_cases j0 (length h)) as [L|L].
  - rewrite nth_error_app1 in Hx by auto. eauto.
  - rewrite nth_error_app2 in Hx by auto. destruct (j0 - length h)%nat as [|k]; [|destruct k; discriminate].
    inversion Hx; subst x. eauto.
Qed.
Lemma clone_clean m (h : oheap) i h' i' :
  wf h -> nested h = false -> clone m h i = Done h' i' -> nested h' = false.
Proof.
  intros W N E. destruct (clone_dpx nat (fun _ => []) _ _ _ _ _ E W) as (D & _).
  destruct (nested h') eqn:X; auto. apply nested_spec in X as (j & o & id & d & Hj & Pj & Hd & Rd).
  destruct (clone_origin _ _ _ _ _ E _ _ Hj) as (j0 & o0 & H0 & P0 & D0).
  assert (T : nested h = true); [|congruence]. apply nested_spec. exists j0, o0, id, d.
  split; [auto|]. split; [congruence|]. split; [congruence|].
  rewrite <- (is_reduce_dpx h h'); auto. rewrite D0 in Hd. eapply W; eauto.
Qed.
Lemma get_deps_update (h : oheap) c f i : c <> i -> get_dependencies (update h c f) i = get_dependencies h i.
Proof. intros H. unfold get_dependencies. now rewrite nth_update_ne. Qed.
(** what linking adds, and where *)
Lemma set_input_adds input k l : forall n (h : oheap) conv h',
  set_input_loop n h conv input = Done h' tt -> (input < k)%nat ->
  chain_in (fun j => (k <= j)%nat) h conv l ->
  (forall j o', nth_error h' j = Some o' -> exists o, nth_error h j = Some o /\ payload o' = payload o /\
     incl (deps o) (deps o') /\ incl (deps o') (deps o ++ get_dependencies h input) /\
     (deps o' = deps o \/ In (payload o) l)) /\
  (forall p, In p l -> exists j o', nth_error h' j = Some o' /\ payload o' = p /\
     incl (get_dependencies h input) (deps o')).
Proof.
  induction l as [|p0 l IH]; intros n h conv h' E Li C; [inversion C|].
  destruct n as [|n]; [discriminate|]. cbn [set_input_loop] in E.
  assert (St : forall o (f : obj node -> obj node), nth_error h conv = Some o ->
     (forall x, deps (f x) = deps x ++ get_dependencies h input /\ payload (f x) = payload x) ->
     forall j x, nth_error (update h conv f) j = Some x -> exists y, nth_error h j = Some y /\
       payload x = payload y /\ incl (deps y) (deps x) /\ incl (deps x) (deps y ++ get_dependencies h input) /\
       (deps x = deps y \/ (j = conv /\ payload y = payload o))).
  { intros o f Ho F j x Hx. destruct (Nat.eq_dec conv j) as [->|ne].
    - rewrite (nth_update_eq _ _ _ _ Ho) in Hx. inversion Hx; subst x. destruct (F o) as [F1 F2].
      exists o. rewrite F1, F2. split; [auto|]. split; [auto|]. split; [apply incl_appl, incl_refl|].
      split; [apply incl_refl|auto].
    - rewrite nth_update_ne in Hx by auto. exists x. split; [auto|]. split; [auto|].
      split; [apply incl_refl|]. split; [apply incl_appl, incl_refl|auto]. }
  inversion C as [i o Hq Ho Hp|i o p l0 Hq Ho Hp Hc]; subst; rewrite Ho, Hp in E.
  - inversion E as [E']; clear E. unfold depends_on. rewrite update_update.
    set (f := fun o => set_pred (Some input) (add_deps (get_dependencies h input) o)).
    assert (F : forall x, deps (f x) = deps x ++ get_dependencies h input /\ payload (f x) = payload x) by (split; reflexivity).
    split.
    + intros j x Hx. destruct (St o f Ho F j x Hx) as (y & A1 & A2 & A3 & A4 & A5).
      exists y. split; [auto|]. split; [auto|]. split; [auto|]. split; [auto|].
      destruct A5 as [A5|[_ A5]]; [auto|]. right. rewrite A5. left. reflexivity.
    + intros q [<-|[]]. exists conv. rewrite (nth_update_eq _ _ _ _ Ho). eexists. split; [reflexivity|].
      split; [reflexivity|]. simpl. apply incl_appr, incl_refl.
  - unfold depends_on in E. set (f := add_deps (get_dependencies h input)) in *.
    assert (F : forall x, deps (f x) = deps x ++ get_dependencies h input /\ payload (f x) = payload x) by (split; reflexivity).
    destruct (IH _ _ _ _ E Li (chain_in_deps _ _ _ _ _ _ Hc)) as (I1 & I2).
    rewrite get_deps_update in I1, I2 by lia. split.
    + intros j x Hx. destruct (I1 j x Hx) as (x1 & B1 & B2 & B3 & B4 & B5).
      destruct (St o f Ho F j x1 B1) as (y & A1 & A2 & A3 & A4 & A5).
      exists y. split; [auto|]. split; [congruence|]. split; [eapply incl_tran; eauto|].
      split. { eapply incl_tran; [exact B4|]. apply incl_app; [exact A4|apply incl_appr, incl_refl]. }
      destruct B5 as [B5|B5]; [|right; right; congruence].
      destruct A5 as [A5|[_ A5]]; [left; congruence|]. right. left. auto.
    + intros q [<-|Hq']; [|auto].
      assert (K : nth_error (update h conv f) conv = Some (f o)) by (apply nth_update_eq; auto).
      destruct (nth_error h' conv) as [x|] eqn:Ex.
      * destruct (I1 _ _ Ex) as (x1 & B1 & B2 & B3 & _). assert (x1 = f o) by congruence. subst x1.
        exists conv, x. split; [auto|]. split; [auto|]. eapply incl_tran; [|exact B3].
        rewrite (proj1 (F o)). apply incl_appr, incl_refl.
      * exfalso. assert (L : forall n (h : oheap) c i h', set_input_loop n h c i = Done h' tt -> length h' = length h).
        { clear. induction n as [|n IH]; intros h c i h' E; [discriminate|]. cbn [set_input_loop] in E.
          destruct (nth_error h c) as [o|]; [|discriminate]. destruct (pred o).
          - rewrite (IH _ _ _ _ E). apply length_update.
          - inversion E; subst. unfold depends_on. now rewrite !length_update. }
        apply L in E. rewrite length_update in E. apply nth_error_None in Ex.
        apply nth_valid in Ho. lia.
Qed.

(** *** reduces among the dependencies *)
Definition rown (p : node) : list nat := match p with NReduce r => [r] | _ => [] end.
Notation rnames := (names nat rown).
Notation rhas := (has nat rown False).
Notation rhave := (have nat rown False).
Lemma is_reduce_name h d : is_reduce h d = true <-> exists r, In r (name_at nat rown h d).
Proof.
  unfold is_reduce, name_at. destruct (nth_error h d) as [o|]; [|split; [discriminate|intros (r & [])]].
  destruct (payload o); simpl; split; try discriminate; try (intros (? & [])); eauto.
Qed.
Lemma names_reduce h i : (exists r, In r (rnames h i)) <-> exists d, In d (get_dependencies h i) /\ is_reduce h d = true.
Proof.
  unfold names. split.
  - intros (r & Hr). apply in_flat_map in Hr as (d & Hd & Hr). exists d. split; [auto|]. apply is_reduce_name. eauto.
  - intros (d & Hd & R). apply is_reduce_name in R as (r & Hr). exists r. apply in_flat_map. eauto.
Qed.

Lemma pipe_nested m (h h' : oheap) a b la lb r :
  wf h -> nested h = false -> pipeline h a la -> pipeline h b lb ->
  pipe lname (fun _ _ => NOther) m h a b None None = Done h' r ->
  (nested h' = true <-> (exists id, In (NReduce id) lb) /\ exists t, In t (rnames h a)).
Proof.
  intros W N Pa Pb E. unfold Model_Heap.pipe in E.
  destruct (clone m h a) as [h1 s| |] eqn:Ea; try discriminate.
  destruct (clone_dpx nat rown _ _ _ _ _ Ea W) as (D1 & W1 & La & Ls & N1 & V1).
  pose proof (clone_clean _ _ _ _ _ W N Ea) as C1.
  destruct (clone m h1 b) as [h3 n| |] eqn:Eb; try discriminate.
  destruct (clone_dpx nat rown _ _ _ _ _ Eb W1) as (D3 & W3 & Lb & Ln & N3 & V3).
  pose proof (clone_clean _ _ _ _ _ W1 C1 Eb) as C3.
  (* where the clone of b is *)
  assert (Pb1 : pipeline h1 b lb).
  { pose proof (clone_ok m h a la Pa) as K. destruct (Z.of_nat (length la) <=? m)%Z.
    - destruct K as (h1' & E1 & A1 & _). rewrite Ea in E1. inversion E1; subst.
      eapply pipeline_agree; [|apply pipeline_chain_in; exact Pb]. intros j Hj. apply (agree_get _ _ _ _ A1); auto.
    - destruct K as (h1' & E1 & _). congruence. }
  pose proof (clone_ok m h1 b lb Pb1) as K. destruct (Z.of_nat (length lb) <=? m)%Z.
  2:{ destruct K as (h1' & E1 & _). congruence. }
  destruct K as (h3' & E3 & A3 & Ch & _). rewrite Eb in E3. inversion E3; subst h3' n; clear E3.
  unfold set_predefined_input in E.
  destruct (set_input_loop (Z.to_nat (m - 1)) h3 (length h1) s) as [h5 []| |] eqn:Es; try discriminate.
  inversion E; subst h5 r; clear E.
  assert (Ch' : chain_in (fun j => (length h1 <= j)%nat) h3 (length h1) lb)
    by (eapply chain_in_mono; [|exact Ch]; simpl; intros; lia).
  destruct (set_input_adds s (length h1) lb _ _ _ _ Es Ls Ch') as (S1 & S2).
  assert (Ir : forall d, (d < length h3)%nat -> is_reduce h' d = is_reduce h3 d).
  { intros d Ld. destruct (set_input_loop_deps s _ _ _ _ _ Es W3 (incl_refl _)) as (_ & _ & M5 & _).
    destruct (valid_nth _ _ Ld) as [y Ey]. destruct (M5 _ _ Ey) as (y' & Ey' & Py & _).
    unfold is_reduce. rewrite Ey, Ey', Py. reflexivity. }
  assert (Nm : rnames h3 s = rnames h a).
  { rewrite (arg_names_dpx nat rown h1 h3 s W1 D3 Ls). exact N1. }
  rewrite <- Nm, names_reduce, nested_spec. split.
  - intros (j & o' & id & d & Hj & Pj & Hd & Rd).
    destruct (S1 _ _ Hj) as (o & Ho & Po & _ & I2 & I3).
    assert (Bad : In d (deps o) -> False).
    { intros Hd'. assert (T : nested h3 = true); [|congruence]. apply nested_spec. exists j, o, id, d.
      split; [auto|]. split; [congruence|]. split; [auto|]. rewrite <- Ir; [auto|]. eapply W3; eauto. }
    destruct I3 as [I3|I3]; [rewrite I3 in Hd; destruct (Bad Hd)|].
    split; [exists id; congruence|].
    apply I2, in_app_or in Hd as [Hd|Hd]; [destruct (Bad Hd)|].
    exists d. split; [auto|]. rewrite <- Ir; [auto|]. eapply deps_valid; eauto.
  - intros ((id & Hid) & d & Hd & Rd). destruct (S2 _ Hid) as (j & o' & Hj & Pj & I).
    exists j, o', id, d. split; [auto|]. split; [auto|]. split; [auto|]. rewrite Ir; [auto|]. eapply deps_valid; eauto.
Qed.

(** *** building *)
Fixpoint rregs (g : gv) : list nat :=
  match g with
  | GPlain _ => []
  | GParts l => flat_map rregs l
  | GReduce id l => flat_map rregs l ++ [id]
  | GGroup b o _ => flat_map rregs b ++ rregs o
  | GJoin l r _ => rregs l ++ rregs r
  | GPipe a b => rregs a ++ rregs b
  end.
Lemma rregs_inside g id : In id (rregs g) <-> exists l, inside (GReduce id l) g.
Proof.
  split.
  - induction g using gv_ind'; cbn [rregs]; rewrite ?in_app_iff.
    + intros [].
    + intros H0. apply in_flat_map in H0 as (g & Hg & H0). rewrite Forall_forall in H.
      destruct (H g Hg H0) as (ps & Hi). exists ps. eapply inside_below; [eauto|constructor; auto].
    + intros [H0|[H0|[]]]; [|subst; eexists; constructor].
      apply in_flat_map in H0 as (g & Hg & H0). rewrite Forall_forall in H.
      destruct (H g Hg H0) as (ps & Hi). exists ps. eapply inside_below; [eauto|constructor; auto].
    + intros [H1|H1].
      * apply in_flat_map in H1 as (g' & Hg & H1). rewrite Forall_forall in H.
        destruct (H g' Hg H1) as (ps & Hi). exists ps. eapply inside_below; [eauto|apply below_key; auto].
      * destruct (IHg H1) as (ps & Hi). exists ps. eapply inside_below; [eauto|apply below_output].
    + intros [H|H].
      * destruct (IHg1 H) as (ps & Hi). exists ps. eapply inside_below; [eauto|constructor].
      * destruct (IHg2 H) as (ps & Hi). exists ps. eapply inside_below; [eauto|constructor].
    + intros [H|H].
      * destruct (IHg1 H) as (ps & Hi). exists ps. eapply inside_below; [eauto|constructor].
      * destruct (IHg2 H) as (ps & Hi). exists ps. eapply inside_below; [eauto|constructor].
  - intros (ps & Hi). remember (GReduce id ps) as a eqn:Ea. induction Hi as [g|a b g Hi IH B].
    + subst g. cbn [rregs]. apply in_or_app. right. left. reflexivity.
    + specialize (IH Ea). destruct B; cbn [rregs]; rewrite ?in_app_iff; auto; try (apply in_flat_map; eauto; fail);
        left; apply in_flat_map; eauto.
Qed.
Lemma rregs_has g : (exists r, In r (rregs g)) <-> has_reduce g.
Proof.
  split.
  - intros (r & H). apply rregs_inside in H as (l & H). exists r, l. auto.
  - intros (r & l & H). exists r. apply rregs_inside. eauto.
Qed.
Lemma regs_reduce_nil c : Proofs_Deps.regs nat rown c = [].
Proof.
  rewrite (regs_map town rown (fun t => match t with TReduce r => [r] | _ => [] end)).
  - destruct (flat_map _ _) as [|r l] eqn:E; auto. exfalso.
    assert (H : In r (r :: l)) by (left; auto). rewrite <- E in H. apply in_flat_map in H as (t & Ht & Hr).
    destruct t; simpl in Hr; try contradiction. exact (regs_no_reduce _ _ Ht).
  - intros [y|n|r|]; reflexivity.
Qed.

(** nested reduces, part by part *)
Lemma nested_part a g : gpart a g -> nested_reduces a -> nested_reduces g.
Proof.
  intros P [(id & ps & p & W & H1 & H2)|(x & y & W & H)].
  - left. exists id, ps, p. split; [eapply gwithin_part; eauto|auto].
  - right. exists x, y. split; [eapply gwithin_part; eauto|auto].
Qed.
Lemma nested_inv g : nested_reduces g ->
  (exists a, gpart a g /\ nested_reduces a) \/
  (exists id ps p, g = GReduce id ps /\ In p ps /\ has_reduce p) \/
  (exists a b, g = GPipe a b /\ has_reduce a /\ reduce_stage b).
Proof.
  intros [(id & ps & p & W & H1 & H2)|(x & y & W & H1 & H2)].
  - inversion W as [|a b g' Hw Hp]; subst; [right; left; eauto 10|].
    left. exists b. split; [auto|]. left. eauto 10.
  - inversion W as [|a b g' Hw Hp]; subst; [right; right; eauto 10|].
    left. exists b. split; [auto|]. right. eauto 10.
Qed.

Definition CPost {A} (h : oheap) (bad : Prop) (ok : oheap -> A -> Prop) (r : outcome A) : Prop :=
  match r with
  | Built h' a => wf h' /\ preserved h h' /\ nested h' = false /\ ok h' a
  | Nested => bad
  | Stopped => True
  end.
Lemma CPost_then {A B} h (bad : Prop) (ok : oheap -> A -> Prop) (bad2 : Prop) (ok2 : oheap -> B -> Prop) r k :
  CPost h bad ok r -> (bad -> bad2) ->
  (forall h' a, wf h' -> preserved h h' -> nested h' = false -> ok h' a -> CPost h' bad2 ok2 (k h' a)) ->
  CPost h bad2 ok2 (obind r k).
Proof.
  destruct r as [h' a| |]; simpl; auto. intros (W & P & N & O) _ H. specialize (H h' a W P N O).
  destruct (k h' a) as [h'' b| |]; simpl in *; auto. destruct H as (W2 & P2 & N2 & O2).
  split; [auto|]. split; [eapply preserved_trans; eauto|auto].
Qed.
(** one object built for [g] *)
Definition made (g : gv) (h : oheap) (i : nat) : Prop :=
  rhas (rregs g) h i /\
  (exists pl, pipeline h i pl /\ ((exists id, In (NReduce id) pl) <-> reduce_stage g)) /\
  ~ nested_reduces g.
Lemma made_preserved g h h' i : wf h -> preserved h h' -> made g h i -> made g h' i.
Proof.
  intros W P (H1 & (pl & H2 & H3) & H4). split; [apply (has_preserved nat rown False _ h); auto|].
  split; [|auto]. exists pl. split; [eapply pipeline_preserved; eauto|auto].
Qed.
Lemma alloc_nested h p D :
  wf h -> nested h = false -> (forall d, In d D -> (d < length h)%nat) ->
  (nested (h ++ [mkObj None D p]) = true <->
   (exists id, p = NReduce id) /\ exists d, In d D /\ is_reduce h d = true).
Proof.
  intros W N V. rewrite nested_spec.
  assert (Dp : dpx h (h ++ [mkObj None D p])) by (intros j x Hj; exists x; split; [apply nth_app_old; auto|auto]).
  split.
  - intros (j & o & id & d & Hj & Pj & Hd & Rd).
    destruct (Nat.lt_ge_cases j (length h)) as [Lj|Lj].
    + rewrite nth_error_app1 in Hj by auto. exfalso. assert (T : nested h = true); [|congruence].
      apply nested_spec. exists j, o, id, d. repeat (split; [auto|]).
      rewrite <- (is_reduce_dpx h _ d Dp); auto. eapply W; eauto.
    + rewrite nth_error_app2 in Hj by auto. destruct (j - length h)%nat as [|k]; [|destruct k; discriminate].
      inversion Hj; subst o. simpl in *. split; [eauto|]. exists d. split; [auto|].
      rewrite <- (is_reduce_dpx h _ d Dp); auto.
  - intros ((id & ->) & d & Hd & Rd). exists (length h), (mkObj None D (NReduce id)), id, d.
    rewrite nth_error_app2, Nat.sub_diag by lia. split; [reflexivity|]. split; [reflexivity|]. split; [auto|].
    rewrite (is_reduce_dpx h _ d Dp); auto.
Qed.
Lemma alloc_other h D :
  wf h -> nested h = false -> (forall d, In d D -> (d < length h)%nat) -> nested (h ++ [mkObj None D NOther]) = false.
Proof.
  intros W N V. destruct (nested (h ++ _)) eqn:X; auto. apply alloc_nested in X; auto. destruct X as ((id & X) & _). discriminate.
Qed.
Lemma rhave_valid l h is : rhave l h is -> Forall (fun j => (j < length h)%nat) is.
Proof. intros (F & _). eapply Forall_impl; [|exact F]. intros j (pl & H & _). eapply pipeline_valid; eauto. Qed.
Lemma flat_deps_valid h is : wf h -> forall d, In d (flat_map (get_dependencies h) is) -> (d < length h)%nat.
Proof. intros W d Hd. apply in_flat_map in Hd as (i & _ & Hd). eapply deps_valid; eauto. Qed.
Lemma flat_deps_reduce h is l : rhave l h is ->
  ((exists d, In d (flat_map (get_dependencies h) is) /\ is_reduce h d = true) <-> exists r, In r l).
Proof.
  intros (_ & N). split.
  - intros (d & Hd & R). apply in_flat_map in Hd as (i & Hi & Hd).
    destruct (proj2 (names_reduce h i)) as (r & Hr); [eauto|]. exists r. apply N. eauto.
  - intros (r & Hr). apply N in Hr as (i & Hi & Hr).
    destruct (proj1 (names_reduce h i)) as (d & Hd & R); [eauto|]. exists d. split; [apply in_flat_map; eauto|auto].
Qed.
Lemma oeach_clean m l :
  Forall (fun g => forall h, wf h -> nested h = false -> CPost h (nested_reduces g) (made g) (gbuild m g h)) l ->
  forall h, wf h -> nested h = false ->
  CPost h (exists g, In g l /\ nested_reduces g)
    (fun h is => rhave (flat_map rregs l) h is /\ Forall (fun g => ~ nested_reduces g) l) (oeach (gbuild m) l h).
Proof.
  induction 1 as [|g l Hg Hl IH]; intros h W N; cbn [oeach flat_map].
  - simpl. split; [auto|]. split; [apply preserved_refl|]. split; [auto|]. split; [apply have_nil|constructor].
  - eapply CPost_then; [apply Hg; auto|intros X; exists g; split; [left; auto|auto]|]. intros h1 i W1 P1 N1 (O1 & _ & Q1).
    eapply CPost_then; [apply IH; auto|intros (g' & X & Y); exists g'; split; [right; auto|auto]|].
    intros h2 is W2 P2 N2 (O2 & Q2).
    simpl. split; [auto|]. split; [apply preserved_refl|]. split; [auto|]. split; [|constructor; auto].
    apply have_cons; auto. apply (has_preserved nat rown False _ h1); auto.
Qed.
Lemma alloc_made h l p is :
  wf h -> rhave l h is ->
  let h' := h ++ [mkObj None (flat_map (get_dependencies h) is) p] in
  wf h' /\ preserved h h' /\ rhas (l ++ rown p) h' (length h) /\ pipeline h' (length h) [p].
Proof.
  intros W (F & N) h'.
  assert (Fv : Forall (fun j => (j < length h)%nat) is).
  { eapply Forall_impl; [|exact F]. intros j (pl & H & _). eapply pipeline_valid; eauto. }
  destruct (alloc_ok nat rown h p is W Fv) as (W' & P & Pi & An).
  split; [auto|]. split; [auto|]. split; [|auto]. split; [exists [p]; split; [auto|intros []]|].
  intros x. fold h' in An. rewrite An, !in_app_iff, in_flat_map, <- N. tauto.
Qed.
Lemma no_stage_one g : (forall id l, g <> GReduce id l) -> (forall a b, g <> GPipe a b) ->
  (exists id, In (NReduce id) [NOther]) <-> reduce_stage g.
Proof.
  intros H1 H2. split.
  - intros (id & [X|[]]). discriminate.
  - intros H. inversion H; subst; [destruct (H1 _ _ eq_refl)|destruct (H2 _ _ eq_refl)|destruct (H2 _ _ eq_refl)].
Qed.

Lemma gbuild_clean m g :
  forall h, wf h -> nested h = false -> CPost h (nested_reduces g) (made g) (gbuild m g h).
Proof.
  induction g using gv_ind'; intros h W Ne; cbn [gbuild].
  - (* plain *)
    destruct (build m c h) as [h1 i| |] eqn:E; simpl; auto.
    pose proof (build_ok nat rown eq_refl False m c h W) as B. rewrite E in B. destruct B as (W1 & P1 & H1).
    rewrite regs_reduce_nil in H1. split; [auto|]. split; [auto|]. split; [exact (build_clean m c h h1 i W Ne E)|].
    split; [exact H1|]. split.
    + destruct H1 as ((pl & Pl & _) & Nm). exists pl. split; [auto|]. split; [|intros H; inversion H].
      (* stages of a plain conversion are new objects *)
      intros (id & Hid). exfalso.
      assert (R : region (length h) h).
      { split; [auto|]. intros j o Hj Ho. apply nth_error_None in Hj. congruence. }
      pose proof (region_build (length h) m c h R) as K. rewrite E in K. destruct K as [[_ K] Li].
      clear - Pl K Li Hid. induction Pl as [i o Hi Hp|i o p l Hi Hp Hc IH].
      * destruct Hid as [X|[]]. destruct (K _ _ Li Hi) as [K1 _]. exact (K1 _ X).
      * destruct (K _ _ Li Hi) as [K1 K2]. destruct Hid as [X|X]; [exact (K1 _ X)|]. apply IH; auto.
    + intros X. apply nested_inv in X as [(a & Pa & X)|[(id & ps & p & X & _)|(a & b & X & _)]]; try discriminate.
      inversion Pa as [? ? Bl| |]; subst. inversion Bl.
  - (* parts *)
    eapply CPost_then; [apply (oeach_clean m l H h W Ne)| |].
    { intros (g & Hg & X). eapply nested_part; [apply gpart_below, below_part; eauto|auto]. }
    intros h1 is W1 P1 N1 (O1 & Q1). assert (V := rhave_valid _ _ _ O1).
    unfold done. rewrite make_alloc by auto. cbn [lift].
    destruct (alloc_made h1 _ NOther is W1 O1) as (W2 & P2 & O2 & Pl2). cbn [rown] in O2. rewrite app_nil_r in O2.
    simpl. split; [auto|]. split; [auto|]. split; [apply alloc_other; auto; apply flat_deps_valid; auto|].
    split; [exact O2|]. split; [exists [NOther]; split; [auto|apply no_stage_one; discriminate]|].
    intros X. apply nested_inv in X as [(a & Pa & X)|[(id & ps & p & X & _)|(a & b & X & _)]]; try discriminate.
    rewrite Forall_forall in Q1. inversion Pa as [? ? Bl| |]; subst. inversion Bl; subst. eapply Q1; eauto.
  - (* reduce *)
    eapply CPost_then; [apply (oeach_clean m l H h W Ne)| |].
    { intros (g & Hg & X). eapply nested_part; [apply gpart_below, below_reduce; eauto|auto]. }
    intros h1 is W1 P1 N1 (O1 & Q1). assert (V := rhave_valid _ _ _ O1).
    unfold done. rewrite make_alloc by auto. cbn [lift obind].
    destruct (alloc_made h1 _ (NReduce id) is W1 O1) as (W2 & P2 & O2 & Pl2). cbn [rown] in O2.
    pose proof (alloc_nested h1 (NReduce id) _ W1 N1 (flat_deps_valid h1 is W1)) as AN.
    rewrite (flat_deps_reduce _ _ _ O1) in AN.
    unfold checked. destruct (nested (h1 ++ _)) eqn:E.
    + destruct (proj1 AN eq_refl) as (_ & r & Hr). simpl. left. apply in_flat_map in Hr as (p & Hp & Hr).
      exists id, l, p. split; [constructor|]. split; [auto|]. apply rregs_has. eauto.
    + simpl. split; [auto|]. split; [auto|]. split; [auto|]. split; [exact O2|].
      split. { exists [NReduce id]. split; [auto|]. split; [constructor|]. intros _. exists id. left. auto. }
      intros X. apply nested_inv in X as [(a & Pa & X)|[(id' & ps & p & X & Hp & Hh)|(a & b & X & _)]]; try discriminate.
      * rewrite Forall_forall in Q1. inversion Pa as [? ? Bl| |]; subst. inversion Bl; subst. eapply Q1; eauto.
      * inversion X; subst id' ps. apply rregs_has in Hh as (r & Hr).
        assert (T : false = true); [|discriminate]. apply AN. split; [eauto|]. exists r. apply in_flat_map. eauto.
  - (* group *)
    eapply CPost_then; [apply (oeach_clean m b H h W Ne)| |].
    { intros (g' & Hg & X). eapply nested_part; [apply gpart_below, below_key; eauto|auto]. }
    intros h1 is W1 P1 N1 (O1 & Q1). assert (Fv1 := rhave_valid _ _ _ O1).
    unfold done. rewrite make_alloc by auto. cbn [lift obind].
    set (o := mkObj None (flat_map (get_dependencies h1) is) NOther).
    destruct (alloc_made h1 _ NOther is W1 O1) as (W2 & P2 & O2 & _). fold o in W2, P2, O2.
    assert (N2 : nth_error (h1 ++ [o]) (length h1) = Some o) by (rewrite nth_error_app2, Nat.sub_diag by lia; reflexivity).
    assert (Ne2 : nested (h1 ++ [o]) = false) by (apply alloc_other; auto; apply flat_deps_valid; auto).
    set (h2 := h1 ++ [o]) in *.
    assert (G : CPost h2 (nested_reduces (GGroup b g s)) (made (GGroup b g s))
              (obind (gbuild m g h2) (fun h o0 => obind (lift (clone m h (length h1))) (fun h g' =>
                 match s with None => Built (ensure h g' [o0]) g'
                 | Some ks => obind (oeach (gbuild m) ks (ensure h g' [o0])) (fun h _ => lift (clone m h g')) end)))).
    2:{ revert G. destruct (obind _ _) as [h' i| |]; simpl; auto. intros (A & B & C). split; [auto|].
        split; [eapply preserved_trans; eauto|auto]. }
    eapply CPost_then; [apply IHg; auto| |].
    { intros X. eapply nested_part; [apply gpart_below, below_output|auto]. }
    intros h3 q W3 P3 Ne3 (O3 & _ & Q3).
    assert (N3 : nth_error h3 (length h1) = Some o) by (apply P3; auto).
    pose proof (clone_single m h3 (length h1) _ _ N3) as Cl.
    destruct (clone m h3 (length h1)) as [h4 g'| |]; cbn [lift obind]; try exact I.
    destruct Cl as (-> & ->).
    destruct O3 as ((pq & Pq & Cq) & Nq).
    assert (Lq : (q < length h3)%nat) by (eapply pipeline_valid; eauto).
    rewrite ensure_last by (constructor; auto).
    assert (O3 : rhave (flat_map rregs b ++ rregs g) h3 (is ++ [q])).
    { apply have_app; [apply (have_preserved nat rown False _ h1); auto; eapply preserved_trans; eauto|].
      apply have_one. split; eauto. }
    assert (E : flat_map (get_dependencies h1) is ++ flat_map (get_dependencies h3) [q] =
                flat_map (get_dependencies h3) (is ++ [q])).
    { rewrite flat_map_app. f_equal. symmetry. apply flat_deps_preserved; auto. eapply preserved_trans; eauto. }
    rewrite E. destruct (alloc_made h3 _ NOther _ W3 O3) as (W5 & P5 & O5 & Pl5). cbn [rown] in O5. rewrite app_nil_r in O5.
    assert (Ne5 : nested (h3 ++ [mkObj None (flat_map (get_dependencies h3) (is ++ [q])) NOther]) = false)
      by (apply alloc_other; auto; apply flat_deps_valid; auto).
    set (o5 := mkObj None (flat_map (get_dependencies h3) (is ++ [q])) NOther) in *.
    set (h5 := h3 ++ [o5]) in *.
    assert (N5 : nth_error h5 (length h3) = Some o5) by (unfold h5; rewrite nth_error_app2, Nat.sub_diag by lia; reflexivity).
    destruct s as [ks|].
    2:{ simpl. split; [auto|]. split; [auto|]. split; [auto|]. split; [exact O5|].
        split; [exists [NOther]; split; [auto|apply no_stage_one; discriminate]|].
        intros X. apply nested_inv in X as [(a & Pa & X)|[(id' & ps & p & X & Hp & Hh)|(a & b' & X & _)]]; try discriminate.
        rewrite Forall_forall in Q1. inversion Pa as [? ? Bl| |]; subst. inversion Bl; subst; [eapply Q1; eauto|auto]. }
    pose proof (oeach_clean m ks H0 h5 W5 Ne5) as Gk.
    destruct (oeach (gbuild m) ks h5) as [h6 js| |]; simpl in Gk |- *; auto.
    2:{ destruct Gk as (k & Hk & X). eapply nested_part; [apply gpart_sort; eauto|auto]. }
    destruct Gk as (W6 & P6 & Ne6 & (O6 & Q6)).
    assert (N6 : nth_error h6 (length h3) = Some o5) by (apply P6; auto).
    pose proof (clone_single m h6 (length h3) _ _ N6) as Cl6.
    destruct (clone m h6 (length h3)) as [h7 g'| |]; simpl; auto. destruct Cl6 as (-> & ->).
    assert (P36 : preserved h3 h6) by (eapply preserved_trans; eauto).
    assert (O7 : rhave (flat_map rregs b ++ rregs g) h6 (is ++ [q])) by (apply (have_preserved nat rown False _ h3); auto).
    destruct (alloc_made h6 _ NOther _ W6 O7) as (W7 & P7 & O8 & Pl8). cbn [rown] in O8. rewrite app_nil_r in O8.
    assert (Ne7 : nested (h6 ++ [mkObj None (flat_map (get_dependencies h6) (is ++ [q])) NOther]) = false)
      by (apply alloc_other; auto; apply flat_deps_valid; auto).
    rewrite (flat_deps_preserved h3 h6) in W7, P7, O8, Ne7, Pl8 by (auto; eapply rhave_valid; eauto).
    fold o5 in W7, P7, O8, Ne7, Pl8.
    split; [auto|]. split; [eapply preserved_trans; eauto; eapply preserved_trans; eauto|]. split; [auto|].
    split; [exact O8|]. split; [exists [NOther]; split; [auto|apply no_stage_one; discriminate]|].
    intros X. apply nested_inv in X as [(a & Pa & X)|[(id' & ps & p & X & Hp & Hh)|(a & b' & X & _)]]; try discriminate.
    rewrite Forall_forall in Q1, Q6. inversion Pa as [? ? Bl| |]; subst.
    + inversion Bl; subst; [eapply Q1; eauto|auto].
    + eapply Q6; eauto.
  - (* join *)
    eapply CPost_then; [apply IHg1; auto| |].
    { intros X. eapply nested_part; [apply gpart_below, below_left|auto]. }
    intros h1 i W1 P1 Ne1 (O1 & _ & Q1).
    eapply CPost_then; [apply IHg2; auto| |].
    { intros X. eapply nested_part; [apply gpart_below, below_right|auto]. }
    intros h2 j W2 P2 Ne2 (O2 & _ & Q2).
    destruct (build m c h2) as [h3 k| |] eqn:E; cbn [lift obind]; try exact I.
    pose proof (build_ok nat rown eq_refl True m c h2 W2) as B. rewrite E in B. destruct B as (W3 & P3 & O3).
    rewrite regs_reduce_nil in O3. pose proof (build_clean _ _ _ _ _ W2 Ne2 E) as Ne3.
    set (args := arg_objects h3 (get_dependencies h3 k)) in *.
    destruct O3 as ((pk & Pk & Ck) & Nk). specialize (Ck I).
    assert (Fa : Forall (fun d => (d < length h3)%nat) args).
    { apply Forall_forall. intros d Hd. apply arg_objects_in in Hd. eapply deps_valid; eauto. }
    assert (Na : forall d t, In d args -> ~ In t (rnames h3 d)).
    { intros d t Hd Ht. apply arg_objects_in in Hd. apply (Nk t). apply (Ck d Hd). auto. }
    assert (O1' : rhas (rregs g1) h3 i).
    { apply (has_preserved nat rown False _ h2); auto. apply (has_preserved nat rown False _ h1); auto. }
    assert (O2' : rhas (rregs g2) h3 j) by (apply (has_preserved nat rown False _ h2); auto).
    assert (Oij : rhave (rregs g1 ++ rregs g2) h3 [i; j]) by (apply have_cons; [auto|apply have_one; auto]).
    assert (Fij := rhave_valid _ _ _ Oij).
    unfold done. rewrite make_alloc by auto. cbn [lift obind]. rewrite ensure_last by auto.
    rewrite <- flat_map_app.
    assert (Fall : Forall (fun j => (j < length h3)%nat) ([i; j] ++ args)) by (apply Forall_app; auto).
    destruct (alloc_ok nat rown h3 NOther _ W3 Fall) as (W4 & P4 & Pi & An).
    assert (Ne4 : nested (h3 ++ [mkObj None (flat_map (get_dependencies h3) ([i; j] ++ args)) NOther]) = false)
      by (apply alloc_other; auto; apply flat_deps_valid; auto).
    set (h4 := h3 ++ [mkObj None (flat_map (get_dependencies h3) ([i; j] ++ args)) NOther]) in *.
    assert (N4 : forall t, In t (rnames h4 (length h3)) <-> In t (rregs g1 ++ rregs g2)).
    { intros t. rewrite An. cbn [rown]. rewrite app_nil_r, flat_map_app, !in_app_iff.
      cbn [flat_map]. rewrite app_nil_r, in_app_iff.
      rewrite (proj2 O1' t), (proj2 O2' t). split; [|tauto]. intros [?|X]; [auto|].
      apply in_flat_map in X as (d & Hd & X). destruct (Na d t Hd X). }
    cbn [CPost]. split; [exact W4|].
    split; [eapply preserved_trans; eauto|]. split; [exact Ne4|].
    split; [split; [exists [NOther]; split; [auto|intros []]|exact N4]|].
    split; [exists [NOther]; split; [auto|apply no_stage_one; discriminate]|].
    intros X. apply nested_inv in X as [(a & Pa & X)|[(id' & ps & p & X & Hp & Hh)|(a & b' & X & _)]]; try discriminate.
    inversion Pa as [? ? Bl| |]; subst; [inversion Bl; subst; auto|].
    apply nested_inv in X as [(a & Pa' & X)|[(id' & ps & p & X & Hp & Hh)|(a & b' & X & _)]]; try discriminate.
    inversion Pa' as [? ? Bl| |]; subst. inversion Bl.
  - (* pipe *)
    eapply CPost_then; [apply IHg1; auto| |].
    { intros X. eapply nested_part; [apply gpart_below, below_first|auto]. }
    intros h1 i W1 P1 Ne1 M1.
    eapply CPost_then; [apply IHg2; auto| |].
    { intros X. eapply nested_part; [apply gpart_below, below_second|auto]. }
    intros h2 j W2 P2 Ne2 (O2 & (pj & Hj & Sj) & Q2).
    destruct (made_preserved _ _ _ _ W1 P2 M1) as (O1 & (pi & Hi & Si) & Q1).
    destruct O1 as (O1 & Ni), O2 as (O2 & Nj).
    pose proof (pipe_exact (Label := lname) (fun _ _ => NOther) m h2 i j pi pj None None Hi Hj) as PE.
    cbv zeta in PE.
    destruct ((Z.of_nat (length pi) <=? m) && (Z.of_nat (length pj) <=? m) && (Z.of_nat (length pj) <=? m - 1))%Z.
    + destruct PE as (h' & r & ra & rb & E & Pr & Ra & Rb & Pl). simpl in Ra, Rb. subst ra rb.
      destruct (pipe_args nat rown (fun _ _ => NOther) (fun _ _ => eq_refl) m h2 h' i j None None r W2
                  (pipeline_valid _ _ _ Hj) E (Forall_nil _) (Forall_nil _)) as (W' & N').
      pose proof (pipe_nested m h2 h' i j pi pj r W2 Ne2 Hi Hj E) as PN.
      assert (HR : (exists t, In t (rnames h2 i)) <-> has_reduce g1).
      { rewrite <- rregs_has. split; intros (t & Ht); exists t; apply Ni; auto. }
      rewrite Sj, HR in PN.
      rewrite E. cbn [lift obind]. unfold checked. destruct (nested h') eqn:En.
      * simpl. right. exists g1, g2. split; [constructor|]. destruct (proj1 PN eq_refl). auto.
      * simpl. split; [auto|]. split; [auto|]. split; [auto|]. split.
        { split; [eexists; split; [eauto|intros []]|]. intros x. simpl. rewrite N', in_app_iff, Ni, Nj. split; [|tauto].
          intros [|[|(l & [] & _)]]; auto. }
        split.
        { exists (pj ++ pi). split; [auto|]. split.
          - intros (id & X). apply in_app_or in X as [X|X]; [apply stage_second, Sj|apply stage_first, Si]; eauto.
          - intros X. inversion X as [|? ? Y|? ? Y]; subst; [apply Si in Y|apply Sj in Y]; destruct Y as (id & Y);
              exists id; apply in_or_app; auto. }
        intros X. apply nested_inv in X as [(a & Pa & X)|[(id' & ps & p & X & Hp & Hh)|(a & b' & X & Ha & Hb)]]; try discriminate.
        { inversion Pa as [? ? Bl| |]; subst. inversion Bl; subst; auto. }
        inversion X; subst a b'. assert (T : false = true); [|discriminate]. apply PN. auto.
    + destruct PE as (h' & E & _). rewrite E. exact I.
Qed.
