(** Proofs about what aggregations and joins register. *)
From Coq Require Import String List ZArith NArith Bool Arith Lia Sorting.Sorted.
From Verif Require Import Model_Code Model_Heap Spec_Heap Proofs_Heap Props_Heap Model_Args Spec_Args Proofs_Code
  Proofs_Args Model_AggDeps Spec_AggDeps.
Import ListNotations.

Section GvInd.
  Variable P : gv -> Prop.
  Hypothesis Hplain : forall c, P (GPlain c).
  Hypothesis Hparts : forall l, Forall P l -> P (GParts l).
  Hypothesis Hreduce : forall id l, Forall P l -> P (GReduce id l).
  Hypothesis Hgroup : forall b o s, Forall P b -> P o ->
    match s with Some ks => Forall P ks | None => True end -> P (GGroup b o s).
  Hypothesis Hjoin : forall l r c, P l -> P r -> P (GJoin l r c).
  Hypothesis Hpipe : forall a b, P a -> P b -> P (GPipe a b).
  Fixpoint gv_ind' (g : gv) : P g :=
    let all := fix all (l : list gv) : Forall P l :=
      match l with [] => Forall_nil _ | x :: r => Forall_cons _ (gv_ind' x) (all r) end in
    match g with
    | GPlain c => Hplain c
    | GParts l => Hparts l (all l)
    | GReduce id l => Hreduce id l (all l)
    | GGroup b o s => Hgroup b o s (all b) (gv_ind' o)
                        (match s with Some ks => all ks | None => I end)
    | GJoin l r c => Hjoin l r c (gv_ind' l) (gv_ind' r)
    | GPipe a b => Hpipe a b (gv_ind' a) (gv_ind' b)
    end.
End GvInd.

Inductive tag : Type := TArg (x : text) | TLabel (n : lname) | TReduce (r : nat).
Definition town (p : node) : list tag :=
  match p with NArg x => [TArg x] | NLabel n => [TLabel n] | NReduce r => [TReduce r] | NOther => [] end.
Notation tnames := (names tag town).
Notation thas := (has tag town False).
Notation thave := (have tag town False).
Notation tregs := (Proofs_Deps.regs tag town).

Fixpoint gregs (g : gv) : list tag :=
  match g with
  | GPlain c => tregs c
  | GParts l => flat_map gregs l
  | GReduce id l => flat_map gregs l ++ [TReduce id]
  | GGroup b o _ => flat_map gregs b ++ gregs o
  | GJoin l r c => gregs l ++ gregs r ++ tregs c
  | GPipe a b => gregs a ++ gregs b
  end.
(** no Reduce has a Reduce among what it registered *)
Definition flat (g : gv) : Prop :=
  forall id l r, gwithin (GReduce id l) g -> ~ In (TReduce r) (flat_map gregs l).
Definition nolab (g : gv) : Prop :=
  forall l r c n, gwithin (GJoin l r c) g -> ~ In (TLabel n) (tregs c).

Definition GPost {A} (h : oheap) (ok : oheap -> A -> Prop) (r : outcome A) : Prop :=
  match r with
  | Built h' a => wf h' /\ preserved h h' /\ ok h' a
  | _ => True
  end.
Lemma GPost_then {A B} h (ok : oheap -> A -> Prop) (ok2 : oheap -> B -> Prop) r k :
  GPost h ok r ->
  (forall h' a, wf h' -> preserved h h' -> ok h' a -> GPost h' ok2 (k h' a)) ->
  GPost h ok2 (obind r k).
Proof.
  destruct r as [h' a| |]; simpl; auto. intros (W & P & O) H. specialize (H h' a W P O).
  destruct (k h' a) as [h'' b| |]; simpl in *; auto. destruct H as (W2 & P2 & O2).
  split; [auto|]. split; [eapply preserved_trans; eauto|auto].
Qed.
Lemma GPost_lift {A} h (ok : oheap -> A -> Prop) r : Post h ok r -> GPost h ok (lift r).
Proof. destruct r; simpl; auto. Qed.
Lemma GPost_done h p l is : wf h -> thave l h is -> GPost h (thas (l ++ town p)) (lift (done h p is)).
Proof. intros W H. apply GPost_lift. apply done_ok; auto. Qed.

Lemma oeach_ok (f : gv -> oheap -> outcome nat) l (Q : gv -> Prop) :
  Forall (fun g => forall h, wf h -> GPost h (fun h i => thas (gregs g) h i /\ Q g) (f g h)) l ->
  forall h, wf h -> GPost h (fun h is => thave (flat_map gregs l) h is /\ Forall Q l) (oeach f l h).
Proof.
  induction 1 as [|g l Hg Hl IH]; intros h W; cbn [oeach flat_map].
  - simpl. split; [auto|]. split; [apply preserved_refl|]. split; [apply have_nil|constructor].
  - eapply GPost_then; [apply Hg; auto|]. intros h1 i W1 P1 (O1 & Q1).
    eapply GPost_then; [apply IH; auto|]. intros h2 is W2 P2 (O2 & Q2).
    simpl. split; [auto|]. split; [apply preserved_refl|]. split; [|constructor; auto].
    apply have_cons; auto. apply (has_preserved tag town False _ h1); auto.
Qed.

(** *** nothing nested *)
Lemma checked_spec {A} h (a : A) ok : GPost h ok (Built h a) -> GPost h (fun h a => ok h a /\ nested h = false) (checked h a).
Proof. unfold checked. destruct (nested h) eqn:E; simpl; auto. tauto. Qed.
Lemma nested_false h j o :
  nested h = false -> nth_error h j = Some o -> (exists r, payload o = NReduce r) ->
  forall t, In (TReduce t) (flat_map (name_at tag town h) (deps o)) -> False.
Proof.
  intros N E (r & P) t Ht. apply in_flat_map in Ht as (d & Hd & Ht).
  assert (X : nested h = true); [|congruence]. unfold nested. apply existsb_exists. exists o.
  split; [eapply nth_error_In; eauto|]. rewrite P. apply existsb_exists. exists d. split; [auto|].
  unfold is_reduce. unfold name_at in Ht. destruct (nth_error h d) as [x|]; [|destruct Ht].
  destruct (payload x); simpl in Ht; auto; destruct Ht as [Ht|[]]; discriminate.
Qed.
Lemma reduce_flat h h' id is i l :
  wf h -> thave l h is -> done h (NReduce id) is = Done h' i -> nested h' = false ->
  forall r, ~ In (TReduce r) l.
Proof.
  intros W (F & N) D Ne r Hr.
  assert (Fv : Forall (fun j => (j < length h)%nat) is).
  { eapply Forall_impl; [|exact F]. intros j (pl & H & _). eapply pipeline_valid; eauto. }
  unfold done in D. rewrite make_alloc in D by auto. inversion D; subst h' i; clear D.
  set (o := mkObj None (flat_map (get_dependencies h) is) (NReduce id)) in *.
  apply N in Hr as (j & Hj & Hr).
  eapply (nested_false _ (length h) o Ne).
  - rewrite nth_error_app2, Nat.sub_diag by lia. reflexivity.
  - exists id. reflexivity.
  - cbn [deps]. apply in_flat_map. unfold names in Hr. apply in_flat_map in Hr as (d & Hd & Hr).
    exists d. split; [apply in_flat_map; eauto|].
    assert (Ld : (d < length h)%nat) by (eapply deps_valid; eauto).
    unfold name_at in *. rewrite nth_error_app1 by auto. eauto.
Qed.

(** *** joins *)
Lemma arg_objects_in h l d : In d (arg_objects h l) -> In d l.
Proof.
  induction l as [|e l IH]; simpl; [auto|].
  destruct (arg_key h e); [|auto]. destruct (existsb _ l); simpl; intuition.
Qed.
Lemma arg_objects_last h l : forall d k, In d l -> arg_key h d = Some k ->
  exists e, In e (arg_objects h l) /\ arg_key h e = Some k.
Proof.
  induction l as [|e l IH]; simpl; [intros ? ? []|]. intros d k Hd Hk.
  destruct (arg_key h e) as [k'|] eqn:E.
  - destruct (existsb _ l) eqn:X.
    + destruct Hd as [->|Hd]; [|eauto]. apply existsb_exists in X as (f & Hf & Xf).
      destruct (key_eq_dec (arg_key h f) (Some k')) as [Ef|]; [|discriminate].
      apply (IH f k Hf). congruence.
    + destruct Hd as [->|Hd]; [exists d; split; [left; auto|congruence]|].
      destruct (IH d k Hd Hk) as (f & Hf & Ef). exists f. split; [right; auto|auto].
  - destruct Hd as [->|Hd]; [congruence|eauto].
Qed.
(** a conversion that registered only input arguments *)
Lemma args_have h k l :
  wf h -> has tag town True l h k -> (forall n, ~ In (TLabel n) l) -> (forall r, ~ In (TReduce r) l) ->
  let args := arg_objects h (get_dependencies h k) in
  Forall (fun d => (d < length h)%nat) args /\
  forall t, In t (flat_map (tnames h) args) <-> In t l.
Proof.
  intros W ((pl & Pl & C0) & N) NL NR args. specialize (C0 I) as C. split.
  - apply Forall_forall. intros d Hd. apply arg_objects_in in Hd. eapply deps_valid; eauto.
  - intros t. rewrite in_flat_map. split.
    + intros (d & Hd & Ht). apply arg_objects_in in Hd. apply N. apply (C d Hd); auto.
    + intros Ht. destruct t as [x|n|r]; [|destruct (NL n Ht)|destruct (NR r Ht)].
      apply N in Ht. unfold names in Ht. apply in_flat_map in Ht as (d & Hd & Ht).
      assert (K : arg_key h d = Some (inl x)).
      { unfold name_at in Ht. unfold arg_key. destruct (nth_error h d) as [o|]; [|destruct Ht].
        destruct (payload o); simpl in Ht; try destruct Ht as [Ht|[]]; try discriminate; [|destruct Ht].
        inversion Ht; subst. reflexivity. }
      destruct (arg_objects_last h _ d _ Hd K) as (e & He & Ke). exists e. split; [auto|].
      assert (He' : In e (get_dependencies h k)) by (eapply arg_objects_in; eauto).
      assert (Te : In (TArg x) (name_at tag town h e)).
      { unfold name_at. unfold arg_key in Ke. destruct (nth_error h e) as [o|] eqn:Eo; [|discriminate].
        destruct (payload o) as [y|n|r|] eqn:Po; try discriminate.
        - inversion Ke; subst. left. reflexivity.
        - exfalso. apply (NL n). apply N. unfold names. apply in_flat_map. exists e. split; [auto|].
          unfold name_at. rewrite Eo, Po. left. reflexivity. }
      unfold names. apply in_flat_map. exists e. split; [|auto].
      unfold get_dependencies. unfold name_at in Te. destruct (nth_error h e); [|destruct Te].
      apply in_or_app. right. left. reflexivity.
Qed.
Lemma regs_no_reduce c : forall r, ~ In (TReduce r) (tregs c).
Proof.
  intros r. change (~ In (TReduce r) (tregs c)).
  assert (L : forall l, Forall (fun c => ~ In (TReduce r) (tregs c)) l -> ~ In (TReduce r) (flat_map tregs l)).
  { intros l F H. apply in_flat_map in H as (c0 & Z0 & H1). rewrite Forall_forall in F. exact (F _ Z0 H1). }
  assert (O : forall o, optP (fun c => ~ In (TReduce r) (tregs c)) o ->
     ~ In (TReduce r) (match o with Some c => tregs c | None => [] end)).
  { intros [c0|] H; simpl; auto. }
  induction c using cv_ind'; cbn [Proofs_Deps.regs]; rewrite ?in_app_iff; try solve [intros []];
    try solve [intros [H|[]]; discriminate]; try solve [apply L; auto]; try tauto.
  - destruct o; try (apply L; auto); destruct l as [|s l]; try solve [intros []];
      match goal with F : Forall _ (_ :: _) |- _ => inversion F; subst; auto end.
  - intros [Z0|[Z0|Z0]]; revert Z0; apply O; auto.
  - intros [Z0|[Z0|Z0]]; revert Z0; [apply O; auto|apply L; auto|auto].
  - intros [Z0|Z0]; revert Z0; [apply L; auto|apply O; auto].
  - intros Z0. apply in_flat_map in Z0 as ([co e] & Hl & Z0). rewrite Forall_forall in H.
    destruct (H _ Hl) as [Hc He]. cbn [fst snd] in *. apply in_app_or in Z0 as [Z0|Z0]; [|auto].
    revert Z0. apply O; auto.
  - intros [Z0|Z0]; [auto|]. apply in_flat_map in Z0 as ([nl e] & Hl & Z0). rewrite Forall_forall in H.
    exact (H _ Hl Z0).
  - intros [Z0|Z0]; [auto|]. apply in_flat_map in Z0 as ([k l] & Hl & Z0). rewrite Forall_forall in H.
    revert Z0. apply L. exact (H _ Hl).
Qed.

(** *** cloning an object without input *)
Lemma clone_single m (h : oheap) i d p :
  nth_error h i = Some (mkObj None d p) ->
  match clone m h i with
  | Done h' j => h' = h ++ [mkObj None d p] /\ j = length h
  | _ => True
  end.
Proof.
  intros E. unfold clone, clone1. rewrite E. destruct (Z.to_nat m) as [|n]; cbn [clone_loop]; [exact I|].
  rewrite nth_error_app2, Nat.sub_diag by lia. simpl. auto.
Qed.
Lemma alloc_has h l is :
  wf h -> thave l h is ->
  let h' := h ++ [mkObj None (flat_map (get_dependencies h) is) NOther] in
  wf h' /\ preserved h h' /\ thas l h' (length h).
Proof.
  intros W (F & N) h'.
  assert (Fv : Forall (fun j => (j < length h)%nat) is).
  { eapply Forall_impl; [|exact F]. intros j (pl & H & _). eapply pipeline_valid; eauto. }
  destruct (alloc_ok tag town h NOther is W Fv) as (W' & P & Pi & An).
  split; [auto|]. split; [auto|]. split; [exists [NOther]; split; [auto|intros []]|].
  intros x. fold h' in An. rewrite An. simpl. rewrite app_nil_r, in_flat_map, <- N. tauto.
Qed.
Lemma flat_deps_preserved (h h' : oheap) is :
  preserved h h' -> Forall (fun j => (j < length h)%nat) is ->
  flat_map (get_dependencies h') is = flat_map (get_dependencies h) is.
Proof.
  intros P F. apply flat_map_ext_in'. intros j Hj. rewrite Forall_forall in F.
  apply get_deps_dpx; auto. apply preserved_dpx; auto.
Qed.
Lemma have_valid l h is : thave l h is -> Forall (fun j => (j < length h)%nat) is.
Proof. intros (F & _). eapply Forall_impl; [|exact F]. intros j (pl & H & _). eapply pipeline_valid; eauto. Qed.

(** *** building *)
Lemma flat_sub g l (Q : forall a, gpart a g -> In a l) :
  (forall id ps, g <> GReduce id ps) -> Forall flat l -> flat g.
Proof.
  intros NR F id ps r H. inversion H as [|a b g' Hw Hp]; subst; [destruct (NR id ps); auto|].
  rewrite Forall_forall in F. exact (F _ (Q _ Hp) id ps r Hw).
Qed.
Lemma nolab_part a g : gpart a g -> nolab g -> nolab a.
Proof. intros P H l r c n Hw. apply (H l r c n). eapply gwithin_part; eauto. Qed.
Lemma plain_flat c : flat (GPlain c).
Proof.
  intros id l r H. inversion H as [|a b g' Hw Hp]; subst.
  inversion Hp as [? ? B| |]; subst. inversion B.
Qed.

Lemma gbuild_ok m g : nolab g ->
  forall h, wf h -> GPost h (fun h i => thas (gregs g) h i /\ flat g) (gbuild m g h).
Proof.
  induction g using gv_ind'; intros NL h W; cbn [gbuild gregs].
  - (* plain *)
    apply GPost_lift. eapply Post_impl; [|apply (build_ok tag town eq_refl False m c h W)].
    intros h1 i H. split; [exact H|apply plain_flat].
  - (* parts *)
    assert (F : Forall (fun g => forall h, wf h -> GPost h (fun h i => thas (gregs g) h i /\ flat g) (gbuild m g h)) l).
    { rewrite Forall_forall in *. intros g Hg. apply H; auto. eapply nolab_part; [|exact NL]. constructor. constructor. auto. }
    eapply GPost_then; [apply (oeach_ok _ _ flat F h W)|]. intros h1 is W1 P1 (O1 & Q1).
    pose proof (GPost_done h1 NOther _ is W1 O1) as G. destruct (lift (done h1 NOther is)) as [h2 i| |]; simpl in *; auto.
    rewrite app_nil_r in G. destruct G as (W2 & P2 & O2). split; [auto|]. split; [auto|]. split; [auto|].
    apply (flat_sub _ l); [|congruence|auto]. intros a Ha. inversion Ha as [? ? B| |]; subst. inversion B; auto.
  - (* reduce *)
    assert (F : Forall (fun g => forall h, wf h -> GPost h (fun h i => thas (gregs g) h i /\ flat g) (gbuild m g h)) l).
    { rewrite Forall_forall in *. intros g Hg. apply H; auto. eapply nolab_part; [|exact NL]. constructor. constructor. auto. }
    eapply GPost_then; [apply (oeach_ok _ _ flat F h W)|]. intros h1 is W1 P1 (O1 & Q1).
    pose proof (GPost_done h1 (NReduce id) _ is W1 O1) as G.
    destruct (done h1 (NReduce id) is) as [h2 i| |] eqn:D; simpl in *; auto.
    unfold checked. destruct (nested h2) eqn:Ne; [exact I|]. simpl.
    destruct G as (W2 & P2 & O2). split; [auto|]. split; [auto|]. split; [auto|].
    intros id' ps r Hw. inversion Hw as [|a b g' Hw' Hp]; subst.
    + exact (reduce_flat _ _ _ _ _ _ W1 O1 D Ne r).
    + inversion Hp as [? ? B| |]; subst. inversion B; subst. rewrite Forall_forall in Q1.
      apply (Q1 b) with (id := id') (l := ps); auto.
  - (* group *)
    assert (F : Forall (fun g => forall h, wf h -> GPost h (fun h i => thas (gregs g) h i /\ flat g) (gbuild m g h)) b).
    { rewrite Forall_forall in *. intros g' Hg. apply H; auto. eapply nolab_part; [|exact NL]. constructor. constructor. auto. }
    eapply GPost_then; [apply (oeach_ok _ _ flat F h W)|]. intros h1 is W1 P1 (O1 & Q1).
    assert (Fv1 := have_valid _ _ _ O1).
    unfold done. rewrite make_alloc by auto. cbn [lift obind].
    set (o := mkObj None (flat_map (get_dependencies h1) is) NOther).
    destruct (alloc_has h1 _ is W1 O1) as (W2 & P2 & O2). fold o in W2, P2, O2.
    assert (N2 : nth_error (h1 ++ [o]) (length h1) = Some o) by (rewrite nth_error_app2, Nat.sub_diag by lia; reflexivity).
    set (h2 := h1 ++ [o]) in *.
    assert (G : GPost h2 (fun h i => thas (flat_map gregs b ++ gregs g) h i /\ flat (GGroup b g s))
              (obind (gbuild m g h2) (fun h o0 => obind (lift (clone m h (length h1))) (fun h g' =>
                 match s with None => Built (ensure h g' [o0]) g'
                 | Some ks => obind (oeach (gbuild m) ks (ensure h g' [o0])) (fun h _ => lift (clone m h g')) end)))).
    2:{ revert G. destruct (obind _ _) as [h' i| |]; simpl; auto. intros (A & B & C). split; [auto|].
        split; [eapply preserved_trans; eauto|auto]. }
    assert (G3 : GPost h2 (fun h i => thas (gregs g) h i /\ flat g) (gbuild m g h2)).
    { apply IHg; auto. eapply nolab_part; [|exact NL]. apply gpart_below, below_output. }
    eapply GPost_then; [exact G3|].
    intros h3 q W3 P3 (O3 & Q3).
    assert (N3 : nth_error h3 (length h1) = Some o) by (apply P3; auto).
    pose proof (clone_single m h3 (length h1) _ _ N3) as Cl.
    destruct (clone m h3 (length h1)) as [h4 g'| |]; cbn [lift obind]; try exact I.
    destruct Cl as (-> & ->).
    destruct O3 as ((pq & Pq & Cq) & Nq).
    assert (Lq : (q < length h3)%nat) by (eapply pipeline_valid; eauto).
    rewrite ensure_last by (constructor; auto).
    assert (O3 : thave (flat_map gregs b ++ gregs g) h3 (is ++ [q])).
    { apply have_app; [apply (have_preserved tag town False _ h1); auto; eapply preserved_trans; eauto|].
      apply have_one. split; eauto. }
    assert (E : flat_map (get_dependencies h1) is ++ flat_map (get_dependencies h3) [q] =
                flat_map (get_dependencies h3) (is ++ [q])).
    { rewrite flat_map_app. f_equal. symmetry. apply flat_deps_preserved; auto. eapply preserved_trans; eauto. }
    rewrite E. destruct (alloc_has h3 _ _ W3 O3) as (W5 & P5 & O5).
    set (o5 := mkObj None (flat_map (get_dependencies h3) (is ++ [q])) NOther) in *.
    set (h5 := h3 ++ [o5]) in *.
    assert (N5 : nth_error h5 (length h3) = Some o5) by (unfold h5; rewrite nth_error_app2, Nat.sub_diag by lia; reflexivity).
    destruct s as [ks|].
    2:{ simpl. split; [auto|]. split; [auto|]. split; [auto|].
        apply (flat_sub _ (g :: b)); [|congruence|constructor; auto].
        intros a Ha. inversion Ha as [? ? B| |]; subst. inversion B; subst; [right|left]; auto. }
    assert (Fk : Forall (fun g => forall h, wf h -> GPost h (fun h i => thas (gregs g) h i /\ flat g) (gbuild m g h)) ks).
    { rewrite Forall_forall in *. intros g' Hg. apply H0; auto. eapply nolab_part; [|exact NL]. apply gpart_sort. auto. }
    pose proof (oeach_ok _ _ flat Fk h5 W5) as Gk.
    destruct (oeach (gbuild m) ks h5) as [h6 js| |]; simpl in Gk |- *; auto.
    destruct Gk as (W6 & P6 & (O6 & Q6)).
    assert (N6 : nth_error h6 (length h3) = Some o5) by (apply P6; auto).
    pose proof (clone_single m h6 (length h3) _ _ N6) as Cl6.
    destruct (clone m h6 (length h3)) as [h7 g'| |]; simpl; auto. destruct Cl6 as (-> & ->).
    assert (P36 : preserved h3 h6) by (eapply preserved_trans; eauto).
    assert (O7 : thave (flat_map gregs b ++ gregs g) h6 (is ++ [q])) by (apply (have_preserved tag town False _ h3); auto).
    destruct (alloc_has h6 _ _ W6 O7) as (W7 & P7 & O8).
    rewrite (flat_deps_preserved h3 h6) in W7, P7, O8 by (auto; eapply have_valid; eauto). fold o5 in W7, P7, O8.
    split; [auto|]. split; [eapply preserved_trans; eauto; eapply preserved_trans; eauto|]. split; [auto|].
    apply (flat_sub _ (g :: b ++ ks)); [|congruence|constructor; auto; apply Forall_app; auto].
    intros a Ha. inversion Ha as [? ? B| |]; subst.
    + inversion B; subst; [right; apply in_or_app; auto|left; auto].
    + right. apply in_or_app; auto.
  - (* join *)
    eapply GPost_then; [apply IHg1; auto; eapply nolab_part; [|exact NL]; constructor; constructor|].
    intros h1 i W1 P1 (O1 & Q1).
    eapply GPost_then; [apply IHg2; auto; eapply nolab_part; [|exact NL]; constructor; constructor|].
    intros h2 j W2 P2 (O2 & Q2).
    eapply GPost_then; [apply GPost_lift; apply (build_ok tag town eq_refl True m c h2 W2)|].
    intros h3 k W3 P3 O3.
    destruct (args_have h3 k _ W3 O3 (fun n => NL _ _ _ n (gwithin_itself _)) (regs_no_reduce c)) as (Fa & Na).
    set (args := arg_objects h3 (get_dependencies h3 k)) in *.
    assert (O1' : thas (gregs g1) h3 i).
    { apply (has_preserved tag town False _ h2); auto. apply (has_preserved tag town False _ h1); auto. }
    assert (O2' : thas (gregs g2) h3 j) by (apply (has_preserved tag town False _ h2); auto).
    assert (Oij : thave (gregs g1 ++ gregs g2) h3 [i; j]) by (apply have_cons; [auto|apply have_one; auto]).
    assert (Fij := have_valid _ _ _ Oij).
    unfold done. rewrite make_alloc by auto. cbn [lift obind]. rewrite ensure_last by auto.
    rewrite <- flat_map_app.
    assert (Fall : Forall (fun j => (j < length h3)%nat) ([i; j] ++ args)) by (apply Forall_app; auto).
    destruct (alloc_ok tag town h3 NOther _ W3 Fall) as (W4 & P4 & Pi & An).
    simpl in Pi.
    set (h4 := h3 ++ [mkObj None (flat_map (get_dependencies h3) ([i; j] ++ args)) NOther]) in *.
    assert (N4 : forall t, In t (tnames h4 (length h3)) <-> In t (gregs g1 ++ gregs g2 ++ tregs c)).
    { intros t. rewrite An. cbn [town]. rewrite app_nil_r, flat_map_app, !in_app_iff, Na.
      cbn [flat_map]. rewrite app_nil_r, in_app_iff.
      rewrite (proj2 O1' t), (proj2 O2' t). tauto. }
    simpl. split; [auto|]. split; [auto|]. split; [split; [exists [NOther]; split; [auto|intros []]|exact N4]|].
    apply (flat_sub _ [g1; g2; GPlain c]); [|congruence|repeat constructor; auto; apply plain_flat].
    intros a Ha. inversion Ha as [? ? B| |]; subst; [inversion B; subst; simpl; auto|simpl; auto].
  - (* pipe *)
    eapply GPost_then; [apply IHg1; auto; eapply nolab_part; [|exact NL]; constructor; constructor|].
    intros h1 i W1 P1 (O1 & Q1).
    eapply GPost_then; [apply IHg2; auto; eapply nolab_part; [|exact NL]; constructor; constructor|].
    intros h2 j W2 P2 (O2 & Q2).
    assert (O1' : thas (gregs g1) h2 i) by (apply (has_preserved tag town False _ h1); auto).
    destruct O1' as ((pi & Hi & Ci) & Ni), O2 as ((pj & Hj & Cj) & Nj).
    pose proof (pipe_exact (Label := lname) (fun _ _ => NOther) m h2 i j pi pj None None Hi Hj) as PE.
    cbv zeta in PE.
    destruct ((Z.of_nat (length pi) <=? m) && (Z.of_nat (length pj) <=? m) && (Z.of_nat (length pj) <=? m - 1))%Z.
    + destruct PE as (h' & r & ra & rb & E & Pr & _ & _ & Pl).
      destruct (pipe_args tag town (fun _ _ => NOther) (fun _ _ => eq_refl) m h2 h' i j None None r W2
                  (pipeline_valid _ _ _ Hj) E (Forall_nil _) (Forall_nil _)) as (W' & N').
      rewrite E. cbn [lift obind]. unfold checked. destruct (nested h'); simpl; auto.
      split; [auto|]. split; [auto|]. split.
      * split; [eexists; split; [eauto|intros []]|]. intros x. rewrite N', in_app_iff, Ni, Nj. split; [|tauto]. intros [|[|(l & [] & _)]]; auto.
      * apply (flat_sub _ [g1; g2]); [|congruence|repeat constructor; auto].
        intros a Ha. inversion Ha as [? ? B| |]; subst; inversion B; subst; simpl; auto.
    + destruct PE as (h' & E & _). rewrite E. exact I.
Qed.

(** *** registered and used *)
Definition leafy (c : cv) (t : tag) : Prop :=
  exists d, within d c /\ match d with CArg x => t = TArg x | CLabel n => t = TLabel n | _ => False end.
Lemma leaf_part c d t : part d c -> leafy d t -> leafy c t.
Proof. intros P (e & W & L). exists e. split; [eapply within_part; eauto|auto]. Qed.
Lemma tregs_leaf c : forall x, In x (tregs c) -> leafy c x.
Proof.
  assert (L : forall l, Forall (fun c => forall x, In x (tregs c) -> leafy c x) l ->
              forall x, In x (flat_map tregs l) -> exists c, In c l /\ leafy c x).
  { intros l F x Hx. apply in_flat_map in Hx as (c0 & Hc & Hx). rewrite Forall_forall in F. eauto. }
  assert (O : forall o, optP (fun c => forall x, In x (tregs c) -> leafy c x) o ->
              forall x, In x (match o with Some c => tregs c | None => [] end) -> exists c, o = Some c /\ leafy c x).
  { intros [c0|] H x Hx; [eauto|destruct Hx]. }
  induction c using cv_ind'; intros y; cbn [Proofs_Deps.regs]; try solve [intros []].
  - intros [<-|[]]. exists (CArg x). split; [constructor|reflexivity].
  - intros [<-|[]]. exists (CLabel n). split; [constructor|reflexivity].
  - intros Hy.
    assert (Hy' : exists c, In c l /\ leafy c y).
    { assert (S1 : In y (match l with [] => [] | s :: _ => tregs s end) -> exists c, In c l /\ leafy c y).
      { destruct l as [|s l]; [intros []|]. intros Hs. inversion H; subst. exists s. split; [left; auto|auto]. }
      destruct o; try (destruct l; [destruct Hy|]; now apply L); auto. }
    destruct Hy' as (c & Hc & Hu). eapply leaf_part; [apply part_op; eauto|auto].
  - intros Hy. apply in_app_or in Hy as [Hy|Hy]; eapply leaf_part; [| |apply part_attr_name|]; eauto using part_attr_object.
  - intros Hy. apply L in Hy as (c & Hc & Hu); auto. eapply leaf_part; [apply part_bool; eauto|auto].
  - intros Hy. apply L in Hy as (c & Hc & Hu); auto. eapply leaf_part; [apply part_eqs; eauto|auto].
  - intros Hy. apply in_app_or in Hy as [Hy|Hy]; [|apply in_app_or in Hy as [Hy|Hy]].
    + apply O in Hy as (c0 & -> & Hu); auto. eapply leaf_part; [apply part_if_condition|auto].
    + apply O in Hy as (c0 & -> & Hu); auto. eapply leaf_part; [apply part_if_true|auto].
    + apply O in Hy as (c0 & -> & Hu); auto. eapply leaf_part; [apply part_if_false|auto].
  - intros Hy. apply in_app_or in Hy as [Hy|Hy]; [|apply in_app_or in Hy as [Hy|Hy]].
    + apply O in Hy as (c0 & -> & Hu); auto. eapply leaf_part; [apply part_default_self|auto].
    + apply L in Hy as (c0 & Hc & Hu); auto. eapply leaf_part; [apply part_default_index; eauto|auto].
    + eapply leaf_part; [apply part_default_value|auto].
  - intros Hy. apply in_app_or in Hy as [Hy|Hy].
    + apply L in Hy as (c0 & Hc & Hu); auto. eapply leaf_part; [apply part_comp_element; eauto|auto].
    + apply O in Hy as (c0 & -> & Hu); auto. eapply leaf_part; [apply part_comp_condition|auto].
  - intros Hy. apply in_flat_map in Hy as ([co e] & Hl & Hy). cbn [fst snd] in Hy.
    rewrite Forall_forall in H. destruct (H _ Hl) as [Hc He]. cbn [fst snd] in *.
    apply in_app_or in Hy as [Hy|Hy].
    + apply O in Hy as (c0 & -> & Hu); auto. eapply leaf_part; [eapply part_items_condition; eauto|auto].
    + eapply leaf_part; [eapply part_items_element; eauto|auto].
  - intros Hy. apply in_app_or in Hy as [Hy|Hy].
    + eapply leaf_part; [apply part_cached|auto].
    + apply in_flat_map in Hy as ([nl e] & Hl & Hy). rewrite Forall_forall in H.
      eapply leaf_part; [eapply part_label; eauto|]. apply (H _ Hl); auto.
  - intros Hy. apply in_app_or in Hy as [Hy|Hy]; eapply leaf_part; [apply part_pipe_first| |apply part_pipe_second|]; auto.
  - intros Hy. apply in_app_or in Hy as [Hy|Hy].
    + eapply leaf_part; [apply part_tapped|auto].
    + apply in_flat_map in Hy as ([k l] & Hl & Hy). rewrite Forall_forall in H.
      apply L in Hy as (c0 & Hc & Hu); [|apply (H _ Hl)]. eapply leaf_part; [eapply part_mutation; eauto|auto].
Qed.

Lemma regs_map {A B} (oa : node -> list A) (ob : node -> list B) (f : A -> list B) :
  (forall p, ob p = flat_map f (oa p)) ->
  forall c, Proofs_Deps.regs B ob c = flat_map f (Proofs_Deps.regs A oa c).
Proof.
  intros E.
  assert (L : forall l, Forall (fun c => Proofs_Deps.regs B ob c = flat_map f (Proofs_Deps.regs A oa c)) l ->
    flat_map (Proofs_Deps.regs B ob) l = flat_map f (flat_map (Proofs_Deps.regs A oa) l)).
  { induction 1; simpl; auto. rewrite flat_map_app. congruence. }
  assert (O : forall o, optP (fun c => Proofs_Deps.regs B ob c = flat_map f (Proofs_Deps.regs A oa c)) o ->
    match o with Some c => Proofs_Deps.regs B ob c | None => [] end =
    flat_map f match o with Some c => Proofs_Deps.regs A oa c | None => [] end).
  { intros [c0|] H; simpl in *; auto. }
  induction c using cv_ind'; cbn [Proofs_Deps.regs]; rewrite ?flat_map_app; auto.
  - destruct o; try (apply L; auto); destruct l as [|s l]; auto;
      match goal with F : Forall _ (_ :: _) |- _ => inversion F; subst; auto end.
  - congruence.
  - rewrite !O by auto. reflexivity.
  - rewrite !O, L by auto. congruence.
  - rewrite !O, L by auto. reflexivity.
  - induction H as [|[co e] l [Hc He] Hl IH]; simpl; auto. cbn [fst snd] in *.
    rewrite !flat_map_app, IH, He. rewrite O by auto. now rewrite <- app_assoc.
  - rewrite IHc. f_equal. induction H as [|[nl e] l He Hl IH]; simpl; auto. rewrite flat_map_app. cbn [snd] in *. congruence.
  - congruence.
  - rewrite IHc. f_equal. induction H as [|[k l'] l He Hl IH]; simpl; auto. rewrite flat_map_app. cbn [snd] in *.
    rewrite IH, L by auto. reflexivity.
Qed.
Lemma targ_regs c x : In x (Proofs_Deps.regs text own c) -> In (TArg x) (tregs c).
Proof.
  rewrite (regs_map town own (fun t => match t with TArg y => [y] | _ => [] end)).
  - intros H. apply in_flat_map in H as (t & Ht & Hx). destruct t; simpl in Hx; try destruct Hx as [<-|[]]; [auto|destruct Hx|destruct Hx].
  - intros [y|n|r|]; reflexivity.
Qed.
Lemma tregs_used c x : In (TArg x) (tregs c) -> uses c x.
Proof.
  intros H. apply tregs_leaf in H as (d & W & L). destruct d; try contradiction; inversion L; subst; auto.
Qed.
Lemma tregs_label c n : In (TLabel n) (tregs c) -> within (CLabel n) c.
Proof.
  intros H. apply tregs_leaf in H as (d & W & L). destruct d; try contradiction; inversion L; subst; auto.
Qed.
Lemma spec_nolab g : conditions_read_no_label g -> nolab g.
Proof. intros H l r c n Hw X. exact (H l r c n Hw (tregs_label _ _ X)). Qed.

Lemma guses_part a g x : gpart a g -> guses a x -> guses g x.
Proof. intros P (c & W & U). exists c. split; [eapply gwithin_part; eauto|auto]. Qed.
Lemma gregs_used g x : In (TArg x) (gregs g) -> guses g x.
Proof.
  induction g using gv_ind'; cbn [gregs]; rewrite ?in_app_iff.
  - intros H. exists c. split; [constructor|apply tregs_used; auto].
  - intros H0. apply in_flat_map in H0 as (g & Hg & H0). rewrite Forall_forall in H.
    eapply guses_part; [apply gpart_below, below_part; eauto|auto].
  - intros [H0|[H0|[]]]; [|discriminate]. apply in_flat_map in H0 as (g & Hg & H0). rewrite Forall_forall in H.
    eapply guses_part; [apply gpart_below, below_reduce; eauto|auto].
  - intros [H1|H1].
    + apply in_flat_map in H1 as (g' & Hg & H1). rewrite Forall_forall in H.
      eapply guses_part; [apply gpart_below, below_key; eauto|auto].
    + eapply guses_part; [apply gpart_below, below_output|auto].
  - intros [H|[H|H]].
    + eapply guses_part; [apply gpart_below, below_left|auto].
    + eapply guses_part; [apply gpart_below, below_right|auto].
    + eapply guses_part; [apply gpart_condition|]. exists c. split; [constructor|apply tregs_used; auto].
  - intros [H|H]; eapply guses_part; [apply gpart_below, below_first| |apply gpart_below, below_second|]; auto.
Qed.
Lemma gsorts_part a g : gpart a g -> gsorts_use_no_argument g -> gsorts_use_no_argument a.
Proof.
  intros P (H1 & H2). split.
  - intros c W. apply H1. eapply gwithin_part; eauto.
  - intros b o ks k x W. apply (H2 b o ks k x). eapply gwithin_part; eauto.
Qed.
Lemma used_gregs g x : gsorts_use_no_argument g -> guses g x -> In (TArg x) (gregs g).
Proof.
  intros S (c & W & U). remember (GPlain c) as a eqn:Ea. revert S.
  induction W as [g|a b g Hw IH Hp]; intros S.
  - subst g. cbn [gregs]. apply targ_regs. apply used_regs; auto. apply (proj1 S). constructor.
  - specialize (IH Ea (gsorts_part _ _ Hp S)).
    destruct Hp as [b g B|by_ out ks k Hk|l r q].
    + destruct B; cbn [gregs]; rewrite ?in_app_iff; auto; try (apply in_flat_map; eauto; fail);
        left; apply in_flat_map; eauto.
    + exfalso. apply (proj2 S by_ out ks k x); auto; [constructor|]. exists c. subst a. auto.
    + cbn [gregs]. rewrite !in_app_iff. auto.
Qed.
Lemma gregs_reduce g id : In (TReduce id) (gregs g) <-> exists l, inside (GReduce id l) g.
Proof.
  split.
  - induction g using gv_ind'; cbn [gregs]; rewrite ?in_app_iff.
    + intros H. destruct (regs_no_reduce _ _ H).
    + intros H0. apply in_flat_map in H0 as (g & Hg & H0). rewrite Forall_forall in H.
      destruct (H g Hg H0) as (ps & Hi). exists ps. eapply inside_below; [eauto|constructor; auto].
    + intros [H0|[H0|[]]]; [|inversion H0; subst; eexists; constructor].
      apply in_flat_map in H0 as (g & Hg & H0). rewrite Forall_forall in H.
      destruct (H g Hg H0) as (ps & Hi). exists ps. eapply inside_below; [eauto|constructor; auto].
    + intros [H1|H1].
      * apply in_flat_map in H1 as (g' & Hg & H1). rewrite Forall_forall in H.
        destruct (H g' Hg H1) as (ps & Hi). exists ps. eapply inside_below; [eauto|apply below_key; auto].
      * destruct (IHg H1) as (ps & Hi). exists ps. eapply inside_below; [eauto|apply below_output].
    + intros [H|[H|H]]; [| |destruct (regs_no_reduce _ _ H)].
      * destruct (IHg1 H) as (ps & Hi). exists ps. eapply inside_below; [eauto|constructor].
      * destruct (IHg2 H) as (ps & Hi). exists ps. eapply inside_below; [eauto|constructor].
    + intros [H|H].
      * destruct (IHg1 H) as (ps & Hi). exists ps. eapply inside_below; [eauto|constructor].
      * destruct (IHg2 H) as (ps & Hi). exists ps. eapply inside_below; [eauto|constructor].
  - intros (ps & Hi). remember (GReduce id ps) as a eqn:Ea. induction Hi as [g|a b g Hi IH B].
    + subst g. cbn [gregs]. apply in_or_app. right. left. reflexivity.
    + specialize (IH Ea). destruct B; cbn [gregs]; rewrite ?in_app_iff; auto; try (apply in_flat_map; eauto; fail);
        left; apply in_flat_map; eauto.
Qed.

(** *** names of the built object *)
Lemma gbuild_names m g h i :
  gbuild m g [] = Built h i -> conditions_read_no_label g ->
  (forall t, In t (tnames h i) <-> In t (gregs g)) /\ flat g.
Proof.
  intros B N. assert (W0 : wf []) by (intros j o H; destruct j; discriminate).
  pose proof (gbuild_ok m g (spec_nolab g N) [] W0) as K. rewrite B in K.
  destruct K as (_ & _ & ((_ & Nm) & F)). auto.
Qed.
Lemma arg_names_tnames h i x : In x (arg_names h i) <-> In (TArg x) (tnames h i).
Proof.
  unfold arg_names, names, name_at. rewrite !in_flat_map. split; intros (j & Hj & Hx); exists j; (split; [auto|]);
    destruct (nth_error h j) as [o|]; try destruct Hx; destruct (payload o) as [y|n|r|]; simpl in *; intuition; try congruence; try (left; congruence);
    match goal with E : _ = _ |- _ => inversion E; auto end.
Qed.
Lemma agg_items_tnames h i r : In r (agg_items h i) <-> In (TReduce r) (tnames h i).
Proof.
  unfold agg_items, names, name_at. rewrite !in_flat_map. split; intros (j & Hj & Hx); exists j; (split; [auto|]);
    destruct (nth_error h j) as [o|]; try destruct Hx; destruct (payload o) as [y|n|q|]; simpl in *; intuition; try congruence; try (left; congruence);
    match goal with E : _ = _ |- _ => inversion E; auto end.
Qed.
