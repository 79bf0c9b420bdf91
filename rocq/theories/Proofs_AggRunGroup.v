(** The function of group_by, run. *)
From Coq Require Import String Ascii List NArith ZArith Bool Arith Lia Permutation.
From Verif Require Import Model_PyVal Model_Reducers Model_Aggregate Model_Code Model_AggText Spec_Syntax Spec_FuncText Spec_AggProgram Spec_FuncRun
  Spec_AggRun Proofs_FuncRun Proofs_RedRun Proofs_Steady Proofs_AggRun Proofs_AggRunFn Proofs_AggRunBlocks.
From Verif Require Spec_Stmt Spec_Loop Proofs_Stmt Proofs_Aggregate.
Import ListNotations.

Ltac dn := let X := fresh in intros X; try (apply PN_inj in X); vm_compute in X; discriminate X.
Ltac nin := let X := fresh in intros X; cbn [In] in X; repeat (destruct X as [X|X]; [try (apply PN_inj in X); vm_compute in X; discriminate X|]); contradiction X.

Lemma PA_inj i j x y : PA i x = PA j y -> x = y.
Proof. now intros [= _ H]. Qed.
(** *** groups in a dict *)
Section Dicts.
  Context {A B : Type}.
  Definition rel (R : A -> B -> Prop) (p : val * A) (q : val * B) : Prop := fst p = fst q /\ R (snd p) (snd q).
  Lemma rel_find R k : forall d dm, Forall2 (rel R) d dm ->
    match dfind d k, dfind dm k with Some i, Some st => R i st | None, None => True | _, _ => False end.
  Proof.
    induction 1 as [|[k1 i] [k2 st] d dm [E H] _ IH]; cbn [dfind]; [exact I|]. cbn [fst snd] in *. subst k2.
    destruct (py_eq k1 k); auto.
  Qed.
  Lemma rel_more (R R' : A -> B -> Prop) d dm : Forall2 (rel R) d dm -> (forall i st, In i (map snd d) -> R i st -> R' i st) -> Forall2 (rel R') d dm.
  Proof.
    induction 1 as [|[k1 i] [k2 st] d dm [E H] _ IH]; intros M; constructor.
    - split; [exact E|]. apply M; [now left|exact H].
    - apply IH. intros; apply M; [now right|assumption].
  Qed.
  Lemma rel_put (R R' : A -> B -> Prop) k i st' : forall d dm, Forall2 (rel R) d dm -> dfind d k = Some i -> NoDup (map snd d) ->
    (forall i' st, i' <> i -> R i' st -> R' i' st) -> R' i st' -> Forall2 (rel R') d (dput dm k st').
  Proof.
    induction 1 as [|[k1 i1] [k2 st] d dm [E H] F IH]; cbn [dfind dput map fst snd]; [discriminate|]. cbn [fst snd] in *. subst k2.
    intros D N M P. inversion N as [|? ? N1 N2]; subst. destruct (py_eq k1 k).
    - injection D as ->. constructor; [now split|]. eapply rel_more; [exact F|]. intros i' st0 I. apply M. intros ->. now apply N1.
    - constructor; [|now apply IH]. split; [reflexivity|]. cbn [snd]. apply M; [|exact H]. intros ->. apply N1.
      clear - D. induction d as [|[a b] d IH]; cbn in *; [discriminate|]. destruct (py_eq a k); [injection D as ->; now left|right; auto].
  Qed.
  Lemma rel_add (R : A -> B -> Prop) k i st : forall d dm, Forall2 (rel R) d dm -> dfind d k = None -> R i st ->
    Forall2 (rel R) (dput d k i) (dput dm k st).
  Proof.
    induction 1 as [|[k1 i1] [k2 st2] d dm [E H] F IH]; cbn [dfind dput]; intros D P.
    - constructor; [now split|constructor].
    - cbn [fst snd] in *. subst k2. destruct (py_eq k1 k); [discriminate|]. constructor; [now split|auto].
  Qed.
  Lemma put_values (k : val) (i : A) d : dfind d k = None -> map snd (dput d k i) = map snd d ++ [i].
  Proof. induction d as [|[a b] d IH]; cbn; [reflexivity|]. destruct (py_eq a k); [discriminate|]. intros D. cbn. now rewrite IH. Qed.
End Dicts.

Lemma NoDup_snoc {A} (x : A) l : NoDup l -> ~ In x l -> NoDup (l ++ [x]).
Proof. intros N I. apply (Permutation_NoDup (Permutation_cons_append l x)). now constructor. Qed.
(** *** instances *)
Lemma attr_made i l fields : forall rest j y,
  attr_at (map (fun x => (i, x, l)) fields ++ rest) j y =
  if Nat.eqb j i && existsb (same_text y) fields then Some l else attr_at rest j y.
Proof.
  induction fields as [|x fields IH]; intros rest j y; cbn [map app attr_at existsb].
  - now rewrite andb_false_r.
  - rewrite IH. destruct (Nat.eqb j i); cbn; [|reflexivity]. destruct (same_text y x); reflexivity.
Qed.
Lemma existsb_text y l : existsb (same_text y) l = true <-> In y l.
Proof.
  rewrite existsb_exists. split.
  - intros (x & I & E). apply same_text_eq in E. now subst.
  - intros I. exists y. split; [exact I|apply same_text_refl].
Qed.
Section Instance.
  Variables (fields : list text) (s : state).
  Hypothesis G : good s.
  Definition made : state := snd (instance fields s).
  Lemma made_is : instance fields s = (instances s, made).
  Proof. reflexivity. Qed.
  Lemma made_loc q : loc_of made q =
    match q with
    | PN x => loc_of s (PN x)
    | PA j y => if Nat.eqb j (instances s) && existsb (same_text y) fields then Some (length (objects s)) else loc_of s (PA j y)
    end.
  Proof. destruct q; [reflexivity|]. unfold made, instance, loc_of. cbn [new snd attrs instances]. apply attr_made. Qed.
  Lemma made_obj l : l < length (objects s) -> obj_at made l = obj_at s l.
  Proof. intros H. unfold made, instance, obj_at. cbn. now apply app_nth1. Qed.
  Lemma made_new : obj_at made (length (objects s)) = OSent.
  Proof. unfold made, instance, obj_at. cbn. rewrite app_nth2 by lia. now rewrite Nat.sub_diag. Qed.
  Lemma made_other q : (forall y, q <> PA (instances s) y) -> view made q = view s q.
  Proof.
    intros N. unfold view. rewrite made_loc.
    assert (E : match q with PN x => loc_of s (PN x) | PA j y => if Nat.eqb j (instances s) && existsb (same_text y) fields then Some (length (objects s)) else loc_of s (PA j y) end = loc_of s q).
    { destruct q as [x|j y]; [reflexivity|]. destruct (Nat.eqb_spec j (instances s)) as [->|]; [|reflexivity]. now elim (N y). }
    rewrite E. destruct (loc_of s q) as [l|] eqn:L; [|reflexivity]. cbn [option_map]. f_equal. apply made_obj. eapply g_wf; eauto.
  Qed.
  Lemma made_field y : In y fields -> view made (PA (instances s) y) = Some OSent.
  Proof.
    intros I. unfold view. rewrite made_loc, Nat.eqb_refl. apply existsb_text in I. rewrite I. cbn [andb option_map]. now rewrite made_new.
  Qed.
  Lemma made_none y : ~ In y fields -> view made (PA (instances s) y) = None.
  Proof.
    intros I. unfold view. rewrite made_loc, Nat.eqb_refl. destruct (existsb (same_text y) fields) eqn:E; [apply existsb_text in E; contradiction|].
    cbn [andb]. destruct (loc_of s (PA (instances s) y)) eqn:L; [|reflexivity]. exfalso.
    assert (X : instances s < instances s) by (apply (g_inst _ G _ y); congruence). lia.
  Qed.
  Lemma made_instances : instances made = S (instances s).
  Proof. reflexivity. Qed.
  Lemma good_made : good made.
  Proof.
    assert (L : length (objects made) = S (length (objects s))) by (unfold made, instance; cbn; rewrite app_length; cbn; lia).
    assert (C : forall q l, loc_of made q = Some l -> l = length (objects s) \/ loc_of s q = Some l).
    { intros q l. rewrite made_loc. destruct q as [x|j y]; [now right|]. destruct (Nat.eqb j (instances s) && existsb (same_text y) fields); [|now right].
      intros [= <-]. now left. }
    constructor.
    - intros p l H. rewrite L. destruct (C p l H) as [->|H']; [lia|]. apply (g_wf _ G) in H'. lia.
    - intros p q l N P Q H1 H2. destruct (C p l H1) as [->|H1']; [apply made_new|]. pose proof (g_wf _ G _ _ H1') as W.
      rewrite made_obj by exact W. destruct (C q l H2) as [->|H2']; [lia|]. now apply (g_sep _ G p q).
    - intros i x H. rewrite made_instances. rewrite made_loc in H. destruct (Nat.eqb_spec i (instances s)) as [->|NE]; [lia|]. cbn [andb] in H.
      apply (g_inst _ G) in H. lia.
  Qed.
End Instance.

Lemma in_view s x l o : view s (PN x) = Some o -> assoc (names s) x = Some l -> obj_at s l = o.
Proof. unfold view. cbn [loc_of]. intros H E. rewrite E in H. cbn in H. now injection H. Qed.
Lemma view_in s x o : view s (PN x) = Some o -> exists l, assoc (names s) x = Some l /\ obj_at s l = o.
Proof. unfold view. cbn [loc_of]. destruct (assoc (names s) x) as [l|]; [|discriminate]. cbn. intros [= H]. eauto. Qed.

(** attributes of a new instance *)
Lemma with_attrs_put x o l s : with_attrs ((x, o) :: l) s = with_attrs l (put s (PA 0 x) o).
Proof. reflexivity. Qed.
Lemma with_attrs_good l : forall s, good s -> 0 < instances s -> good (with_attrs l s) /\ instances (with_attrs l s) = instances s.
Proof.
  induction l as [|[x o] l IH]; intros s G I; [now split|]. rewrite with_attrs_put.
  destruct (IH (put s (PA 0 x) o)) as [A B]; [apply good_put; [exact G|now intros i y [= <- <-]]|exact I|]. split; [exact A|exact B].
Qed.
Lemma with_attrs_other l q : forall s, good s -> 0 < instances s -> (forall x, In x (map fst l) -> q <> PA 0 x) -> view (with_attrs l s) q = view s q.
Proof.
  induction l as [|[x o] l IH]; intros s G I N; [reflexivity|]. rewrite with_attrs_put, IH.
  - apply view_put_other; [exact G|]. apply N. now left.
  - apply good_put; [exact G|now intros i y [= <- <-]].
  - exact I.
  - intros y Y. apply N. now right.
Qed.
Lemma with_attrs_at l x o : forall s, good s -> 0 < instances s -> NoDup (map fst l) -> In (x, o) l -> view (with_attrs l s) (PA 0 x) = Some o.
Proof.
  induction l as [|[y p] l IH]; intros s G I N H; [destruct H|]. rewrite with_attrs_put. inversion N as [|? ? N1 N2]; subst.
  assert (G' : good (put s (PA 0 y) p)) by (apply good_put; [exact G|now intros i z [= <- <-]]).
  destruct H as [[= -> ->]|H].
  - rewrite with_attrs_other; [apply view_put_same|exact G'|exact I|]. intros z Z [= ->]. contradiction.
  - apply IH; auto.
Qed.

Section Group.
  Variable globals : text -> option rv.
  Variable call : text -> list val -> res val.
  Variable classes : text -> option (list text).
  Variable outside : ast -> (ast -> option val) -> res val.
  Hypothesis OUT : forall a g g', (forall u, In u (uses a) -> g u = g' u) -> outside a g = outside a g'.
  Variables none_name cls : text.
  Hypothesis GV : forall x, x <> none_name -> match globals x with None | Some (RVal _) => True | _ => False end.
  Hypothesis GN : globals none_name = Some RSent.
  Variable params : list text.
  Variable args : list val.
  Hypothesis PP : forall x, In x (T "row_" :: none_name :: cls :: python_names) -> ~ In x params.
  Hypothesis PO : forall x, In x params -> ~ own x.
  Hypothesis NN : ~ own none_name /\ none_name <> T "row_".
  Hypothesis CN : ~ own cls /\ cls <> T "row_" /\ ~ In cls python_names.
  Variable sem : string -> val -> res bool.
  Variable its : list (Model_Aggregate.item val).
  Variable reds : nat -> ared.
  Variable vars : list (Model_Aggregate.item val * nat).
  Variable ms : list (@member val).
  Hypothesis IX : index_items its 0 0 [] = (vars, ms).
  Hypothesis DE : forall p it, nth_error its p = Some it -> denotes globals call outside params args sem it (reds p) /\ usable none_name params (reds p).
  Notation n := (count ms).
  Notation red_at := (red_at reds ms).
  Hypothesis CL : classes cls = Some (map attribute (seq 0 n)).
  Variable keys : list (val -> res val).
  Variable sg : ast.
  Notation value := (value globals call outside params args).
  Notation value_in := (value_in globals call outside).
  Hypothesis KV : forall row, signature keys row = value sg row.
  Hypothesis KN : plain_names none_name true sg.
  Notation ev := (Spec_FuncRun.ev globals call outside).
  Notation right_side := (Spec_FuncRun.right_side globals call classes outside).
  Notation run_simple := (Spec_FuncRun.run_simple globals call classes outside).
  Notation run_stmts := (Spec_FuncRun.run_stmts globals call classes outside).
  Notation run_for := (Spec_FuncRun.run_for globals call classes outside).
  Notation run_collect := (Spec_FuncRun.run_collect globals call outside).
  Notation base := (base params args).
  Notation given := (given params args).
  Notation S2A := (T "signature_to_agg_data_").
  Notation AD := (T "agg_data_").

  (** the accumulators of the group [i] *)
  Definition grp (s : state) (i : nat) (st : cells) : Prop :=
    i < instances s /\
    (forall j, j < n -> view s (PA i (attribute j)) = Some (obj_for (miss red_at j) (st j)) /\ ok red_at j (st j)) /\
    (forall x, (forall j, j < n -> x <> attribute j) -> view s (PA i x) = None).
  Lemma grp_same s s' i st : grp s i st -> instances s <= instances s' -> (forall x, view s' (PA i x) = view s (PA i x)) -> grp s' i st.
  Proof.
    intros (I & V & O) L E. split; [lia|]. split.
    - intros j J. rewrite E. now apply V.
    - intros x X. rewrite E. now apply O.
  Qed.
  Definition inG (s : state) (d : list (val * nat)) (dm : list (val * cells)) : Prop :=
    good s /\ base s /\ view s (PN (T "_none")) = Some OSent /\ Forall2 (rel (grp s)) d dm /\ NoDup (map snd d).
  Definition pl (i j : nat) : place := PA i (attribute j).
  Lemma touched_group i q : In q (touched n (pl i)) -> q = chk \/ q = dd \/ exists j, q = PA i (attribute j).
  Proof. intros [<-|[<-|I]]; auto. right. right. apply in_map_iff in I as (j & <- & _). now exists j. Qed.
  Lemma group_own i : own_places (touched n (pl i)).
  Proof.
    intros x I. destruct (touched_group i _ I) as [E|[E|(j & E)]]; try discriminate E; apply PN_inj in E; subst; listed.
  Qed.
  Lemma base_put s x o : good s -> (own x \/ x = T "row_") -> base s -> base (put s (PN x) o).
  Proof.
    intros G O B y N R. rewrite view_put_other; [now apply B|exact G|]. intros X. apply PN_inj in X. subst. destruct O; contradiction.
  Qed.
  Lemma free_base s : base s -> forall x, In x (T "row_" :: none_name :: cls :: python_names) -> x <> T "row_" -> view s (PN x) = None.
  Proof.
    intros B x I R. rewrite B; [apply given_out; now apply PP| |exact R]. destruct I as [<-|[<-|[<-|I]]]; try tauto. now apply python_not_own.
  Qed.
  Lemma python_row : ~ In (T "row_") python_names.
  Proof. unfold python_names. cbn [map]. nin. Qed.
  Lemma factories s : base s -> factories_free s.
  Proof.
    intros B x I. apply (free_base s B).
    - do 3 right. unfold python_names. cbn [map In] in *. tauto.
    - intros ->. cbn [map In] in I. repeat (destruct I as [I|I]; [vm_compute in I; discriminate I|]). contradiction.
  Qed.

  (** the statements of a row, the group being there *)
  Lemma row_blocks s row i st d dm : inG s d dm -> row_in s (Some row) -> view s (PN AD) = Some (OInst i) -> grp s i st ->
    match exec_blocks sem (build ms) st row with
    | Err e => run_stmts (body_stmts false reds (build ms)) s = Err e
    | Ok st' => exists s', run_stmts (body_stmts false reds (build ms)) s = Ok (s', false) /\ good s' /\ frame (touched n (pl i)) s s' /\ grp s' i st'
    end.
  Proof.
    intros (G & B & NO & _ & _) R A (II & GV' & GO).
    pose proof (blocks_run globals call classes outside false n reds red_at (pl i)) as H.
    specialize (H ltac:(intros a b _ _ X; apply PA_inj in X; now apply attribute_inj)).
    specialize (H ltac:(intros; discriminate) ltac:(intros; discriminate) s).
    specialize (H ltac:(intros j J; cbn [slot]; exists i; repeat split; auto; dn)).
    specialize (H ltac:(intros X; destruct (touched_group i _ X) as [E|[E|(j & E)]]; [revert E; dn|revert E; dn|discriminate E])).
    specialize (H (factories s B)).
    specialize (H ltac:(intros x I X; apply group_own in X; revert X; apply python_not_own; unfold python_names; cbn [map In] in *; tauto)).
    specialize (H NO).
    specialize (H ltac:(intros X; destruct (touched_group i _ X) as [E|[E|(j & E)]]; [revert E; dn|revert E; dn|discriminate E])).
    specialize (H row sem (view s chk) (build ms) eq_refl).
    specialize (H ltac:(eapply all_blocks_ok; eauto; apply group_own)).
    specialize (H s st). unfold inv, sim in H.
    specialize (H ltac:(split; [exact G|]; split; [apply frame_refl|]; split; [reflexivity|]; exact GV')).
    destruct (exec_blocks sem (build ms) st row) as [st'|e]; [|exact H].
    destruct H as (s' & -> & G' & F & _ & V). exists s'. split; [reflexivity|]. split; [exact G'|]. split; [exact F|].
    destruct F as [[FI _] FV]. split; [lia|]. split; [exact V|]. intros x X. rewrite FV; [now apply GO|].
    intros I. destruct (touched_group i _ I) as [E|[E|(j & E)]]; try discriminate E.
    destruct I as [I|[I|I]]; try discriminate I. apply in_map_iff in I as (j' & E' & J'). apply in_seq in J'. apply PA_inj in E'.
    apply (X j'); [lia|now symmetry].
  Qed.

  (** a group is not touched by the statements of another one *)
  Lemma grp_frame s s' i i' st : i' <> i -> grp s i' st -> frame (touched n (pl i)) s s' -> grp s' i' st.
  Proof.
    intros N H [[FI _] FV]. eapply grp_same; [exact H|lia|]. intros x. apply FV. intros I.
    destruct (touched_group i _ I) as [E|[E|(j & E)]]; try discriminate E. injection E as E _. now apply N.
  Qed.
  Lemma grp_put s i st x o : good s -> grp s i st -> grp (put s (PN x) o) i st.
  Proof. intros G H. eapply grp_same; [exact H|reflexivity|]. intros y. apply view_put_other; [exact G|discriminate]. Qed.
  Lemma inG_put s d dm x o : inG s d dm -> (own x \/ x = T "row_") -> x <> T "_none" -> inG (put s (PN x) o) d dm.
  Proof.
    intros (G & B & NO & F & ND) O N. split; [apply good_put; [exact G|discriminate]|]. split; [now apply base_put|].
    split; [rewrite view_put_other; [exact NO|exact G|intros X; apply PN_inj in X; now apply N]|]. split; [|exact ND].
    eapply rel_more; [exact F|]. intros i st _. now apply grp_put.
  Qed.

  Lemma row_run s row d dm : inG s d dm -> view s (PN S2A) = Some (OGroups cls d) ->
    match (do x <- signature keys row; do k <- need_hash x;
           do st <- exec_blocks sem (build ms) (match dfind dm k with Some st => st | None => init_state end) row; Ok (dput dm k st)) with
    | Err e => run_stmts (set_to (AName AD) (ASub (AName S2A) sg) :: body_stmts false reds (build ms)) (bind_new s (T "row_") (OVal row None)) = Err e
    | Ok dm' => exists s' d', run_stmts (set_to (AName AD) (ASub (AName S2A) sg) :: body_stmts false reds (build ms)) (bind_new s (T "row_") (OVal row None)) = Ok (s', false) /\
        inG s' d' dm' /\ view s' (PN S2A) = Some (OGroups cls d')
    end.
  Proof.
    intros I0 V0. rewrite bind_new_put. set (s1 := put s (PN (T "row_")) (OVal row None)).
    assert (I1 : inG s1 d dm) by (apply inG_put; [exact I0|now right|dn]).
    assert (V1 : view s1 (PN S2A) = Some (OGroups cls d)) by (unfold s1; rewrite view_put_other; [exact V0|apply I0|dn]).
    assert (R1 : row_in s1 (Some row)) by apply view_put_same. clearbody s1. clear I0 V0 s.
    cbn [Spec_FuncRun.run_stmts]. unfold set_to at 1 2. rewrite !run_simple_stmt, !run_assign by discriminate.
    destruct (view_in _ _ _ V1) as (l & L & O). cbn [Spec_FuncRun.right_side variable]. rewrite L, O.
    pose proof I1 as (G1 & B1 & N1 & F1 & D1).
    destruct (expr_steady globals call classes outside OUT none_name GV params args sg (Some row) s1 [] KN B1 R1 ltac:(intros x []) s1 (frame_refl _ _)) as [-> _].
    rewrite KV, value_row. destruct (value_in sg (with_row params args (Some row))) as [x|e]; cbn [bind fst snd needs]; [|reflexivity].
    unfold group_at. destruct (need_hash x) as [k|e]; cbn [bind]; [|reflexivity].
    pose proof (rel_find (grp s1) k d dm F1) as RF. destruct (dfind d k) as [i|] eqn:D; destruct (dfind dm k) as [st|] eqn:DM; try contradiction.
    - (* the group is there *)
      cbn [bind fst snd on]. change (new s1 (OInst i)) with (length (objects s1), snd (new s1 (OInst i))). cbv iota beta.
      rewrite (slot_assign1 globals call outside (AName AD) (PN AD) s1 (OInst i) [] G1 eq_refl). cbn [Spec_FuncRun.assign bind fst snd].
      set (s2 := put s1 (PN AD) (OInst i)).
      assert (I2 : inG s2 d dm) by (apply inG_put; [exact I1|left; listed|dn]).
      assert (R2 : row_in s2 (Some row)) by (unfold row_in, s2; rewrite view_put_other; [exact R1|exact G1|dn]).
      pose proof (row_blocks s2 row i st d dm I2 R2 (view_put_same _ _ _) (grp_put _ _ _ _ _ G1 RF)) as H.
      destruct (exec_blocks sem (build ms) st row) as [st'|e]; [|exact H]. cbn [bind on fst snd].
      destruct H as (s' & -> & G' & F' & P'). exists s', d. split; [reflexivity|].
      pose proof I2 as (G2 & B2 & N2 & F2 & D2). destruct F' as [FI FV].
      assert (Fr : frame (touched n (pl i)) s2 s') by (split; assumption). split; [split|].
      + exact G'.
      + split; [eapply base_frame; [apply group_own|exact B2|exact Fr]|].
        split; [rewrite FV; [exact N2|intros X; destruct (touched_group i _ X) as [E|[E|(j & E)]]; [revert E; dn|revert E; dn|discriminate E]]|].
        split; [|exact D2]. eapply rel_put; [exact F2|exact D|exact D2| |exact P'].
        intros i' st0 NE H. eapply grp_frame; [exact NE|exact H|exact Fr].
      + rewrite FV by (intros X; destruct (touched_group i _ X) as [E|[E|(j & E)]]; [revert E; dn|revert E; dn|discriminate E]).
        unfold s2. rewrite view_put_other; [exact V1|exact G1|dn].
    - (* a new group *)
      rewrite CL. set (fs := map attribute (seq 0 n)). rewrite made_is. set (sm := made fs s1). set (i := instances s1).
      cbn [bind fst snd on].
      assert (GM : good sm) by now apply good_made.
      assert (LM : loc_of sm (PN S2A) = Some l) by exact L.
      assert (OM : obj_at sm l <> OSent).
      { unfold sm. rewrite made_obj; [rewrite O; discriminate|]. exact (g_wf _ G1 (PN S2A) l L). }
      set (s3 := store sm l (OGroups cls (dput d k i))).
      assert (ND3 : PN S2A <> dd) by dn.
      assert (G3 : good s3) by (eapply good_store; [exact GM|exact ND3|exact LM|exact OM]).
      pose proof (frame_store sm l (OGroups cls (dput d k i)) (PN S2A) GM ND3 LM OM) as [[FI3 _] FV3]. fold s3 in FI3, FV3.
      assert (V3 : view s3 (PN S2A) = Some (OGroups cls (dput d k i))) by (now apply view_store_same).
      assert (VN : forall x, x <> S2A -> x <> T "_d" -> view s3 (PN x) = view s1 (PN x)).
      { intros y Y1 Y2. rewrite FV3 by (intros [X|[X|[]]]; apply PN_inj in X; congruence). apply made_other; [exact G1|discriminate]. }
      assert (VA : forall i' y, i' <> i -> view s3 (PA i' y) = view s1 (PA i' y)).
      { intros i' y NE. rewrite FV3 by (intros [X|[X|[]]]; discriminate X). apply made_other; [exact G1|]. intros z [= X _]. now apply NE. }
      assert (IN3 : instances s3 = S i) by exact FI3.
      assert (B3 : base s3).
      { intros y Y1 Y2. rewrite VN; [now apply B1| |]; intros ->; apply Y1; listed. }
      assert (F3 : Forall2 (rel (grp s3)) d dm).
      { eapply rel_more; [exact F1|]. intros i' st' _ H. assert (NE : i' <> i) by (destruct H as (LT & _); unfold i; lia).
        eapply grp_same; [exact H|rewrite IN3; unfold i; lia|]. intros y. now apply VA. }
      assert (LT : forall i', In i' (map snd d) -> i' < i).
      { intros i' II. apply in_map_iff in II as ([k0 i0] & <- & II). clear - F1 II. induction F1 as [|p q d dm [_ (H & _)] _ IH]; [destruct II|].
        destruct II as [->|II]; auto. }
      assert (ND : NoDup (map snd (dput d k i))).
      { rewrite put_values by exact D. apply NoDup_snoc; [exact D1|]. intros X. apply LT in X. lia. }
      assert (P3 : grp s3 i init_state).
      { split; [rewrite IN3; lia|]. split.
        - intros j J. rewrite FV3 by (intros [X|[X|[]]]; discriminate X). unfold sm, i. rewrite made_field.
          + split; [reflexivity|]. unfold ok. destruct (p_op (red_at j)); [|exact I]. split; [exact I|reflexivity].
          + apply in_map, in_seq. lia.
        - intros y Y. rewrite FV3 by (intros [X|[X|[]]]; discriminate X). unfold sm, i. apply made_none; [exact G1|].
          intros X. apply in_map_iff in X as (j & E & J). apply in_seq in J. apply (Y j); [lia|now symmetry]. }
      change (new s3 (OInst i)) with (length (objects s3), snd (new s3 (OInst i))). cbv iota beta.
      rewrite (slot_assign1 globals call outside (AName AD) (PN AD) s3 (OInst i) [] G3 eq_refl). cbn [Spec_FuncRun.assign bind fst snd].
      assert (I3 : inG s3 d dm).
      { split; [exact G3|]. split; [exact B3|]. split; [rewrite VN; [exact N1|dn|dn]|]. split; [exact F3|exact D1]. }
      set (s2 := put s3 (PN AD) (OInst i)).
      assert (I2 : inG s2 d dm) by (apply inG_put; [exact I3|left; listed|dn]).
      assert (R2 : row_in s2 (Some row)) by (unfold row_in, s2; rewrite view_put_other; [rewrite VN; [exact R1|dn|dn]|exact G3|dn]).
      pose proof (row_blocks s2 row i init_state d dm I2 R2 (view_put_same _ _ _) (grp_put _ _ _ _ _ G3 P3)) as H.
      destruct (exec_blocks sem (build ms) init_state row) as [st'|e]; [|exact H]. cbn [bind on fst snd].
      destruct H as (s' & -> & G' & F' & P'). exists s', (dput d k i). split; [reflexivity|].
      pose proof I2 as (G2 & B2 & N2 & F2 & D2). destruct F' as [FI FV].
      assert (Fr : frame (touched n (pl i)) s2 s') by (split; assumption). split; [split|].
      + exact G'.
      + split; [eapply base_frame; [apply group_own|exact B2|exact Fr]|].
        split; [rewrite FV; [exact N2|intros X; destruct (touched_group i _ X) as [E|[E|(j & E)]]; [revert E; dn|revert E; dn|discriminate E]]|].
        split; [|exact ND]. apply rel_add; [|exact D|exact P'].
        eapply rel_more; [exact F2|]. intros i' st0 II H. eapply grp_frame; [|exact H|exact Fr]. apply LT in II. lia.
      + rewrite FV by (intros X; destruct (touched_group i _ X) as [E|[E|(j & E)]]; [revert E; dn|revert E; dn|discriminate E]).
        unfold s2. rewrite view_put_other; [exact V3|exact G3|dn].
  Qed.

  Notation body := (set_to (AName AD) (ASub (AName S2A) sg) :: body_stmts false reds (build ms)).
  Lemma loop_run rows : forall s d dm, inG s d dm -> view s (PN S2A) = Some (OGroups cls d) ->
    match group_loop sem keys (build ms) rows dm with
    | Err e => run_for (T "row_") body rows s = Err e
    | Ok dm' => exists s' d', run_for (T "row_") body rows s = Ok (s', []) /\ inG s' d' dm' /\ view s' (PN S2A) = Some (OGroups cls d')
    end.
  Proof.
    induction rows as [|row rows IH]; intros s d dm I V; cbn [group_loop Spec_FuncRun.run_for].
    - exists s, d. auto.
    - pose proof (row_run s row d dm I V) as H. destruct (signature keys row) as [x|e]; cbn [bind] in *; [|now rewrite H].
      destruct (need_hash x) as [k|e]; cbn [bind] in *; [|now rewrite H].
      destruct (exec_blocks sem (build ms) (match dfind dm k with Some st => st | None => init_state end) row) as [st|e]; cbn [bind] in *; [|now rewrite H].
      destruct H as (s' & d' & -> & I' & V'). cbn [bind fst snd]. exact (IH s' d' _ I' V').
  Qed.

  (** *** the result *)
  Lemma acc_obj m c : In m ms -> accumulator (reds (m_bit m)) c = obj_for (miss red_at (m_var m)) c.
  Proof.
    intros I. destruct (member_at its reds vars ms IX m I) as [_ R]. unfold accumulator, miss. rewrite R. destruct c; [|reflexivity]. cbn [obj_for].
    destruct (p_op (reds (m_bit m))); reflexivity.
  Qed.
  Definition slots_of (st : cells) : list (text * object) :=
    map (fun m => (attribute (m_var m), accumulator (reds (m_bit m)) (st (m_var m)))) ms.
  Lemma slots_names st : map fst (slots_of st) = map attribute (seq 0 n).
  Proof.
    unfold slots_of. rewrite map_map. cbn [fst]. rewrite <- map_map with (f := m_var). now rewrite (index_seq its 0 0 [] vars ms IX).
  Qed.
  Lemma slots_nodup st : NoDup (map fst (slots_of st)).
  Proof.
    rewrite slots_names. generalize (seq_NoDup n 0). generalize (seq 0 n). intros l. induction 1 as [|x l H _ IH]; cbn; constructor; [|exact IH].
    intros I. apply in_map_iff in I as (y & E & Y). apply attribute_inj in E. now subst.
  Qed.
  Lemma slots_in st j : j < n -> In (attribute j, obj_for (miss red_at j) (st j)) (slots_of st).
  Proof.
    intros J. destruct (red_member its reds vars ms IX j J) as (m & I & <- & _). rewrite <- acc_obj by exact I. unfold slots_of.
    apply (in_map (fun m => (attribute (m_var m), accumulator (reds (m_bit m)) (st (m_var m)))) ms m I).
  Qed.
  Definition gs0 (key : val) : state :=
    put (put (put given (PN (T "_none")) OSent) (PN (T "signature_")) (OVal key None)) (PN AD) (OInst 0).
  Definition gs1 (key : val) : state := mkState (names (gs0 key)) (attrs (gs0 key)) 1 (objects (gs0 key)).
  Lemma group_state_is key st : group_state params args reds ms key st = with_attrs (slots_of st) (gs1 key).
  Proof. reflexivity. Qed.
  Lemma good_gs0 key : good (gs0 key).
  Proof. unfold gs0. repeat (apply good_put; [|discriminate]). apply good_given. Qed.
  Lemma inst_gs0 key : instances (gs0 key) = 0.
  Proof. unfold gs0. cbn. unfold Spec_AggRun.given. now rewrite bind_args_instances. Qed.
  Lemma good_gs1 key : good (gs1 key).
  Proof.
    destruct (good_gs0 key) as [W P Q]. constructor.
    - intros p l H. apply (W p l). destruct p; exact H.
    - intros p q l N1 N2 N3 H1 H2. apply (P p q l N1 N2 N3); [destruct p; exact H1|destruct q; exact H2].
    - intros i x H. exfalso. assert (X : i < instances (gs0 key)) by (apply (Q i x); exact H). rewrite inst_gs0 in X. lia.
  Qed.
  Lemma view_gs1 key q : view (gs1 key) q = view (gs0 key) q.
  Proof. destruct q; reflexivity. Qed.
  Lemma gs_name key st x : view (group_state params args reds ms key st) (PN x) = view (gs0 key) (PN x).
  Proof. rewrite group_state_is, with_attrs_other; [apply view_gs1|apply good_gs1|cbn; lia|discriminate]. Qed.
  Lemma gs_attr key st j : j < n -> view (group_state params args reds ms key st) (PA 0 (attribute j)) = Some (obj_for (miss red_at j) (st j)).
  Proof.
    intros J. rewrite group_state_is. apply with_attrs_at; [apply good_gs1|cbn; lia|apply slots_nodup|now apply slots_in].
  Qed.
  Lemma gs_none key st x : (forall j, j < n -> x <> attribute j) -> view (group_state params args reds ms key st) (PA 0 x) = None.
  Proof.
    intros N. rewrite group_state_is, with_attrs_other; [|apply good_gs1|cbn; lia|].
    - rewrite view_gs1. unfold gs0. rewrite !view_put_other; try discriminate; repeat (apply good_put; [|discriminate]); try apply good_given. apply given_attr.
    - intros y Y [= ->]. rewrite slots_names in Y. apply in_map_iff in Y as (j & E & J). apply in_seq in J. apply (N j); [lia|now symmetry].
  Qed.
  Lemma gs_base key st : base (group_state params args reds ms key st).
  Proof.
    intros x O R. rewrite gs_name. unfold gs0. rewrite !view_put_other; [reflexivity| | | | | |]; repeat (apply good_put; [|discriminate]); try apply good_given;
      intros X; apply PN_inj in X; subst; apply O; listed.
  Qed.
  Lemma gs_none_name key st : view (group_state params args reds ms key st) (PN (T "_none")) = Some OSent.
  Proof. rewrite gs_name. unfold gs0. rewrite 2 view_put_other; [apply view_put_same| | | |]; try dn; repeat (apply good_put; [|discriminate]); apply good_given. Qed.
  Lemma gs_key key st : view (group_state params args reds ms key st) (PN (T "signature_")) = Some (OVal key None).
  Proof. rewrite gs_name. unfold gs0. rewrite view_put_other; [apply view_put_same| |dn]. repeat (apply good_put; [|discriminate]); apply good_given. Qed.
  Lemma gs_data key st : view (group_state params args reds ms key st) (PN AD) = Some (OInst 0).
  Proof. rewrite gs_name. apply view_put_same. Qed.

  Variable elt : ast.
  Hypothesis EN : result_names none_name false (key_makers reds ms false) elt.
  (** a state in which the result of a group is made *)
  Record ready (s : state) (key : val) (i : nat) (st : cells) : Prop := mkReady {
    rd_base : base s;
    rd_none : view s (PN (T "_none")) = Some OSent;
    rd_key : view s (PN (T "signature_")) = Some (OVal key None);
    rd_data : view s (PN AD) = Some (OInst i);
    rd_at : forall j, j < n -> view s (PA i (attribute j)) = Some (obj_for (miss red_at j) (st j));
    rd_no : forall x, (forall j, j < n -> x <> attribute j) -> view s (PA i x) = None }.
  Lemma gs_ready key st : ready (group_state params args reds ms key st) key 0 st.
  Proof.
    constructor; [apply gs_base|apply gs_none_name|apply gs_key|apply gs_data|intros; now apply gs_attr|intros; now apply gs_none].
  Qed.
  Lemma attribute_dec x : (exists j, j < n /\ x = attribute j) \/ (forall j, j < n -> x <> attribute j).
  Proof.
    destruct (in_dec (list_eq_dec N.eq_dec) x (map attribute (seq 0 n))) as [I|I].
    - left. apply in_map_iff in I as (j & <- & J). apply in_seq in J. exists j. split; [lia|reflexivity].
    - right. intros j J ->. apply I. apply in_map, in_seq. lia.
  Qed.
  Lemma ready_same s s' key i i' st : ready s key i st -> ready s' key i' st -> forall u, In u (uses elt) -> same_at s s' u.
  Proof.
    intros R R' u U. destruct (uses_shape elt u U) as (x & X & S). destruct EN as [E _]. destruct (E x X) as [(O & _ & _ & _ & NR)|[-> |[-> | ->]]].
    - eapply same_seen; [|rewrite (rd_base _ _ _ _ R x O NR); apply (rd_base _ _ _ _ R' x O NR)|exact S]. rewrite (rd_base _ _ _ _ R x O NR). apply given_plain.
    - destruct S as [->|[y ->]]; unfold same_at; rewrite ?seen_name, ?seen_attr, (rd_none _ _ _ _ R), (rd_none _ _ _ _ R'); exact I.
    - destruct S as [->|[y ->]]; unfold same_at; rewrite ?seen_name, ?seen_attr, (rd_data _ _ _ _ R), (rd_data _ _ _ _ R'); [exact I|].
      destruct (attribute_dec y) as [(j & J & ->)|N].
      + rewrite (rd_at _ _ _ _ R j J), (rd_at _ _ _ _ R' j J). destruct (st j); cbn; auto.
      + rewrite (rd_no _ _ _ _ R y N), (rd_no _ _ _ _ R' y N). exact I.
    - destruct S as [->|[y ->]]; unfold same_at; rewrite ?seen_name, ?seen_attr, (rd_key _ _ _ _ R), (rd_key _ _ _ _ R'); [now split|exact I].
  Qed.
  Lemma ready_fixed s key i st : ready s key i st -> forall u, In u (indexed elt) -> fixed_at s u.
  Proof.
    intros R u U. unfold fixed_at. destruct (indexed_uses elt u U) as [N|US]; [unfold seen; now rewrite N|].
    destruct (uses_shape elt u US) as (x & X & S). destruct EN as [E K]. specialize (K u U). destruct (E x X) as [(O & _ & _ & _ & NR)|[-> |[-> | ->]]].
    - assert (P : plain_at s u) by (eapply plain_seen; [|exact S]; rewrite (rd_base _ _ _ _ R x O NR); apply given_plain).
      unfold plain_at in P. destruct (seen s u) as [[|? []| | | |]|]; auto.
    - destruct S as [->|[y ->]]; rewrite ?seen_name, ?seen_attr, (rd_none _ _ _ _ R); exact I.
    - destruct S as [->|[y ->]]; rewrite ?seen_name, ?seen_attr, (rd_data _ _ _ _ R); [exact I|].
      destruct (attribute_dec y) as [(j & J & ->)|N]; [|now rewrite (rd_no _ _ _ _ R y N)].
      rewrite (rd_at _ _ _ _ R j J). destruct (st j) as [v|]; cbn [obj_for]; [|exact I].
      destruct (miss red_at j) as [m|] eqn:MI; [|exact I]. apply K. unfold key_makers. apply in_flat_map.
      destruct (red_member its reds vars ms IX j J) as (mm & IM & EJ & RJ). exists mm. split; [exact IM|].
      unfold makes_keys. unfold miss in MI. rewrite RJ in MI. destruct (p_op (reds (m_bit mm))) as [b|]; [|discriminate MI].
      change (Spec_Loop.missing_of b = Some m) in MI. rewrite MI. left. cbn [slot]. now rewrite EJ.
    - destruct S as [->|[y ->]]; rewrite ?seen_name, ?seen_attr, (rd_key _ _ _ _ R); exact I.
  Qed.
  Lemma result_run s key i st : ready s key i st ->
    match value_in elt (group_state params args reds ms key st) with
    | Ok v => ev elt s = Ok (RVal v, s)
    | Err e => (do p <- ev elt s; item_of (fst p) (fun x => Ok x)) = Err e
    end.
  Proof.
    intros R. set (c := group_state params args reds ms key st). pose proof (gs_ready key st) as RC. fold c in RC.
    assert (A : agree c s elt).
    { split; [eapply ready_same; eauto|]. intros u U. split; eapply ready_fixed; eauto. }
    pose proof (all_hold globals call outside OUT c s elt A) as H. unfold holds in H. unfold Spec_AggRun.value_in.
    destruct (ev elt c) as [[x t]|e]; cbn [both_give] in H.
    - destruct H as (-> & x' & H & AL). cbn [bind fst]. destruct x, x'; cbn in AL; try contradiction; [|subst; exact H|]; rewrite H; reflexivity.
    - rewrite H. reflexivity.
  Qed.

  Definition bound (s : state) (key : val) (i : nat) : state := put (put s (PN (T "signature_")) (OVal key None)) (PN AD) (OInst i).
  Definition unbound (s : state) (key : val) (i : nat) : state :=
    mkState (names s) (attrs (bound s key i)) (instances (bound s key i)) (objects (bound s key i)).
  Lemma unbound_view s key i : good s -> forall q, view (unbound s key i) q = view s q.
  Proof.
    intros G q. unfold view. assert (L : loc_of (unbound s key i) q = loc_of s q) by (destruct q; reflexivity). rewrite L.
    destruct (loc_of s q) as [l|] eqn:E; [|reflexivity]. cbn [option_map]. f_equal. unfold obj_at. cbn.
    apply (g_wf _ G) in E. rewrite <- app_assoc. now rewrite app_nth1.
  Qed.
  Lemma unbound_good s key i : good s -> good (unbound s key i).
  Proof.
    intros G. assert (L : forall q, loc_of (unbound s key i) q = loc_of s q) by (intros []; reflexivity).
    assert (O : forall l, l < length (objects s) -> obj_at (unbound s key i) l = obj_at s l).
    { intros l H. unfold obj_at. cbn. rewrite <- app_assoc. now rewrite app_nth1. }
    constructor.
    - intros p l H. rewrite L in H. apply (g_wf _ G) in H. cbn. rewrite !app_length. cbn. lia.
    - intros p q l N1 N2 N3 H1 H2. rewrite L in H1, H2. rewrite O by (eapply g_wf; eauto). now apply (g_sep _ G p q).
    - intros j x H. rewrite L in H. cbn. now apply (g_inst _ G) in H.
  Qed.
  Lemma inG_same s s' d dm : inG s d dm -> good s' -> instances s' = instances s -> (forall q, view s' q = view s q) -> inG s' d dm.
  Proof.
    intros (G & B & N & F & D) G' I E. split; [exact G'|]. split; [intros x O R; rewrite E; now apply B|]. split; [now rewrite E|]. split; [|exact D].
    eapply rel_more; [exact F|]. intros i st _ H. eapply grp_same; [exact H|lia|]. intros x. apply E.
  Qed.
  Lemma collect_run : forall dm d s, inG s d dm ->
    match group_results globals call outside params args reds ms elt dm with
    | Err e => run_collect elt (T "signature_") AD d s = Err e
    | Ok l => exists s', run_collect elt (T "signature_") AD d s = Ok (l, s') /\ names s' = names s
    end.
  Proof.
    induction dm as [|[key st] dm IH]; intros d s I; pose proof I as (G & B & NO & F & D); inversion F as [|[k i] y d' dm' [K GR] F']; subst;
      cbn [group_results Spec_FuncRun.run_collect]; [exists s; now split|]. cbn [fst snd] in *. subst k.
    rewrite !bind_new_put. fold (bound s key i).
    assert (GB : good (put s (PN (T "signature_")) (OVal key None))) by (apply good_put; [exact G|discriminate]).
    assert (R : ready (bound s key i) key i st).
    { destruct GR as (_ & A & O). unfold bound. constructor.
      - apply base_put; [exact GB|left; listed|]. apply base_put; [exact G|left; listed|exact B].
      - rewrite 2 view_put_other; [exact NO|exact G|dn|exact GB|dn].
      - rewrite view_put_other; [apply view_put_same|exact GB|dn].
      - apply view_put_same.
      - intros j J. rewrite !view_put_other; [now apply A|exact G|discriminate|exact GB|discriminate].
      - intros x N. rewrite !view_put_other; [now apply O|exact G|discriminate|exact GB|discriminate]. }
    pose proof (result_run _ _ _ _ R) as H. destruct (value_in elt (group_state params args reds ms key st)) as [v|e]; cbn [bind].
    - rewrite H. cbn [bind fst snd item_of].
      assert (I' : inG s d' dm) by (split; [exact G|]; split; [exact B|]; split; [exact NO|]; split; [exact F'|]; cbn [map] in D; now inversion D).
      assert (IU : inG (unbound s key i) d' dm).
      { eapply inG_same; [exact I'|now apply unbound_good|reflexivity|now apply unbound_view]. }
      specialize (IH d' _ IU). unfold unbound in IH.
      destruct (group_results globals call outside params args reds ms elt dm) as [l|e]; cbn [bind].
      + destruct IH as (s' & -> & IN). cbn [bind fst snd]. eexists. split; [reflexivity|exact IN].
      + rewrite IH. reflexivity.
    - destruct (ev elt (bound s key i)) as [[x t]|e']; cbn [bind fst item_of] in *; [|congruence].
      unfold unsupported in *. destruct x; cbn [item_of] in *; try discriminate H; unfold unsupported in *; congruence.
  Qed.

  (** *** the function *)
  (** up to the statements after the result *)
  Lemma group_run_to rows sorting : length args = length params ->
    let r := run_function globals call classes outside (T "data_" :: params)
      (group_program none_name cls sg (body_stmts false reds (build ms)) elt sorting) rows args in
    match (do d <- group_loop sem keys (build ms) rows []; group_results globals call outside params args reds ms elt d) with
    | Err e => r = Err e
    | Ok l => exists s, (forall x, ~ own x -> x <> T "row_" -> ~ In x params -> assoc (names s) x = None) /\
        r = Spec_FuncRun.run_body globals call classes outside (end_of sorting) (put s (PN (T "result_")) (OVal (VList l) None))
    end.
  Proof.
    intros LE. cbv zeta.
    set (Q := fun r => match (do d <- group_loop sem keys (build ms) rows []; group_results globals call outside params args reds ms elt d) with
      | Err e => r = Err e
      | Ok l => exists s, (forall x, ~ own x -> x <> T "row_" -> ~ In x params -> assoc (names s) x = None) /\
          r = Spec_FuncRun.run_body globals call classes outside (end_of sorting) (put s (PN (T "result_")) (OVal (VList l) None))
      end).
    match goal with |- match _ with Ok _ => exists s, _ /\ ?r = _ | Err _ => _ end => change (Q r) end. unfold run_function. rewrite LE, Nat.eqb_refl. set (s0 := bind_args params args (bind_new (mkState [] [] 0 []) (T "data_") (ORows rows))).
    assert (G0 : good (put empty (PN (T "data_")) (ORows rows))) by (apply good_put; [apply good_empty|discriminate]).
    assert (GS : good s0) by now apply bind_args_good.
    assert (BS : base s0).
    { intros x O R. apply bind_args_view; [exact G0|apply good_empty|]. rewrite bind_new_put; apply view_put_other; [apply good_empty|].
      intros X. apply PN_inj in X. subst. apply O. listed. }
    assert (DS : view s0 (PN (T "data_")) = Some (ORows rows)).
    { unfold s0. rewrite bind_args_out; [rewrite bind_new_put; apply view_put_same| |exact G0]. intros X. apply PO in X. apply X. listed. }
    clearbody s0. unfold group_program, start_of. cbn [app Spec_FuncRun.run_body].
    assert (SET : forall x e o s, good s -> right_side e s = Ok (o, s) -> run_simple (Spec_Stmt.SAssign [AName x] e) s = Ok (put s (PN x) o, false)).
    { intros x e o s G H. exact (slot_assign globals call classes outside (AName x) (PN x) s e (Ok o) G eq_refl H). }
    (* _none = ... *)
    assert (EV : ev (AName none_name) s0 = Ok (RSent, s0)).
    { cbn [Spec_FuncRun.ev]. pose proof (free_base s0 BS none_name ltac:(right; now left) ltac:(apply NN)) as V. unfold view in V. cbn [loc_of] in V.
      destruct (assoc (names s0) none_name); [discriminate V|]. now rewrite GN. }
    unfold name at 1. rewrite (SET (T "_none") (AName none_name) OSent s0 GS) by (cbn [Spec_FuncRun.right_side]; rewrite EV; reflexivity). cbn [bind fst snd].
    set (s1 := put s0 (PN (T "_none")) OSent).
    assert (G1 : good s1) by (apply good_put; [exact GS|discriminate]).
    assert (B1 : base s1) by (apply base_put; [exact GS|left; listed|exact BS]).
    assert (N1 : view s1 (PN (T "_none")) = Some OSent) by apply view_put_same.
    assert (D1 : view s1 (PN (T "data_")) = Some (ORows rows)) by (unfold s1; rewrite view_put_other; [exact DS|exact GS|dn]).
    clearbody s1. clear s0 G0 GS BS DS EV.
    (* signature_to_agg_data_ = defaultdict(cls) *)
    assert (RD : right_side (ACall (name "defaultdict") [AName cls] []) s1 = Ok (OGroups cls [], s1)).
    { unfold name. cbn [Spec_FuncRun.right_side]. rewrite same_text_refl.
      rewrite (is_global_view (T "defaultdict") s1) by (apply (free_base s1 B1); [do 3 right; unfold python_names; cbn [map In]; tauto|dn]).
      rewrite (is_global_view cls s1) by (apply (free_base s1 B1); [right; right; now left|apply CN]). cbn [andb].
      assert (NE : forall x, In x (map T ["list"; "dict"; "int"]%string) -> same_text cls x = false).
      { intros x I. destruct (same_text cls x) eqn:E; [|reflexivity]. apply same_text_eq in E. subst. exfalso. apply CN. unfold python_names. cbn [map In] in *. tauto. }
      rewrite !NE by (cbn [map In]; tauto). now rewrite CL. }
    unfold name at 1. rewrite (SET S2A _ _ s1 G1 RD). cbn [bind fst snd].
    set (s2 := put s1 (PN S2A) (OGroups cls [])).
    assert (G2 : good s2) by (apply good_put; [exact G1|discriminate]).
    assert (I2 : inG s2 [] []).
    { split; [exact G2|]. split; [apply base_put; [exact G1|left; listed|exact B1]|].
      split; [unfold s2; rewrite view_put_other; [exact N1|exact G1|dn]|]. split; constructor. }
    assert (D2 : view s2 (PN (T "data_")) = Some (ORows rows)) by (unfold s2; rewrite view_put_other; [exact D1|exact G1|dn]).
    assert (V2 : view s2 (PN S2A) = Some (OGroups cls [])) by apply view_put_same.
    clearbody s2. clear s1 G1 B1 N1 D1 RD.
    (* the loop *)
    destruct (view_in _ _ _ D2) as (ld & LD & OD). cbn [loc_of] in LD. unfold name at 1. rewrite LD, OD.
    pose proof (loop_run rows s2 [] [] I2 V2) as H. unfold name at 1 2.
    destruct (group_loop sem keys (build ms) rows []) as [dm|e] eqn:EL; cbn [bind]; [|rewrite H; reflexivity].
    destruct H as (s3 & d & -> & I3 & V3). cbn [bind fst snd].
    (* the result *)
    destruct (view_in _ _ _ V3) as (lg & LG & OG). unfold name at 1. rewrite same_text_refl.
    cbn [loc_of] in LG. rewrite LG, OG.
    pose proof (collect_run dm d s3 I3) as H.
    destruct (group_results globals call outside params args reds ms elt dm) as [l|e] eqn:ER; cbn [bind]; [|rewrite H; unfold Q; cbn [bind]; now try rewrite ER].
    destruct H as (s4 & -> & N4). cbn [bind fst snd]. unfold Q. cbn [bind]. try rewrite ER. exists s4. split; [|rewrite bind_new_put; reflexivity].
    intros x O R P. destruct I3 as (_ & B3 & _). rewrite N4. pose proof (B3 x O R) as V. rewrite given_out in V by exact P.
    unfold view in V. cbn [loc_of] in V. destruct (assoc (names s3) x); [discriminate V|reflexivity].
  Qed.
  Theorem group_run rows : length args = length params ->
    run_function globals call classes outside (T "data_" :: params)
      (group_program none_name cls sg (body_stmts false reds (build ms)) elt None) rows args =
    do d <- group_loop sem keys (build ms) rows [];
    do l <- group_results globals call outside params args reds ms elt d;
    Ok (Some (RVal (VList l))).
  Proof.
    intros LE. pose proof (group_run_to rows None LE) as H. cbv zeta in H.
    destruct (group_loop sem keys (build ms) rows []) as [d|e]; cbn [bind] in *; [|exact H].
    destruct (group_results globals call outside params args reds ms elt d) as [l|e]; cbn [bind] in *; [|exact H].
    destruct H as (s & _ & ->). unfold end_of. cbn [app Spec_FuncRun.run_body]. unfold name.
    rewrite (slot_ev globals call outside (AName (T "result_")) (PN (T "result_")) _ (OVal (VList l) None) eq_refl (view_put_same _ _ _)).
    reflexivity.
  Qed.
End Group.
