(** The functions of aggregations, run: the arguments, the expressions. *)
From Coq Require Import String Ascii List NArith ZArith Bool Arith Lia Permutation.
From Verif Require Import Model_PyVal Model_Reducers Model_Aggregate Model_Code Model_AggText Spec_Syntax Spec_FuncText Spec_AggProgram Spec_FuncRun
  Spec_AggRun Proofs_FuncRun Proofs_RedRun Proofs_Steady Proofs_AggRun.
From Verif Require Spec_Stmt Spec_Loop Proofs_Stmt Proofs_Lex Proofs_Aggregate Spec_Tree.
Import ListNotations.

(** *** names *)
Lemma ndec_inj n m : ndec n = ndec m -> n = m.
Proof. intros H. pose proof (Proofs_Lex.run_ndec n) as R. rewrite H, Proofs_Lex.run_ndec in R. now injection R. Qed.
Lemma agg_var_inj i j : agg_var true i = agg_var true j -> i = j.
Proof.
  unfold agg_var. intros H. apply app_inv_head in H. apply app_inv_tail in H. apply ndec_inj in H. now apply Nat2N.inj.
Qed.
Lemma attribute_inj i j : attribute i = attribute j -> i = j.
Proof. unfold attribute. intros H. apply app_inv_head in H. apply ndec_inj in H. now apply Nat2N.inj. Qed.
Lemma own_listed x : In x function_names -> own x. Proof. now left. Qed.
Ltac listed := apply own_listed; cbn [function_names map In]; tauto.
Lemma agg_var_ne j x : In x (T "row_" :: map T ["data_"; "_none"; "signature_to_agg_data_"; "agg_data_"; "_d"; "signature_"; "result_";
   "checksum_"; "expected_checksum_"; "it_"; "defaultdict"; "list"; "dict"; "int"; "iter"]%string) -> agg_var true j <> x.
Proof.
  cbn [map In]. intros I.
  repeat (destruct I as [<-|I]; [unfold agg_var; intros E; vm_compute in E; discriminate E|]). contradiction.
Qed.
Lemma python_not_own x : In x python_names -> ~ own x.
Proof.
  intros I [O|(j & O)].
  - cbn [python_names map In] in I.
    repeat (destruct I as [<-|I]; [cbn [function_names map In] in O; repeat (destruct O as [O|O]; [vm_compute in O; discriminate O|]); contradiction|]). contradiction.
  - symmetry in O. revert O. apply agg_var_ne. revert I. unfold python_names. cbn [map In]. tauto.
Qed.
Lemma row_not_own : ~ own (T "row_").
Proof.
  intros [O|(j & O)].
  - cbn [function_names map In] in O. repeat (destruct O as [O|O]; [vm_compute in O; discriminate O|]); contradiction.
  - symmetry in O. revert O. apply agg_var_ne. now left.
Qed.

(** *** the arguments *)
Definition empty : state := mkState [] [] 0 [].
Lemma good_empty : good empty.
Proof. constructor; intros; try destruct p; cbn in *; try discriminate; try congruence. Qed.
Lemma bind_args_good ps : forall vs s, good s -> good (bind_args ps vs s).
Proof.
  induction ps as [|x ps IH]; intros vs s G; cbn [bind_args]; auto. destruct vs as [|v vs]; auto. apply IH. rewrite bind_new_put. apply good_put; [exact G|discriminate].
Qed.
Lemma bind_args_view ps x : forall vs s s', good s -> good s' -> view s (PN x) = view s' (PN x) ->
  view (bind_args ps vs s) (PN x) = view (bind_args ps vs s') (PN x).
Proof.
  induction ps as [|y ps IH]; intros vs s s' G G' H; cbn [bind_args]; auto. destruct vs as [|v vs]; auto. rewrite !bind_new_put.
  apply IH; try (apply good_put; [assumption|discriminate]). destruct (place_dec (PN x) (PN y)) as [->|N].
  - now rewrite !view_put_same.
  - now rewrite !view_put_other.
Qed.
Lemma bind_args_out ps x : ~ In x ps -> forall vs s, good s -> view (bind_args ps vs s) (PN x) = view s (PN x).
Proof.
  induction ps as [|y ps IH]; intros NI vs s G; cbn [bind_args]; auto. destruct vs as [|v vs]; auto. rewrite bind_new_put.
  rewrite IH; [|intros I; apply NI; now right|apply good_put; [exact G|discriminate]]. apply view_put_other; [exact G|].
  intros [= ->]. apply NI. now left.
Qed.
Lemma bind_args_attr ps i x : forall vs s, good s -> view (bind_args ps vs s) (PA i x) = view s (PA i x).
Proof.
  induction ps as [|y ps IH]; intros vs s G; cbn [bind_args]; auto. destruct vs as [|v vs]; auto. rewrite bind_new_put.
  rewrite IH; [|apply good_put; [exact G|discriminate]]. apply view_put_other; [exact G|discriminate].
Qed.
Lemma bind_args_instances ps : forall vs s, instances (bind_args ps vs s) = instances s.
Proof. induction ps as [|y ps IH]; intros vs s; cbn [bind_args]; auto. destruct vs as [|v vs]; auto. now rewrite IH. Qed.
Definition plain_obj (o : option object) : Prop := match o with None | Some (OVal _ None) => True | _ => False end.
Lemma bind_args_plain ps x : forall vs s, good s -> plain_obj (view s (PN x)) -> plain_obj (view (bind_args ps vs s) (PN x)).
Proof.
  induction ps as [|y ps IH]; intros vs s G H; cbn [bind_args]; auto. destruct vs as [|v vs]; auto. rewrite bind_new_put.
  apply IH; [apply good_put; [exact G|discriminate]|]. destruct (place_dec (PN x) (PN y)) as [->|N].
  - now rewrite view_put_same.
  - now rewrite view_put_other.
Qed.

Lemma seen_name s x : seen s (AName x) = view s (PN x).
Proof. reflexivity. Qed.
Lemma seen_attr s x y : seen s (AAttr (AName x) y) =
  match view s (PN x) with Some (OInst i) => view s (PA i y) | _ => None end.
Proof.
  unfold seen, view. cbn [variable loc_of]. destruct (assoc (names s) x) as [l|]; [|reflexivity]. cbn [option_map].
  destruct (obj_at s l); reflexivity.
Qed.

Section Env.
  Variable globals : text -> option rv.
  Variable call : text -> list val -> res val.
  Variable classes : text -> option (list text).
  Variable outside : ast -> (ast -> option val) -> res val.
  Hypothesis OUT : forall a g g', (forall u, In u (uses a) -> g u = g' u) -> outside a g = outside a g'.
  Variables none_name : text.
  Hypothesis GV : forall x, x <> none_name -> match globals x with None | Some (RVal _) => True | _ => False end.
  Variable params : list text.
  Variable args : list val.
  Notation ev := (Spec_FuncRun.ev globals call outside).
  Notation right_side := (Spec_FuncRun.right_side globals call classes outside).
  Notation given := (given params args).
  Notation value := (value globals call outside params args).
  Notation constant := (constant globals call outside params args).
  Notation value_in := (value_in globals call outside).
  Notation plain_names := (plain_names none_name).
  Notation steady := (steady globals call classes outside).

  Lemma good_given : good given.
  Proof. apply bind_args_good, good_empty. Qed.
  Lemma given_plain x : plain_obj (view given (PN x)).
  Proof. apply bind_args_plain; [apply good_empty|exact I]. Qed.
  Lemma given_attr i x : view given (PA i x) = None.
  Proof. unfold given. now rewrite bind_args_attr by apply good_empty. Qed.
  Lemma given_out x : ~ In x params -> view given (PN x) = None.
  Proof. intros N. unfold given. now rewrite bind_args_out by (auto; apply good_empty). Qed.

  (** the variables that are not the function's own are the arguments *)
  Definition base (s : state) : Prop := forall x, ~ own x -> x <> T "row_" -> view s (PN x) = view given (PN x).
  Definition own_places (D : list place) : Prop := forall x, In (PN x) D -> own x.
  Lemma base_frame D s s' : own_places D -> base s -> frame D s s' -> base s'.
  Proof. intros O B [_ F] x N R. rewrite F; [now apply B|]. intros I. now apply N, O. Qed.

  (** expressions in a state and in the one that defines their value *)
  Lemma right_plain a s : (forall x, In (AName x) (uses a) -> x <> T "defaultdict" /\ x <> T "iter") ->
    (forall u, In u (uses a) -> match seen s u with Some (OGroups _ _) => False | _ => True end) ->
    right_side a s = do p <- ev a s; Ok (object_of (fst p), snd p).
  Proof.
    intros N S. destruct a; try reflexivity.
    - cbn [Spec_FuncRun.right_side].
      assert (H : match variable a1 s with Some l => match obj_at s l with OGroups _ _ => False | _ => True end | None => True end).
      { destruct (indexed_uses (ASub a1 a2) a1 (or_introl eq_refl)) as [X|X]; [now rewrite X|]. specialize (S a1 X). unfold seen in S.
        destruct (variable a1 s) as [l|]; [|exact Logic.I]. exact S. }
      destruct (variable a1 s) as [l|]; [|reflexivity]. destruct (obj_at s l); try reflexivity. contradiction.
    - cbn [Spec_FuncRun.right_side]. destruct a; try reflexivity. destruct args0 as [|[] [|]]; try reflexivity. destruct kws; try reflexivity.
      destruct (N x) as [N1 N2]; [cbn; now left|]. rewrite (same_text_neq _ _ N1), (same_text_neq _ _ N2). reflexivity.
  Qed.
  Lemma two_steady a c s' : (forall u, In u (uses a) -> plain_at c u) -> value_names globals a -> agree c s' a ->
    (forall x, In (AName x) (uses a) -> x <> T "defaultdict" /\ x <> T "iter") ->
    ev a s' = (do v <- value_in a c; Ok (RVal v, s')) /\ right_side a s' = (do v <- value_in a c; Ok (OVal v None, s')).
  Proof.
    intros P V A N. pose proof (all_hold globals call outside OUT c s' a A) as H. unfold holds in H.
    assert (R : right_side a s' = do p <- ev a s'; Ok (object_of (fst p), snd p)).
    { apply right_plain; [exact N|]. intros u U. destruct A as [A _]. specialize (A u U). specialize (P u U). unfold same_at, plain_at in *.
      destruct (seen c u) as [[]|]; try contradiction; destruct (seen s' u) as [[]|]; auto. }
    rewrite R. unfold Spec_AggRun.value_in. destruct (ev a c) as [[x t]|e] eqn:E; cbn [both_give] in H.
    - destruct H as (-> & x' & -> & AL). destruct (all_values globals call outside OUT c a P V x c E) as [v ->].
      destruct x'; cbn in AL; try contradiction. subst. split; reflexivity.
    - rewrite H. split; reflexivity.
  Qed.
  Lemma plain_seen c u x : plain_obj (view c (PN x)) -> (u = AName x \/ exists y, u = AAttr (AName x) y) -> plain_at c u.
  Proof.
    intros H [->|[y ->]]; unfold plain_at.
    - rewrite seen_name. exact H.
    - rewrite seen_attr. destruct (view c (PN x)) as [[]|]; try contradiction; exact Logic.I.
  Qed.
  Lemma same_seen c s u x : plain_obj (view c (PN x)) -> view s (PN x) = view c (PN x) ->
    (u = AName x \/ exists y, u = AAttr (AName x) y) -> same_at c s u.
  Proof.
    intros H E [->|[y ->]]; unfold same_at.
    - rewrite !seen_name, E. destruct (view c (PN x)) as [[]|]; auto.
    - rewrite !seen_attr, E. destruct (view c (PN x)) as [[]|]; try contradiction; exact Logic.I.
  Qed.
  (** the state that defines values: the arguments, and the row *)
  Definition with_row (row : option val) : state :=
    match row with Some v => bind_new given (T "row_") (OVal v None) | None => given end.
  Lemma with_row_view row x : plain_obj (view (with_row row) (PN x)).
  Proof.
    destruct row as [v|]; cbn [with_row]; [|apply given_plain]. rewrite bind_new_put.
    destruct (place_dec (PN x) (PN (T "row_"))) as [->|N]; [now rewrite view_put_same|].
    rewrite view_put_other by (auto; apply good_given). apply given_plain.
  Qed.
  Definition row_in (s : state) (row : option val) : Prop :=
    match row with Some v => view s (PN (T "row_")) = Some (OVal v None) | None => True end.
  Definition has {A} (o : option A) : bool := match o with Some _ => true | None => false end.
  Lemma names_values b a : plain_names b a -> value_names globals a.
  Proof. intros P x U. destruct (P x U) as (_ & N & _). now apply GV. Qed.
  Lemma expr_agree a row s : plain_names (has row) a -> base s -> row_in s row ->
    (forall u, In u (uses a) -> plain_at (with_row row) u) /\ agree (with_row row) s a.
  Proof.
    intros P B R. assert (C : forall x, In (AName x) (uses a) -> view s (PN x) = view (with_row row) (PN x)).
    { intros x U. destruct (P x U) as (O & _ & _ & _ & W). destruct (list_eq_dec N.eq_dec x (T "row_")) as [->|NR].
      - specialize (W eq_refl). destruct row as [v|]; [|discriminate W]. cbn [with_row]. rewrite bind_new_put, view_put_same. exact R.
      - rewrite B by auto. destruct row as [v|]; cbn [with_row]; [|reflexivity]. rewrite bind_new_put, view_put_other; [reflexivity|apply good_given|].
        intros X. apply PN_inj in X. contradiction. }
    assert (PL : forall u, In u (uses a) -> plain_at (with_row row) u).
    { intros u U. destruct (uses_shape a u U) as (x & X & S). eapply plain_seen; [apply with_row_view|exact S]. }
    assert (PS : forall u, In u (uses a) -> plain_at s u).
    { intros u U. destruct (uses_shape a u U) as (x & X & S). eapply plain_seen; [rewrite (C x X); apply with_row_view|exact S]. }
    split; [exact PL|]. split.
    - intros u U. destruct (uses_shape a u U) as (x & X & S). eapply same_seen; [apply with_row_view|exact (C x X)|exact S].
    - intros u U. split; [apply (fixed_plain (with_row row) a PL u U)|apply (fixed_plain s a PS u U)].
  Qed.
  Lemma value_row a row : value a row = value_in a (with_row (Some row)).
  Proof. reflexivity. Qed.
  Lemma expr_steady a row s D : plain_names (has row) a -> base s -> row_in s row -> own_places D ->
    steady a (value_in a (with_row row)) D s.
  Proof.
    intros P B R O s' F. destruct (expr_agree a row s' P) as [PL A].
    - eapply base_frame; eauto.
    - destruct row as [v|]; cbn in *; [|exact Logic.I]. destruct F as [_ F]. rewrite F; [exact R|]. intros I. apply row_not_own. apply O. exact I.
    - apply two_steady; [exact PL|eapply names_values; eauto|exact A|]. intros x U. destruct (P x U) as (_ & _ & N1 & N2 & _). auto.
  Qed.
  Lemma no_row a b : plain_names false a -> plain_names b a.
  Proof. intros P x U. destruct (P x U) as (A1 & A2 & A3 & A4 & A5). repeat split; auto. intros E. discriminate (A5 E). Qed.
  Lemma const_steady a s D : plain_names false a -> base s -> own_places D -> steady a (constant a) D s.
  Proof. intros P B O. apply (expr_steady a None s D P B Logic.I O). Qed.
  Lemma const_item a s D : plain_names false a -> base s -> own_places D ->
    forall t w k, frame D s t -> Spec_FuncRun.item a w k t = do y <- py_getitem w k; Ok (y, t).
  Proof.
    intros P B O t w k F. destruct (expr_agree a None t P) as [PL A]; [eapply base_frame; eauto|exact Logic.I|].
    unfold item. destruct (indexed_uses (ASub a a) a (or_introl eq_refl)) as [X|X]; [now rewrite X|].
    cbn in X. rewrite in_app_iff in X. assert (U : In a (uses a)) by tauto.
    destruct A as [A _]. specialize (A a U). specialize (PL a U). change (with_row None) with given in *. unfold same_at, plain_at, seen in *.
    destruct (variable a t) as [l|]; [|reflexivity]. cbn [option_map] in A. destruct (obj_at t l) as [|? [|]| | | |]; try reflexivity.
    destruct (variable a given) as [l'|]; cbn [option_map] in *; [|contradiction].
    destruct (obj_at given l') as [|? [|]| | | |]; try contradiction. destruct A as [_ A]. discriminate A.
  Qed.
End Env.
