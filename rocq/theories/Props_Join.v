(** Properties C37-C42: joins. *)
From Coq Require Import String List ZArith Bool Lia.
From Verif Require Import Model_PyVal Proofs_PyVal Model_Join Spec_Join Proofs_Join Proofs_JoinLoops.
Import ListNotations.

Section Facts.
  Variable op : string -> list val -> res val.
  Variable inputs : string -> val.
  Local Notation R1 := (on_row inputs).
  Local Notation P2 := (on_pair inputs).
  Local Notation holds := (holds op inputs).

  Lemma pre_false cond h : proper cond -> input_parts_hold op inputs cond ->
    forall b, ev_all op (on_nothing inputs) (pre (from_condition h cond)) = Ok b -> b = true.
  Proof.
    intros PR IP b E. destruct (placed_ok h cond PR) as (_ & _ & C & _).
    assert (T : ev_all op (on_nothing inputs) (pre (from_condition h cond)) = Ok true).
    { apply ev_all_true. apply Forall_forall. intros p Hp. destruct (C p Hp) as [Hi O].
      assert (O' := O). apply andb_true_iff in O as [O1 O2]. apply negb_true_iff in O1, O2.
      apply (evb_none op inputs p none_obj none_obj (closed_cond cond p PR Hi) O1 O2).
      apply holds_evb. apply IP; auto. }
    congruence.
  Qed.

  Lemma loop_test E (l : list jx) : match l with [] => Ok true | _ => ev_all op E l end = ev_all op E l.
  Proof. destruct l; auto. Qed.

  Lemma has_key_hash h cond : proper cond -> left_hash (from_condition h cond) = [] -> has_key cond = false.
  Proof.
    intros PR E. destruct (placed_ok h cond PR) as (_ & _ & _ & _ & _ & F & _).
    unfold has_key. destruct (existsb is_key (cond_parts cond)); auto. destruct F; auto.
  Qed.
  Lemma no_right_filters h cond : proper cond -> (forall p, In p (cond_parts cond) -> only_right p = false) ->
    right_collection (from_condition h cond) = [].
  Proof.
    intros PR N. destruct (placed_ok h cond PR) as (_ & B & _).
    destruct (right_collection (from_condition h cond)) as [|p l] eqn:E; auto.
    destruct (B p) as [Hi O]; [simpl; auto|]. rewrite N in O by auto. discriminate.
  Qed.

  Lemma join_normal h cond kl kr left right out : h <> Right -> proper cond ->
    (h = Outer \/ rescans cond kr only_right left) ->
    join op inputs h cond kl kr left right = Ok out ->
    let c := from_condition h cond in
    (ev_all op (on_nothing inputs) (pre c) = Ok false /\ out = []) \/
    (ev_all op (on_nothing inputs) (pre c) = Ok true /\
     let ls := filter (fun x => isT (ev_all op (R1 x) (left_collection c))) left in
     let m := map (fun x => (x, matching op inputs cond x right)) ls in
     out = match h with Inner => inner_pairs m | Outer => add_right_part (left_pairs m) right | _ => left_pairs m end).
  Proof.
    intros HR PR RS J c. unfold join in J.
    assert (Eh : match h with Right => Left | _ => h end = h) by (destruct h; congruence).
    assert (Sw : match h with Right => true | _ => false end = false) by (destruct h; congruence).
    rewrite Eh, Sw in J. fold c in J.
    destruct (ev_all op (on_nothing inputs) (pre c)) as [[|]|] eqn:PE; cbn [bind negb] in J; [right|left|discriminate].
    2: { split; auto. congruence. }
    split; auto. cbn zeta in J.
    match type of J with (do src <- ?X; _) = _ => destruct X as [s|] eqn:Es; cbn [bind] in J; [|discriminate] end.
    pose proof (filter_rows_spec (fun x => ev_all op (R1 x) (left_collection c)) left) as FL.
    destruct (filter_rows (fun x => ev_all op (R1 x) (left_collection c)) left) as [ls|] eqn:El; cbn [bind] in J; [|discriminate].
    destruct FL as [-> _].
    match type of J with (do m <- ?X; _) = _ => destruct X as [m|] eqn:Em; cbn [bind] in J; [|discriminate] end.
    eapply (core (left_hash c)) with (H := holds cond) in Em; [|exact Es| | |].
    - cbn zeta. unfold matching. rewrite <- Em. destruct h; congruence.
    - intros E0. destruct RS as [->|[K|[(-> & N)|L]]].
      + auto.
      + unfold c in E0. apply has_key_hash in E0; auto. congruence.
      + left. unfold c. rewrite no_right_filters by auto. destruct h; auto.
      + right. eapply Nat.le_trans; [|exact L]. clear. induction left; simpl; auto. destruct (isT _); simpl; lia.
    - intros AG y Hy.
      assert (E0 : right_collection c = []).
      { destruct (placed_ok h cond PR) as (_ & _ & _ & _ & _ & _ & _ & G & _).
        destruct h; try (apply G; reflexivity); destruct kr, (right_collection c); auto; discriminate. }
      rewrite E0. auto.
    - intros x y Hx Hy KG. apply filter_In in Hx as [_ Hx].
      rewrite (holds_stages op inputs h cond x y PR PE KG). fold c. rewrite Hx, loop_test. auto.
  Qed.

  Lemma inner_pairs_map (f : robj -> list robj) ls : inner_pairs (map (fun x => (x, f x)) ls) = flat_map (fun x => map (fun y => (x, y)) (f x)) ls.
  Proof. induction ls; simpl; auto. unfold inner_pairs in *. congruence. Qed.
  Lemma left_pairs_map (f : robj -> list robj) ls : left_pairs (map (fun x => (x, f x)) ls) =
    flat_map (fun x => match f x with [] => [(x, none_obj)] | ys => map (fun y => (x, y)) ys end) ls.
  Proof. unfold left_pairs. rewrite !flat_map_concat_map, map_map. reflexivity. Qed.
  Lemma flat_map_filter {A B} (f : A -> list B) p l : (forall x, In x l -> p x = false -> f x = []) ->
    flat_map f (filter p l) = flat_map f l.
  Proof. induction l; simpl; intros H; auto. destruct (p a) eqn:E; simpl; rewrite IHl; auto. rewrite (H a); auto. Qed.
  Lemma filter_none {A} (p : A -> bool) l : (forall x, In x l -> p x = false) -> filter p l = [].
  Proof. induction l; simpl; intros H; auto. rewrite H, IHl; auto. Qed.

  Lemma holds_left_filter h cond x y : proper cond -> holds cond x y = true ->
    isT (ev_all op (R1 x) (left_collection (from_condition h cond))) = true.
  Proof.
    intros PR HO. apply (split_W op inputs h cond x y PR) in HO. destruct HO as (_ & S2 & _).
    rewrite Forall_app in S2. apply ev_all_isT. tauto.
  Qed.
  Lemma holds_pre h cond x y : proper cond -> holds cond x y = true -> ev_all op (on_nothing inputs) (pre (from_condition h cond)) = Ok true.
  Proof. intros PR HO. apply (split_W op inputs h cond x y PR) in HO. destruct HO as (_ & _ & _ & S & _). apply ev_all_true; auto. Qed.
  Lemma filter_all {A} (p : A -> bool) l : (forall x, In x l -> p x = true) -> filter p l = l.
  Proof. induction l; simpl; intros H; auto. rewrite H, IHl; auto. Qed.
End Facts.

(** ** C37 *)
(** For every way [h] of joining: the condition holds for a pair iff everything
    the join splits it into holds - keys and filters evaluated on one row each. *)
Theorem C37_condition_split :
  forall op inputs h e x y,
  proper (Some e) ->
  (* key values are hashable *)
  (forall a b q v, In (JEq [a; b]) (parts e) -> two_sided a b = true -> q = a \/ q = b ->
     ev op (on_pair inputs x y) q = Ok v -> hashable v = true) ->
  let c := from_condition h (Some e) in
  holds op inputs (Some e) x y = true <->
  (Forall2 (fun a b => exists u v, ev op (on_row inputs x) a = Ok u /\ ev op (on_row inputs y) b = Ok v /\ py_eq u v = true)
           (left_hash c) (right_hash c) /\
   Forall (fun p => ev_bool op (on_row inputs x) p = Ok true) (left_collection c ++ left_row c) /\
   Forall (fun p => ev_bool op (on_row inputs y) p = Ok true) (right_collection c ++ right_row c) /\
   Forall (fun p => ev_bool op (on_nothing inputs) p = Ok true) (pre c) /\
   Forall (fun p => ev_bool op (on_pair inputs x y) p = Ok true) (inner_loop c)).
Proof.
  intros op inputs h e x y PR HK c. pose proof (placed_ok h _ PR) as (_ & _ & _ & _ & E & _). fold c in E.
  assert (HH : forall a b u v, key_part (cond_parts (Some e)) a b ->
            ev op (on_row inputs x) a = Ok u -> ev op (on_row inputs y) b = Ok v -> hashable u = true /\ hashable v = true).
  { intros a b u v (I1 & D1 & D2 & D3 & D4) Eu Ev. simpl in I1.
    assert (TS : two_sided a b = true /\ two_sided b a = true) by (unfold two_sided; rewrite D1, D2, D3, D4; auto).
    assert (CL : closed a = true /\ closed b = true).
    { assert (closed (JEq [a; b]) = true \/ closed (JEq [b; a]) = true) as [Q|Q] by (destruct I1; [left|right]; apply (closed_parts e); auto; apply PR);
        simpl in Q; rewrite !andb_true_iff in Q; tauto. }
    rewrite (ev_left op inputs a x y) in Eu by tauto. rewrite (ev_right op inputs b x y) in Ev by tauto.
    destruct I1 as [I1|I1]; split; eauto using (HK a b a u), (HK a b b v), (HK b a a u), (HK b a b v).
    - eapply (HK a b a u); eauto; tauto.
    - eapply (HK a b b v); eauto; tauto.
    - eapply (HK b a a u); eauto; tauto.
    - eapply (HK b a b v); eauto; tauto. }
  split.
  - intros HO. apply (split_W op inputs h (Some e) x y PR) in HO. fold c in HO. destruct HO as (S1 & S2). split; auto.
    clear - S1 E HH. revert S1 E. generalize (left_hash c) (right_hash c). induction 1 as [|a b l m Ha S1 IH]; intros E; constructor.
    + inversion E; subst. destruct Ha as (u & v & Eu & Ev & Q). exists u, v. split; auto. split; auto.
      destruct Q; auto. destruct (HH a b u v) as [Hu Hv]; auto. rewrite py_eq_sym; auto.
    + apply IH. inversion E; auto.
  - intros (S1 & S2). apply (split_S op inputs h (Some e) x y PR). fold c. split; auto.
    clear - S1 E HH. revert S1 E. generalize (left_hash c) (right_hash c). induction 1 as [|a b l m Ha S1 IH]; intros E; constructor.
    + inversion E; subst. destruct Ha as (u & v & Eu & Ev & Q). exists u, v.
      destruct (HH a b u v) as [Hu Hv]; auto. repeat split; auto. rewrite py_eq_sym; auto.
    + apply IH. inversion E; auto.
Qed.

(** ** C38 *)
(** Whenever the join yields rows without failing they are the filtered cross
    product.  Missing from the full property: a right collection that can be read
    only once (or is filtered lazily) compared with several left rows; false there. *)
Theorem C38_inner_join_partial :
  forall op inputs cond kl kr left right out,
  proper cond -> rescans cond kr only_right left ->
  join op inputs Inner cond kl kr left right = Ok out ->
  out = spec_inner op inputs cond left right.
Proof.
  intros op inputs cond kl kr left right out PR RS J.
  destruct (join_normal op inputs Inner cond kl kr left right out) as [(P & ->)|(P & ->)]; auto; try discriminate.
  - unfold spec_inner. symmetry. rewrite <- (flat_map_filter _ (fun _ => false)).
    + rewrite filter_none; auto.
    + intros x Hx _. unfold matching. rewrite filter_none; auto. intros y Hy.
      destruct (holds op inputs cond x y) eqn:HO; auto. apply (holds_pre op inputs Inner) in HO; auto. congruence.
  - rewrite inner_pairs_map. unfold spec_inner. apply flat_map_filter. intros x Hx F. unfold matching. rewrite filter_none; auto.
    intros y Hy. destruct (holds op inputs cond x y) eqn:HO; auto. apply (holds_left_filter op inputs Inner) in HO; auto. congruence.
Qed.

(** ** C39 *)
Theorem C39_left_join_partial :
  forall op inputs cond kl kr left right out,
  proper cond -> rescans cond kr only_right left -> input_parts_hold op inputs cond ->
  join op inputs Left cond kl kr left right = Ok out ->
  out = spec_left op inputs cond left right.
Proof.
  intros op inputs cond kl kr left right out PR RS IP J.
  destruct (join_normal op inputs Left cond kl kr left right out) as [(P & ->)|(P & ->)]; auto; try discriminate.
  - apply pre_false in P; auto. discriminate.
  - rewrite left_pairs_map. unfold spec_left.
    destruct (placed_ok Left cond PR) as (_ & _ & _ & _ & _ & _ & G & _). rewrite G by auto.
    rewrite filter_all; auto.
Qed.

(** ** C41 *)
Theorem C41_outer_join_partial :
  forall op inputs cond kl kr left right out,
  proper cond -> input_parts_hold op inputs cond -> objects right ->
  (* no right row is None, or every left row has a match *)
  (forall y, In y right -> rval y <> VNone) \/ (forall x, In x left -> matching op inputs cond x right <> []) ->
  join op inputs Outer cond kl kr left right = Ok out ->
  out = spec_outer op inputs cond left right.
Proof.
  intros op inputs cond kl kr left right out PR IP (ID & NO) NN J.
  destruct (join_normal op inputs Outer cond kl kr left right out) as [(P & ->)|(P & ->)]; auto; try discriminate.
  { apply pre_false in P; auto. discriminate. }
  destruct (placed_ok Outer cond PR) as (_ & _ & _ & _ & _ & _ & G & _). rewrite G by auto. rewrite filter_all by auto.
  rewrite left_pairs_map. unfold spec_outer, add_right_part. f_equal. f_equal. apply filter_ext_in. intros y Hy. f_equal.
  apply eq_true_iff_eq. rewrite !existsb_exists. split.
  - intros (i & Hi & E). apply Nat.eqb_eq in E. apply in_map_iff in Hi as ([x' y'] & Ei & Hp). simpl in Ei.
    apply in_flat_map in Hp as (x & Hx & Hp). exists x. split; auto.
    destruct (matching op inputs cond x right) as [|z zs] eqn:M.
    + destruct Hp as [Hp|[]]. injection Hp as <- <-. simpl in Ei. subst i.
      destruct NN as [NN|NN]; [destruct (NN y Hy); apply NO; auto|destruct (NN x Hx); auto].
    + rewrite <- M in Hp. apply in_map_iff in Hp as (w & Ew & Hw). injection Ew as <- <-.
      apply filter_In in Hw as [Hw HO]. rewrite <- (ID w y); auto. congruence.
  - intros (x & Hx & HO). exists (rid y). split; [|apply Nat.eqb_refl].
    apply in_map_iff. exists (x, y). split; auto. apply in_flat_map. exists x. split; auto.
    assert (M : In y (matching op inputs cond x right)) by (apply filter_In; auto).
    destruct (matching op inputs cond x right) as [|z zs]; [destruct M|]. apply (in_map (fun y => (x, y))) in M. exact M.
Qed.

(** ** C40 *)
Theorem C40_right_join_partial :
  forall op inputs cond kl kr left right out,
  proper cond -> input_parts_hold op inputs cond ->
  rescans cond kl (fun _ => false) right ->
  (* no part looks at the right row only, and the keys are the same expression on both sides *)
  (forall p, In p (cond_parts cond) -> only_right p = false) -> mirrored op inputs cond ->
  join op inputs Right cond kl kr left right = Ok out ->
  out = spec_right op inputs cond left right.
Proof.
  intros op inputs cond kl kr left right out PR IP RS NR MI J. unfold join in J. cbn zeta in J.
  set (c := from_condition Left cond) in *.
  pose proof (placed_ok Left cond PR) as (A & B & _ & D & E & _ & G1 & _ & _ & G4). fold c in A, B, D, E, G1, G4.
  assert (RC : right_collection c = []) by (exact (no_right_filters Left cond PR NR)).
  rewrite (G1 eq_refl), RC in J.
  destruct (ev_all op (on_nothing inputs) (pre c)) as [b|] eqn:PE; cbn [bind] in J; [|discriminate].
  assert (b = true) by (apply (pre_false op inputs cond Left PR IP b PE)). subst b. cbn [negb] in J.
  match type of J with (do src <- ?X; _) = _ => destruct X as [s|] eqn:Es; cbn [bind] in J; [|discriminate] end.
  rewrite filter_rows_ok in J by (cbn [ev_all]; eauto). rewrite filter_all in J by auto. cbn [bind] in J.
  match type of J with (do m <- ?X; _) = _ => destruct X as [m|] eqn:Em; cbn [bind] in J; [|discriminate] end.
  injection J as <-.
  assert (KEY : forall r, ev_key op (on_row inputs r) (left_hash c) = ev_key op (on_row inputs r) (right_hash c)).
  { intros r.
    assert (F : Forall2 (fun a b => ev op (on_row inputs r) a = ev op (on_row inputs r) b) (left_hash c) (right_hash c)).
    { clear - E MI. induction E as [|a b l1 m1 (I1 & D1 & D2 & D3 & D4) E IH]; constructor; auto.
      assert (two_sided a b = true /\ two_sided b a = true) by (unfold two_sided; rewrite D1, D2, D3, D4; auto).
      destruct I1 as [I1|I1]; [|symmetry]; apply MI; tauto. }
    assert (F' : ev_list op (on_row inputs r) (left_hash c) = ev_list op (on_row inputs r) (right_hash c)).
    { clear - F. induction F as [|a b l1 m1 Q F IH]; simpl; auto. rewrite Q, IH. auto. }
    unfold ev_key. rewrite F'. destruct F as [|a b l1 m1 Q F]; auto. destruct F; auto. }
  eapply (core (left_hash c)) with (H := fun x y => holds op inputs cond y x) in Em; [|exact Es| | |].
  - subst m. rewrite left_pairs_map. unfold spec_right. clear. rewrite !flat_map_concat_map, concat_map, map_map.
    f_equal. apply map_ext. intros y. destruct (filter (fun x => holds op inputs cond x y) left) as [|z zs]; auto.
    rewrite map_map. reflexivity.
  - intros E0. destruct RS as [K|[(-> & N)|L]]; auto. unfold c in E0. apply has_key_hash in E0; auto. congruence.
  - intros _ y Hy. reflexivity.
  - intros x y Hx Hy KG. cbn [ev_all isT andb].
    rewrite (holds_stages op inputs Left cond y x PR PE).
    + fold c. rewrite (G1 eq_refl), RC. cbn [ev_all isT andb].
      rewrite loop_test. destruct (left_hash c) eqn:EL; auto. rewrite <- EL in *.
      destruct KG as [(kx & Ekx & Hkx) KG]; [rewrite EL; discriminate|].
      destruct KG as (ky & Eky & Hky); [auto|].
      rewrite Ekx, KEY. unfold key_is. rewrite <- (KEY x), Ekx, Eky. rewrite (py_eq_sym kx ky); auto.
    + fold c. intros NE. destruct KG as [(kx & Ekx & Hkx) KG]; auto.
      destruct KG as (ky & Eky & Hky); auto. split.
      * exists ky. rewrite KEY. auto.
      * intros _. exists kx. rewrite <- KEY. auto.
Qed.

(** ** Success: a join of rows on which every part of the condition can be
    evaluated, with hashable keys, does not fail (all kinds but "right"). *)
Lemma eval_part op inputs cond left right p : evaluable op inputs cond left right -> In p (cond_parts cond) -> is_key p = false ->
  forall x y, (dep_left p = true -> In x left) -> (dep_right p = true -> In y right) -> exists v, ev op (on_pair inputs x y) p = Ok v.
Proof.
  intros EV Hp K. specialize (EV p Hp). destruct p as [| | | | | |[|a [|b [|]]]| | | |]; auto.
  simpl in K. rewrite K in EV. auto.
Qed.
Lemma ev_all_ok op E l : (forall p, In p l -> exists v, ev op E p = Ok v) -> exists b, ev_all op E l = Ok b.
Proof.
  induction l as [|p l IH]; simpl; intros H; eauto. destruct (H p) as (v & Ev); auto. unfold ev_bool. rewrite Ev. cbn [bind].
  destruct (truthy v); eauto.
Qed.
Lemma ev_key_ok op E l : (forall p, In p l -> exists v, ev op E p = Ok v /\ hashable v = true) -> exists v, ev_key op E l = Ok v /\ hashable v = true.
Proof.
  intros H.
  assert (L : exists vs, ev_list op E l = Ok vs /\ forallb hashable vs = true).
  { clear - H. induction l as [|p l IH]; simpl; [eexists; split; reflexivity|]. destruct (H p) as (v & Ev & Hv); simpl; auto.
    destruct IH as (vs & El & Hl); [intros; apply H; simpl; auto|]. rewrite Ev, El. cbn [bind]. eexists. split; [reflexivity|]. simpl. rewrite Hv; auto. }
  destruct L as (vs & El & Hl). unfold ev_key. destruct l as [|a [|a' l]]; [| apply H; simpl; auto |];
    rewrite El; cbn [bind]; eexists; split; try reflexivity; exact Hl.
Qed.

Theorem C38_join_succeeds :
  forall op inputs h cond kl kr left right,
  h <> Right -> proper cond -> (h = Outer \/ rescans cond kr only_right left) ->
  evaluable op inputs cond left right ->
  exists out, join op inputs h cond kl kr left right = Ok out.
Proof.
  intros op inputs h cond kl kr left right HR PR RS EV. unfold join.
  assert (Eh : match h with Right => Left | _ => h end = h) by (destruct h; congruence).
  assert (Sw : match h with Right => true | _ => false end = false) by (destruct h; congruence).
  rewrite Eh, Sw. set (c := from_condition h cond).
  pose proof (placed_ok h cond PR) as (A & B & C & D & E & _ & _ & _ & _). fold c in A, B, C, D, E.
  assert (NK : forall p, only_left p = true \/ only_right p = true \/ input_only p = true -> is_key p = false).
  { intros p O. destruct p as [| | | | | |[|a [|b [|]]]| | | |]; auto. unfold only_left, only_right, input_only in O. simpl in *. unfold two_sided.
    destruct (dep_left a), (dep_left b), (dep_right a), (dep_right b); auto; simpl in O; destruct O as [O|[O|O]]; discriminate. }
  assert (LP : forall p x, In p (left_collection c ++ left_row c) -> In x left -> exists v, ev op (on_row inputs x) p = Ok v).
  { intros p x Hp Hx. destruct (A p Hp) as [Hi O]. assert (K := NK p (or_introl O)).
    apply andb_true_iff in O as [O1 O2]. apply negb_true_iff in O2.
    rewrite (ev_left op inputs p x none_obj) by (auto; eapply closed_cond; eauto).
    eapply eval_part; eauto. rewrite O2; discriminate. }
  assert (RP : forall p y, In p (right_collection c ++ right_row c) -> In y right -> exists v, ev op (on_row inputs y) p = Ok v).
  { intros p y Hp Hy. destruct (B p Hp) as [Hi O]. assert (K := NK p (or_intror (or_introl O))).
    apply andb_true_iff in O as [O1 O2]. apply negb_true_iff in O2.
    rewrite (ev_right op inputs p none_obj y) by (auto; eapply closed_cond; eauto).
    eapply eval_part; eauto. rewrite O2; discriminate. }
  assert (PP : exists b, ev_all op (on_nothing inputs) (pre c) = Ok b).
  { apply ev_all_ok. intros p Hp. destruct (C p Hp) as [Hi O]. assert (K := NK p (or_intror (or_intror O))).
    apply andb_true_iff in O as [O1 O2]. apply negb_true_iff in O1, O2.
    rewrite (ev_none op inputs p none_obj none_obj) by (auto; eapply closed_cond; eauto).
    eapply eval_part; eauto; congruence. }
  destruct PP as (b & ->). cbn [bind]. destruct b; cbn [negb]; [|eauto]. cbn zeta.
  assert (FL := filter_rows_ok (fun x => ev_all op (on_row inputs x) (left_collection c)) left
     (fun x Hx => ev_all_ok _ _ _ (fun p Hp => LP p x (in_or_app _ _ _ (or_introl Hp)) Hx))).
  rewrite FL.
  assert (KP : forall a b, In (a, b) (combine (left_hash c) (right_hash c)) ->
     (forall x, In x left -> exists v, ev op (on_row inputs x) a = Ok v /\ hashable v = true) /\
     (forall y, In y right -> exists v, ev op (on_row inputs y) b = Ok v /\ hashable v = true)).
  { intros a b Hab.
    assert (KPa : key_part (cond_parts cond) a b).
    { clear - E Hab. induction E; simpl in *; [contradiction|]. destruct Hab as [Hab|Hab]; auto. injection Hab as -> ->. auto. }
    destruct KPa as (I1 & D1 & D2 & D3 & D4).
    assert (TS : two_sided a b = true /\ two_sided b a = true) by (unfold two_sided; rewrite D1, D2, D3, D4; auto).
    assert (CL : closed a = true /\ closed b = true).
    { assert (closed (JEq [a; b]) = true \/ closed (JEq [b; a]) = true) as [Q|Q] by (destruct I1; [left|right]; eapply closed_cond; eauto);
        simpl in Q; rewrite !andb_true_iff in Q; tauto. }
    assert (EV' : forall q x y, q = a \/ q = b -> (dep_left q = true -> In x left) -> (dep_right q = true -> In y right) ->
          exists v, ev op (on_pair inputs x y) q = Ok v /\ hashable v = true).
    { destruct I1 as [I1|I1]; specialize (EV _ I1); simpl in EV; destruct TS as [T1 T2]; rewrite ?T1, ?T2 in EV; intros; apply EV; auto; tauto. }
    split.
    - intros x Hx. rewrite (ev_left op inputs a x none_obj) by tauto. apply EV'; auto. rewrite D2; discriminate.
    - intros y Hy. rewrite (ev_right op inputs b none_obj y) by tauto. apply EV'; auto. rewrite D3; discriminate. }
  assert (LEN : length (left_hash c) = length (right_hash c)) by (clear - E; induction E; simpl; auto).
  destruct (core_ok (left_hash c) (fun x => ev_key op (on_row inputs x) (left_hash c)) (fun y => ev_key op (on_row inputs y) (right_hash c))
     (fun y => ev_all op (on_row inputs y) (right_collection c))
     (match h, kr, right_collection c with Outer, _, _ => true | _, Reiterable, [] => true | _, _, _ => false end)
     right (filter (fun x => isT (ev_all op (on_row inputs x) (left_collection c))) left)
     (fun x y => match left_row c ++ right_row c ++ inner_loop c with [] => Ok true | _ => ev_all op (on_pair inputs x y) (left_row c ++ right_row c ++ inner_loop c) end))
     as (s & m & Es & Em).
  - intros E0. destruct RS as [->|[K|[(-> & N)|L]]].
    + auto.
    + unfold c in E0. apply has_key_hash in E0; auto. congruence.
    + left. unfold c. rewrite no_right_filters by auto. destruct h; auto.
    + right. eapply Nat.le_trans; [|exact L]. clear. induction left; simpl; auto. destruct (isT _); simpl; lia.
  - intros y Hy. apply ev_all_ok. intros p Hp. apply RP; auto. apply in_or_app; auto.
  - intros NE x Hx. apply filter_In in Hx as [Hx _]. unfold key_good. apply ev_key_ok. intros a Ha.
    assert (exists b, In (a, b) (combine (left_hash c) (right_hash c))) as (b & Hab).
    { clear - Ha LEN. revert Ha LEN. generalize (left_hash c) (right_hash c). induction l as [|z l IH]; intros [|w l0] Ha L; simpl in *; try contradiction; try discriminate.
      destruct Ha as [->|Ha]; eauto. destruct (IH l0 Ha) as (b & Hb); [lia|]. eauto. }
    apply (KP a b Hab); auto.
  - intros NE y Hy. unfold key_good. apply ev_key_ok. intros b Hb.
    assert (exists a, In (a, b) (combine (left_hash c) (right_hash c))) as (a & Hab).
    { clear - Hb LEN. revert Hb LEN. generalize (left_hash c) (right_hash c). induction l as [|z l IH]; intros [|w l0] Ha L; simpl in *; try contradiction; try discriminate.
      destruct Ha as [->|Ha]; eauto. destruct (IH l0 Ha) as (a & Hb); [lia|]. eauto. }
    apply (KP a b Hab); auto.
  - intros x y Hx Hy. apply filter_In in Hx as [Hx _]. rewrite loop_test. apply ev_all_ok. intros p Hp.
    rewrite !in_app_iff in Hp. destruct Hp as [Hp|[Hp|Hp]].
    + destruct (A p) as [Hi O]; [apply in_or_app; auto|]. eapply eval_part; eauto.
    + destruct (B p) as [Hi O]; [apply in_or_app; auto|]. eapply eval_part; eauto.
    + destruct (D p Hp) as [Hi O]. eapply eval_part; eauto.
  - rewrite Es. cbn [bind]. rewrite Em. cbn [bind]. destruct h; eauto.
Qed.

(** ** C42 *)
Lemma opaque_ev op : (forall u v, op "opaque_eq"%string [u; v] = Ok (VBool (py_eq u v))) ->
  forall e E, ev op E (opaque e) = ev op E e.
Proof.
  intros HO. apply (jx_ind' (fun e => forall E, ev op E (opaque e) = ev op E e)); try reflexivity.
  - intros [|a [|b [|c l]]] _ E; try reflexivity. cbn. destruct (ev op E a) as [u|]; cbn; auto.
    destruct (ev op E b) as [v|]; cbn; auto. rewrite HO. destruct (py_eq u v); auto.
  - intros l F E. cbn. generalize (VBool true). induction F as [|a l Ha F IH]; intros w; cbn; auto.
    rewrite Ha. destruct (ev op E a) as [u|]; cbn; auto. destruct (truthy u); auto.
Qed.
Lemma opaque_preds e : dep_left (opaque e) = dep_left e /\ dep_right (opaque e) = dep_right e /\ closed (opaque e) = closed e.
Proof.
  induction e using jx_ind'; auto.
  - destruct l as [|a [|b [|c l]]]; auto.
  - cbn. induction H as [|a l (Ha & Hb & Hc) F IH]; cbn; auto. destruct IH as (-> & -> & ->). rewrite Ha, Hb, Hc. auto.
Qed.
Lemma opaque_unpiped e : unpiped e = true -> unpiped (opaque e) = true.
Proof.
  induction e using jx_ind'; auto.
  - destruct l as [|a [|b [|c l]]]; auto.
  - cbn. induction H as [|a l Ha F IH]; cbn; auto. rewrite !andb_true_iff. intuition.
Qed.
Lemma opaque_parts e : parts (opaque e) = map opaque (parts e).
Proof.
  induction e using jx_ind'; auto.
  - destruct l as [|a [|b [|c l]]]; auto.
  - cbn. induction H as [|a l Ha F IH]; cbn; auto. rewrite map_app. congruence.
Qed.
Lemma opaque_proper e : proper (Some e) -> proper (Some (opaque e)).
Proof. intros [A B]. destruct (opaque_preds e) as (_ & _ & C). split; [congruence|apply opaque_unpiped; auto]. Qed.

Lemma opaque_other h c c' w : pre c' = map opaque (pre c) -> opaque w = w ->
  pre (consume_other h c' w) = map opaque (pre (consume_other h c w)).
Proof.
  intros P W. unfold consume_other, add_left, add_right, add_inner, add_pre.
  destruct (dep_left w), (dep_right w), (left_join h), (right_join h); cbn; auto; rewrite P, map_app; cbn; rewrite W; auto.
Qed.
Lemma opaque_pre h e : unpiped e = true -> forall c c', pre c' = map opaque (pre c) ->
  pre (consume h c' (opaque e) (opaque e)) = map opaque (pre (consume h c e e)).
Proof.
  induction e using jx_ind'; intros U c c' P.
  1-6: cbn [consume opaque]; apply opaque_other; auto.
  - destruct l as [|a [|b [|d l]]]; try (cbn; auto; fail). cbn. unfold consume_other. cbn.
    destruct (dep_left a), (dep_right a), (dep_left b), (dep_right b); cbn; auto; unfold add_left, add_right;
      try destruct (left_join h); try destruct (right_join h); cbn; auto; rewrite P, map_app; auto.
  - cbn in *. revert c c' P U. induction H as [|a l Ha F IH]; intros c c' P U; cbn; auto.
    cbn in U. apply andb_true_iff in U as [U1 U2]. apply IH; auto.
  - cbn [consume opaque]. apply opaque_other; auto.
  - cbn [consume opaque]. apply opaque_other; auto.
  - rewrite consume_pipe by auto. cbn [opaque]. rewrite consume_pipe by auto. apply (opaque_other h c c' (JPipe e1 e2)); auto.
Qed.
Lemma opaque_pre_ev op inputs h e : (forall u v, op "opaque_eq"%string [u; v] = Ok (VBool (py_eq u v))) -> unpiped e = true ->
  ev_all op (on_nothing inputs) (pre (from_condition h (Some (opaque e)))) =
  ev_all op (on_nothing inputs) (pre (from_condition h (Some e))).
Proof.
  intros HO U. simpl. rewrite (opaque_pre h e U no_conds no_conds eq_refl).
  induction (pre (consume h no_conds e e)) as [|p l IH]; cbn; auto. unfold ev_bool. rewrite opaque_ev by auto. rewrite IH. auto.
Qed.

(** Hash lookup or inner loop: the same pairs in the same order.  (Same limits as
    C38, C39 and C41: the loop needs a right collection it can read again.) *)
Theorem C42_strategy_unobservable_partial :
  forall op inputs h e kl kr left right out out',
  (forall u v, op "opaque_eq"%string [u; v] = Ok (VBool (py_eq u v))) ->
  proper (Some e) -> h <> Right ->
  h = Outer \/ length left <= 1 \/ (kr = Reiterable /\ forall p, In p (parts e) -> only_right p = false) ->
  join op inputs h (Some e) kl kr left right = Ok out ->
  join op inputs h (Some (opaque e)) kl kr left right = Ok out' ->
  out = out'.
Proof.
  intros op inputs h e kl kr left right out out' HO PR HR RS J1 J2.
  pose proof (opaque_proper e PR) as PR'.
  assert (HH : forall x y, holds op inputs (Some (opaque e)) x y = holds op inputs (Some e) x y).
  { intros. unfold holds. rewrite opaque_ev; auto. }
  assert (MM : forall x l, matching op inputs (Some (opaque e)) x l = matching op inputs (Some e) x l).
  { intros. apply filter_ext. auto. }
  assert (RS1 : h = Outer \/ rescans (Some e) kr only_right left).
  { unfold rescans. tauto. }
  assert (RS2 : h = Outer \/ rescans (Some (opaque e)) kr only_right left).
  { destruct RS as [RS|[RS|[RS1' RS2']]]; auto; right; right; [right; auto|left; split; auto].
    intros p Hp. simpl in Hp. rewrite opaque_parts in Hp. apply in_map_iff in Hp as (q & <- & Hq).
    unfold only_right. destruct (opaque_preds q) as (-> & -> & _). apply RS2'; auto. }
  destruct h; try congruence.
  - rewrite (C38_inner_join_partial op inputs (Some e) kl kr left right out), (C38_inner_join_partial op inputs (Some (opaque e)) kl kr left right out'); auto;
      try (destruct RS1; [discriminate|auto]); try (destruct RS2; [discriminate|auto]).
    unfold spec_inner. apply flat_map_ext. intros x. rewrite MM. auto.
  - destruct (join_normal op inputs Left (Some e) kl kr left right out) as [(P1 & ->)|(P1 & ->)]; auto;
    destruct (join_normal op inputs Left (Some (opaque e)) kl kr left right out') as [(P2 & ->)|(P2 & ->)]; auto.
    all: try (rewrite opaque_pre_ev in P2 by (auto; apply PR); congruence).
    destruct (placed_ok Left _ PR) as (_ & _ & _ & _ & _ & _ & G & _). rewrite G by auto.
    destruct (placed_ok Left _ PR') as (_ & _ & _ & _ & _ & _ & G' & _). rewrite G' by auto.
    f_equal. apply map_ext. intros x. rewrite MM. auto.
  - destruct (join_normal op inputs Outer (Some e) kl kr left right out) as [(P1 & ->)|(P1 & ->)]; auto;
    destruct (join_normal op inputs Outer (Some (opaque e)) kl kr left right out') as [(P2 & ->)|(P2 & ->)]; auto.
    all: try (rewrite opaque_pre_ev in P2 by (auto; apply PR); congruence).
    destruct (placed_ok Outer _ PR) as (_ & _ & _ & _ & _ & _ & G & _). rewrite G by auto.
    destruct (placed_ok Outer _ PR') as (_ & _ & _ & _ & _ & _ & G' & _). rewrite G' by auto.
    f_equal. f_equal. apply map_ext. intros x. rewrite MM. auto.
Qed.

(** ** Cases: the hypotheses are met, and where the code departs from the property *)
Definition op0 (o : string) (vs : list val) : res val :=
  if String.eqb o "opaque_eq" then match vs with [u; v] => Ok (VBool (py_eq u v)) | _ => Err TypeError end
  else if String.eqb o "gt" then match vs with [VInt a; VInt b] => Ok (VBool (Z.ltb b a)) | _ => Err TypeError end
  else Err TypeError.
Definition inputs0 (_ : string) : val := VBool false.
Definition row (i : nat) (l : list Z) : robj := mkObj i (VTuple (map VInt l)).
Definition col (e : jx) (z : Z) : jx := JItem e (JConst (VInt z)).
Definition lrows : list robj := [row 1 [1; 5]; row 2 [2; 6]; row 3 [1; 0]]%Z.
Definition rrows : list robj := [row 4 [1; 7]; row 5 [3; 8]; row 6 [1; 9]]%Z.
Definition cond1 : jx :=
  JAnd [JEq [col JLeft 0; col JRight 0]; JOp "gt" [col JLeft 1; JConst (VInt 3)]; JOp "gt" [col JRight 1; col JLeft 1]].

Example C38_hypotheses_hold :
  proper (Some cond1) /\ rescans (Some cond1) OneShot only_right lrows /\ evaluable op0 inputs0 (Some cond1) lrows rrows /\
  input_parts_hold op0 inputs0 (Some cond1) /\ mirrored op0 inputs0 (Some cond1) /\ objects rrows /\
  (forall p, In p (parts cond1) -> only_right p = false).
Proof.
  split; [split; reflexivity|]. split; [left; reflexivity|].
  split.
  { intros p Hp. cbn in Hp. destruct Hp as [<-|[<-|[<-|[]]]]; cbn [two_sided dep_left dep_right existsb orb andb negb col]; intros;
      repeat match goal with
      | H : ?P -> In _ _ |- _ => cbn in H; first [specialize (H eq_refl) | clear H]; cbn in H
      | H : _ \/ _ |- _ => destruct H; subst
      | H : False |- _ => destruct H
      end; eexists; try split; reflexivity. }
  split; [intros p Hp; cbn in Hp; destruct Hp as [<-|[<-|[<-|[]]]]; discriminate|].
  split; [intros a b Hp TS r; cbn in Hp; destruct Hp as [E|[E|[E|[]]]]; try discriminate; injection E as <- <-; reflexivity|].
  split; [|intros p Hp; cbn in Hp; destruct Hp as [<-|[<-|[<-|[]]]]; reflexivity].
  split.
  - intros x y Hx Hy; cbn in Hx, Hy. decompose [or] Hx; decompose [or] Hy; try contradiction; subst; cbn; intros; try reflexivity; discriminate.
  - intros x Hx; cbn in Hx. decompose [or] Hx; try contradiction; subst; cbn; split; discriminate.
Qed.
Example C38_case :
  join op0 inputs0 Inner (Some cond1) OneShot OneShot lrows rrows =
    Ok [(row 1 [1; 5], row 4 [1; 7]); (row 1 [1; 5], row 6 [1; 9])]%Z /\
  join op0 inputs0 Left (Some cond1) OneShot OneShot lrows rrows =
    Ok [(row 1 [1; 5], row 4 [1; 7]); (row 1 [1; 5], row 6 [1; 9]); (row 2 [2; 6], none_obj); (row 3 [1; 0], none_obj)]%Z /\
  join op0 inputs0 Right (Some cond1) OneShot OneShot lrows rrows =
    Ok [(row 1 [1; 5], row 4 [1; 7]); (none_obj, row 5 [3; 8]); (row 1 [1; 5], row 6 [1; 9])]%Z /\
  join op0 inputs0 Outer (Some cond1) OneShot OneShot lrows rrows =
    Ok [(row 1 [1; 5], row 4 [1; 7]); (row 1 [1; 5], row 6 [1; 9]); (row 2 [2; 6], none_obj); (row 3 [1; 0], none_obj); (none_obj, row 5 [3; 8])]%Z /\
  join op0 inputs0 Inner (Some (opaque cond1)) Reiterable Reiterable lrows rrows =
    join op0 inputs0 Inner (Some cond1) Reiterable Reiterable lrows rrows.
Proof. repeat split. Qed.

(** [c.LEFT.pipe(c.this().item(0) == c.RIGHT.item(0))] is taken for a filter of
    right rows, where it compares the right row with itself: rows that do not
    satisfy the condition are joined. *)
Theorem C37_piped_condition_refuted :
  exists e x y,
  holds op0 inputs0 (Some e) x y = false /\
  join op0 inputs0 Inner (Some e) Reiterable Reiterable [x] [y] = Ok [(x, y)].
Proof. exists (JPipe JLeft (JEq [col JThis 0; col JRight 0])), (row 1 [7])%Z, (row 2 [8])%Z. split; reflexivity. Qed.

(** [c.RIGHT.item(0) > 0] without a key: the filtered right rows are a generator,
    used up by the first left row. *)
Theorem C38_right_filter_refuted :
  exists cond left right out,
  proper (Some cond) /\ join op0 inputs0 Inner (Some cond) Reiterable Reiterable left right = Ok out /\
  out <> spec_inner op0 inputs0 (Some cond) left right.
Proof.
  exists (JOp "gt" [col JRight 0; JConst (VInt 0)]), lrows, rrows. eexists. split; [split; reflexivity|].
  split; [reflexivity|]. vm_compute. discriminate.
Qed.
(** The same for an iterator given as the right collection, any keyless condition. *)
Theorem C38_iterator_refuted :
  exists left right out,
  join op0 inputs0 Inner None Reiterable OneShot left right = Ok out /\
  out <> spec_inner op0 inputs0 None left right.
Proof. exists lrows, rrows. eexists. split; [reflexivity|]. vm_compute. discriminate. Qed.
(** How many rows are lost: only the first left row ever gets a partner. *)
Theorem C38_iterator_loses_rows :
  forall op inputs x left right, join op inputs Inner None Reiterable OneShot (x :: left) right = Ok (map (fun y => (x, y)) right).
Proof.
  intros. unfold join. cbn.
  assert (FR : forall l, filter_rows (fun _ => Ok true) l = Ok l) by (induction l as [|z l IH]; cbn; [|rewrite IH]; auto).
  rewrite !FR. cbn. rewrite ?FR. cbn. rewrite ?FR. cbn. 
  assert (MS : forall l, matches (fun y => ev_key op (on_row inputs y) []) (fun _ _ => Ok true) (Once (Ok [])) l = Ok (map (fun z => (z, [])) l)).
  { induction l as [|z l IH]; auto. cbn in *. rewrite IH. auto. }
  cbn in MS. rewrite MS. cbn. f_equal. unfold inner_pairs. cbn.
  replace (flat_map _ (map _ left)) with (@nil (robj * robj)); [apply app_nil_r|]. induction left; auto.
Qed.

(** A part of the condition that mentions no row and is false: a left join gives nothing. *)
Theorem C39_input_condition_refuted :
  exists cond left right out,
  proper (Some cond) /\ join op0 inputs0 Left (Some cond) Reiterable Reiterable left right = Ok out /\
  out <> spec_left op0 inputs0 (Some cond) left right.
Proof.
  exists (JAnd [JEq [col JLeft 0; col JRight 0]; JArg "on"]), lrows, rrows, []. split; [split; reflexivity|].
  split; [reflexivity|]. vm_compute. discriminate.
Qed.
Theorem C39_right_filter_refuted :
  exists cond left right out,
  proper (Some cond) /\ join op0 inputs0 Left (Some cond) Reiterable Reiterable left right = Ok out /\
  out <> spec_left op0 inputs0 (Some cond) left right.
Proof.
  exists (JOp "gt" [col JRight 0; JConst (VInt 0)]), lrows, rrows. eexists. split; [split; reflexivity|].
  split; [reflexivity|]. vm_compute. discriminate.
Qed.

(** c.LEFT.item(0) == c.RIGHT.item(1): the key of a right row is taken with item(0). *)
Theorem C40_unswapped_keys_refuted :
  exists cond left right out,
  proper (Some cond) /\ has_key (Some cond) = true /\
  join op0 inputs0 Right (Some cond) Reiterable Reiterable left right = Ok out /\
  out <> spec_right op0 inputs0 (Some cond) left right.
Proof.
  exists (JEq [col JLeft 0; col JRight 1]), [row 1 [7; 1]]%Z, [row 2 [0; 7]]%Z. eexists. split; [split; reflexivity|].
  split; [reflexivity|]. split; [reflexivity|]. vm_compute. discriminate.
Qed.
(** A filter on the right row only drops right rows instead of keeping them with None. *)
Theorem C40_right_filter_refuted :
  exists cond left right out,
  proper (Some cond) /\ has_key (Some cond) = true /\ mirrored op0 inputs0 (Some cond) /\
  join op0 inputs0 Right (Some cond) Reiterable Reiterable left right = Ok out /\
  out <> spec_right op0 inputs0 (Some cond) left right.
Proof.
  exists (JAnd [JEq [col JLeft 0; col JRight 0]; JOp "gt" [col JRight 1; JConst (VInt 7)]]), lrows, rrows. eexists.
  split; [split; reflexivity|]. split; [reflexivity|].
  split; [intros a b Hp TS r; cbn in Hp; destruct Hp as [E|[E|[]]]; try discriminate; injection E as <- <-; reflexivity|].
  split; [reflexivity|]. vm_compute. discriminate.
Qed.

(** A right row None is lost as soon as one left row has no match. *)
Theorem C41_none_row_refuted :
  exists cond left right out,
  proper (Some cond) /\ objects right /\ input_parts_hold op0 inputs0 (Some cond) /\
  join op0 inputs0 Outer (Some cond) Reiterable Reiterable left right = Ok out /\
  out <> spec_outer op0 inputs0 (Some cond) left right.
Proof.
  exists (JEq [JLeft; JRight]), [mkObj 1 (VInt 1)], [none_obj]. eexists. split; [split; reflexivity|].
  split; [split|].
  - intros x y [<-|[]] [<-|[]]; auto.
  - intros x [<-|[]]; simpl; tauto.
  - split; [intros p [<-|[]]; discriminate|]. split; [reflexivity|]. vm_compute. discriminate.
Qed.
Theorem C41_input_condition_refuted :
  exists cond left right out,
  proper (Some cond) /\ objects right /\ join op0 inputs0 Outer (Some cond) Reiterable Reiterable left right = Ok out /\
  out <> spec_outer op0 inputs0 (Some cond) left right.
Proof.
  exists (JArg "on"), lrows, rrows, []. split; [split; reflexivity|]. split; [apply C38_hypotheses_hold|].
  split; [reflexivity|]. vm_compute. discriminate.
Qed.

(** Rows that are equal but not hashable: the hash join fails, the loop joins them. *)
Theorem C42_unhashable_refuted :
  exists cond left right out e,
  join op0 inputs0 Inner (Some cond) Reiterable Reiterable left right = Err e /\
  join op0 inputs0 Inner (Some (opaque cond)) Reiterable Reiterable left right = Ok out.
Proof. exists (JEq [JLeft; JRight]), [mkObj 1 (VList [])], [mkObj 2 (VList [])]. eexists. eexists. split; reflexivity. Qed.

Print Assumptions C37_condition_split.
Print Assumptions C37_piped_condition_refuted.
Print Assumptions C38_inner_join_partial.
Print Assumptions C38_join_succeeds.
Print Assumptions C38_iterator_loses_rows.
Print Assumptions C39_left_join_partial.
Print Assumptions C40_right_join_partial.
Print Assumptions C41_outer_join_partial.
Print Assumptions C42_strategy_unobservable_partial.
Print Assumptions C42_unhashable_refuted.
