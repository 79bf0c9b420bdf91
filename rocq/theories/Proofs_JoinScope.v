(** The parts of the condition of a join in the scopes its function evaluates them in. *)
From Coq Require Import String Ascii List NArith ZArith Bool Arith Lia.
From Verif Require Import Model_PyVal Model_Join Model_Labels Model_JoinLazy Model_Code Model_JoinText Model_JoinFuncs Spec_Tree Spec_Syntax Spec_Source Spec_GenRun Spec_JoinText Proofs_Join Proofs_GenRun Proofs_JoinCond Proofs_JoinSource.
Import ListNotations.

Lemma teqb_T a b : teqb (T a) (T b) = String.eqb a b.
Proof.
  destruct (String.eqb a b) eqn:E.
  - apply String.eqb_eq in E. subst. apply teqb_refl.
  - apply teqb_neq. intros X. apply T_inj in X. subst. now rewrite String.eqb_refl in E.
Qed.

(** *** the parts *)
Definition lists_of (c : conds) : list jx :=
  inner_loop c ++ left_collection c ++ left_row c ++ left_hash c ++ right_collection c ++ right_row c ++ right_hash c ++ pre c.
Definition each_part (P : jx -> Prop) (c : conds) : Prop :=
  Forall P (inner_loop c) /\ Forall P (left_collection c) /\ Forall P (left_row c) /\ Forall P (left_hash c) /\
  Forall P (right_collection c) /\ Forall P (right_row c) /\ Forall P (right_hash c) /\ Forall P (pre c).
Lemma Forall_last {A} (P : A -> Prop) l a : Forall P l -> P a -> Forall P (l ++ [a]).
Proof. intros H H'. apply Forall_app. auto. Qed.
Lemma consume_parts (P : jx -> Prop) h e : forall c,
  (forall l a, P (JAnd l) -> In a l -> P a) -> (forall l a, P (JEq l) -> In a l -> P a) -> (forall a b, ~ P (JPipe a b)) ->
  P e -> each_part P c -> each_part P (consume h c e e).
Proof.
  assert (O : forall e c, P e -> each_part P c -> each_part P (consume_other h c e)).
  { clear e. intros e c Pe C. unfold consume_other. destruct (dep_left e), (dep_right e); unfold add_inner, add_left, Model_Join.add_right, add_pre, each_part in *;
    try destruct (left_join h); try destruct (right_join h); cbn; intuition auto using Forall_last. }
  induction e using jx_ind'; intros c PA PE PP Pe C; try (exact (O _ c Pe C)).
  3: contradiction (PP _ _ Pe).
  - cbn [consume]. unfold consume_eq.
    assert (HH : forall a, In a l -> P a) by (intros a I; now apply PE with l).
    destruct l as [|a [|b [|? ?]]]; [| |assert (P a) by (apply HH; now left); assert (P b) by (apply HH; right; now left)|];
    unfold add_inner, add_left, Model_Join.add_right, add_pre, add_hash, each_part in *;
    repeat match goal with |- context [if ?b then _ else _] => destruct b end; cbn; intuition auto using Forall_last.
  - cbn [consume]. assert (HH : forall a, In a l -> P a) by (intros a I; now apply PA with l). clear Pe. revert c C.
    induction H as [|a l IHa F IH]; intros c C; [exact C|]. apply IH.
    + intros b I. apply HH. now right.
    + apply IHa; auto. apply HH. now left.
Qed.

Definition fine (cond : option jx) (e : jx) : Prop :=
  textual e = true /\ incl (jargs e) (all_args cond) /\ incl (functions e) (all_functions cond).
Lemma parts_fine h cond : match cond with Some e => textual e = true | None => True end -> each_part (fine cond) (from_condition h cond).
Proof.
  destruct cond as [e|]; intros X; cbn [from_condition].
  2: { unfold each_part. cbn. intuition. }
  apply consume_parts.
  - intros l a (A & B & C) I. cbn [textual jargs functions] in *. apply andb_true_iff in A as [_ A]. rewrite forallb_forall in A. split; [auto|].
    split; intros z Z; [apply B|apply C]; apply in_flat_map; eauto.
  - intros l a (A & B & C) I. cbn [textual jargs functions] in *. apply andb_true_iff in A as [_ A]. rewrite forallb_forall in A. split; [auto|].
    split; intros z Z; [apply B|apply C]; apply in_flat_map; eauto.
  - intros a b (A & _). discriminate A.
  - split; [exact X|]. split; apply incl_refl.
  - unfold each_part. cbn. intuition.
Qed.

(** what the lists say about the sides *)
Definition sides (h : Model_Join.how) (c : conds) : Prop :=
  Forall (fun e => dep_left e = false /\ dep_right e = false) (pre c) /\
  Forall (fun e => dep_left e = true) (left_hash c) /\
  (left_join h = true -> left_collection c = []) /\ (right_join h = true -> right_collection c = []) /\
  length (left_hash c) = length (right_hash c).
Lemma consume_sides h e : forall c, textual e = true -> sides h c -> sides h (consume h c e e).
Proof.
  assert (O : forall e c, sides h c -> sides h (consume_other h c e)).
  { clear e. intros e c C. unfold consume_other. destruct (dep_left e) eqn:DL, (dep_right e) eqn:DR; unfold add_inner, add_left, Model_Join.add_right, add_pre, sides in *;
    destruct (left_join h); destruct (right_join h); cbn; rewrite ?app_length; cbn; intuition (auto using Forall_last; try discriminate; try lia). }
  induction e using jx_ind'; intros c X C; try discriminate X; try (exact (O _ c C)).
  - cbn [consume]. unfold consume_eq. 
    destruct l as [|a [|b [|? ?]]]; unfold add_inner, add_left, Model_Join.add_right, add_pre, add_hash, sides in *; try (cbn; intuition auto; fail).
    destruct (dep_left a) eqn:DA, (dep_right a) eqn:RA, (dep_left b) eqn:DB, (dep_right b) eqn:RB; cbn [andb orb]; destruct (left_join h); destruct (right_join h); cbn; rewrite ?app_length; cbn;
      intuition (auto using Forall_last; try discriminate; try lia).
    all: apply Forall_last; auto; cbn [dep_left dep_right existsb]; rewrite DA, RA, DB, RB; auto.
  - cbn [consume]. cbn [textual] in X. apply andb_true_iff in X as [_ X]. revert c C.
    induction H as [|a l IHa F IH]; intros c C; [exact C|]. cbn [forallb] in X. apply andb_true_iff in X as [X1 X2]. apply IH; auto.
Qed.
Lemma parts_sides h cond : match cond with Some e => textual e = true | None => True end -> sides h (from_condition h cond).
Proof.
  assert (S0 : sides h no_conds) by (unfold sides; cbn; intuition).
  destruct cond as [e|]; intros X; cbn [from_condition]; [|exact S0]. now apply consume_sides.
Qed.

(** one condition or several *)
Lemma all_of_and op E l : forall d, (do v <- (fix all (last : val) (l : list jx) : res val :=
       match l with [] => Ok last | a :: r => do x <- ev op E a; if truthy x then all x r else Ok x end) d l; Ok (truthy v)) =
  match l with [] => Ok (truthy d) | _ => ev_all op E l end.
Proof.
  induction l as [|a l IH]; intros d; [reflexivity|]. cbn [ev_all]. unfold ev_bool. destruct (ev op E a) as [v|x]; cbn [bind]; [|reflexivity].
  destruct (truthy v) eqn:TV; cbn [bind]; [|now rewrite TV]. rewrite IH. destruct l; [now rewrite TV|reflexivity].
Qed.

Section Scope.
  Variable N : jnames.
  Variable h : Model_Join.how.
  Variable cond : option jx.
  Variable opr : text -> list val -> res val.
  Hypothesis CL : clean N cond.
  Hypothesis TX : match cond with Some e => textual e = true | None => True end.
  Variable inputs : string -> val.
  Notation globals := (module_globals N).
  Notation gfuns := (module_gfuns N h).
  Notation indexers := (module_indexers N h cond opr).
  Notation worth := (worth globals opr gfuns indexers).
  Notation gives := (gives globals opr gfuns indexers).
  Notation op := (jop opr).

  Definition res_at (i : nat) : text := nth i (reserved N) [].
  Lemma res_neq i j : i < 29 -> j < 29 -> i <> j -> res_at i <> res_at j.
  Proof. intros A B C E. apply C. destruct CL as [ND _]. revert E. apply NoDup_nth; auto. Qed.
  Definition machine : list text := map res_at [4; 5; 6; 7; 8; 9; 10; 20; 21; 22; 23].
  Definition inside : list text := map res_at [0; 1; 2; 3; 11; 12; 13; 14; 15; 16; 18; 19; 24; 25; 26; 27; 28].
  Lemma res_in i : i < 29 -> In (res_at i) (reserved N).
  Proof. intros L. apply nth_In. exact L. Qed.
  Lemma machine_in z : In z machine -> In z (reserved N).
  Proof. intros I. apply in_map_iff in I as (i & <- & I). apply res_in. cbn in I. lia. Qed.
  Lemma inside_in z : In z inside -> In z (reserved N).
  Proof. intros I. apply in_map_iff in I as (i & <- & I). apply res_in. cbn in I. lia. Qed.
  Lemma inside_machine z : In z inside -> In z machine -> False.
  Proof.
    intros I J. apply in_map_iff in I as (i & <- & I). apply in_map_iff in J as (j & E & J). revert E. apply res_neq; cbn in I, J; lia.
  Qed.

  (** a scope in which the arguments have their values and functions their meaning *)
  Definition in_scope (m : mem) (sc : list nat) : Prop :=
    (forall a, In (T a) (all_args cond) -> look m sc (T a) = Some (Some (Val (inputs a)))) /\
    (forall f, In f (all_functions cond) -> look m sc f = None) /\
    (forall f, In f machine -> look m sc f = None).
  Lemma var_none l z : ~ In z (map fst l) -> var_at l z = None.
  Proof.
    induction l as [|[y v] l IH]; [reflexivity|]. cbn [map fst var_at]. intros NI. rewrite teqb_neq; [apply IH|]; intros X; apply NI; [now right|now left].
  Qed.
  Lemma more_scope m sc g : in_scope m sc -> incl (map fst (vars (frames m g))) inside -> in_scope m (g :: sc).
  Proof.
    intros (A & B & C) I. destruct CL as (_ & _ & DA & DF).
    split; [|split]; intros z Z; cbn [look].
    - rewrite var_none; [now apply A|]. intros J. apply I in J. apply (proj1 (DA (T z) Z)). now apply inside_in.
    - rewrite var_none; [now apply B|]. intros J. apply I in J. apply (DF z Z). now apply inside_in.
    - rewrite var_none; [now apply C|]. intros J. apply I in J. now apply inside_machine with z.
  Qed.

  Lemma scope_fun m sc f : in_scope m sc -> In f (all_functions cond) -> value_fun globals gfuns indexers m sc f.
  Proof.
    intros (_ & B & _) I. split; [now apply B|]. destruct CL as (_ & _ & _ & DF). specialize (DF f I).
    assert (D : forall i, i < 29 -> f <> res_at i) by (intros i L ->; apply DF; now apply res_in).
    unfold module_globals, module_gfuns, module_indexers.
    rewrite (teqb_neq f (n_empty N)) by (apply (D 20); lia). rewrite (teqb_neq f (n_joiner N)) by (apply (D 22); lia).
    rewrite (teqb_neq f (n_adder N)) by (apply (D 23); lia). rewrite (teqb_neq f (n_agg N)) by (apply (D 21); lia).
    repeat (split; [reflexivity|]). cbn [map]. intros J.
    repeat (destruct J as [J|J]; [revert J; first [apply (not_eq_sym (D 4 ltac:(lia)))|apply (not_eq_sym (D 5 ltac:(lia)))|apply (not_eq_sym (D 6 ltac:(lia)))|apply (not_eq_sym (D 7 ltac:(lia)))|apply (not_eq_sym (D 8 ltac:(lia)))|apply (not_eq_sym (D 9 ltac:(lia)))|apply (not_eq_sym (D 10 ltac:(lia)))]|]).
    exact J.
  Qed.

  Section Part.
    Variable m : mem.
    Variable sc : list nat.
    Hypothesis IS : in_scope m sc.
    Variable E : env.
    Hypothesis EI : args E = inputs.

    Lemma fine_worth named inp e : fine cond e ->
      (dep_left e = true -> worth sc (jast named inp JLeft) m (ev op E JLeft)) ->
      (dep_right e = true -> worth sc (jast named inp JRight) m (ev op E JRight)) ->
      worth sc (jast named inp e) m (ev op E e).
    Proof.
      intros (A & B & C) L R. apply cond_worth; auto.
      - intros a I. rewrite EI. apply IS. now apply B.
      - intros f I. apply scope_fun; [exact IS|]. now apply C.
    Qed.
    Lemma all_worth named inp l : l <> [] -> Forall (fine cond) l ->
      (existsb dep_left l = true -> worth sc (jast named inp JLeft) m (ev op E JLeft)) ->
      (existsb dep_right l = true -> worth sc (jast named inp JRight) m (ev op E JRight)) ->
      exists q, worth sc (all_ast named inp l) m q /\ ev_all op E l = do v <- q; Ok (truthy v).
    Proof.
      intros NE F L R.
      assert (W : Forall (fun e => worth sc (jast named inp e) m (ev op E e)) l).
      { rewrite Forall_forall in *. intros e I. apply fine_worth; auto.
        - intros D. apply L. now apply existsb_in with e.
        - intros D. apply R. now apply existsb_in with e. }
      unfold all_ast. destruct l as [|e [|e' l]]; [contradiction| |].
      - exists (ev op E e). split; [now inversion W|]. cbn [ev_all]. unfold ev_bool. destruct (ev op E e) as [v|x]; cbn [bind]; [|reflexivity]. destruct (truthy v); reflexivity.
      - exists (ev op E (JAnd (e :: e' :: l))). split; [now apply (worth_bool globals opr gfuns indexers m sc E named inp false)|].
        symmetry. exact (all_of_and op E (e :: e' :: l) (VBool true)).
    Qed.
    (** the keys: [key_ast] gives something worth the key *)
    Lemma key_worth inp l : l <> [] -> Forall (fine cond) l ->
      (existsb dep_left l = true -> worth sc (jast None inp JLeft) m (ev op E JLeft)) ->
      (existsb dep_right l = true -> worth sc (jast None inp JRight) m (ev op E JRight)) ->
      exists r, gives sc (key_ast inp l) m m r /\
        match ev_key op E l with
        | Ok v => exists p, r = Ok p /\ as_val p = Some v
        | Err x => r = Err x
        end.
    Proof.
      intros NE F L R.
      assert (W : Forall (fun e => worth sc (jast None inp e) m (ev op E e)) l).
      { rewrite Forall_forall in *. intros e I. apply fine_worth; auto.
        - intros D. apply L. now apply existsb_in with e.
        - intros D. apply R. now apply existsb_in with e. }
      unfold key_ast, ev_key. destruct l as [|e [|e' l]]; [contradiction| |].
      - inversion W as [|? ? (r & G & RL) _]; subst. exists r. split; [exact G|]. unfold rel in RL. destruct (ev op E e) as [v|x]; [|exact RL].
        destruct RL as (p & -> & P). exists p. split; [reflexivity|now apply plain_val].
      - destruct (vals_worth globals opr gfuns indexers m sc E None inp _ W) as (r & G & RL). revert G RL. generalize (e :: e' :: l). intros l0 G RL.
        assert (EL : forall l, ev_list op E l = Proofs_JoinCond.evs opr E l).
        { clear. induction l as [|a l IH]; [reflexivity|]. cbn [ev_list Proofs_JoinCond.evs]. destruct (ev op E a); cbn [bind]; [|reflexivity]. rewrite IH. reflexivity. }
        rewrite EL. destruct (Proofs_JoinCond.evs opr E l0) as [vs|x]; cbn [bind].
        + destruct RL as (ps & -> & Ps). exists (Ok (Tup ps)). split.
          * intros nx each. cbn [eval]. rewrite G. reflexivity.
          * exists (Tup ps). split; [reflexivity|]. cbn [as_val].
            assert (Q : (fix go (l : list pv) : option (list val) :=
               match l with
               | [] => Some []
               | a :: r => match as_val a, go r with Some v, Some vs => Some (v :: vs) | _, _ => None end
               end) ps = Some vs).
            { clear - Ps. induction Ps as [|p v ps vs P F IH]; [reflexivity|]. rewrite (plain_val p v P), IH. reflexivity. }
            now rewrite Q.
        + subst r. exists (Err x). split; [|reflexivity]. intros nx each. cbn [eval]. rewrite G. reflexivity.
    Qed.
  End Part.
End Scope.
