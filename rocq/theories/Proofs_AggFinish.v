(** The result of an aggregation: its text and its value. *)
From Coq Require Import String Ascii List NArith ZArith Bool Arith Lia.
From Verif Require Import Model_PyVal Model_Reducers Model_Aggregate Model_Code Model_AggText Model_AggFinish Spec_Syntax Spec_FuncText Spec_AggProgram
  Spec_FuncRun Spec_AggRun Spec_AggFinish Spec_AggModule Proofs_Syntax Proofs_Grammar Proofs_Lex Proofs_Tree Proofs_AggExpr
  Proofs_FuncRun Proofs_RedRun Proofs_Steady Proofs_AggRun Proofs_AggRunFn.
From Verif Require Spec_Stmt Spec_Loop Proofs_AggBlocks.
Import ListNotations.

(** *** text *)
Lemma len_code V v : code true V v -> code true (T "len(" ++ V ++ T ")") (ACall (name "len") [v] []).
Proof.
  intros (vs & G). apply (code_of_primary _ _ ([TName (T "len")] ++ LPar :: vs ++ [RPar])).
  - intros rest A. lext. rewrite <- ?app_assoc. reflexivity.
  - apply call1_primary; [apply name_primary|apply G].
Qed.
Lemma dict_call_code V v : code true V v -> code true (T "dict(" ++ V ++ T ")") (ACall (name "dict") [v] []).
Proof.
  intros (vs & G). apply (code_of_primary _ _ ([TName (T "dict")] ++ LPar :: vs ++ [RPar])).
  - intros rest A. lext. rewrite <- ?app_assoc. reflexivity.
  - apply call1_primary; [apply name_primary|apply G].
Qed.
Lemma keys_code V v : code true V v -> code true (T "list(" ++ V ++ T ".keys())") (ACall (name "list") [ACall (AAttr v (T "keys")) [] []] []).
Proof.
  intros (vs & G). apply (code_of_primary _ _ ([TName (T "list")] ++ LPar :: ((vs ++ [Dot; TName (T "keys")]) ++ LPar :: comma_tokens [] ++ [RPar]) ++ [RPar])).
  - intros rest A. lext. cbn [comma_tokens app]. rewrite <- ?app_assoc. cbn [app]. rewrite <- ?app_assoc. reflexivity.
  - apply call1_primary; [apply name_primary|]. apply primary_unit. apply call_primary; [|constructor]. apply attr_primary. now apply G.
Qed.
Lemma per_key_primary es e vs v : unit es e -> primary vs v ->
  primary (LBrace :: TName (T "k_") :: Colon :: es ++ KFor :: TName (T "k_") :: Comma :: TName (T "v_") :: KIn ::
           vs ++ [Dot; TName (T "items"); LPar; RPar; RBrace]) (per_key e v).
Proof.
  intros U Pv. assert (PI : primary ((vs ++ [Dot; TName (T "items")]) ++ LPar :: comma_tokens [] ++ [RPar]) (ACall (AAttr v (T "items")) [] []))
    by (apply call_primary; [now apply attr_primary|constructor]).
  apply atom_primary; [|exact I]. intros r. cbn [app]. repeat (rewrite <- app_assoc; cbn [app]). eapply a_dictcomp.
  - exact (u_level _ _ (primary_unit _ _ (name_primary (T "k_"))) 0 (Colon :: _) ltac:(lia) I).
  - apply U; [lia|exact I].
  - apply f_for2; [|exact I]. pose proof (u_level _ _ (primary_unit _ _ PI) 1 (RBrace :: r) ltac:(lia) I) as H.
    repeat (rewrite <- app_assoc in H; cbn [app comma_tokens] in H). exact H.
Qed.
Lemma keys_each_code V v : code true V v -> code true (T "{k_: list(v_.keys()) for k_, v_ in " ++ V ++ T ".items()}") (post_tree (ABuiltin DictArrayDistinct) v).
Proof.
  intros (vs & G). eapply code_of_primary; [|apply (per_key_primary ([TName (T "list")] ++ LPar :: (([TName (T "v_")] ++ [Dot; TName (T "keys")]) ++ LPar :: comma_tokens [] ++ [RPar]) ++ [RPar]) _ vs)].
  - intros rest A. lext. cbn [comma_tokens app]. repeat (rewrite <- ?app_assoc; cbn [app]). reflexivity.
  - apply primary_unit, call1_primary; [apply name_primary|]. apply primary_unit, call_primary; [|constructor]. apply attr_primary, name_primary.
  - now apply G.
Qed.
Lemma len_each_code V v : code true V v -> code true (T "{ k_: len(v_) for k_, v_ in " ++ V ++ T ".items() }") (post_tree (ABuiltin DictCountDistinct) v).
Proof.
  intros (vs & G). eapply code_of_primary; [|apply (per_key_primary ([TName (T "len")] ++ LPar :: [TName (T "v_")] ++ [RPar]) _ vs)].
  - intros rest A. lext. repeat (rewrite <- ?app_assoc; cbn [app]). reflexivity.
  - apply primary_unit, call1_primary; [apply name_primary|]. apply primary_unit, name_primary.
  - now apply G.
Qed.
Lemma if_lv C c X x Y y : lv 1 X x -> lv 1 C c -> lv 0 Y y -> lv 0 (X ++ T " if " ++ C ++ T " else " ++ Y) (AIf c x y).
Proof.
  intros (xs & L & H & Pl) (cs & L' & H' & _) (ys & L2 & H2 & _). exists (xs ++ KIf :: cs ++ KElse :: ys). split; [|split].
  - intros rest A. lext. rewrite <- ?app_assoc. cbn [app]. rewrite <- ?app_assoc. reflexivity.
  - intros k r K St. assert (k = 0) as -> by lia. rewrite <- app_assoc. cbn [app]. rewrite <- app_assoc. cbn [app].
    eapply o_if; [apply H; [lia|cbn; lia]|apply H'; [lia|exact I]|apply H2; [lia|exact St]].
  - apply plain_app, Pl.
Qed.
Definition same_op (o : opcode) (o' : aop) : Prop :=
  match o, o' with Stmts b, ABuiltin b' => b = b' | Func f, AFunc g => f = g | _, _ => False end.
Lemma post_code o o' V v : same_op o o' -> code true V v -> code true (op_post o V) (post_tree o' v).
Proof.
  intros S C. destruct o as [b|f|], o' as [b'|g]; cbn in S; try contradiction; subst; [|exact C].
  destruct b'; cbn [op_post post_text post_tree]; try exact C.
  - eapply code_eq; [apply (paren_code 1); apply or_lv; [apply (lv_weaken 2 2); [lia|]; apply and_lv;
      [apply (code_lv true 3); [lia|exact C]|apply (code_lv true 3); [lia|apply len_code, C]]|
      apply (code_lv false 2); [lia|apply (ndec_code 0)]]|]. repeat (rewrite <- ?app_assoc; cbn [app]). reflexivity.
  - exact (sub_code V v false (T "1") (ANum 1) C (ndec_code 1)).
  - exact (sub_code V v false (T "1") (ANum 1) C (ndec_code 1)).
  - eapply code_eq; [apply (paren_code 0); eapply (code_lv true 0); [lia|]; apply keys_code, C|]. repeat (rewrite <- ?app_assoc; cbn [app]). reflexivity.
  - eapply code_eq; [apply (paren_code 0); eapply (code_lv true 0); [lia|]; apply dict_call_code, C|]. repeat (rewrite <- ?app_assoc; cbn [app]). reflexivity.
  - eapply code_eq; [apply (paren_code 0); eapply (code_lv true 0); [lia|]; apply keys_each_code, C|]. repeat (rewrite <- ?app_assoc; cbn [app]). reflexivity.
  - eapply code_eq; [apply (paren_code 0); eapply (code_lv true 0); [lia|]; apply dict_call_code, C|]. repeat (rewrite <- ?app_assoc; cbn [app]). reflexivity.
  - eapply code_eq; [apply (paren_code 0); eapply (code_lv true 0); [lia|]; apply dict_call_code, C|]. repeat (rewrite <- ?app_assoc; cbn [app]). reflexivity.
  - eapply code_eq; [apply (paren_code 0); eapply (code_lv true 0); [lia|]; apply len_each_code, C|]. repeat (rewrite <- ?app_assoc; cbn [app]). reflexivity.
Qed.
Lemma reduce_code o o' V v d d' : same_op o o' -> code true V v ->
  match d, d' with Some t, Some a => exists b, code b t a | None, None => True | _, _ => False end ->
  code true (reduce_text o V d) (reduce_tree o' v d').
Proof.
  intros S C D. pose proof (post_code o o' V v S C) as PC. destruct d as [t|], d' as [a|]; try contradiction; [|exact PC].
  destruct D as [b D]. cbn [reduce_text reduce_tree].
  eapply code_eq; [apply (paren_code 0); apply if_lv; [eapply (code_lv b 1); [lia|exact D]|
    apply (lv_weaken 1 4); [lia|]; apply (cmp_lv "is" [KIs] true V v true (T "_none")); [constructor|exact C|now apply ident_code]|
    apply (code_lv true 0); [lia|exact PC]]|].
  repeat (rewrite <- ?app_assoc; cbn [app]). reflexivity.
Qed.

(** *** value *)
Section Value.
  Variable globals : text -> option rv.
  Variable call : text -> list val -> res val.
  Variable outside : ast -> (ast -> option val) -> res val.
  Notation ev := (Spec_FuncRun.ev globals call outside).
  Notation evs := (Proofs_Steady.evs globals call outside).
  Hypothesis PF : python_ok call outside.
  Variable s : state.
  Hypothesis GL : forall x, In x (map T ["len"; "list"; "dict"]%string) -> view s (PN x) = None.
  Hypothesis NO : view s (PN (T "_none")) = Some OSent.
  Lemma ev_var V o : is_var V -> seen s V = Some o -> ev V s = do x <- rv_of o; Ok (x, s).
  Proof.
    intros I H. unfold seen in H. destruct V; try contradiction; cbn [is_var] in I.
    - cbn [Spec_FuncRun.ev]. cbn [variable] in H. destruct (assoc (names s) x) as [l|]; [|discriminate H]. injection H as <-. reflexivity.
    - destruct V; try contradiction. cbn [Spec_FuncRun.ev]. destruct (variable (AAttr (AName x) n) s) as [l|]; [|discriminate H].
      injection H as <-. reflexivity.
  Qed.
  Lemma seen_values V v m : seen s V = Some (OVal v m) -> values s V = Some v.
  Proof. unfold seen, values. destruct (variable V s) as [l|]; [|discriminate]. cbn. now intros [= ->]. Qed.
  Lemma values_none x : view s (PN x) = None -> values s (AName x) = None.
  Proof. unfold view, values. cbn [loc_of variable]. destruct (assoc (names s) x); [discriminate|reflexivity]. Qed.
  Lemma global_at x : In x (map T ["len"; "list"; "dict"]%string) -> is_global x s = true.
  Proof. intros I. apply is_global_view. now apply GL. Qed.
  Variable V : ast.
  Hypothesis IV : is_var V.
  Definition missing_for (o : aop) : option val := match o with ABuiltin b => Spec_Loop.missing_of b | AFunc _ => None end.
  Lemma post_value o v v' : seen s V = Some (OVal v (missing_for o)) ->
    match o with ABuiltin b => post_of b v | AFunc _ => Ok v end = Ok v' ->
    ev (post_tree o V) s = Ok (RVal v', s).
  Proof.
    intros H P. pose proof (ev_var V _ IV H) as E. cbn [rv_of bind] in E.
    destruct o as [b|g]; [|injection P as <-; exact E].
    destruct b; cbn [post_of] in P; cbn [post_tree]; try (injection P as <-; exact E).
    - destruct v; try discriminate P. cbn [truthy] in P. unfold either, both. rewrite ev_bool. cbn [chain].
      rewrite ev_bool. cbn [chain]. rewrite E. cbn [bind fst snd is_true]. cbn [truthy]. destruct l as [|x l].
      + cbn [Bool.eqb bind fst is_true truthy]. cbn in P. injection P as <-. reflexivity.
      + cbn [negb] in *. cbn [Bool.eqb]. unfold name. rewrite ev_call, global_at by (cbn; tauto). cbn [Proofs_Steady.evs]. rewrite E.
        cbn [bind fst snd args_of arg_of]. rewrite (pf_len _ _ PF). cbn [bind fst snd is_true truthy].
        cbn [length] in *. injection P as <-. unfold py_or. cbn [truthy].
        destruct (Z.eqb_spec (Z.of_nat (S (length l))) 0) as [Z0|Z0]; [lia|]. reflexivity.
    - cbn [Spec_FuncRun.ev]. rewrite E. cbn [bind fst snd needs]. unfold Spec_FuncRun.item. unfold seen in H.
      destruct (variable V s) as [l|]; [|discriminate H]. injection H as ->. cbn [missing_for Spec_Loop.missing_of].
      unfold item1 in P. change (Z.of_N 1) with 1%Z. now rewrite P.
    - cbn [Spec_FuncRun.ev]. rewrite E. cbn [bind fst snd needs]. unfold Spec_FuncRun.item. unfold seen in H.
      destruct (variable V s) as [l|]; [|discriminate H]. injection H as ->. cbn [missing_for Spec_Loop.missing_of].
      unfold item1 in P. change (Z.of_N 1) with 1%Z. now rewrite P.
    - destruct v; try discriminate P. injection P as <-. unfold name. rewrite ev_call, global_at by (cbn; tauto). cbn [Proofs_Steady.evs].
      cbn [Spec_FuncRun.ev]. rewrite (pf_keys _ _ PF V _ l IV (seen_values _ _ _ H)). cbn [bind fst snd args_of arg_of]. now rewrite (pf_list _ _ PF).
    - destruct v; try discriminate P. injection P as <-. unfold name. rewrite ev_call, global_at by (cbn; tauto). cbn [Proofs_Steady.evs].
      rewrite E. cbn [bind fst snd args_of arg_of]. now rewrite (pf_dict _ _ PF).
    - destruct v as [| | | | | | |d|]; try discriminate P.
      match type of P with (do d' <- ?F; _) = _ => destruct F as [d'|] eqn:Fd; [|discriminate P] end. cbn [bind] in P. injection P as <-.
      assert (SH : exists l, d = map (fun kv => (fst kv, VDict (snd kv))) l /\ d' = map (fun kv => (fst kv, VList (map fst (snd kv)))) l).
      { revert d' Fd. clear. induction d as [|[k w] d IH]; intros d' Fd; cbn [fold_right] in Fd; [injection Fd as <-; now exists []|].
        match type of Fd with (do r' <- ?F; _) = _ => destruct F as [r|] eqn:Fr; [|discriminate Fd] end. cbn [bind fst snd] in Fd.
        destruct w as [| | | | | | | |]; try discriminate Fd. injection Fd as <-. destruct (IH r eq_refl) as (t & -> & ->). now exists ((k, l) :: t). }
      destruct SH as (l & -> & ->). assert (Q : values s (name "list") = None) by (apply values_none, GL; cbn; tauto).
      pose proof (pf_keys_each _ _ PF V _ l IV Q (seen_values _ _ _ H)) as W. cbn [post_tree] in W. unfold per_key in *. cbn [Spec_FuncRun.ev].
      rewrite W. reflexivity.
    - destruct v; try discriminate P. injection P as <-. unfold name. rewrite ev_call, global_at by (cbn; tauto). cbn [Proofs_Steady.evs].
      rewrite E. cbn [bind fst snd args_of arg_of]. now rewrite (pf_dict _ _ PF).
    - destruct v; try discriminate P. injection P as <-. unfold name. rewrite ev_call, global_at by (cbn; tauto). cbn [Proofs_Steady.evs].
      rewrite E. cbn [bind fst snd args_of arg_of]. now rewrite (pf_dict _ _ PF).
    - destruct v as [| | | | | | |d|]; try discriminate P.
      match type of P with (do d' <- ?F; _) = _ => destruct F as [d'|] eqn:Fd; [|discriminate P] end. cbn [bind] in P. injection P as <-.
      assert (SH : exists l, d = map (fun kv => (fst kv, VSet (snd kv))) l /\ d' = map (fun kv => (fst kv, VInt (Z.of_nat (length (snd kv))))) l).
      { revert d' Fd. clear. induction d as [|[k w] d IH]; intros d' Fd; cbn [fold_right] in Fd; [injection Fd as <-; now exists []|].
        match type of Fd with (do r' <- ?F; _) = _ => destruct F as [r|] eqn:Fr; [|discriminate Fd] end. cbn [bind fst snd] in Fd.
        destruct w as [| | | | | | | |]; try discriminate Fd. injection Fd as <-. destruct (IH r eq_refl) as (t & -> & ->). now exists ((k, l) :: t). }
      destruct SH as (l & -> & ->). assert (Q : values s (name "len") = None) by (apply values_none, GL; cbn; tauto).
      pose proof (pf_len_each _ _ PF V _ l IV Q (seen_values _ _ _ H)) as W. cbn [post_tree] in W. unfold per_key in *. cbn [Spec_FuncRun.ev].
      rewrite W. reflexivity.
  Qed.
  (** [it] is the reduce with the operation [op] and this default= *)
  Lemma reduce_value {Row} (o : reduce_obj Row) op d c v :
    match red o, op with Builtin b, ABuiltin b' => b = b' | Fun _, AFunc _ => True | _, _ => False end ->
    match default o, d with Some x, Some a => ev a s = (do y <- x; Ok (RVal y, s)) | None, None => True | _, _ => False end ->
    seen s V = Some (match c with None => OSent | Some w => OVal w (missing_for op) end) ->
    finish o c = Ok (Some v) -> ev (reduce_tree op V d) s = Ok (RVal v, s).
  Proof.
    intros R D H F. unfold finish in F.
    assert (NE : ev (name "_none") s = Ok (RSent, s)) by (exact (ev_var (name "_none") OSent I NO)).
    pose proof (ev_var V _ IV H) as E.
    destruct c as [w|].
    - assert (PV : ev (post_tree op V) s = Ok (RVal v, s)).
      { apply (post_value op w v H). destruct (red o) as [b|g], op as [b'|g']; try contradiction.
        - subst. destruct (post_of b' w); cbn in F; congruence.
        - cbn in F. congruence. }
      destruct d as [a|]; [|exact PV]. cbn [reduce_tree]. cbn [Spec_FuncRun.ev]. unfold cmp. cbn [Spec_FuncRun.ev].
      rewrite E. cbn [rv_of bind fst snd]. change (Spec_FuncRun.ev globals call outside (name "_none") s) with (ev (name "_none") s). rewrite NE. cbn [bind fst snd compare]. exact PV.
    - destruct (default o) as [x|], d as [a|]; try contradiction; [|discriminate F].
      cbn [reduce_tree]. unfold cmp. cbn [Spec_FuncRun.ev]. rewrite E. cbn [rv_of bind fst snd]. rewrite NE. cbn [bind fst snd].
      destruct x as [y|]; [|discriminate F]. cbn in F. injection F as <-. exact D.
  Qed.
End Value.
