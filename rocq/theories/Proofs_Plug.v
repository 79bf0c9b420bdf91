(** An expression read with variables for its holes is read in the same way when the
    tokens of the arguments are put in place of the variables. *)
From Coq Require Import String Ascii List NArith Bool Arith Lia.
From Verif Require Import Model_Code Spec_Syntax Spec_Inline Proofs_Syntax Proofs_Grammar.
Import ListNotations.

Section Plug.
  Variable hole : text -> option (list token * ast).
  Variable arg : text -> option ast.
  Hypothesis Harg : forall v w a, hole v = Some (w, a) -> arg v = Some a.
  Hypothesis Harg0 : forall v, hole v = None -> arg v = None.
  Variable int : text -> bool.
  Variable clear : text -> bool.
  Hypothesis Hlev : forall v w a, hole v = Some (w, a) -> forall k r, k <= 11 -> stops k r -> P k (w ++ r) a r.
  Hypothesis Hprim : forall v w a, hole v = Some (w, a) -> int v = false ->
    forall r b r', PTrail a r b r' -> P 13 (w ++ r) b r'.
  Hypothesis Hpos : forall v w a, hole v = Some (w, a) ->
    forall r, match r with Assign :: _ => False | _ => True end -> positional (w ++ r).
  Hypothesis Htok : forall v w a, hole v = Some (w, a) ->
    match w with [] | KNot :: _ => False | TBin _ :: _ => int v = true | _ => True end.
  Hypothesis Hclear : forall x, clear x = true -> hole x = None.
  Hypothesis Hclear2 : forall x y, clear (x ++ T ", " ++ y) = true -> hole x = None /\ hole y = None.

  Definition sub1 (t : token) : list token :=
    match t with TName x => match hole x with Some (w, _) => w | None => [t] end | _ => [t] end.
  (** what follows the expression *)
  Variable tail_ : list token.
  Definition sub (ts : list token) : list token := flat_map sub1 ts ++ RPar :: tail_.
  Notation plug := (plug arg).
  Notation ok := (holes_ok int clear).
  Definition nn (r : list token) : Prop := match r with TName _ :: _ => False | _ => True end.
  Notation plugs := (map (fun p : text * ast => (fst p, plug (snd p)))).
  Notation plugp := (map (fun p : ast * ast => (plug (fst p), plug (snd p)))).

  Lemma sub_name x ts : hole x = None -> sub (TName x :: ts) = TName x :: sub ts.
  Proof. intros H. unfold sub. cbn [flat_map sub1]. now rewrite H. Qed.
  Lemma sub_hole x w a ts : hole x = Some (w, a) -> sub (TName x :: ts) = w ++ sub ts.
  Proof. intros H. unfold sub. cbn [flat_map sub1]. rewrite H. symmetry. apply app_assoc. Qed.
  Lemma stops_sub k r : nn r -> stops k r -> stops k (sub r).
  Proof. destruct r as [|t r]; auto. destruct t; auto. contradiction. Qed.
  Lemma hole_head v w a : hole v = Some (w, a) -> exists t w', w = t :: w' /\ opens t = true /\ t <> KNot.
  Proof.
    intros H. pose proof (Hlev _ _ _ H 0 [] ltac:(lia) Logic.I) as Q. rewrite app_nil_r in Q.
    destruct (P_head _ _ _ _ Q) as (t & w' & -> & O). exists t, w'. repeat split; auto.
    pose proof (Htok _ _ _ H) as K. intros ->. contradiction.
  Qed.

  Definition claim (n : nat) : Prop := forall l ts a r,
    parse n l ts = Some (a, r) -> ok a = true -> nn r ->
    (l <= 11 -> P l (sub ts) (plug a) (sub r)) /\
    (11 < l -> P l (sub ts) (plug a) (sub r) \/
               exists v, int v = true /\ hole v <> None /\ ts = TName v :: r /\ a = AName v /\ stops (Nat.min l 13) r).
  Lemma use n l ts a r : claim n -> parse n l ts = Some (a, r) -> ok a = true -> nn r -> l <= 11 -> P l (sub ts) (plug a) (sub r).
  Proof. intros C H O N L. now apply (C l ts a r). Qed.

  Ltac bd H := let q := fresh "Hp" in match type of H with pbind ?x _ = Some _ => destruct x as [[? ?]|] eqn:q; [cbn [pbind] in H|discriminate H] end.
  Ltac ands := repeat match goal with H : _ && _ = true |- _ => apply andb_true_iff in H as [? ?] end.
  Ltac hd r H := let t := fresh "t" in destruct r as [|t r]; [try discriminate H|destruct t; try discriminate H].

  Ltac fits := auto; try exact Logic.I; try lia.
  (** *** the results contain what was read before *)
  Lemma more_ok n k cl : forall acc ts l r, more (parse n) k cl acc ts = Some (l, r) -> forallb ok l = true -> forallb ok acc = true.
  Proof.
    induction k as [|k IH]; intros acc ts l r H O; [discriminate|]. cbn [more] in H.
    destruct ts as [|t ts]; [discriminate|].
    assert (E : forall u us, (if is_close cl u then Some (acc, us) else None) = Some (l, r) -> forallb ok acc = true).
    { intros u us. destruct (is_close cl u); [|discriminate]. now injection 1 as <- _. }
    destruct t; try (now apply E in H). destruct ts as [|u us]; [now apply E in H|].
    destruct (is_close cl u); [injection H as <- _; exact O|]. bd H.
    apply IH in H; auto. rewrite forallb_app in H. now ands.
  Qed.
  Lemma pairs_ok n k : forall acc ts l r, more_pairs (parse n) k acc ts = Some (l, r) ->
    forallb (fun p => ok (fst p) && ok (snd p)) l = true -> forallb (fun p => ok (fst p) && ok (snd p)) acc = true.
  Proof.
    induction k as [|k IH]; intros acc ts l r H O; [discriminate|]. cbn [more_pairs] in H.
    hd ts H; [injection H as <- _; exact O|].
    assert (E : pbind (parse n 0 ts) (fun a r => match r with Colon :: r => pbind (parse n 0 r)
                  (fun b r => more_pairs (parse n) k (acc ++ [(a, b)]) r) | _ => None end) = Some (l, r) ->
                forallb (fun p => ok (fst p) && ok (snd p)) acc = true).
    { clear H. intros H. bd H. hd l0 H. bd H. apply IH in H; auto. rewrite forallb_app in H. now ands. }
    hd ts H; try (now apply E in H); injection H as <- _; exact O.
  Qed.
  Lemma cmp_ok n k : forall acc ts l r, cmp_loop (parse n) k acc ts = Some (l, r) ->
    forallb (fun p : text * ast => ok (snd p)) l = true -> forallb (fun p : text * ast => ok (snd p)) acc = true.
  Proof.
    induction k as [|k IH]; intros acc ts l r H O; [discriminate|]. cbn [cmp_loop] in H.
    destruct (comparison_op ts) as [[o ts']|]; [|injection H as <- _; exact O].
    bd H. apply IH in H; auto. rewrite forallb_app in H. now ands.
  Qed.
  Lemma bool_ok n k o : forall acc ts l r, bool_loop (parse n) k o acc ts = Some (l, r) -> forallb ok l = true -> forallb ok acc = true.
  Proof.
    induction k as [|k IH]; intros acc ts l r H O; [discriminate|]. cbn [bool_loop] in H.
    destruct o; (destruct ts as [|t ts]; [injection H as <- _; exact O|]);
      destruct t; try (injection H as <- _; exact O); bd H; apply IH in H; auto; rewrite forallb_app in H; now ands.
  Qed.
  Lemma bin_ok n k l : forall a ts b r, bin_loop (parse n) k l a ts = Some (b, r) -> ok b = true -> ok a = true.
  Proof.
    induction k as [|k IH]; intros a ts b r H O; [discriminate|]. cbn [bin_loop] in H.
    destruct ts as [|t ts]; [now injection H as <- _|]. destruct t; try (now injection H as <- _).
    destruct (Nat.eqb (bin_level o) l); [|now injection H as <- _].
    bd H. apply IH in H; auto. cbn [holes_ok] in H. now ands.
  Qed.
  Lemma trail_ok n k : forall a ts b r, trailers (parse n) k a ts = Some (b, r) -> ok b = true ->
    ok a = true /\ (b = a /\ r = ts /\ stops 13 r \/ int_var int a = false).
  Proof.
    induction k as [|k IH]; intros a ts b r H O; [discriminate|]. cbn [trailers] in H.
    assert (E : forall a', trailers (parse n) k a' ts = Some (b, r) -> True) by auto.
    destruct ts as [|t ts]; [injection H as <- <-; split; auto; left; repeat split|].
    destruct t; try (injection H as <- <-; split; auto; left; split; [reflexivity|split; [reflexivity|exact Logic.I]]).
    - bd H. destruct (IH _ _ _ _ H O) as [K _]. cbn [holes_ok] in K. ands.
      split; [assumption|right; now apply negb_true_iff].
    - bd H. hd l H. destruct (IH _ _ _ _ H O) as [K _]. cbn [holes_ok] in K. ands.
      split; [assumption|right; now apply negb_true_iff].
    - hd ts H. destruct (IH _ _ _ _ H O) as [K _]. cbn [holes_ok] in K. ands.
      split; [assumption|right; now apply negb_true_iff].
    - injection H as <- <-. split; auto. left. split; [reflexivity|split; [reflexivity|]].
      cbn [stops power]. destruct (teqb o (T "**")); [lia|]. pose proof (bin_level_cases o).
      destruct (Nat.eqb (bin_level o) 0); [destruct (is_comparison o); [lia|exact Logic.I]|lia].
    - injection H as <- <-. split; auto. left. split; [reflexivity|split; [reflexivity|cbn; lia]].
    - injection H as <- <-. split; auto. left. split; [reflexivity|split; [reflexivity|cbn; lia]].
    - injection H as <- <-. split; auto. left. split; [reflexivity|split; [reflexivity|cbn; lia]].
    - injection H as <- <-. split; auto. left. split; [reflexivity|split; [reflexivity|cbn; lia]].
    - injection H as <- <-. split; auto. left. split; [reflexivity|split; [reflexivity|cbn; lia]].
    - injection H as <- <-. split; auto. left. split; [reflexivity|split; [reflexivity|cbn; lia]].
  Qed.
  Notation kwok := (forallb (fun p : text * ast => clear (fst p) && ok (snd p))).
  (** the two shapes of one argument *)
  Definition positional_step n k pos (kws : list (text * ast)) ts :=
    match kws with
    | _ :: _ => None
    | [] =>
        pbind (parse n 0 ts) (fun e r =>
        match r with
        | Comma :: r => call_args (parse n) k (pos ++ [e]) kws r
        | RPar :: r => Some ((pos ++ [e], kws), r)
        | KFor :: _ =>
            match pos with
            | [] => pbind (comp_for (parse n) r) (fun f r =>
                      let '(x, it, c) := f in
                      match r with
                      | RPar :: r => Some (([AComp GGen [e] x it c], kws), r)
                      | _ => None
                      end)
            | _ => None
            end
        | _ => None
        end)
    end.
  Definition kw_step n k pos (kws : list (text * ast)) x r :=
    if existsb (fun kw => teqb x (fst kw)) kws then None
    else pbind (parse n 0 r) (fun e r =>
         match r with
         | Comma :: r => call_args (parse n) k pos (kws ++ [(x, e)]) r
         | RPar :: r => Some ((pos, kws ++ [(x, e)]), r)
         | _ => None
         end).
  Lemma call_args_cases n k pos kws ts :
    (exists r, ts = RPar :: r /\ call_args (parse n) (S k) pos kws ts = Some ((pos, kws), r)) \/
    (exists x r, ts = TName x :: Assign :: r /\ call_args (parse n) (S k) pos kws ts = kw_step n k pos kws x r) \/
    positional ts /\ match ts with RPar :: _ => False | _ => True end /\
      call_args (parse n) (S k) pos kws ts = positional_step n k pos kws ts.
  Proof.
    destruct ts as [|t ts]; [right; right; repeat split|].
    destruct t; try solve [right; right; repeat split]; [|left; eauto].
    destruct ts as [|u us]; [right; right; repeat split|].
    destruct u; try solve [right; right; repeat split]. right; left. eauto.
  Qed.
  Lemma args_ok n k : forall pos kws ts l ks r, call_args (parse n) k pos kws ts = Some ((l, ks), r) ->
    forallb ok l = true -> kwok ks = true -> forallb ok pos = true /\ kwok kws = true.
  Proof.
    induction k as [|k IH]; intros pos kws ts l ks r H O K; [discriminate|].
    destruct (call_args_cases n k pos kws ts) as [(r0 & -> & E)|[(x & r0 & -> & E)|(_ & _ & E)]]; rewrite E in H; clear E.
    - injection H as <- <- _. auto.
    - unfold kw_step in H. destruct (existsb _ kws); [discriminate|]. bd H. hd l0 H.
      + injection H as <- <- _. rewrite forallb_app in K. now ands.
      + apply IH in H; auto. destruct H as [H1 H2]. rewrite forallb_app in H2. now ands.
    - unfold positional_step in H. destruct kws; [|discriminate]. bd H. hd l0 H.
      + injection H as <- <- _. rewrite forallb_app in O. now ands.
      + apply IH in H; auto. destruct H as [H1 H2]. rewrite forallb_app in H1. now ands.
      + destruct pos; [|discriminate]. auto.
  Qed.

  (** *** filling, construct by construct *)
  Section Fuel.
    Variable n : nat.
    Hypothesis IH : claim n.
    Notation p := (parse n).
    Ltac go H := eapply (use n _ _ _ _ IH) in H; [|assumption|first [exact Logic.I|assumption]|lia].

    Lemma s_for ts x it c r : comp_for p ts = Some ((x, it, c), r) -> clear x = true -> ok it = true ->
      match c with Some c => ok c = true | None => True end -> nn r ->
      PFor (sub ts) x (plug it) (option_map plug c) (sub r).
    Proof.
      intros H X I C N. unfold comp_for in H. hd ts H.
      destruct (target ts) as [[x' ts1]|] eqn:Tg; [|discriminate]. cbn [pbind] in H.
      destruct (p 1 ts1) as [[it' r1]|] eqn:E1; [|discriminate]. cbn [pbind] in H.
      assert (S1 : forall y q, target (sub ts) = Some (y, q) -> sub (KFor :: ts) = KFor :: sub ts) by reflexivity.
      assert (Tg' : x' = x -> target (sub ts) = Some (x', sub ts1)).
      { intros ->. unfold target in Tg. hd ts Tg. hd ts Tg.
        - hd ts Tg. hd ts Tg. injection Tg as <- <-. destruct (Hclear2 _ _ X) as [A B].
          rewrite sub_name by exact A. change (sub (Comma :: TName x1 :: KIn :: ts)) with (Comma :: sub (TName x1 :: KIn :: ts)).
          rewrite sub_name by exact B. reflexivity.
        - injection Tg as <- <-. rewrite sub_name by (now apply Hclear). reflexivity. }
      assert (G : (exists r2 c', r1 = KIf :: r2 /\ p 1 r2 = Some (c', r) /\ x' = x /\ it' = it /\ c = Some c') \/
                  r1 = r /\ x' = x /\ it' = it /\ c = None /\ match r with KIf :: _ => False | _ => True end).
      { destruct r1 as [|t r1]; [injection H as <- <- <- <-; right; auto|].
        destruct t; try (injection H as <- <- <- <-; right; repeat split).
        destruct (p 1 r1) as [[c' r2]|] eqn:E2; [|discriminate]. cbn [pbind] in H.
        injection H as <- <- <- <-. left. eauto 8. }
      destruct G as [(r2 & c' & -> & E2 & -> & -> & ->)|(-> & -> & -> & -> & NK)].
      - apply (use n _ _ _ _ IH) in E1; auto; [|exact Logic.I|lia]. apply (use n _ _ _ _ IH) in E2; auto; [|lia].
        destruct E1 as [m1 E1], E2 as [m2 E2]. exists (m1 + m2).
        change (sub (KFor :: ts)) with (KFor :: sub ts). cbn [comp_for]. rewrite Tg' by reflexivity. cbn [pbind].
        apply (P_le m1 (m1 + m2)) in E1; [|lia]. apply (P_le m2 (m1 + m2)) in E2; [|lia].
        rewrite E1. cbn [pbind]. change (sub (KIf :: r2)) with (KIf :: sub r2). cbv iota.
        rewrite E2. reflexivity.
      - apply (use n _ _ _ _ IH) in E1; auto; [|lia].
        destruct E1 as [m1 E1]. exists m1.
        change (sub (KFor :: ts)) with (KFor :: sub ts). cbn [comp_for]. rewrite Tg' by reflexivity. cbn [pbind].
        rewrite E1. cbn [pbind option_map].
        destruct r as [|t r]; [reflexivity|]. destruct t; try reflexivity; contradiction.
    Qed.

    Lemma s_more cl k : In cl [RPar; RBr; RBrace] -> forall acc ts l r, more p k cl acc ts = Some (l, r) -> forallb ok l = true ->
      PMore cl (map plug acc) (sub ts) (map plug l) (sub r).
    Proof.
      intros C. induction k as [|k IHk]; intros acc ts l r H O; [discriminate|]. cbn [more] in H.
      assert (B : forall u us, (if is_close cl u then Some (acc, us) else None) = Some (l, r) ->
                  PMore cl (map plug acc) (sub (u :: us)) (map plug l) (sub r)).
      { intros u us. destruct (is_close cl u) eqn:E; [|discriminate]. injection 1 as <- <-.
        assert (u = cl) as -> by (destruct cl, u; try discriminate E; reflexivity).
        destruct C as [<-|[<-|[<-|[]]]]; exists 1; reflexivity. }
      destruct ts as [|t ts]; [discriminate|].
      destruct t; try (now apply B in H). destruct ts as [|u us]; [now apply B in H|].
      destruct (is_close cl u) eqn:E.
      - injection H as <- <-. assert (u = cl) as -> by (destruct cl, u; try discriminate E; reflexivity).
        destruct C as [<-|[<-|[<-|[]]]]; exists 1; reflexivity.
      - bd H. change (sub (Comma :: u :: us)) with (Comma :: sub (u :: us)).
        pose proof (more_ok _ _ _ _ _ _ _ H O) as A. rewrite forallb_app in A. cbn [forallb] in A. ands.
        assert (N : nn l0). { destruct k; [discriminate|]. cbn [more] in H. destruct l0 as [|t' l0]; [exact Logic.I|].
          destruct t'; try exact Logic.I. destruct cl; discriminate H. }
        eapply m_more; [apply (use n _ _ _ _ IH Hp); auto; lia|].
        apply IHk in H; auto. rewrite map_app in H. exact H.
    Qed.

    Lemma s_pairs k : forall acc ts l r, more_pairs p k acc ts = Some (l, r) ->
      forallb (fun q => ok (fst q) && ok (snd q)) l = true ->
      PPairs (plugp acc) (sub ts) (plugp l) (sub r).
    Proof.
      induction k as [|k IHk]; intros acc ts l r H O; [discriminate|]. cbn [more_pairs] in H.
      hd ts H; [injection H as <- <-; apply mp_end|].
      assert (B : pbind (p 0 ts) (fun a r => match r with Colon :: r => pbind (p 0 r)
                  (fun b r => more_pairs p k (acc ++ [(a, b)]) r) | _ => None end) = Some (l, r) ->
                  PPairs (plugp acc) (sub (Comma :: ts)) (plugp l) (sub r)).
      { clear H. intros H. bd H. hd l0 H. bd H.
        pose proof (pairs_ok _ _ _ _ _ _ H O) as A. rewrite forallb_app in A. cbn [forallb fst snd] in A. ands.
        assert (N : nn l1). { destruct k; [discriminate|]. cbn [more_pairs] in H. hd l1 H; exact Logic.I. }
        change (sub (Comma :: ts)) with (Comma :: sub ts).
        eapply mp_more; [apply (use n _ _ _ _ IH Hp); [assumption|exact Logic.I|lia]|
                         apply (use n _ _ _ _ IH Hp0); [assumption|exact N|lia]|].
        apply IHk in H; auto. rewrite map_app in H. exact H. }
      hd ts H; try (now apply B in H). injection H as <- <-. exists 1. reflexivity.
    Qed.

    Lemma s_args k : forall pos kws ts l ks r, call_args p k pos kws ts = Some ((l, ks), r) ->
      forallb ok l = true -> kwok ks = true -> 
      PArgs (map plug pos) (plugs kws) (sub ts) (map plug l) (plugs ks) (sub r).
    Proof.
      assert (EX : forall x kws, existsb (fun kw : text * ast => teqb x (fst kw)) (plugs kws) = existsb (fun kw => teqb x (fst kw)) kws).
      { intros x kws. induction kws as [|kw kws IHk]; [reflexivity|]. cbn [map existsb fst]. now rewrite IHk. }
      assert (PS : forall ts, positional ts -> positional (sub ts)).
      { intros ts Q. destruct ts as [|t ts]; [exact Logic.I|]. destruct t; try exact Logic.I.
        assert (NA : match sub ts with Assign :: _ => False | _ => True end).
        { destruct ts as [|u us]; [exact Logic.I|]. destruct u; try exact Logic.I; [|exact Q].
          destruct (hole x0) as [[w a]|] eqn:E; [|rewrite sub_name by exact E; exact Logic.I].
          rewrite (sub_hole _ _ _ _ E). destruct (hole_head _ _ _ E) as (u & w' & -> & O & _).
          destruct u; try exact Logic.I. discriminate O. }
        destruct (hole x) as [[w a]|] eqn:E.
        - rewrite (sub_hole _ _ _ _ E). now apply (Hpos _ _ _ E).
        - rewrite sub_name by exact E. exact NA. }
      induction k as [|k IHk]; intros pos kws ts l ks r H O K; [discriminate|].
      destruct (call_args_cases n k pos kws ts) as [(r0 & -> & E)|[(x & r0 & -> & E)|(Ps & NR & E)]];
        rewrite E in H; clear E.
      - injection H as <- <- <-. apply c_end.
      - unfold kw_step in H. destruct (existsb _ kws) eqn:X; [discriminate|]. bd H.
        assert (CX : kwok (kws ++ [(x, a)]) = true -> clear x = true /\ ok a = true).
        { rewrite forallb_app. cbn [forallb fst snd]. intros Q. ands. auto. }
        hd l0 H.
        + injection H as <- <- <-. destruct (CX K) as [C1 C2].
          rewrite sub_name by (now apply Hclear). change (sub (Assign :: r0)) with (Assign :: sub r0).
          rewrite map_app. apply c_kw_last; [now rewrite EX|]. apply (use n _ _ _ _ IH Hp); auto; [exact Logic.I|lia].
        + destruct (args_ok _ _ _ _ _ _ _ _ H O K) as [_ C]. destruct (CX C) as [C1 C2].
          rewrite sub_name by (now apply Hclear). change (sub (Assign :: r0)) with (Assign :: sub r0).
          eapply c_kw; [now rewrite EX|apply (use n _ _ _ _ IH Hp); auto; [exact Logic.I|lia]|].
          apply IHk in H; auto. rewrite map_app in H. exact H.
      - unfold positional_step in H. destruct kws as [|kw kws]; [|discriminate]. bd H. hd l0 H.
        + injection H as <- <- <-. rewrite forallb_app in O. cbn [forallb] in O. ands. rewrite map_app. cbn [map].
          apply c_pos_last; [now apply PS|]. apply (use n _ _ _ _ IH Hp); auto; [exact Logic.I|lia].
        + destruct (args_ok _ _ _ _ _ _ _ _ H O K) as [C _]. rewrite forallb_app in C. cbn [forallb] in C. ands.
          eapply c_pos; [now apply PS|apply (use n _ _ _ _ IH Hp); auto; [exact Logic.I|lia]|].
          apply IHk in H; auto. rewrite map_app in H. exact H.
        + destruct pos; [|discriminate]. destruct (comp_for p (KFor :: l0)) as [[[[x it] c] r1]|] eqn:F; [|discriminate].
          cbn [pbind] in H. hd r1 H. injection H as <- <- <-. cbn [forallb holes_ok] in O. ands.
          apply (s_for _ _ _ _ _) in F; auto; [|destruct c; auto|exact Logic.I].
          eapply (c_gen (sub ts) (plug a) (sub l0)); [now apply PS| |exact F].
          apply (use n _ _ _ _ IH Hp); auto; [exact Logic.I|lia].
    Qed.

    Lemma s_trail k : forall a ts b r, trailers p k a ts = Some (b, r) -> ok b = true -> nn r ->
      PTrail (plug a) (sub ts) (plug b) (sub r).
    Proof.
      induction k as [|k IHk]; intros a ts b r H O N; [discriminate|].
      pose proof (trail_ok _ _ _ _ _ _ H O) as [_ Q]. cbn [trailers] in H.
      assert (Z : Some (a, ts) = Some (b, r) -> stops 13 r -> PTrail (plug a) (sub ts) (plug b) (sub r)).
      { injection 1 as <- <-. intros St. apply stops_trailers. now apply stops_sub. }
      destruct ts as [|t ts]; [apply Z; auto; injection H as <- <-; exact Logic.I|].
      destruct t; try (apply Z; [exact H|]; injection H as <- <-; first [exact Logic.I|cbn; lia|idtac]).
      - destruct (call_args p k [] [] ts) as [[[l1 ks] ts1]|] eqn:Hp; [|discriminate]. cbn [pbind fst snd] in H.
        destruct (trail_ok _ _ _ _ _ _ H O) as [K _]. cbn [holes_ok] in K. ands.
        change (sub (LPar :: ts)) with (LPar :: sub ts). eapply t_call.
        + eapply (s_args k [] [] ts l1 ks); eauto.
        + apply IHk in H; auto.
      - bd H. hd l H. destruct (trail_ok _ _ _ _ _ _ H O) as [K _]. cbn [holes_ok] in K. ands.
        change (sub (LBr :: ts)) with (LBr :: sub ts). eapply t_sub.
        + apply (use n _ _ _ _ IH Hp); auto; [exact Logic.I|lia].
        + apply IHk in H; auto.
      - hd ts H. destruct (trail_ok _ _ _ _ _ _ H O) as [K _]. cbn [holes_ok] in K. ands.
        change (sub (Dot :: TName x :: ts)) with (Dot :: sub (TName x :: ts)). rewrite sub_name by (now apply Hclear).
        apply t_attr. apply IHk in H; auto.
      - cbn [stops power]. destruct (teqb o (T "**")); [lia|]. pose proof (bin_level_cases o).
        destruct (Nat.eqb (bin_level o) 0); [destruct (is_comparison o); [lia|exact Logic.I]|lia].
    Qed.

    Definition plain_head (ts : list token) : Prop := match ts with TName x :: _ => hole x = None | _ => True end.
    Lemma s_atom k ts a r : atom p k ts = Some (a, r) -> ok a = true -> plain_head ts -> PAtom (sub ts) (plug a) (sub r).
    Proof.
      intros H O Hd. unfold atom in H. hd ts H.
      - injection H as <- <-. cbn [plain_head] in Hd. rewrite sub_name by exact Hd. cbn [Spec_Inline.plug]. rewrite (Harg0 _ Hd). apply a_name.
      - injection H as <- <-. apply a_num.
      - injection H as <- <-. apply a_str.
      - injection H as <- <-. apply a_const.
      - change (sub (LPar :: ts)) with (LPar :: sub ts).
        assert (B : pbind (p 0 ts) (fun e r => match r with
                      | RPar :: r => Some (e, r)
                      | KFor :: _ => pbind (comp_for p r) (fun f r => let '(x, it, c) := f in gen_rest p e x it c r)
                      | Comma :: _ => pbind (more p k RPar [e] r) (fun l r => Some (ATuple l, r))
                      | _ => None end) = Some (a, r) -> PAtom (LPar :: sub ts) (plug a) (sub r)).
        { clear H. intros H. bd H. hd l H.
          - injection H as <- <-. apply a_paren. apply (use n _ _ _ _ IH Hp); fits.
          - destruct (more p k RPar [a0] (Comma :: l)) as [[l1 r1]|] eqn:M; [|discriminate]. injection H as <- <-. cbn [holes_ok] in O.
            pose proof (more_ok _ _ _ _ _ _ _ M O) as A. cbn [forallb] in A. ands.
            eapply (a_tuple _ (plug a0) (sub l)); [apply (use n _ _ _ _ IH Hp); fits|].
            apply s_more in M; auto. now left.
          - destruct (comp_for p (KFor :: l)) as [[[[x it] c] r1]|] eqn:F; [|discriminate]. cbn [pbind gen_rest] in H.
            assert (D : (c = None /\ exists r2 y it2 c2 , r1 = KFor :: r2 /\ comp_for p r1 = Some ((y, it2, c2), RPar :: r) /\ a = AComp2 a0 x it y it2 c2) \/
                        r1 = RPar :: r /\ a = AComp GGen [a0] x it c).
            { unfold gen_rest in H. hd r1 H; [injection H as <- <-; right; auto|].
              destruct c as [c|]; [discriminate|]. left. split; [reflexivity|].
              destruct (comp_for p (KFor :: r1)) as [[[[y it2] c2] r2]|] eqn:F2; [|discriminate]. cbn [pbind] in H.
              unfold close in H. hd r2 H. injection H as <- <-. eauto 10. }
            destruct D as [(-> & r2 & y & it2 & c2 & -> & F2 & ->)|(-> & ->)]; cbn [holes_ok forallb] in O; ands.
            + apply s_for in F; fits. apply s_for in F2; fits; [|destruct c2; auto].
              eapply (a_gen2 _ (plug a0) (sub l) x (plug it) (sub r2)); [|exact F|exact F2].
              apply (use n _ _ _ _ IH Hp); fits.
            + apply s_for in F; fits; [|destruct c; auto].
              eapply (a_gen _ (plug a0) (sub l)); [|exact F].
              apply (use n _ _ _ _ IH Hp); fits. }
        destruct ts as [|t ts]; [now apply B in H|]. destruct t; try (now apply B in H).
        injection H as <- <-. exists 0. reflexivity.
      - change (sub (LBr :: ts)) with (LBr :: sub ts).
        assert (B : pbind (p 0 ts) (fun e r => match r with
                      | KFor :: _ => pbind (comp_for p r) (fun f r => let '(x, it, c) := f in close RBr r (AComp GList [e] x it c))
                      | _ => pbind (more p k RBr [e] r) (fun l r => Some (AList l, r)) end) = Some (a, r) ->
                    PAtom (LBr :: sub ts) (plug a) (sub r)).
        { clear H. intros H. bd H.
          assert (C : pbind (more p k RBr [a0] l) (fun l r => Some (AList l, r)) = Some (a, r) ->
                      PAtom (LBr :: sub ts) (plug a) (sub r)).
          { clear H. intros H. bd H. injection H as <- <-. cbn [holes_ok] in O.
            pose proof (more_ok _ _ _ _ _ _ _ Hp0 O) as A. cbn [forallb] in A. ands.
            assert (N : nn l). { destruct k; [discriminate|]. cbn [more] in Hp0. hd l Hp0; exact Logic.I. }
            eapply (a_list _ (plug a0) (sub l)); [apply (use n _ _ _ _ IH Hp); fits|].
            apply s_more in Hp0; auto. right. now left. }
          destruct l as [|t l]; [now apply C in H|]. destruct t; try (now apply C in H).
          destruct (comp_for p (KFor :: l)) as [[[[x it] c] r1]|] eqn:F; [|discriminate]. cbn [pbind] in H.
          unfold close in H. hd r1 H. injection H as <- <-. cbn [holes_ok forallb] in O. ands.
          apply s_for in F; fits; [|destruct c; auto].
          eapply (a_listcomp _ (plug a0) (sub l)); [|exact F].
          apply (use n _ _ _ _ IH Hp); fits. }
        destruct ts as [|t ts]; [now apply B in H|]. destruct t; try (now apply B in H).
        injection H as <- <-. exists 0. reflexivity.
      - change (sub (LBrace :: ts)) with (LBrace :: sub ts).
        assert (B : pbind (p 0 ts) (fun e r => match r with
                      | Colon :: r =>
                          pbind (p 0 r) (fun v r =>
                          match r with
                          | KFor :: _ => pbind (comp_for p r) (fun f r =>
                                           let '(x, it, c) := f in close RBrace r (AComp GDict [e; v] x it c))
                          | _ => pbind (more_pairs p k [(e, v)] r) (fun l r => Some (ADict l, r))
                          end)
                      | KFor :: _ => pbind (comp_for p r) (fun f r =>
                                       let '(x, it, c) := f in close RBrace r (AComp GSet [e] x it c))
                      | _ => pbind (more p k RBrace [e] r) (fun l r => Some (ASet l, r)) end) = Some (a, r) ->
                    PAtom (LBrace :: sub ts) (plug a) (sub r)).
        { clear H. intros H. bd H.
          assert (C : pbind (more p k RBrace [a0] l) (fun l r => Some (ASet l, r)) = Some (a, r) ->
                      PAtom (LBrace :: sub ts) (plug a) (sub r)).
          { clear H. intros H. bd H. injection H as <- <-. cbn [holes_ok] in O.
            pose proof (more_ok _ _ _ _ _ _ _ Hp0 O) as A. cbn [forallb] in A. ands.
            assert (N : nn l). { destruct k; [discriminate|]. cbn [more] in Hp0. hd l Hp0; exact Logic.I. }
            eapply (a_set _ (plug a0) (sub l)); [apply (use n _ _ _ _ IH Hp); fits|].
            apply s_more in Hp0; auto. right. right. now left. }
          destruct l as [|t l]; [now apply C in H|]. destruct t; try (now apply C in H).
          - bd H.
            assert (D : pbind (more_pairs p k [(a0, a1)] l0) (fun l r => Some (ADict l, r)) = Some (a, r) ->
                        PAtom (LBrace :: sub ts) (plug a) (sub r)).
            { clear H. intros H. bd H. injection H as <- <-. cbn [holes_ok] in O.
              pose proof (pairs_ok _ _ _ _ _ _ Hp1 O) as A. cbn [forallb fst snd] in A. ands.
              assert (N : nn l0). { destruct k; [discriminate|]. cbn [more_pairs] in Hp1. hd l0 Hp1; exact Logic.I. }
              eapply (a_dict _ (plug a0) (sub l) (plug a1) (sub l0)).
              - apply (use n _ _ _ _ IH Hp); fits.
              - apply (use n _ _ _ _ IH Hp0); fits.
              - apply s_pairs in Hp1; auto. }
            destruct l0 as [|t l0]; [now apply D in H|]. destruct t; try (now apply D in H).
            destruct (comp_for p (KFor :: l0)) as [[[[x it] c] r1]|] eqn:F; [|discriminate]. cbn [pbind] in H.
            unfold close in H. hd r1 H. injection H as <- <-. cbn [holes_ok forallb] in O. ands.
            apply s_for in F; fits; [|destruct c; auto].
            eapply (a_dictcomp _ (plug a0) (sub l) (plug a1) (sub l0)); [| |exact F].
            + apply (use n _ _ _ _ IH Hp); fits.
            + apply (use n _ _ _ _ IH Hp0); fits.
          - destruct (comp_for p (KFor :: l)) as [[[[x it] c] r1]|] eqn:F; [|discriminate]. cbn [pbind] in H.
            unfold close in H. hd r1 H. injection H as <- <-. cbn [holes_ok forallb] in O. ands.
            apply s_for in F; fits; [|destruct c; auto].
            eapply (a_setcomp _ (plug a0) (sub l)); [|exact F].
            apply (use n _ _ _ _ IH Hp); fits. }
        destruct ts as [|t ts]; [now apply B in H|]. destruct t; try (now apply B in H).
        injection H as <- <-. exists 0. reflexivity.
    Qed.

    Definition PBin (l : nat) (a : ast) (ts : list token) (b : ast) (r : list token) : Prop :=
      exists m, bin_loop (parse m) m l a ts = Some (b, r).
    Lemma s_bin l k : 5 <= l <= 10 -> forall a ts b r, bin_loop p k l a ts = Some (b, r) -> ok b = true -> nn r ->
      nn ts /\ PBin l (plug a) (sub ts) (plug b) (sub r).
    Proof.
      intros L. induction k as [|k IHk]; intros a ts b r H O N; [discriminate|]. cbn [bin_loop] in H.
      destruct ts as [|t ts]; [injection H as <- <-; split; [exact Logic.I|exists 1; reflexivity]|].
      destruct t; try (injection H as <- <-; split; [first [exact Logic.I|exact N]|first [exists 1; reflexivity|contradiction]]).
      split; [exact Logic.I|]. change (sub (TBin o :: ts)) with (TBin o :: sub ts).
      destruct (Nat.eqb (bin_level o) l) eqn:E.
      - bd H. pose proof (bin_ok _ _ _ _ _ _ _ H O) as A. cbn [holes_ok] in A. ands.
        destruct (IHk _ _ _ _ H O N) as [N1 [m M]].
        apply (use n _ _ _ _ IH) in Hp; fits. destruct Hp as [m2 M2].
        exists (S (m + m2)). cbn [bin_loop]. rewrite E.
        apply (P_le m2 (S (m + m2))) in M2; [|lia]. rewrite M2. cbn [pbind].
        apply (L_le m (m + m2)) in M; [|lia]. revert M. apply bin_loop_mono; [apply parse_S|lia].
      - injection H as <- <-. exists 1. cbn [bin_loop]. change (sub (TBin o :: ts)) with (TBin o :: sub ts). now rewrite E.
    Qed.
    Lemma cmp_op_sub ts : nn ts -> 
      match comparison_op ts with
      | Some (o, r) => comparison_op (sub ts) = Some (o, sub r)
      | None => comparison_op (sub ts) = None
      end.
    Proof.
      intros N. destruct ts as [|t ts]; [reflexivity|]. destruct t; try reflexivity; try contradiction.
      - change (sub (TBin o :: ts)) with (TBin o :: sub ts). cbn [comparison_op]. destruct (is_comparison o); reflexivity.
      - change (sub (KNot :: ts)) with (KNot :: sub ts). cbn [comparison_op].
        destruct ts as [|u us]; [reflexivity|]. destruct u; try reflexivity.
        destruct (hole x) as [[w b]|] eqn:E; [|rewrite sub_name by exact E; reflexivity].
        rewrite (sub_hole _ _ _ _ E). destruct (hole_head _ _ _ E) as (u & w' & -> & Op & NK).
        pose proof (Htok _ _ _ E) as HT. destruct u; try reflexivity.
        exfalso. pose proof (Hlev _ _ _ E 0 [] ltac:(lia) Logic.I) as [m Q]. cbn [app] in Q.
        rewrite P_start in Q; [discriminate|reflexivity|exact Logic.I].
      - change (sub (KIs :: ts)) with (KIs :: sub ts). cbn [comparison_op].
        destruct ts as [|u us]; [reflexivity|]. destruct u; try reflexivity.
        destruct (hole x) as [[w b]|] eqn:E; [|rewrite sub_name by exact E; reflexivity].
        rewrite (sub_hole _ _ _ _ E). destruct (hole_head _ _ _ E) as (u & w' & -> & Op & NK).
        destruct u; try reflexivity. contradiction.
    Qed.
    Lemma s_cmp k : forall acc ts l r, cmp_loop p k acc ts = Some (l, r) ->
      forallb (fun q : text * ast => ok (snd q)) l = true -> nn r ->
      nn ts /\ PCmp (plugs acc) (sub ts) (plugs l) (sub r).
    Proof.
      induction k as [|k IHk]; intros acc ts l r H O N; [discriminate|]. cbn [cmp_loop] in H.
      assert (NT : nn ts). { destruct ts as [|t ts]; [exact Logic.I|]. destruct t; try exact Logic.I.
        cbn in H. injection H as <- <-. exact N. }
      split; [exact NT|]. pose proof (cmp_op_sub ts NT) as C. destruct (comparison_op ts) as [[o ts1]|].
      - bd H. pose proof (cmp_ok _ _ _ _ _ _ H O) as A. rewrite forallb_app in A. cbn [forallb snd] in A. ands.
        destruct (IHk _ _ _ _ H O N) as [N1 M]. eapply cmp_more; [exact C| |].
        + apply (use n _ _ _ _ IH Hp); fits.
        + rewrite map_app in M. exact M.
      - injection H as <- <-. exists 1. cbn [cmp_loop]. now rewrite C.
    Qed.
    Lemma s_bool o k : forall acc ts l r, bool_loop p k o acc ts = Some (l, r) -> forallb ok l = true -> nn r ->
      nn ts /\ PBools o (map plug acc) (sub ts) (map plug l) (sub r).
    Proof.
      induction k as [|k IHk]; intros acc ts l r H O N; [discriminate|]. cbn [bool_loop] in H.
      assert (Z : Some (acc, ts) = Some (l, r) -> stops (if o then 1 else 2) ts \/ (forall q, ts = KAnd :: q -> o = true) /\ (forall q, ts = KOr :: q -> o = false) ->
                  nn ts /\ PBools o (map plug acc) (sub ts) (map plug l) (sub r)).
      { injection 1 as <- <-. intros St. split; [exact N|]. exists 1. cbn [bool_loop].
        destruct o, ts as [|t ts]; auto; destruct t; try reflexivity; try contradiction; destruct St as [St|[S1 S2]];
          try (cbn in St; lia); try (now specialize (S1 _ eq_refl)); now specialize (S2 _ eq_refl). }
      assert (G : forall ts1 (q := if o then KOr else KAnd), ts = q :: ts1 ->
                  pbind (p (if o then 2 else 3) ts1) (fun b r => bool_loop p k o (acc ++ [b]) r) = Some (l, r) ->
                  nn ts /\ PBools o (map plug acc) (sub ts) (map plug l) (sub r)).
      { intros ts1 q -> H1. split; [destruct o; exact Logic.I|]. bd H1.
        pose proof (bool_ok _ _ _ _ _ _ _ H1 O) as A. rewrite forallb_app in A. cbn [forallb] in A. ands.
        destruct (IHk _ _ _ _ H1 O N) as [N1 M].
        replace (sub (q :: ts1)) with (q :: sub ts1) by (destruct o; reflexivity).
        eapply b_more; [apply (use n _ _ _ _ IH Hp); auto; destruct o; lia|].
        rewrite map_app in M. exact M. }
      destruct o; (destruct ts as [|t ts]; [apply Z; [exact H|left; exact Logic.I]|]);
        destruct t; try (apply Z; [exact H|right; split; congruence]); eapply G; eauto.
    Qed.
    Lemma of_bool_ok o l : ok (of_bool o l) = true -> forallb ok l = true.
    Proof. destruct l as [|a [|b l]]; auto. intros H. cbn [forallb]. cbn [of_bool] in H. now rewrite H. Qed.
    Lemma of_bool_plug o l : plug (of_bool o l) = of_bool o (map plug l).
    Proof. destruct l as [|a [|b l]]; reflexivity. Qed.
    Lemma of_cmp_ok a l : ok (of_compare a l) = true -> ok a = true /\ forallb (fun q : text * ast => ok (snd q)) l = true.
    Proof. destruct l; cbn [of_compare holes_ok]; intros H; [auto|]. now ands. Qed.
    Lemma of_cmp_plug a l : plug (of_compare a l) = of_compare (plug a) (plugs l).
    Proof. destruct l; reflexivity. Qed.
    Lemma P_not_bin l o ts a r : 11 < l -> ~ P l (TBin o :: ts) a r.
    Proof.
      intros L [m H]. revert l L a r H. induction m as [|m IHm]; intros l L a r H; [discriminate|]. cbn [parse] in H.
      do 12 (destruct l as [|l]; [lia|]). destruct l as [|l]; [|discriminate H]. cbn [level] in H.
      destruct (parse m 13 (TBin o :: ts)) as [[b r1]|] eqn:E; [|discriminate]. apply (IHm 13 ltac:(lia) _ _ E).
    Qed.
    Lemma stops_12_11 r : stops 12 r -> stops 11 r.
    Proof.
      destruct r as [|t r]; auto. destruct t; cbn [stops power]; auto; try lia.
      pose proof (bin_level_cases o). destruct (teqb o (T "**")); [lia|].
      destruct (Nat.eqb (bin_level o) 0); [destruct (is_comparison o); lia|lia].
    Qed.

    Lemma claim_S : claim (S n).
    Proof.
      intros l ts a r H O N. cbn [parse] in H.
      destruct l as [|[|[|[|[|[|[|[|[|[|[|[|[|l]]]]]]]]]]]]];
        (split; intros LV; try (exfalso; lia); clear LV); cbn [level] in H.
      - (* 0 *) bd H.
        assert (D : (exists l1 c l2 f, l = KIf :: l1 /\ p 1 l1 = Some (c, KElse :: l2) /\ p 0 l2 = Some (f, r) /\ a = AIf c a0 f) \/
                    l = r /\ a = a0 /\ match r with KIf :: _ => False | _ => True end).
        { destruct l as [|t l]; [injection H as <- <-; right; auto|].
          destruct t; try (injection H as <- <-; right; repeat split). bd H. hd l0 H. bd H. injection H as <- <-. left. eauto 10. }
        destruct D as [(l1 & c & l2 & f & -> & E1 & E2 & ->)|(-> & -> & NK)].
        + cbn [holes_ok] in O. ands. eapply o_if.
          * apply (use n _ _ _ _ IH Hp); fits.
          * apply (use n _ _ _ _ IH E1); fits.
          * apply (use n _ _ _ _ IH E2); fits.
        + apply (use n _ _ _ _ IH) in Hp; fits. destruct Hp as [m M]. exists (S m). cbn [parse level]. rewrite M. cbn [pbind].
          destruct r as [|t r]; [reflexivity|]. destruct t; try reflexivity; contradiction.
      - (* 1 *) bd H. bd H. injection H as <- <-. pose proof (of_bool_ok _ _ O) as O'.
        pose proof (bool_ok _ _ _ _ _ _ _ Hp0 O') as A. cbn [forallb] in A. ands.
        destruct (s_bool _ _ _ _ _ _ Hp0 O' N) as [N1 M]. rewrite of_bool_plug.
        apply (o_bool true _ (plug a0) (sub l)); [|exact M]. apply (use n _ _ _ _ IH Hp); fits.
      - (* 2 *) bd H. bd H. injection H as <- <-. pose proof (of_bool_ok _ _ O) as O'.
        pose proof (bool_ok _ _ _ _ _ _ _ Hp0 O') as A. cbn [forallb] in A. ands.
        destruct (s_bool _ _ _ _ _ _ Hp0 O' N) as [N1 M]. rewrite of_bool_plug.
        apply (o_bool false _ (plug a0) (sub l)); [|exact M]. apply (use n _ _ _ _ IH Hp); fits.
      - (* 3 *)
        assert (B : p 4 ts = Some (a, r) -> match ts with KNot :: _ => False | _ => True end -> P 3 (sub ts) (plug a) (sub r)).
        { clear H. intros H NT. apply (use n _ _ _ _ IH) in H; fits. destruct H as [m M]. exists (S m). cbn [parse level].
          assert (NS : match sub ts with KNot :: _ => False | _ => True end).
          { destruct ts as [|t ts]; [exact Logic.I|]. destruct t; try exact Logic.I; [|contradiction].
            destruct (hole x) as [[w b]|] eqn:E; [|rewrite sub_name by exact E; exact Logic.I].
            rewrite (sub_hole _ _ _ _ E). destruct (hole_head _ _ _ E) as (u & w' & -> & Op & NK). destruct u; try exact Logic.I. contradiction. }
          destruct (sub ts) as [|u us]; [exact M|]. destruct u; try exact M. contradiction. }
        destruct ts as [|t ts]; [apply B; auto|]. destruct t; try (apply B; [exact H|exact Logic.I]).
        bd H. injection H as <- <-. change (sub (KNot :: ts)) with (KNot :: sub ts). apply o_not.
        apply (use n _ _ _ _ IH Hp); fits.
      - (* 4 *) bd H. bd H. injection H as <- <-. destruct (of_cmp_ok _ _ O) as [O1 O2].
        destruct (s_cmp _ _ _ _ _ Hp0 O2 N) as [N1 M]. rewrite of_cmp_plug.
        eapply o_cmp; [|exact M]. apply (use n _ _ _ _ IH Hp); fits.
      - bd H. destruct (s_bin 5 _ ltac:(lia) _ _ _ _ H O N) as [N1 [m M]]. apply (use n _ _ _ _ IH) in Hp; [|now apply (bin_ok _ _ _ _ _ _ _ H)|exact N1|lia].
        destruct Hp as [m2 M2]. exists (S (m + m2)). up (m + m2). cbn [parse level]. rewrite M2. exact M.
      - bd H. destruct (s_bin 6 _ ltac:(lia) _ _ _ _ H O N) as [N1 [m M]]. apply (use n _ _ _ _ IH) in Hp; [|now apply (bin_ok _ _ _ _ _ _ _ H)|exact N1|lia].
        destruct Hp as [m2 M2]. exists (S (m + m2)). up (m + m2). cbn [parse level]. rewrite M2. exact M.
      - bd H. destruct (s_bin 7 _ ltac:(lia) _ _ _ _ H O N) as [N1 [m M]]. apply (use n _ _ _ _ IH) in Hp; [|now apply (bin_ok _ _ _ _ _ _ _ H)|exact N1|lia].
        destruct Hp as [m2 M2]. exists (S (m + m2)). up (m + m2). cbn [parse level]. rewrite M2. exact M.
      - bd H. destruct (s_bin 8 _ ltac:(lia) _ _ _ _ H O N) as [N1 [m M]]. apply (use n _ _ _ _ IH) in Hp; [|now apply (bin_ok _ _ _ _ _ _ _ H)|exact N1|lia].
        destruct Hp as [m2 M2]. exists (S (m + m2)). up (m + m2). cbn [parse level]. rewrite M2. exact M.
      - bd H. destruct (s_bin 9 _ ltac:(lia) _ _ _ _ H O N) as [N1 [m M]]. apply (use n _ _ _ _ IH) in Hp; [|now apply (bin_ok _ _ _ _ _ _ _ H)|exact N1|lia].
        destruct Hp as [m2 M2]. exists (S (m + m2)). up (m + m2). cbn [parse level]. rewrite M2. exact M.
      - bd H. destruct (s_bin 10 _ ltac:(lia) _ _ _ _ H O N) as [N1 [m M]]. apply (use n _ _ _ _ IH) in Hp; [|now apply (bin_ok _ _ _ _ _ _ _ H)|exact N1|lia].
        destruct Hp as [m2 M2]. exists (S (m + m2)). up (m + m2). cbn [parse level]. rewrite M2. exact M.
      - (* 11 *)
        assert (B : p 12 ts = Some (a, r) -> P 11 (sub ts) (plug a) (sub r)).
        { clear H. intros H. destruct (IH 12 _ _ _ H O N) as [_ D]. destruct (D ltac:(lia)) as [Q|(v & Iv & Hv & -> & -> & St)].
          - assert (NB : match sub ts with TBin _ :: _ => False | _ => True end).
            { destruct (sub ts) as [|u us]; [exact Logic.I|]. destruct u; try exact Logic.I. apply P_not_bin in Q; [exact Q|lia]. }
            destruct Q as [m M]. exists (S m). cbn [parse level].
            destruct (sub ts) as [|u us]; [exact M|]. destruct u; try exact M. contradiction.
          - destruct (hole v) as [[w b]|] eqn:E; [|contradiction]. rewrite (sub_hole _ _ _ _ E). cbn [Spec_Inline.plug]. rewrite (Harg _ _ _ E).
            apply (Hlev _ _ _ E); [lia|]. apply stops_12_11. now apply stops_sub. }
        destruct ts as [|t ts]; [now apply B|]. destruct t; try (now apply B).
        destruct (is_unary o) eqn:U; [|discriminate]. bd H. injection H as <- <-.
        change (sub (TBin o :: ts)) with (TBin o :: sub ts). apply o_unary; [exact U|].
        apply (use n _ _ _ _ IH Hp); fits.
      - (* 12 *) bd H.
        assert (D : (exists l1 b, l = TBin (T "**") :: l1 /\ p 11 l1 = Some (b, r) /\ a = ABin (T "**") a0 b) \/
                    l = r /\ a = a0 /\ match r with TBin o :: _ => teqb o (T "**") = false | _ => True end).
        { destruct l as [|t l]; [injection H as <- <-; right; auto|].
          destruct t; try (injection H as <- <-; right; repeat split).
          destruct (teqb o (T "**")) eqn:E; [|injection H as <- <-; right; auto].
          bd H. injection H as <- <-. unfold teqb in E. destruct (text_eq_dec o (T "**")) as [->|]; [|discriminate]. left. eauto. }
        destruct D as [(l1 & b & -> & E1 & ->)|(-> & -> & NP)].
        + cbn [holes_ok] in O. ands.
          destruct (IH 13 _ _ _ Hp ltac:(assumption) Logic.I) as [_ D]. destruct (D ltac:(lia)) as [[m M]|(v & Iv & Hv & E & -> & St)].
          * left. apply (use n _ _ _ _ IH) in E1; fits. destruct E1 as [m2 M2]. exists (S (m + m2)). up (m + m2).
            cbn [parse level]. rewrite M. cbn [pbind]. change (sub (TBin (T "**") :: l1)) with (TBin (T "**") :: sub l1). cbv iota.
            replace (teqb (T "**") (T "**")) with true by reflexivity. cbv iota. rewrite M2. reflexivity.
          * cbn [int_var] in H0. rewrite Iv in H0. discriminate H0.
        + destruct (IH 13 _ _ _ Hp O N) as [_ D]. destruct (D ltac:(lia)) as [[m M]|(v & Iv & Hv & E & -> & St)].
          * left. exists (S m). cbn [parse level]. rewrite M. cbn [pbind].
            destruct r as [|t r]; [reflexivity|]. destruct t; try reflexivity; [contradiction|].
            change (sub (TBin o :: r)) with (TBin o :: sub r). cbv iota beta. rewrite NP. reflexivity.
          * right. exists v. repeat split; auto. cbn [Nat.min] in *.
            destruct r as [|t r]; [exact Logic.I|]. destruct t; cbn [stops power] in *; auto; try lia.
            rewrite NP in *. pose proof (bin_level_cases o).
            destruct (Nat.eqb (bin_level o) 0); [destruct (is_comparison o); fits|lia].
      - (* 13 and above *) bd H. rename l0 into ts1. rename a0 into b.
        assert (MIN : Nat.min (S (S (S (S (S (S (S (S (S (S (S (S (S l))))))))))))) 13 = 13) by lia.
        destruct (trail_ok _ _ _ _ _ _ H O) as [Ob Q].
        assert (LV : forall u q s, P 13 u q s -> P (S (S (S (S (S (S (S (S (S (S (S (S (S l))))))))))))) u q s).
        { intros u q s [m M]. exists m. destruct m; [discriminate|]. exact M. }
        assert (PLAIN : plain_head ts -> P 13 (sub ts) (plug a) (sub r)).
        { intros Ph. eapply p_primary; [eapply (s_atom n); eauto|]. eapply s_trail; eauto. }
        destruct ts as [|t ts]; [left; now apply LV, PLAIN|].
        destruct t; try (left; now apply LV, PLAIN).
        destruct (hole x) as [[w c]|] eqn:E; [|left; apply LV, PLAIN; exact E].
        cbn [atom] in Hp. injection Hp as <- <-.
        destruct (int x) eqn:Ix.
        + destruct Q as [(-> & -> & St)|Q]; [|cbn [int_var] in Q; congruence].
          right. exists x. rewrite MIN. repeat split; auto. congruence.
        + left. apply LV. rewrite (sub_hole _ _ _ _ E). apply (Hprim _ _ _ E Ix).
          apply (s_trail n) in H; auto. cbn [Spec_Inline.plug] in H. rewrite (Harg _ _ _ E) in H. exact H.
    Qed.
  End Fuel.

  Lemma claim_all n : claim n.
  Proof. induction n as [|n IH]; [intros l ts a r H; discriminate|]. now apply claim_S. Qed.
  Lemma plug_parse ts a : P 0 ts a [] -> ok a = true -> P 0 (flat_map sub1 ts ++ RPar :: tail_) (plug a) (RPar :: tail_).
  Proof. intros [n H] O. apply (use n _ _ _ _ (claim_all n) H O Logic.I). lia. Qed.
End Plug.
