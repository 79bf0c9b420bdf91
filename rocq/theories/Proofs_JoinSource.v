(** Iterators of rows in the memory of Spec_GenRun.v, and loops over them. *)
From Coq Require Import String Ascii List NArith ZArith Bool Arith Lia.
From Verif Require Import Model_PyVal Model_Join Model_Code Spec_Syntax Spec_Source Spec_GenRun Proofs_GenRun Model_JoinFuncs Proofs_JoinCond.
Import ListNotations.

(** the first row that passes *)
Inductive found : Type := Found (y : robj) (r : list (res robj)) | Nothing | Failed (e : exc).
Fixpoint seek (p : robj -> res bool) (u : list (res robj)) : found :=
  match u with
  | [] => Nothing
  | Err e :: _ => Failed e
  | Ok y :: r => match p y with Err e => Failed e | Ok true => Found y r | Ok false => seek p r end
  end.
Definition all_rows (y : robj) : res bool := Ok true.
Definition both (p q : robj -> res bool) (y : robj) : res bool := do a <- p y; if (a : bool) then q y else Ok false.
Lemma seek_both p q u :
  seek (both p q) u =
  match seek p u with
  | Found y r => match q y with Err e => Failed e | Ok true => Found y r | Ok false => seek (both p q) r end
  | Nothing => Nothing
  | Failed e => Failed e
  end.
Proof.
  induction u as [|[y|e] u IH]; cbn [seek]; [reflexivity| |reflexivity].
  unfold both at 1. destruct (p y) as [[|]|e]; cbn [bind]; [|exact IH|reflexivity]. destruct (q y) as [[|]|e]; reflexivity.
Qed.
Lemma seek_shorter p u y r : seek p u = Found y r -> length r < length u.
Proof.
  induction u as [|[z|e] u IH]; cbn [seek]; try discriminate.
  destruct (p z) as [[|]|e]; try discriminate.
  - intros [= <- <-]. cbn. lia.
  - intros H. apply IH in H. cbn. lia.
Qed.
Lemma seek_ext p q u : (forall y, p y = q y) -> seek p u = seek q u.
Proof. intros E. induction u as [|[y|e] u IH]; cbn [seek]; [reflexivity| |reflexivity]. rewrite E. destruct (q y) as [[|]|e]; auto. Qed.

Definition apart (l l' : list nat) : Prop := forall x, In x l -> ~ In x l'.

Lemma frames_set_todo m g c : frames (set_todo m g c) g = mkFrame (vars (frames m g)) (around (frames m g)) c.
Proof. cbn. apply at_same. Qed.
Lemma frames_set_var m g x v : frames (set_var m g x v) g = mkFrame (put_var (vars (frames m g)) x v) (around (frames m g)) (todo (frames m g)).
Proof. cbn. apply at_same. Qed.

Section Sources.
  Variable globals : text -> option pv.
  Variable opr : text -> list val -> res val.
  Variable gfuns : text -> option gfun.
  Variable indexers : text -> option (list val -> list (val * list robj) -> robj -> res (list (val * list robj))).
  Variable cl : string.
  Notation runs := (runs globals opr gfuns indexers).
  Notation nexts := (nexts globals opr gfuns indexers).
  Notation evals := (evals globals opr gfuns indexers).
  Notation gives := (gives globals opr gfuns indexers).
  Notation worth := (worth globals opr gfuns indexers).
  Notation keeps := (keeps cl).
  Notation leaves := (leaves cl).

  (** An iterator of rows: the frames and iterators next() of it changes, the frames it
      reads besides, the rows it skips, and when it still has [u] to go through. *)
  Record source : Type := mkSource {
    s_pv : pv;
    s_F : list nat;
    s_I : list nat;
    s_R : list nat;
    s_test : robj -> res bool;
    s_at : mem -> list (res robj) -> Prop }.
  Definition advances (s : source) (m : mem) (u : list (res robj)) : Prop :=
    exists m' o, nexts (s_pv s) m m' o /\ leaves (s_F s) (s_I s) m m' /\
      match seek (s_test s) u with
      | Found y r => o = GItem (Obj y) /\ s_at s m' r
      | Nothing => o = GEnd /\ s_at s m' []
      | Failed e => o = GFail e
      end.
  Definition works (s : source) : Prop :=
    (forall m u, s_at s m u -> advances s m u) /\
    (forall m u m' F I, s_at s m u -> keeps F I m m' -> apart F (s_F s) -> apart F (s_R s) -> apart I (s_I s) -> s_at s m' u) /\
    (forall m u, s_at s m u -> (forall f, In f (s_F s) -> f < nframes m) /\ (forall f, In f (s_I s) -> f < niters m)).

  (** iter(list) or an iterator that is given *)
  Definition plain_source (i : nat) : source :=
    mkSource (Iter i) [] [i] [] all_rows (fun m u => i < niters m /\ iters m i = u).
  Lemma plain_works i : works (plain_source i).
  Proof.
    split; [|split].
    - intros m u [L E]. destruct u as [|[y|e] u]; unfold advances; cbn [plain_source s_test s_at s_pv s_F s_I seek all_rows].
      + exists m, GEnd. split; [now apply nexts_iter_end|]. split; [apply leaves_refl|auto].
      + eexists _, _. split; [apply (nexts_iter_item _ _ _ _ _ _ _ _ E)|]. split; [apply leaves_iter; now left|]. split; [reflexivity|]. split; [exact L|]. cbn. apply at_same.
      + eexists _, _. split; [apply (nexts_iter_fail _ _ _ _ _ _ _ _ E)|]. split; [apply leaves_iter; now left|]. reflexivity.
    - intros m u m' F I [L E] K _ _ A. cbn in A. split.
      + pose proof (k_ni _ _ _ _ _ K). lia.
      + rewrite (k_iters _ _ _ _ _ K); auto. intros X. apply (A i X). now left.
    - intros m u [L E]. cbn. split; [intros f []|]. intros f [<-|[]]. exact L.
  Qed.

  (** *** for x in source: if c: yield e *)
  Section Loop.
    Variable s : source.
    Hypothesis S : works s.
    Variable g : nat.
    Variable x : text.
    Variable c : option ast.
    Variable e : ast.
    Variable k : list kont.
    Variable vs : list (text * option pv).
    Variable sc : list nat.
    Variable Q : mem -> Prop.
    Variable p : robj -> res bool.
    Variable item : robj -> pv.
    Hypothesis NG : ~ In g (s_F s) /\ ~ In g (s_R s).
    Hypothesis HQ : forall m m', Q m -> leaves (g :: s_F s) (s_I s) m m' -> Q m'.
    Definition loop_body : list gstmt := match c with Some c => [GIf c [GYield e] []] | None => [GYield e] end.
    Definition bound (m : mem) (y : robj) : Prop := g < nframes m /\ frames m g = mkFrame (put_var vs x (Obj y)) sc None.
    Hypothesis test : match c with
      | None => forall y, p y = Ok true
      | Some c => forall m y, Q m -> bound m y -> exists q, worth (g :: sc) c m q /\ p y = do v <- q; Ok (truthy v)
      end.
    Hypothesis emit : forall m y, Q m -> bound m y -> gives (g :: sc) e m m (Ok (item y)).
    Notation code := (KLoop [x] (s_pv s) loop_body :: k).

    Lemma bound_var m m1 y vs' : (forall w, put_var vs' x w = put_var vs x w) -> g < nframes m -> frames m g = mkFrame vs' sc None ->
      leaves (s_F s) (s_I s) m m1 -> bound (set_var m1 g x (Obj y)) y.
    Proof.
      intros V L E (K & _). split; [cbn; pose proof (k_nf _ _ _ _ _ K); lia|].
      rewrite frames_set_var. rewrite (k_frames _ _ _ _ _ K) by (auto; apply NG). rewrite E. cbn. now rewrite V.
    Qed.

    Lemma loop_runs : forall n u m vs', length u <= n -> s_at s m u -> Q m -> g < nframes m ->
      (forall w, put_var vs' x w = put_var vs x w) -> frames m g = mkFrame vs' sc None ->
      match seek (both (s_test s) p) u with
      | Found y r => exists m', runs g code m m' (GItem (item y)) /\ leaves (g :: s_F s) (s_I s) m m' /\ s_at s m' r /\
          frames m' g = mkFrame (put_var vs x (Obj y)) sc (Some code)
      | Nothing => exists m1 vs1, (forall m' o, runs g k m1 m' o -> runs g code m m' o) /\ leaves (g :: s_F s) (s_I s) m m1 /\ s_at s m1 [] /\
          (vs1 = vs' \/ exists y, vs1 = put_var vs x (Obj y)) /\ frames m1 g = mkFrame vs1 sc None
      | Failed e => exists m', runs g code m m' (GFail e) /\ leaves (g :: s_F s) (s_I s) m m' /\ todo (frames m' g) = Some []
      end.
    Proof.
      destruct S as (ADV & STAY & _).
      induction n as [|n IH]; intros u m vs' LN AT QM L V E.
      all: destruct (ADV m u AT) as (m1 & o & NX & LV & O); rewrite seek_both; destruct (seek (s_test s) u) as [y r| |e0] eqn:SK.
      1: { apply seek_shorter in SK. lia. }
      3: {
        destruct O as [-> AT1]. set (m2 := set_var m1 g x (Obj y)).
        assert (B : bound m2 y) by now apply (bound_var m m1 y vs').
        assert (LV2 : leaves (g :: s_F s) (s_I s) m m2).
        { apply leaves_trans with m1; [apply leaves_weaken with (s_F s) (s_I s); [exact LV|apply incl_tl, incl_refl|apply incl_refl]|apply leaves_var; now left]. }
        assert (Q2 : Q m2) by (apply HQ with m; [exact QM|apply LV2]).
        assert (AT2 : s_at s m2 r).
        { apply STAY with m1 [g] []; [exact AT1|apply leaves_var; now left|intros z [<-|[]]; apply NG|intros z [<-|[]]; apply NG|intros z []]. }
        assert (YIELD : forall k', runs g (KDo (GYield e) :: k') m2 (set_todo m2 g (Some k')) (GItem (item y))).
        { intros k'. apply runs_yield. apply gives_evals. destruct B as [_ B]. rewrite B at 1. cbn [around]. apply emit; auto. split; [|exact B]. cbn. pose proof (k_nf _ _ _ _ _ (proj1 LV2)). cbn in *. lia. }
        assert (DONE : exists m', m' = set_todo m2 g (Some code) /\ leaves (g :: s_F s) (s_I s) m m' /\ s_at s m' r /\ frames m' g = mkFrame (put_var vs x (Obj y)) sc (Some code)).
        { eexists. split; [reflexivity|]. split; [apply leaves_trans with m2; [exact LV2|apply leaves_todo; now left]|]. split.
          - apply STAY with m2 [g] []; [exact AT2|apply leaves_todo; now left|intros z [<-|[]]; apply NG|intros z [<-|[]]; apply NG|intros z []].
          - rewrite frames_set_todo. destruct B as [_ ->]. reflexivity. }
        destruct DONE as (m' & -> & D1 & D2 & D3).
        assert (LB : match c with Some c => loop_body = [GIf c [GYield e] []] | None => loop_body = [GYield e] end) by (unfold loop_body; destruct c; reflexivity).
        destruct c as [c0|].
        - destruct (test m2 y Q2 B) as (q & (r0 & GV & RL) & PY). rewrite PY.
          assert (EV : evals (g :: around (frames m2 g)) c0 m2 m2 r0) by (apply gives_evals; destruct B as [_ ->]; exact GV).
          destruct q as [v|e1]; cbn [rel bind] in *.
          + destruct RL as (pp & -> & PL). destruct (truthy v) eqn:TV.
            * eexists. split; [|eauto]. eapply runs_loop_item; [exact NX|reflexivity|]. rewrite LB at 1. cbn [map app].
              eapply runs_if; [exact EV|]. rewrite (plain_truth _ _ _ PL), TV. cbn [map app]. apply YIELD.
            * assert (R : forall m' o, runs g code m2 m' o -> runs g code m m' o).
              { intros m' o R. eapply runs_loop_item; [exact NX|reflexivity|]. rewrite LB at 1. cbn [map app].
                eapply runs_if; [exact EV|]. rewrite (plain_truth _ _ _ PL), TV. cbn [map app]. exact R. }
              assert (LR : length r <= n) by (apply seek_shorter in SK; lia).
              specialize (IH r m2 (put_var vs x (Obj y)) LR AT2 Q2 (proj1 B) (fun w => put_put vs x (Obj y) w) (proj2 B)).
              destruct (seek (both (s_test s) p) r) as [y' r'| |e1].
              -- destruct IH as (m' & A1 & A2 & A3). exists m'. split; [now apply R|]. split; [now apply leaves_trans with m2|exact A3].
              -- destruct IH as (m' & vs1 & A1 & A2 & A3 & A4 & A5). exists m', vs1. split; [intros m3 o X; now apply R, A1|]. split; [now apply leaves_trans with m2|].
                 split; [exact A3|]. split; [|exact A5]. right. destruct A4 as [->|A4]; [exists y; reflexivity|exact A4].
              -- destruct IH as (m' & A1 & A2 & A3). exists m'. split; [now apply R|]. split; [now apply leaves_trans with m2|exact A3].
          + subst r0. exists (set_todo m2 g (Some [])). split; [|split].
            * eapply runs_loop_item; [exact NX|reflexivity|]. rewrite LB at 1. cbn [map app]. eapply runs_if_fail. exact EV.
            * apply leaves_trans with m2; [exact LV2|apply leaves_todo; now left].
            * now rewrite frames_set_todo.
        - rewrite test. eexists. split; [|eauto]. eapply runs_loop_item; [exact NX|reflexivity|]. rewrite LB at 1. cbn [map app]. apply YIELD. }
      1,3: destruct O as [-> AT1]; exists m1, vs'; (split; [intros m' o R; eapply runs_loop_end; eauto|]);
           (split; [apply leaves_weaken with (s_F s) (s_I s); [exact LV|apply incl_tl, incl_refl|apply incl_refl]|]); (split; [exact AT1|]); (split; [now left|]);
           rewrite (k_frames _ _ _ _ _ (proj1 LV)) by (auto; apply NG); exact E.
      all: subst o; exists (set_todo m1 g (Some [])); (split; [apply runs_loop_fail; exact NX|]); (split; [|now rewrite frames_set_todo]);
           apply leaves_trans with m1; [apply leaves_weaken with (s_F s) (s_I s); [exact LV|apply incl_tl, incl_refl|apply incl_refl]|apply leaves_todo; now left].
    Qed.
  End Loop.

  (** *** (x for x in source if c) *)
  Section Filter.
    Variable s : source.
    Hypothesis S : works s.
    Variable g : nat.
    Variable x : text.
    Variable c : option ast.
    Variable sc : list nat.
    Variable Q : mem -> Prop.
    Variable p : robj -> res bool.
    Hypothesis NG : ~ In g (s_F s) /\ ~ In g (s_R s).
    Hypothesis NS : ~ In g sc /\ apart (s_F s) sc.
    Hypothesis HQ : forall m m' F I, Q m -> keeps F I m m' -> apart F sc -> Q m'.
    Definition one_var (m : mem) (y : robj) : Prop := g < nframes m /\ frames m g = mkFrame [(x, Some (Obj y))] sc None.
    Hypothesis test : match c with
      | None => forall y, p y = Ok true
      | Some c => forall m y, Q m -> one_var m y -> exists q, worth (g :: sc) c m q /\ p y = do v <- q; Ok (truthy v)
      end.
    Notation code := [KLoop [x] (s_pv s) (loop_body c (AName x))].
    Definition filtered : source :=
      mkSource (Gen g) (g :: s_F s) (s_I s) (sc ++ s_R s) (both (s_test s) p)
        (fun m u => g < nframes m /\ Q m /\ s_at s m u /\
           exists vs, (forall w, put_var vs x w = [(x, Some w)]) /\
             (frames m g = mkFrame vs sc (Some code) \/ (u = [] /\ frames m g = mkFrame vs sc (Some [])))).
    Lemma filtered_works : works filtered.
    Proof.
      pose proof S as (ADV & STAY & BND).
      assert (HQ' : forall m m', Q m -> leaves (g :: s_F s) (s_I s) m m' -> Q m').
      { intros a b A B. apply HQ with a (g :: s_F s) (s_I s); [exact A|apply B|]. intros z [<-|I]; [exact (proj1 NS)|now apply (proj2 NS)]. }
      split; [|split].
      - intros m u (L & QM & AT & vs & V & E0).
        set (m0 := set_todo m g None).
        assert (K0 : leaves (g :: s_F s) (s_I s) m m0) by (apply leaves_todo; now left).
        assert (K1 : leaves [g] [] m m0) by (apply leaves_todo; now left).
        assert (A0 : s_at s m0 u) by (apply STAY with m [g] []; [exact AT|apply K1|intros z [<-|[]]; apply NG|intros z [<-|[]]; apply NG|intros z []]).
        assert (Q0 : Q m0) by (apply HQ' with m; [exact QM|apply K0]).
        destruct E0 as [E|[-> E]].
        + assert (F0 : frames m0 g = mkFrame vs sc None) by (unfold m0; rewrite frames_set_todo, E; reflexivity).
          assert (BB : forall m y, bound g x vs sc m y -> one_var m y).
          { intros a y [A B]. split; [exact A|]. now rewrite B, V. }
          assert (TT : match c with
             | None => forall y, p y = Ok true
             | Some c => forall m y, Q m -> bound g x vs sc m y -> exists q, worth (g :: sc) c m q /\ p y = do v <- q; Ok (truthy v)
             end) by (destruct c; intros; apply test; auto).
          assert (EM : forall m y, Q m -> bound g x vs sc m y -> gives (g :: sc) (AName x) m m (Ok (Obj y))).
          { intros a y _ B nx each. apply BB in B as [_ B]. cbn [eval look]. rewrite B. cbn [vars var_at]. rewrite teqb_refl. reflexivity. }
          pose proof (loop_runs s S g x c (AName x) [] vs sc Q p Obj NG HQ' TT EM (length u) u m0 vs (le_n _) A0 Q0 L (fun w => eq_refl) F0) as R.
          unfold advances. cbn [filtered s_test s_pv s_F s_I s_at]. destruct (seek (both (s_test s) p) u) as [y r| |e].
          * destruct R as (m' & R & LV & AT' & E'). exists m', (GItem (Obj y)). split; [eapply nexts_gen; [rewrite E; reflexivity|exact R]|].
            pose proof (leaves_trans _ _ _ _ _ _ K0 LV) as LV'. split; [exact LV'|].
            split; [reflexivity|]. split; [pose proof (k_nf _ _ _ _ _ (proj1 LV')); lia|]. split; [apply HQ' with m; [exact QM|apply LV']|].
            split; [exact AT'|]. exists (put_var vs x (Obj y)). split; [intros w; now rewrite put_put|]. left. exact E'.
          * destruct R as (m1 & vs1 & R & LV & AT' & V1 & E'). exists (set_todo m1 g (Some [])), GEnd.
            split; [eapply nexts_gen; [rewrite E; reflexivity|apply R; apply runs_nil]|].
            assert (LV' : leaves (g :: s_F s) (s_I s) m (set_todo m1 g (Some []))).
            { apply leaves_trans with m0; [exact K0|]. apply leaves_trans with m1; [exact LV|apply leaves_todo; now left]. }
            split; [exact LV'|]. split; [reflexivity|]. split; [pose proof (k_nf _ _ _ _ _ (proj1 LV')); lia|]. split; [apply HQ' with m; [exact QM|apply LV']|].
            split; [apply STAY with m1 [g] []; [exact AT'|apply leaves_todo; now left|intros z [<-|[]]; apply NG|intros z [<-|[]]; apply NG|intros z []]|].
            exists vs1. split; [intros w; destruct V1 as [->|[y ->]]; [apply V|now rewrite put_put]|]. right. split; [reflexivity|]. rewrite frames_set_todo, E'. reflexivity.
          * destruct R as (m' & R & LV & _). exists m', (GFail e). split; [eapply nexts_gen; [rewrite E; reflexivity|exact R]|].
            split; [now apply leaves_trans with m0|reflexivity].
        + unfold advances. cbn [filtered s_test s_pv s_F s_I s_at seek]. exists (set_todo m0 g (Some [])), GEnd.
          split; [eapply nexts_gen; [rewrite E; reflexivity|apply runs_nil]|].
          assert (LV' : leaves (g :: s_F s) (s_I s) m (set_todo m0 g (Some []))) by (apply leaves_trans with m0; [exact K0|apply leaves_todo; now left]).
          split; [exact LV'|]. split; [reflexivity|]. split; [exact L|]. split; [apply HQ' with m; [exact QM|apply LV']|].
          split; [apply STAY with m0 [g] []; [exact A0|apply leaves_todo; now left|intros z [<-|[]]; apply NG|intros z [<-|[]]; apply NG|intros z []]|].
          exists vs. split; [exact V|]. right. split; [reflexivity|]. unfold m0. rewrite !frames_set_todo, E. reflexivity.
      - intros m u m' F I (L & QM & AT & vs & V & E) K A1 A2 A3. cbn [filtered s_F s_I s_R] in *.
        assert (AF : apart F (s_F s)) by (intros z I1 I2; apply (A1 z I1); now right).
        assert (AR : apart F (s_R s)) by (intros z I1 I2; apply (A2 z I1); apply in_app_iff; now right).
        assert (AS : apart F sc) by (intros z I1 I2; apply (A2 z I1); apply in_app_iff; now left).
        split; [pose proof (k_nf _ _ _ _ _ K); lia|]. split; [now apply HQ with m F I|]. split; [now apply STAY with m F I|].
        exists vs. split; [exact V|]. rewrite (k_frames _ _ _ _ _ K); auto. intros X. apply (A1 g X). now left.
      - intros m u (L & QM & AT & _). cbn [filtered s_F s_I]. destruct (BND m u AT) as [B1 B2]. split; [|exact B2].
        intros f [<-|I]; auto.
    Qed.
  End Filter.
End Sources.
