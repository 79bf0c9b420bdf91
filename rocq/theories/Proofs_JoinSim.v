(** Running the generators of a join next() by next(): what they have in common, and
    inner joins. *)
From Coq Require Import String Ascii List NArith ZArith Bool Arith Lia.
From Verif Require Proofs_JoinLazy.
From Verif Require Import Model_PyVal Model_Join Model_Labels Model_JoinLazy Model_Code Model_JoinText Model_JoinFuncs Spec_Tree Spec_Syntax Spec_Source Spec_GenRun Spec_JoinText Proofs_Join Proofs_GenRun Proofs_JoinCond Proofs_JoinSource Proofs_JoinScope Proofs_JoinRows.
Import ListNotations.

Lemma seek_find p l :
  match seek p (map Ok l) with
  | Found y r => exists r', r = map Ok r' /\ find_row p l = Ok (Some y, r')
  | Nothing => find_row p l = Ok (None, [])
  | Failed e => find_row p l = Err e
  end.
Proof.
  induction l as [|y l IH]; [reflexivity|]. cbn [map seek find_row]. destruct (p y) as [[|]|e]; cbn [bind]; [|exact IH|reflexivity]. exists l. auto.
Qed.
Lemma label_at_set ls k v : label_at (set_label ls k v) k = Some v.
Proof. unfold set_label. cbn [label_at]. now rewrite String.eqb_refl. Qed.

Section Sim.
  Variable N : jnames.
  Variable h : Model_Join.how.
  Variable cond : option jx.
  Variable opr : text -> list val -> res val.
  Hypothesis CL : clean N cond.
  Hypothesis TX : match cond with Some e => textual e = true | None => True end.
  Variable inputs : string -> val.
  Notation globals := (module_globals N).
  Notation gfuns := (module_gfuns N h).
  Notation indexers := (module_indexers N h cond opr).
  Notation op := (jop opr).
  Notation in_scope := (in_scope N cond inputs).
  Notation cs := (cs_of h cond).
  Notation cl := (cl N).
  Notation keeps := (keeps cl).
  Notation leaves := (leaves cl).
  Notation runs := (runs globals opr gfuns indexers).
  Notation nexts := (nexts globals opr gfuns indexers).
  Notation evals := (evals globals opr gfuns indexers).
  Notation gives := (gives globals opr gfuns indexers).
  Notation works := (works globals opr gfuns indexers cl).
  Notation passes := (passes op h cond inputs).
  Notation lab_rel := (lab_rel h cond).
  Notation LI := (T "left_item").
  Notation RI := (T "right_item").

  Variable f0 : nat.
  Variables SL SR : Proofs_JoinSource.source.
  Hypothesis SLw : works SL.
  Hypothesis SRw : works SR.
  Hypothesis SLr : incl (s_R SL) [f0].
  Hypothesis SRr : incl (s_R SR) [f0].
  Hypothesis SL0 : ~ In f0 (s_F SL).
  Hypothesis SR0 : ~ In f0 (s_F SR).
  Hypothesis SF : apart (s_F SL) (s_F SR).
  Hypothesis SI_ : apart (s_I SL) (s_I SR).
  Hypothesis SLt : forall y, s_test SL y = ev_all op (on_row inputs y) (lfilters h cond).
  Hypothesis SRt : forall y, s_test SR y = ev_all op (on_row inputs y) (rfilters h cond).
  Hypothesis SRi : forall m, iter_of m (s_pv SR) = Some (s_pv SR, m).

  Lemma LI2 : LI = res_at N 2. Proof. reflexivity. Qed.
  Lemma li_inside : In LI (inside N). Proof. unfold inside. cbn [map]. right. right. now left. Qed.
  Lemma ri_inside : In RI (inside N). Proof. unfold inside. cbn [map]. right. right. right. now left. Qed.

  Definition low (m : mem) : Prop :=
    (forall f, In f (s_F SL ++ s_F SR) -> f < nframes m) /\ (forall i, In i (s_I SL ++ s_I SR) -> i < niters m).
  Definition world (m : mem) : Prop := f0 < nframes m /\ in_scope m [f0] /\ low m.
  Lemma world_keeps F I m m' : keeps F I m m' -> ~ In f0 F -> world m -> world m'.
  Proof.
    intros K NI (L & S & W1 & W2). pose proof (k_nf _ _ _ _ _ K). pose proof (k_ni _ _ _ _ _ K). split; [lia|]. split.
    - revert S. apply scope_keeps with (1 := K).
      + intros z Z [<-|[]]. contradiction.
      + intros f [<-|[]]. exact L.
    - split; intros z Z; [specialize (W1 z Z)|specialize (W2 z Z)]; lia.
  Qed.

  (** what the labels hold *)
  Definition right_at (m : mem) (ls : Model_Labels.labels lab) : Prop :=
    lab_rel m ls /\
    (left_hash cs = [] -> forall rs, label_at ls right_key = Some (LOnce rs) -> label_of (labels m) right_key = Some (s_pv SR) /\ s_at SR m (map Ok rs)) /\
    (how' h = Outer -> exists l, label_at ls right_key = Some (LAgain l) /\ label_of (labels m) right_key = Some (Coll l)).
  Lemma right_keeps F I m m' ls : keeps F I m m' -> apart F (s_F SR) -> ~ In f0 F -> apart I (s_I SR) -> right_at m ls -> right_at m' ls.
  Proof.
    intros K A B C (X & Y & Z). pose proof (k_labels _ _ _ _ _ K right_key (cl_right N)) as KR. pose proof (k_labels _ _ _ _ _ K index_key (cl_index N)) as KI.
    split; [|split].
    - unfold Proofs_JoinRows.lab_rel in *. rewrite KR, KI. exact X.
    - intros LH rs L. destruct (Y LH rs L) as [Y1 Y2]. rewrite KR. split; [exact Y1|]. destruct SRw as (_ & STAY & _). apply STAY with m F I; auto.
      intros z Z1 Z2. apply SRr in Z2 as [<-|[]]. contradiction.
    - intros H. rewrite KR. auto.
  Qed.

  (** what the inner loop runs over *)
  Definition inner_at (c : cands) (SI : Proofs_JoinSource.source) (m : mem) (ls : Model_Labels.labels lab) (u : list (res robj)) : Prop :=
    s_at SI m u /\
    match c with
    | Rows l => u = map Ok l /\ exists i, SI = plain_source i /\ ~ In i (s_I SL) /\ ~ In i (s_I SR)
    | Shared => SI = SR /\ left_hash cs = [] /\ exists rs, label_at ls right_key = Some (LOnce rs) /\ u = map Ok rs
    end.
  Lemma inner_works c SI m ls u : inner_at c SI m ls u -> works SI.
  Proof. intros (_ & H). destruct c; [destruct H as (_ & i & -> & _); apply plain_works|destruct H as (-> & _); exact SRw]. Qed.
  Lemma inner_frames c SI m ls u : inner_at c SI m ls u -> ~ In f0 (s_F SI) /\ incl (s_R SI) [f0] /\ apart (s_F SL) (s_F SI) /\ apart (s_I SL) (s_I SI) /\ incl (s_F SI) (s_F SR).
  Proof.
    intros (_ & H). destruct c.
    - destruct H as (_ & i & -> & H1 & H2). cbn. split; [auto|]. split; [intros z []|]. split; [intros z _ []|]. split; [|intros z []]. intros z Z [<-|[]]. contradiction.
    - destruct H as (-> & _). auto using incl_refl.
  Qed.
  Lemma inner_keeps F I c SI m m' ls u : keeps F I m m' -> apart F (s_F SI) -> ~ In f0 F -> apart I (s_I SI) -> inner_at c SI m ls u -> inner_at c SI m' ls u.
  Proof.
    intros K A B C H. pose proof (inner_works _ _ _ _ _ H) as (_ & STAY & _). pose proof (inner_frames _ _ _ _ _ H) as (_ & RR & _). destruct H as [H1 H2]. split; [|exact H2].
    apply STAY with m F I; auto. intros z Z1 Z2. apply RR in Z2 as [<-|[]]. contradiction.
  Qed.
  Lemma next_right_seek x c SI m ls u : inner_at c SI m ls u -> right_at m ls ->
    match seek (both (s_test SI) (passes x)) u with
    | Found y r => exists ls' c', next_right op h cond inputs x c ls = (ls', Ok (Some (y, c'))) /\
        forall G m', keeps (G ++ s_F SI) (s_I SI) m m' -> apart G (s_F SR) -> ~ In f0 G -> s_at SI m' r -> right_at m' ls' /\ inner_at c' SI m' ls' r
    | Nothing => exists ls', next_right op h cond inputs x c ls = (ls', Ok None) /\
        forall G m', keeps (G ++ s_F SI) (s_I SI) m m' -> apart G (s_F SR) -> ~ In f0 G -> s_at SI m' [] -> right_at m' ls'
    | Failed e => exists ls', next_right op h cond inputs x c ls = (ls', Err e)
    end.
  Proof.
    intros [AT H] RA. destruct c as [l|].
    - destruct H as (-> & i & -> & H1 & H2). cbn [plain_source s_test s_at s_F s_I next_right].
      assert (K : forall G m', keeps (G ++ []) [i] m m' -> apart G (s_F SR) -> ~ In f0 G -> right_at m' ls).
      { intros G m' K A B. rewrite app_nil_r in K. apply right_keeps with (1 := K); auto. intros z [<-|[]]. exact H2. }
      rewrite (seek_ext _ (passes x)) by (intros y; reflexivity). pose proof (seek_find (passes x) l) as SFD.
      destruct (seek (passes x) (map Ok l)) as [y r| |e].
      + destruct SFD as (r' & -> & ->). cbn [bind fst snd]. exists ls, (Rows r'). split; [reflexivity|]. intros G m' KK A B AT'. split; [eauto|].
        split; [exact AT'|]. split; [reflexivity|]. exists i. auto.
      + rewrite SFD. cbn [bind fst snd]. exists ls. split; [reflexivity|]. intros. eauto.
      + rewrite SFD. cbn [bind]. exists ls. reflexivity.
    - destruct H as (-> & LH & rs & LR & ->). cbn [next_right]. rewrite LR.
      rewrite (seek_ext _ (both_tests op h cond inputs x)) by (intros y; unfold both, both_tests; now rewrite SRt).
      pose proof (seek_find (both_tests op h cond inputs x) rs) as SFD.
      assert (K : forall G m' r, keeps (G ++ s_F SR) (s_I SR) m m' -> s_at SR m' (map Ok r) -> right_at m' (set_label ls right_key (LOnce r))).
      { intros G m' r K AT'. pose proof (k_labels _ _ _ _ _ K right_key (cl_right N)) as KR. destruct RA as (X & Y & Z). specialize (Y LH rs LR) as [Y1 Y2].
        split; [|split].
        - unfold Proofs_JoinRows.lab_rel. rewrite LH, label_at_set. rewrite KR. eauto.
        - intros _ r0. rewrite label_at_set. intros [= <-]. rewrite KR. auto.
        - intros HO. destruct (Z HO) as (l & Z1 & _). congruence. }
      destruct (seek (both_tests op h cond inputs x) (map Ok rs)) as [y r| |e].
      + destruct SFD as (r' & -> & ->). cbn [fst snd]. eexists _, _. split; [reflexivity|]. intros G m' KK A B AT'. split; [eauto|].
        split; [exact AT'|]. split; [reflexivity|]. split; [exact LH|]. exists r'. split; [apply label_at_set|reflexivity].
      + rewrite SFD. cbn [fst snd]. eexists. split; [reflexivity|]. intros. eauto.
      + rewrite SFD. eexists. reflexivity.
  Qed.

  (** for ... in right items: the right items are evaluated and iterated *)
  Lemma enter_right m sc x ls : in_scope m sc -> look m sc LI = Some (Some (Obj x)) -> right_at m ls -> world m ->
    match right_items op h cond inputs x ls with
    | Ok c => exists m1 v m2 SI u, gives sc (ri_ast N h cond) m m1 (Ok v) /\ iter_of m1 v = Some (s_pv SI, m2) /\ frames m1 = frames m /\ frames m2 = frames m /\ leaves [] [] m m2 /\
        inner_at c SI m2 ls u /\ right_at m2 ls
    | Err e => exists m1, gives sc (ri_ast N h cond) m m1 (Err e) /\ frames m1 = frames m /\ leaves [] [] m m1
    end.
  Proof.
    intros S L RA (_ & _ & _ & W2). destruct (ri_gives N h cond opr CL TX inputs m sc x ls S L (proj1 RA)) as (m1 & r & G & FR & LV & R).
    destruct (right_items op h cond inputs x ls) as [[l|]|e] eqn:RI0.
    - subst r. set (m2 := snd (new_iter m1 (map Ok l))).
      assert (LV2 : leaves [] [] m m2) by (apply leaves_trans with m1; [exact LV|apply leaves_new_iter]).
      assert (NI : niters m <= niters m1) by apply LV.
      exists m1, (Coll l), m2, (plain_source (niters m1)), (map Ok l). split; [exact G|]. split; [reflexivity|]. split; [exact FR|]. split; [exact FR|]. split; [exact LV2|].
      split.
      + split; [split; [cbn; lia|cbn; apply at_same]|]. split; [reflexivity|]. exists (niters m1). split; [reflexivity|].
        split; intros X; [assert (niters m1 < niters m) by (apply W2, in_app_iff; now left)|assert (niters m1 < niters m) by (apply W2, in_app_iff; now right)]; lia.
      + apply right_keeps with [] [] m; auto; try (intros z []). apply LV2.
    - destruct R as (v & LB & ->). exists m1, v, m1, SR.
      assert (LR : left_hash cs = [] /\ exists rs, label_at ls right_key = Some (LOnce rs)).
      { unfold right_items in RI0. destruct RA as (X & _). unfold Proofs_JoinRows.lab_rel in X. destruct (left_hash cs).
        - split; [reflexivity|]. destruct (label_at ls right_key) as [[l|l|d| |p]|]; try contradiction; try discriminate. eauto.
        - destruct (ev_key _ _ _); cbn [bind] in RI0; [|discriminate]. destruct (label_at ls index_key) as [[l0|l0|d| |p]|]; try discriminate. match goal with H : (do _ <- need_hash ?k; _) = _ |- _ => destruct (need_hash k); discriminate H end. }
      destruct LR as (LH & rs & LR).
      assert (RA1 : right_at m1 ls) by (apply right_keeps with [] [] m; auto; try (intros z []); apply LV).
      destruct RA as (_ & Y & _). destruct (Y LH rs LR) as [Y1 _]. rewrite LB in Y1. injection Y1 as ->.
      exists (map Ok rs). split; [exact G|]. split; [apply SRi|]. split; [exact FR|]. split; [exact FR|]. split; [exact LV|]. split; [|exact RA1].
      split; [|eauto]. apply RA1; auto.
    - subst r. exists m1. auto.
  Qed.

  (** next() of the left rows *)
  Lemma next_left_seek u ls :
    next_left op h cond inputs u ls =
    match seek (s_test SL) u with
    | Found x r => match right_items op h cond inputs x ls with Ok c => LRow x c r | Err e => LFail e end
    | Nothing => LEnd
    | Failed e => LFail e
    end.
  Proof.
    induction u as [|[x|e] u IH]; cbn [next_left seek]; [reflexivity| |reflexivity].
    rewrite <- SLt. destruct (s_test SL x) as [[|]|e]; [reflexivity|exact IH|reflexivity].
  Qed.

  (** *** inner joins *)
  Section Inner.
    Hypothesis HI : h = Inner.
    Variable g : nat.
    Hypothesis G0 : g <> f0.
    Hypothesis GL : ~ In g (s_F SL).
    Hypothesis GR : ~ In g (s_F SR).
    Definition inner_body : list gstmt := loop_body (if_ast h cond) (ATuple [nm "left_item"; nm "right_item"]).
    Definition outer_code : list kont := [KLoop [LI] (s_pv SL) [GFor [RI] (ri_ast N h cond) inner_body]].
    Definition ready (m : mem) (ls : Model_Labels.labels lab) (u : list (res robj)) : Prop :=
      g < nframes m /\ world m /\ right_at m ls /\ s_at SL m u.
    Definition inner_inv (m : mem) (s : gstate) (ls : Model_Labels.labels lab) : Prop :=
      match s with
      | GOuter u ids => ready m ls u /\ exists a b, frames m g = mkFrame [(LI, a); (RI, b)] [f0] (Some outer_code)
      | GInner u x _ c ids => ready m ls u /\ exists SI v b, inner_at c SI m ls v /\
          frames m g = mkFrame [(LI, Some (Obj x)); (RI, b)] [f0] (Some (KLoop [RI] (s_pv SI) inner_body :: outer_code))
      | GTail _ _ => False
      end.
    Definition dead (m : mem) : Prop := todo (frames m g) = Some [].
    (** what running some code in [g] does, against the model *)
    Definition does (code : list kont) (m : mem) (o : Model_Labels.labels lab * gen_out lab exc gstate) : Prop :=
      exists m' r, runs g code m m' r /\
      match o with
      | (ls', Model_Labels.GYield v s') => exists p, v = LPair p /\ r = GItem (Tup [Obj (fst p); Obj (snd p)]) /\ inner_inv m' s' ls'
      | (_, GStop) => r = GEnd /\ dead m'
      | (_, GRaise e) => r = GFail e /\ dead m'
      end.
    Lemma put_ri a b w : put_var [(LI, a); (RI, b)] RI w = [(LI, a); (RI, Some w)].
    Proof. cbn [put_var]. now rewrite !teqb_T. Qed.
    Lemma put_li a b w : put_var [(LI, a); (RI, b)] LI w = [(LI, Some w); (RI, b)].
    Proof. cbn [put_var]. now rewrite !teqb_T. Qed.
    Lemma pair_scope m a b t : world m -> frames m g = mkFrame [(LI, a); (RI, b)] [f0] t -> in_scope m [g; f0] /\ look m [g; f0] LI = Some a /\ look m [g; f0] RI = Some b.
    Proof.
      intros (_ & S & _) E. split; [|split].
      - apply (more_scope N cond CL); auto. rewrite E. cbn [vars map fst]. intros z [<-|[<-|[]]]; [apply li_inside|apply ri_inside].
      - cbn [look]. rewrite E. cbn [vars var_at]. now rewrite teqb_refl.
      - cbn [look]. rewrite E. cbn [vars var_at]. rewrite !teqb_T. reflexivity.
    Qed.

    Lemma inner_does x y0 c SI v b u ids m ls k :
      ready m ls u -> inner_at c SI m ls v -> frames m g = mkFrame [(LI, Some (Obj x)); (RI, b)] [f0] None ->
      k = outer_code ->
      (forall m1 ls1 b1, ready m1 ls1 u -> frames m1 g = mkFrame [(LI, Some (Obj x)); (RI, b1)] [f0] None -> does k m1 (outer op h cond inputs (length u) u ids ls1)) ->
      does (KLoop [RI] (s_pv SI) inner_body :: k) m (next_pair op h cond inputs (GInner u x y0 c ids) ls).
    Proof.
      intros (LG & W & RA & ATL) IA E -> GO.
      pose proof (inner_works _ _ _ _ _ IA) as SIw. pose proof (inner_frames _ _ _ _ _ IA) as (I1 & I2 & I3 & I4 & I5).
      assert (NG : ~ In g (s_F SI) /\ ~ In g (s_R SI)) by (split; [intros X; apply GR, I5, X|intros X; apply I2 in X as [X|[]]; congruence]).
      assert (HQ : forall m m', world m -> leaves (g :: s_F SI) (s_I SI) m m' -> world m').
      { intros a b' A B. apply world_keeps with (1 := proj1 B); auto. intros [X|X]; auto. }
      assert (BND : forall m y, bound g RI [(LI, Some (Obj x)); (RI, b)] [f0] m y -> frames m g = mkFrame [(LI, Some (Obj x)); (RI, Some (Obj y))] [f0] None).
      { intros a y [_ B]. rewrite B, put_ri. reflexivity. }
      assert (TT : match if_ast h cond with
             | None => forall y, passes x y = Ok true
             | Some c => forall m y, world m -> bound g RI [(LI, Some (Obj x)); (RI, b)] [f0] m y -> exists q, worth globals opr gfuns indexers [g; f0] c m q /\ passes x y = do v <- q; Ok (truthy v)
             end).
      { destruct (if_ast h cond) as [c0|] eqn:IF.
        - intros a y WA B. apply BND in B. destruct (pair_scope a _ _ _ WA B) as (P1 & P2 & P3). now apply (if_worth N h cond opr CL TX inputs a [g; f0] x y c0).
        - intros y. now apply if_none. }
      assert (EM : forall m y, world m -> bound g RI [(LI, Some (Obj x)); (RI, b)] [f0] m y -> gives [g; f0] (ATuple [nm "left_item"; nm "right_item"]) m m (Ok (Tup [Obj x; Obj y]))).
      { intros a y WA B nx each. apply BND in B. destruct (pair_scope a _ _ _ WA B) as (_ & P2 & P3). unfold nm. cbn [eval]. rewrite P2. unfold give at 1. cbn [after]. rewrite P3. reflexivity. }
      pose proof (loop_runs _ _ _ _ _ SI SIw g RI (if_ast h cond) (ATuple [nm "left_item"; nm "right_item"]) outer_code [(LI, Some (Obj x)); (RI, b)] [f0] world (passes x) (fun y => Tup [Obj x; Obj y])
        NG HQ TT EM (length v) v m _ (le_n _) (proj1 IA) W LG (fun w => eq_refl) E) as R.
      fold inner_body in R.
      pose proof (next_right_seek x c SI m ls v IA RA) as NR. cbn [next_pair].
      assert (AL : forall m', leaves (g :: s_F SI) (s_I SI) m m' -> s_at SL m' u /\ world m' /\ g < nframes m').
      { intros m' LV. split; [|split].
        - destruct SLw as (_ & STAY & _). apply STAY with m (g :: s_F SI) (s_I SI); [exact ATL|apply LV| | |].
          + intros z [<-|Z] Z2; [contradiction|]. now apply (I3 z Z2).
          + intros z [<-|Z] Z2; apply SLr in Z2 as [Z2|[]]; [congruence|]. subst z. contradiction.
          + intros z Z Z2. now apply (I4 z Z2).
        - apply HQ with m; [exact W|apply LV].
        - pose proof (k_nf _ _ _ _ _ (proj1 LV)). lia. }
      assert (AG : apart [g] (s_F SR)) by (intros z [<-|[]]; exact GR).
      assert (A0 : ~ In f0 [g]) by (intros [X|[]]; congruence).
      destruct (seek (both (s_test SI) (passes x)) v) as [y r| |e].
      - destruct R as (m' & R & LV & AT' & E'). destruct NR as (ls' & c' & -> & NR).
        destruct (NR [g] m' (proj1 LV) AG A0 AT') as [RA' IA']. destruct (AL m' LV) as (AL1 & AL2 & AL3).
        exists m', (GItem (Tup [Obj x; Obj y])). split; [exact R|]. 
        assert (PO : pair_of h (match how' h with Inner => x | _ => y0 end) y = (x, y)) by (unfold pair_of; now rewrite HI).
        rewrite PO. unfold Model_JoinLazy.give. exists (x, y). split; [reflexivity|]. split; [reflexivity|].
        split; [split; auto|]. exists SI, r, (Some (Obj y)). split; [exact IA'|]. rewrite E', put_ri. reflexivity.
      - destruct R as (m1 & vs1 & R & LV & AT' & VS & E'). destruct NR as (ls' & -> & NR). destruct (AL m1 LV) as (AL1 & AL2 & AL3).
        pose proof (NR [g] m1 (proj1 LV) AG A0 AT') as RA'.
        assert (VB : exists b1, vs1 = [(LI, Some (Obj x)); (RI, b1)]) by (destruct VS as [->|[y ->]]; [eauto|rewrite put_ri; eauto]).
        destruct VB as [b1 ->].
        assert (R1 : ready m1 ls' u) by (split; auto).
        destruct (GO m1 ls' b1 R1 E') as (m2 & r2 & R2 & O2).
        exists m2, r2. split; [now apply R|exact O2].
      - destruct R as (m' & R & LV & D). destruct NR as (ls' & ->). exists m', (GFail e). split; [exact R|]. auto.
    Qed.

    Lemma outer_does : forall n u ids m ls a b, length u <= n -> ready m ls u -> frames m g = mkFrame [(LI, a); (RI, b)] [f0] None ->
      does outer_code m (outer op h cond inputs n u ids ls).
    Proof.
      induction n as [|n IH]; intros u ids m ls a b LN (LG & W & RA & ATL) E.
      all: destruct SLw as (ADV & STAY & _); destruct (ADV m u ATL) as (m1 & o & NX & LV & O); cbn [outer]; rewrite next_left_seek.
      all: assert (FI : finish h ids ls = GStop) by (unfold finish; now rewrite HI).
      all: destruct (seek (s_test SL) u) as [x r| |e] eqn:SK.
      1: { apply seek_shorter in SK. lia. }
      2,5: subst o; exists (set_todo m1 g (Some [])), (GFail e); (split; [apply runs_loop_fail; exact NX|]); split; [reflexivity|unfold dead; now rewrite frames_set_todo].
      1,3: destruct O as [-> _]; rewrite FI; exists (set_todo m1 g (Some [])), GEnd; (split; [eapply runs_loop_end; [exact NX|apply runs_nil]|]); split; [reflexivity|unfold dead; now rewrite frames_set_todo].
      destruct O as [-> AT1]. set (m2 := set_var m1 g LI (Obj x)).
      assert (E1 : frames m1 g = mkFrame [(LI, a); (RI, b)] [f0] None) by (rewrite (k_frames _ _ _ _ _ (proj1 LV)); auto).
      assert (E2 : frames m2 g = mkFrame [(LI, Some (Obj x)); (RI, b)] [f0] None) by (unfold m2; rewrite frames_set_var, E1; cbn [vars around todo]; now rewrite put_li).
      assert (LV2 : leaves (g :: s_F SL) (s_I SL) m m2).
      { apply leaves_trans with m1; [apply leaves_weaken with (s_F SL) (s_I SL); [exact LV|apply incl_tl, incl_refl|apply incl_refl]|apply leaves_var; now left]. }
      assert (W2 : world m2) by (apply world_keeps with (1 := proj1 LV2); auto; intros [X|X]; auto).
      assert (RA2 : right_at m2 ls).
      { apply right_keeps with (1 := proj1 LV2); auto.
        - intros z [<-|Z]; auto.
        - intros [X|X]; auto. }
      assert (LG2 : g < nframes m2) by (pose proof (k_nf _ _ _ _ _ (proj1 LV2)); lia).
      assert (AT2 : s_at SL m2 r).
      { apply STAY with m1 [g] []; [exact AT1|apply leaves_var; now left|intros z [<-|[]]; exact GL| |intros z []]. intros z [<-|[]] Z. apply SLr in Z as [Z|[]]. congruence. }
      destruct (pair_scope m2 _ _ _ W2 E2) as (P1 & P2 & _).
      pose proof (enter_right m2 [g; f0] x ls P1 P2 RA2 W2) as ER.
      assert (START : forall m' o code, runs g (KDo (GFor [RI] (ri_ast N h cond) inner_body) :: outer_code) m2 m' o -> code = outer_code -> runs g code m m' o).
      { intros m' o code R ->. unfold outer_code. eapply runs_loop_item; [exact NX|reflexivity|]. exact R. }
      destruct (right_items op h cond inputs x ls) as [c|e].
      2: { destruct ER as (m3 & G & FR & _). exists (set_todo m3 g (Some [])), (GFail e). split; [|split; [reflexivity|unfold dead; now rewrite frames_set_todo]].
           apply START; [|reflexivity]. apply runs_for_fail. apply gives_evals. rewrite E2. exact G. }
      destruct ER as (m3 & v & m4 & SI & w & G & IT & FR3 & FR & LV4 & IA & RA4).
      assert (E4 : frames m4 g = mkFrame [(LI, Some (Obj x)); (RI, b)] [f0] None) by now rewrite FR.
      assert (R4 : ready m4 ls r).
      { split; [pose proof (k_nf _ _ _ _ _ (proj1 LV4)); lia|]. split; [apply world_keeps with (1 := proj1 LV4); auto|]. split; [exact RA4|].
        apply STAY with m2 [] []; [exact AT2|apply LV4|intros z []|intros z []|intros z []]. }
      assert (D : does (KLoop [RI] (s_pv SI) inner_body :: outer_code) m4 (next_pair op h cond inputs (GInner r x x c ids) ls)).
      { apply inner_does with w b; auto. intros m5 ls5 b5 R5 E5. assert (LR : length r <= n) by (apply seek_shorter in SK; lia).
        rewrite (Proofs_JoinLazy.outer_fuel op h cond inputs (length r) n r ids ls5) by lia. now apply IH with (Some (Obj x)) b5. }
      assert (NP : match next_right op h cond inputs x c ls with
        | (ls', Err e) => (ls', GRaise e)
        | (ls', Ok (Some (y, cs'))) => (ls', Model_JoinLazy.give (pair_of h x y) (GInner r x x cs') ids)
        | (ls', Ok None) => match how' h with
           | Inner => outer op h cond inputs n r ids ls'
           | _ => (ls', Model_JoinLazy.give (pair_of h x none_obj) (GOuter r) ids) end
        end = next_pair op h cond inputs (GInner r x x c ids) ls).
      { cbn [next_pair]. rewrite HI. destruct (next_right op Inner cond inputs x c ls) as [ls' [[[y c']|]|e]]; [reflexivity| |reflexivity].
        cbn [how']. apply Proofs_JoinLazy.outer_fuel; apply seek_shorter in SK; lia. }
      rewrite NP. destruct D as (m5 & r5 & R5 & O5). exists m5, r5. split; [|exact O5].
      apply START; [|reflexivity]. eapply runs_for; [|exact IT|exact R5]. apply gives_evals. rewrite E2. exact G.
    Qed.

    Theorem inner_next m s ls : inner_inv m s ls ->
      exists m' r, nexts (Gen g) m m' r /\
      match next_pair op h cond inputs s ls with
      | (ls', Model_Labels.GYield v s') => exists p, v = LPair p /\ r = GItem (Tup [Obj (fst p); Obj (snd p)]) /\ inner_inv m' s' ls'
      | (_, GStop) => r = GEnd /\ dead m'
      | (_, GRaise e) => r = GFail e /\ dead m'
      end.
    Proof.
      assert (ST : forall u ls m c, ready m ls u -> ready (set_todo m g c) ls u).
      { intros u ls0 m0 c (A & B & C & D). assert (K : keeps [g] [] m0 (set_todo m0 g c)) by (apply leaves_todo; now left).
        split; [exact A|]. split; [apply world_keeps with (1 := K); auto; intros [X|[]]; congruence|]. split.
        - apply right_keeps with (1 := K); auto; [intros z [<-|[]]; exact GR|intros [X|[]]; congruence|intros z []].
        - destruct SLw as (_ & STAY & _). apply STAY with m0 [g] []; auto; [intros z [<-|[]]; exact GL| |intros z []]. intros z [<-|[]] Z. apply SLr in Z as [Z|[]]. congruence. }
      destruct s as [u ids|u x x' c ids|rest ids]; cbn [inner_inv].
      - intros (R & a & b & E).
        destruct (outer_does (length u) u ids (set_todo m g None) ls a b (le_n _) (ST _ _ _ _ R)) as (m' & r & RN & O); [rewrite frames_set_todo, E; reflexivity|].
        exists m', r. split; [|exact O]. eapply nexts_gen; [rewrite E; reflexivity|exact RN].
      - intros (R & SI & v & b & IA & E).
        destruct (inner_does x x' c SI v b u ids (set_todo m g None) ls outer_code (ST _ _ _ _ R)) as (m' & r & RN & O).
        + pose proof (inner_frames _ _ _ _ _ IA) as (_ & _ & _ & _ & I5). apply inner_keeps with [g] [] m; auto; [apply leaves_todo; now left| | |intros z []].
          * intros z [<-|[]] Z. now apply GR, I5.
          * intros [X|[]]; congruence.
        + rewrite frames_set_todo, E. reflexivity.
        + reflexivity.
        + intros m1 ls1 b1 R1 E1. now apply outer_does with (Some (Obj x)) b1.
        + exists m', r. split; [|exact O]. eapply nexts_gen; [rewrite E; reflexivity|exact RN].
      - intros [].
    Qed.
  End Inner.
End Sim.
