(** Running the generators of a left, right or outer join: the rows with their right
    items, and _left_joiner. *)
From Coq Require Import String Ascii List NArith ZArith Bool Arith Lia.
From Verif Require Import Model_PyVal Model_Join Model_Labels Model_JoinLazy Model_Code Model_JoinText Model_JoinFuncs Spec_Tree Spec_Syntax Spec_Source Spec_GenRun Spec_JoinText Proofs_Join Proofs_GenRun Proofs_JoinCond Proofs_JoinSource Proofs_JoinScope Proofs_JoinRows Proofs_JoinSim.
Import ListNotations.

(** *** the model without _add_right_part *)
Definition jstate : Type := list (res robj) * option (robj * cands).
Inductive jout : Type := JPair (p : robj * robj) (s : jstate) | JEnd | JFail (e : exc).
Definition as_state (s : jstate) (ids : list nat) : gstate :=
  match snd s with None => GOuter (fst s) ids | Some (x, c) => GInner (fst s) x x c ids end.
Section Lead.
  Variable op : string -> list val -> res val.
  Variable h : Model_Join.how.
  Variable cond : option jx.
  Variable inputs : string -> val.
  Definition lead_outer (u : list (res robj)) (ls : Model_Labels.labels lab) : Model_Labels.labels lab * jout :=
    match next_left op h cond inputs u ls with
    | LFail e => (ls, JFail e)
    | LEnd => (ls, JEnd)
    | LRow x c r =>
        match next_right op h cond inputs x c ls with
        | (ls', Err e) => (ls', JFail e)
        | (ls', Ok (Some (y, c'))) => (ls', JPair (pair_of h x y) (r, Some (x, c')))
        | (ls', Ok None) => (ls', JPair (pair_of h x none_obj) (r, None))
        end
    end.
  Definition lead (s : jstate) (ls : Model_Labels.labels lab) : Model_Labels.labels lab * jout :=
    match snd s with
    | None => lead_outer (fst s) ls
    | Some (x, c) =>
        match next_right op h cond inputs x c ls with
        | (ls', Err e) => (ls', JFail e)
        | (ls', Ok (Some (y, c'))) => (ls', JPair (pair_of h x y) (fst s, Some (x, c')))
        | (ls', Ok None) => lead_outer (fst s) ls'
        end
    end.
  Lemma next_pair_lead s ids ls : how' h <> Inner ->
    next_pair op h cond inputs (as_state s ids) ls =
    match lead s ls with
    | (ls', JPair p s') => (ls', Model_Labels.GYield (LPair p) (as_state s' (rid (snd p) :: ids)))
    | (ls', JEnd) => (ls', finish h ids ls')
    | (ls', JFail e) => (ls', GRaise e)
    end.
  Proof.
    intros HL.
    assert (O : forall n u ls, outer op h cond inputs n u ids ls =
      match lead_outer u ls with
      | (ls', JPair p s') => (ls', Model_Labels.GYield (LPair p) (as_state s' (rid (snd p) :: ids)))
      | (ls', JEnd) => (ls', finish h ids ls')
      | (ls', JFail e) => (ls', GRaise e)
      end).
    { intros n u ls0. destruct n; cbn [outer]; unfold lead_outer; destruct (next_left op h cond inputs u ls0) as [x c r| |e]; try reflexivity;
      destruct (next_right op h cond inputs x c ls0) as [ls' [[[y c']|]|e]]; try reflexivity; destruct (how' h); try contradiction; reflexivity. }
    destruct s as [u [[x c]|]]; unfold as_state, lead; cbn [fst snd next_pair]; [|apply O].
    destruct (next_right op h cond inputs x c ls) as [ls' [[[y c']|]|e]]; [|apply O|reflexivity].
    destruct (how' h); try contradiction; reflexivity.
  Qed.
End Lead.

Section SimLeft.
  Variable N : jnames.
  Variable h : Model_Join.how.
  Variable cond : option jx.
  Variable opr : text -> list val -> res val.
  Hypothesis CL : clean N cond.
  Hypothesis TX : match cond with Some e => textual e = true | None => True end.
  Variable inputs : string -> val.
  Notation globals := (module_globals N).
  Notation gfuns := (module_gfuns N h).
  Notation indexers := (module_indexers N h cond opr).
  Notation op := (jop opr).
  Notation in_scope := (in_scope N cond inputs).
  Notation cs := (cs_of h cond).
  Notation cl := (cl N).
  Notation keeps := (keeps cl).
  Notation leaves := (leaves cl).
  Notation runs := (runs globals opr gfuns indexers).
  Notation nexts := (nexts globals opr gfuns indexers).
  Notation evals := (evals globals opr gfuns indexers).
  Notation gives := (gives globals opr gfuns indexers).
  Notation works := (works globals opr gfuns indexers cl).
  Notation passes := (passes op h cond inputs).
  Notation lab_rel := (lab_rel h cond).
  Notation LI := (T "left_item").
  Notation RI := (T "right_item").
  Notation ONES := (T "right_ones").
  Notation NONE := (T "none_").
  Notation L2R := (T "left_to_right_ones_gen").

  Variable f0 : nat.
  Variables SL SR : Proofs_JoinSource.source.
  Hypothesis SLw : works SL.
  Hypothesis SRw : works SR.
  Hypothesis SLr : incl (s_R SL) [f0].
  Hypothesis SRr : incl (s_R SR) [f0].
  Hypothesis SL0 : ~ In f0 (s_F SL).
  Hypothesis SR0 : ~ In f0 (s_F SR).
  Hypothesis SF : apart (s_F SL) (s_F SR).
  Hypothesis SI_ : apart (s_I SL) (s_I SR).
  Hypothesis SLt : forall y, s_test SL y = ev_all op (on_row inputs y) (lfilters h cond).
  Hypothesis SRt : forall y, s_test SR y = ev_all op (on_row inputs y) (rfilters h cond).
  Hypothesis SRi : forall m, iter_of m (s_pv SR) = Some (s_pv SR, m).
  Notation world := (world N cond inputs f0 SL SR).
  Notation right_at := (right_at h cond SR).
  Notation inner_at := (inner_at h cond SL SR).
  Notation world_keeps := (world_keeps N cond inputs f0 SL SR).
  Notation right_keeps := (right_keeps N h cond opr f0 SR SRw SRr).
  Notation inner_frames := (inner_frames h cond f0 SL SR SRr SR0 SF SI_).

  (** *** the rows *)
  Variable g1 : nat.
  Hypothesis G10 : g1 <> f0.
  Hypothesis G1L : ~ In g1 (s_F SL).
  Hypothesis G1R : ~ In g1 (s_F SR).
  Definition ones_ast : ast := AComp GGen [nm "right_item"] RI (ri_ast N h cond) (if_ast h cond).
  Definition rows_code : list kont := [KLoop [LI] (s_pv SL) [GYield (ATuple [nm "left_item"; ones_ast])]].
  Definition ones_code (SI : Proofs_JoinSource.source) : list kont := [KLoop [RI] (s_pv SI) (loop_body (if_ast h cond) (nm "right_item"))].

  Lemma rows_next m ls u a : g1 < nframes m -> world m -> right_at m ls -> s_at SL m u -> frames m g1 = mkFrame [(LI, a)] [f0] (Some rows_code) ->
    match next_left op h cond inputs u ls with
    | LRow x c r => exists m' g' SI w, nexts (Gen g1) m m' (GItem (Tup [Obj x; Gen g'])) /\ leaves (g1 :: s_F SL) (s_I SL) m m' /\
        frames m' g1 = mkFrame [(LI, Some (Obj x))] [f0] (Some rows_code) /\ s_at SL m' r /\ inner_at c SI m' ls w /\
        frames m' g' = mkFrame [(RI, None)] [g1; f0] (Some (ones_code SI)) /\ nframes m <= g' < nframes m'
    | LEnd => exists m', nexts (Gen g1) m m' GEnd /\ leaves (g1 :: s_F SL) (s_I SL) m m'
    | LFail e => exists m', nexts (Gen g1) m m' (GFail e) /\ leaves (g1 :: s_F SL) (s_I SL) m m'
    end.
  Proof.
    intros LG W RA ATL E. set (m0 := set_todo m g1 None).
    assert (K0 : leaves [g1] [] m m0) by (apply leaves_todo; now left).
    assert (G1 : apart [g1] (s_R SL)) by (intros z [<-|[]] Z; apply SLr in Z as [Z|[]]; congruence).
    assert (G2 : apart [g1] (s_F SL)) by (intros z [<-|[]]; auto).
    pose proof SLw as (ADV & STAY & _).
    assert (AT0 : s_at SL m0 u) by (apply STAY with m [g1] []; auto; [apply K0|intros z []]).
    assert (E0 : frames m0 g1 = mkFrame [(LI, a)] [f0] None) by (unfold m0; rewrite frames_set_todo, E; reflexivity).
    destruct (ADV m0 u AT0) as (m1 & o & NX & LV & O).
    assert (LV1 : leaves (g1 :: s_F SL) (s_I SL) m m1).
    { apply leaves_trans with m0; [apply leaves_weaken with [g1] []; [exact K0|intros z [<-|[]]; now left|intros z []]|].
      apply leaves_weaken with (s_F SL) (s_I SL); [exact LV|apply incl_tl, incl_refl|apply incl_refl]. }
    assert (DIE : leaves (g1 :: s_F SL) (s_I SL) m (set_todo m1 g1 (Some []))) by (apply leaves_trans with m1; [exact LV1|apply leaves_todo; now left]).
    assert (START : forall m' o, runs g1 rows_code m0 m' o -> nexts (Gen g1) m m' o) by (intros m' o' R; eapply nexts_gen; [rewrite E; reflexivity|exact R]).
    rewrite (next_left_seek h cond opr inputs SL SLt). destruct (seek (s_test SL) u) as [x r| |e].
    2: { destruct O as [-> _]. exists (set_todo m1 g1 (Some [])). split; [|exact DIE]. apply START. eapply runs_loop_end; [exact NX|apply runs_nil]. }
    2: { subst o. exists (set_todo m1 g1 (Some [])). split; [|exact DIE]. apply START. apply runs_loop_fail. exact NX. }
    destruct O as [-> AT1]. set (m2 := set_var m1 g1 LI (Obj x)).
    assert (E2 : frames m2 g1 = mkFrame [(LI, Some (Obj x))] [f0] None).
    { unfold m2. rewrite frames_set_var. rewrite (k_frames _ _ _ _ _ (proj1 LV)) by auto. rewrite E0. cbn [vars around todo put_var]. now rewrite teqb_refl. }
    assert (LV2 : leaves (g1 :: s_F SL) (s_I SL) m m2) by (apply leaves_trans with m1; [exact LV1|apply leaves_var; now left]).
    assert (W2 : world m2) by (apply world_keeps with (1 := proj1 LV2); auto; intros [X|X]; auto).
    assert (RA2 : right_at m2 ls).
    { apply right_keeps with (1 := proj1 LV2); auto; [intros z [<-|Z]; auto|intros [X|X]; auto]. }
    assert (LG2 : g1 < nframes m2) by (pose proof (k_nf _ _ _ _ _ (proj1 LV2)); lia).
    assert (AT2 : s_at SL m2 r) by (apply STAY with m1 [g1] []; auto; [apply leaves_var; now left|intros z []]).
    assert (S2 : in_scope m2 [g1; f0]).
    { apply (more_scope N cond CL); [apply W2|]. rewrite E2. cbn [vars map fst]. intros z [<-|[]]. apply li_inside. }
    assert (LL : look m2 [g1; f0] LI = Some (Some (Obj x))) by (cbn [look]; rewrite E2; cbn [vars var_at]; now rewrite teqb_refl).
    pose proof (enter_right N h cond opr CL TX inputs f0 SL SR SRw SRr SRi m2 [g1; f0] x ls S2 LL RA2 W2) as ER.
    assert (BODY : forall m' o, runs g1 (KDo (GYield (ATuple [nm "left_item"; ones_ast])) :: rows_code) m2 m' o -> nexts (Gen g1) m m' o).
    { intros m' o R. apply START. unfold rows_code. eapply runs_loop_item; [exact NX|reflexivity|]. exact R. }
    destruct (right_items op h cond inputs x ls) as [c|e].
    2: { destruct ER as (m3 & G & FR & LV3). exists (set_todo m3 g1 (Some [])). split.
         - apply BODY. apply runs_yield_fail. apply gives_evals. rewrite E2. intros nx each. unfold nm, ones_ast. cbn [around eval]. rewrite LL. unfold give at 1. cbn [after]. rewrite (G nx each). reflexivity.
         - apply leaves_trans with m2; [exact LV2|]. apply leaves_trans with m3; [apply leaves_weaken with [] []; [exact LV3|intros z []|intros z []]|apply leaves_todo; now left]. }
    destruct ER as (m3 & v & m4 & SI & w & G & IT & FR3 & FR & LV4 & IA & RA4).
    set (m5 := snd (new_frame m4 (mkFrame [(RI, None)] [g1; f0] (Some (ones_code SI))))). set (m6 := set_todo m5 g1 (Some rows_code)).
    assert (N4 : nframes m <= nframes m4) by (pose proof (k_nf _ _ _ _ _ (proj1 LV2)); pose proof (k_nf _ _ _ _ _ (proj1 LV4)); lia).
    assert (LG4 : g1 < nframes m4) by lia.
    assert (LV5 : leaves [] [] m4 m5) by apply leaves_new_frame.
    assert (E5 : frames m5 g1 = mkFrame [(LI, Some (Obj x))] [f0] None) by (rewrite (k_frames _ _ _ _ _ (proj1 LV5)); auto; now rewrite FR).
    assert (LV26 : leaves [g1] [] m2 m6).
    { apply leaves_trans with m5; [|apply leaves_todo; now left]. apply leaves_weaken with [] []; [|intros z []|intros z []]. apply leaves_trans with m4; auto. }
    exists m6, (nframes m4), SI, w. split.
    - apply BODY. apply runs_yield. apply gives_evals. rewrite E2. intros nx each. unfold nm, ones_ast. cbn [around eval]. rewrite LL. unfold give at 1. cbn [after]. rewrite (G nx each). cbn [after].
      rewrite IT. unfold ones_code, loop_body in m5. destruct (if_ast h cond); reflexivity.
    - split; [|split; [|split; [|split; [|split]]]].
      + apply leaves_trans with m2; [exact LV2|]. apply leaves_weaken with [g1] []; [exact LV26|intros z [<-|[]]; now left|intros z []].
      + unfold m6. rewrite frames_set_todo, E5. reflexivity.
      + apply STAY with m2 [g1] []; auto; [apply LV26|intros z []].
      + assert (LV46 : leaves [g1] [] m4 m6) by (apply leaves_trans with m5; [apply leaves_weaken with [] []; [exact LV5|intros z []|intros z []]|apply leaves_todo; now left]).
        destruct (inner_frames _ _ _ _ _ IA) as (_ & _ & _ & _ & I5).
        apply (inner_keeps N h cond opr f0 SL SR SRw SRr SR0 SF SI_) with [g1] [] m4; auto; [apply LV46| | |intros z []].
        * intros z [<-|[]] Z. now apply G1R, I5.
        * intros [X|[]]; congruence.
      + cbn. rewrite at_other by lia. apply at_same.
      + cbn. lia.
  Qed.

  (** *** right_ones *)
  Definition ones_world (x : robj) (m : mem) : Prop := world m /\ g1 < nframes m /\ vars (frames m g1) = [(LI, Some (Obj x))].
  Definition ones (x : robj) (g' : nat) (SI : Proofs_JoinSource.source) : Proofs_JoinSource.source :=
    filtered SI g' RI (if_ast h cond) [g1; f0] (ones_world x) (passes x).
  Lemma ones_works x g' c SI m ls w : inner_at c SI m ls w -> g' <> f0 -> g' <> g1 -> ~ In g' (s_F SR) -> works (ones x g' SI).
  Proof.
    intros IA D0 D1 DR. pose proof (inner_works N h cond opr SL SR SRw _ _ _ _ _ IA) as IW. destruct (inner_frames _ _ _ _ _ IA) as (I1 & I2 & _ & _ & I5).
    apply filtered_works; auto.
    - split; [intros X; apply DR, I5, X|intros X; apply I2 in X as [X|[]]; congruence].
    - split; [intros [X|[X|[]]]; congruence|]. intros z Z [<-|[<-|[]]]; [now apply G1R, I5|contradiction].
    - intros m0 m' F I (W & L & V) K A. split; [apply world_keeps with (1 := K); auto; intros X; apply (A f0 X); right; now left|].
      split; [pose proof (k_nf _ _ _ _ _ K); lia|]. rewrite (k_frames _ _ _ _ _ K); auto. intros X. apply (A g1 X). now left.
    - destruct (if_ast h cond) as [c0|] eqn:IF; [|intros y; now apply if_none].
      intros m0 y (W & L & V) [L' E]. apply (if_worth N h cond opr CL TX inputs m0 [g'; g1; f0] x y c0); auto.
      + apply (more_scope N cond CL).
        * apply (more_scope N cond CL); [apply W|]. rewrite V. cbn [map fst]. intros z [<-|[]]. apply li_inside.
        * rewrite E. cbn [vars map fst]. intros z [<-|[]]. apply ri_inside.
      + cbn [look]. rewrite E. cbn [vars var_at]. rewrite teqb_T. cbn [String.eqb Ascii.eqb Bool.eqb]. rewrite V. cbn [var_at]. now rewrite teqb_refl.
      + cbn [look]. rewrite E. cbn [vars var_at]. now rewrite teqb_refl.
  Qed.

  (** *** _left_joiner *)
  Variable g2 : nat.
  Variable base : nat.
  Hypothesis B0 : f0 < base.
  Hypothesis B1 : g1 < base.
  Hypothesis B2 : g2 < base.
  Hypothesis BL : forall f, In f (s_F SL) -> f < base.
  Hypothesis BR : forall f, In f (s_F SR) -> f < base.
  Hypothesis G20 : g2 <> f0.
  Hypothesis G21 : g2 <> g1.
  Hypothesis G2L : ~ In g2 (s_F SL).
  Hypothesis G2R : ~ In g2 (s_F SR).
  Definition pair_ast (a b : ast) : ast := ATuple (if swapped h then [b; a] else [a; b]).
  Definition ones_for : gstmt := GFor [RI] (nm "right_ones") [GYield (pair_ast (nm "left_item") (nm "right_item"))].
  Definition join_body : list gstmt :=
    [GAssign RI (fn "next" [nm "right_ones"; nm "none_"]);
     GIf (ACompare (nm "right_item") [(T "is", nm "none_")]) [GYield (pair_ast (nm "left_item") none_ast)]
       [GYield (pair_ast (nm "left_item") (nm "right_item")); ones_for]].
  Definition join_loop : list kont := [KLoop [LI; ONES] (Gen g1) join_body].
  Definition jvars (n : nat) (a b c : option pv) : list (text * option pv) := [(L2R, Some (Gen g1)); (NONE, Some (New n)); (LI, a); (ONES, b); (RI, c)].
  Definition start_frame : frame := mkFrame [(L2R, Some (Gen g1)); (NONE, None); (LI, None); (ONES, None); (RI, None)] [] (Some (map KDo (g_body (left_joiner (swapped h))))).
  Definition jrest (m : mem) (u : list (res robj)) : Prop :=
    base <= nframes m /\ world m /\ s_at SL m u /\ exists a, frames m g1 = mkFrame [(LI, a)] [f0] (Some rows_code).
  Definition joiner_inv (m : mem) (s : jstate) (ls : Model_Labels.labels lab) : Prop :=
    jrest m (fst s) /\ right_at m ls /\
    match snd s with
    | None => frames m g2 = start_frame \/ exists n a b c, frames m g2 = mkFrame (jvars n a b c) [] (Some join_loop)
    | Some (x, c) => exists g' SI w n b k, base <= g' /\ inner_at c SI m ls w /\ s_at (ones x g' SI) m w /\
        frames m g2 = mkFrame (jvars n (Some (Obj x)) (Some (Gen g')) b) [] (Some (k :: join_loop)) /\
        (k = KDo ones_for \/ k = KLoop [RI] (Gen g') [GYield (pair_ast (nm "left_item") (nm "right_item"))])
    end.
  Definition jdead (m : mem) : Prop := todo (frames m g2) = Some [].
  Definition changed (f : nat) : Prop := base <= f \/ In f (g1 :: g2 :: s_F SL ++ s_F SR).
  Definition joutcome (m m' : mem) (r : gout) (o : Model_Labels.labels lab * jout) : Prop :=
    (exists F I, leaves F I m m' /\ forall f, In f F -> changed f) /\
    match o with
    | (ls', JPair p s') => r = GItem (Tup [Obj (fst p); Obj (snd p)]) /\ joiner_inv m' s' ls'
    | (ls', JEnd) => r = GEnd /\ right_at m' ls' /\ world m' /\ base <= nframes m'
    | (_, JFail e) => r = GFail e
    end.
  Definition jdoes (code : list kont) (m : mem) (o : Model_Labels.labels lab * jout) : Prop :=
    exists m' r, runs g2 code m m' r /\ joutcome m m' r o.

  Lemma jrest_keeps F I m m' u : keeps F I m m' -> apart F (s_F SL) -> ~ In f0 F -> ~ In g1 F -> apart I (s_I SL) -> jrest m u -> jrest m' u.
  Proof.
    intros K A1 A2 A3 A4 (X & W & AT & a & E). pose proof (k_nf _ _ _ _ _ K). split; [lia|]. split; [now apply world_keeps with (1 := K)|]. split.
    - destruct SLw as (_ & STAY & _). apply STAY with m F I; auto. intros z Z Y. apply SLr in Y as [<-|[]]. contradiction.
    - exists a. rewrite (k_frames _ _ _ _ _ K); auto. lia.
  Qed.
  Lemma joutcome_after F I m m1 m' r o : leaves F I m m1 -> (forall f, In f F -> changed f) -> joutcome m1 m' r o -> joutcome m m' r o.
  Proof.
    intros LV C ((F' & I' & LV' & C') & O). split; [|exact O]. exists (F ++ F'), (I ++ I'). split.
    - apply leaves_trans with m1; [apply leaves_weaken with F I; auto; apply incl_appl, incl_refl|apply leaves_weaken with F' I'; auto; apply incl_appr, incl_refl].
    - intros f Z. apply in_app_iff in Z as [Z|Z]; auto.
  Qed.

  (** names in the frame of _left_joiner *)
  Lemma jlook m n a b c t : frames m g2 = mkFrame (jvars n a b c) [] t ->
    look m [g2] NONE = Some (Some (New n)) /\ look m [g2] LI = Some a /\ look m [g2] ONES = Some b /\ look m [g2] RI = Some c.
  Proof. intros E. cbn [look]. rewrite E. cbn [vars jvars var_at]. rewrite !teqb_T. cbn [String.eqb Ascii.eqb Bool.eqb]. auto. Qed.
  Lemma jput m n a b c : frames m g2 = mkFrame (jvars n a b c) [] None ->
    (forall v, frames (set_var m g2 RI v) g2 = mkFrame (jvars n a b (Some v)) [] None) /\
    (forall v w, frames (set_var (set_var m g2 LI v) g2 ONES w) g2 = mkFrame (jvars n (Some v) (Some w) c) [] None).
  Proof.
    intros E. split; intros.
    - rewrite frames_set_var, E. cbn [vars around todo jvars put_var]. rewrite !teqb_T. reflexivity.
    - rewrite frames_set_var, frames_set_var, E. cbn [vars around todo jvars put_var]. rewrite !teqb_T. cbn [String.eqb Ascii.eqb Bool.eqb put_var]. rewrite !teqb_T. reflexivity.
  Qed.
  Lemma jnext m m' n a g' c o : frames m g2 = mkFrame (jvars n a (Some (Gen g')) c) [] None -> nexts (Gen g') m m' o ->
    evals (g2 :: around (frames m g2)) (fn "next" [nm "right_ones"; nm "none_"]) m m' (match o with GItem v => Ok v | GEnd => Ok (New n) | GFail e => Err e end).
  Proof.
    intros E [K NX]. exists K. intros k LE. destruct (jlook _ _ _ _ _ _ E) as (L1 & L2 & L3 & L4). rewrite E. cbn [around].
    unfold fn, nm. cbn [eval]. 
    assert (CE : callee globals m [g2] (T "next") = Some (T "next")).
    { unfold callee. cbn [look]. rewrite E. cbn [vars jvars var_at]. rewrite !teqb_T. cbn [String.eqb Ascii.eqb Bool.eqb].
      change (T "next") with (res_at N 7). rewrite (not_empty N cond CL) by lia. reflexivity. }
    rewrite CE, L3. unfold give at 1. cbn [after]. rewrite L1. unfold give at 1. cbn [after]. unfold give at 1. cbn [after]. unfold give at 1. cbn [after]. unfold give at 1. cbn [after]. unfold give at 1. cbn [after].
    unfold apply. change (T "next") with (res_at N 7). rewrite (not_gfun N h cond CL), (not_indexer N h cond opr CL) by lia. change (res_at N 7) with (T "next"). rewrite !teqb_T. cbn [String.eqb Ascii.eqb Bool.eqb].
    rewrite (NX k LE). destruct o; reflexivity.
  Qed.
  Lemma jpair m n x b c t : frames m g2 = mkFrame (jvars n (Some (Obj x)) b c) [] t ->
    evals (g2 :: around (frames m g2)) (pair_ast (nm "left_item") none_ast) m m (Ok (Tup [Obj (fst (pair_of h x none_obj)); Obj (snd (pair_of h x none_obj))])) /\
    (forall y, c = Some (Obj y) -> evals (g2 :: around (frames m g2)) (pair_ast (nm "left_item") (nm "right_item")) m m (Ok (Tup [Obj (fst (pair_of h x y)); Obj (snd (pair_of h x y))]))).
  Proof.
    intros E. destruct (jlook _ _ _ _ _ _ E) as (L1 & L2 & L3 & L4). rewrite E. cbn [around]. split; [|intros y ->]; apply gives_evals; intros nx each; unfold pair_ast, nm, none_ast, pair_of; destruct (swapped h); cbn [eval].
    - rewrite teqb_refl. unfold give at 1. cbn [after]. rewrite L2. reflexivity.
    - rewrite L2. unfold give at 1. cbn [after]. rewrite teqb_refl. reflexivity.
    - rewrite L4. unfold give at 1. cbn [after]. rewrite L2. reflexivity.
    - rewrite L2. unfold give at 1. cbn [after]. rewrite L4. reflexivity.
  Qed.
  Lemma jis m n a b v t : frames m g2 = mkFrame (jvars n a b (Some v)) [] t -> (exists y, v = Obj y) \/ v = New n ->
    evals (g2 :: around (frames m g2)) (ACompare (nm "right_item") [(T "is", nm "none_")]) m m (Ok (Val (VBool match v with New _ => true | _ => false end))).
  Proof.
    intros E V. destruct (jlook _ _ _ _ _ _ E) as (L1 & L2 & L3 & L4). rewrite E. cbn [around]. apply gives_evals; intros nx each; unfold nm; cbn [eval].
    rewrite L4. unfold give at 1. cbn [after]. rewrite L1. unfold give at 1. cbn [after]. destruct V as [[y ->]| ->]; cbn [compare]; rewrite teqb_refl; cbn [after give]; [reflexivity|]. now rewrite Nat.eqb_refl.
  Qed.

  Lemma joiner_left u m ls n a b c : jrest m u -> right_at m ls -> frames m g2 = mkFrame (jvars n a b c) [] None ->
    jdoes join_loop m (lead_outer op h cond inputs u ls).
  Proof.
    intros RE RA E. pose proof RE as (LB & W & ATL & a1 & E1).
    assert (LG1 : g1 < nframes m) by lia.
    pose proof (rows_next m ls u a1 LG1 W RA ATL E1) as RN. unfold lead_outer.
    assert (CH : forall f, In f (g1 :: s_F SL) -> changed f) by (intros f Z; right; cbn; destruct Z as [<-|Z]; [now left|right; right; apply in_app_iff; now left]).
    destruct (next_left op h cond inputs u ls) as [x cs0 r| |e].
    2: { destruct RN as (m1 & NX & LV). exists (set_todo m1 g2 (Some [])), GEnd. split; [eapply runs_loop_end; [exact NX|apply runs_nil]|].
         assert (LV' : leaves (g2 :: g1 :: s_F SL) (s_I SL) m (set_todo m1 g2 (Some []))).
         { apply leaves_trans with m1; [apply leaves_weaken with (g1 :: s_F SL) (s_I SL); [exact LV|apply incl_tl, incl_refl|apply incl_refl]|apply leaves_todo; now left]. }
         split; [eexists _, _; split; [exact LV'|]; intros f [<-|Z]; [right; right; now left|auto]|].
         split; [reflexivity|]. split; [|split].
         - apply right_keeps with (1 := proj1 LV'); auto; [intros z [<-|[<-|Z]]; auto|intros [X|[X|X]]; auto].
         - apply world_keeps with (1 := proj1 LV'); auto. intros [X|[X|X]]; auto.
         - pose proof (k_nf _ _ _ _ _ (proj1 LV')). lia. }
    2: { destruct RN as (m1 & NX & LV). exists (set_todo m1 g2 (Some [])), (GFail e). split; [apply runs_loop_fail; exact NX|].
         split; [|reflexivity]. exists (g2 :: g1 :: s_F SL), (s_I SL). split; [|intros f [<-|Z]; [right; right; now left|auto]].
         apply leaves_trans with m1; [apply leaves_weaken with (g1 :: s_F SL) (s_I SL); [exact LV|apply incl_tl, incl_refl|apply incl_refl]|apply leaves_todo; now left]. }
    destruct RN as (m1 & g' & SI & w & NX & LV1 & EG1 & ATL1 & IA1 & EG' & LG').
    pose proof (inner_frames _ _ _ _ _ IA1) as (I1 & I2 & I3 & I4 & I5).
    assert (E2 : frames m1 g2 = mkFrame (jvars n a b c) [] None) by (rewrite (k_frames _ _ _ _ _ (proj1 LV1)); auto; [lia|intros [X|X]; auto]).
    set (m2 := set_var (set_var m1 g2 LI (Obj x)) g2 ONES (Gen g')).
    assert (F2 : frames m2 g2 = mkFrame (jvars n (Some (Obj x)) (Some (Gen g')) c) [] None) by (apply (jput m1 n a b c E2)).
    assert (LV2 : leaves [g2] [] m1 m2) by (apply leaves_trans with (set_var m1 g2 LI (Obj x)); apply leaves_var; now left).
    assert (N1 : base <= nframes m1) by (pose proof (k_nf _ _ _ _ _ (proj1 LV1)); lia).
    assert (D' : g' <> g2) by lia.
    assert (W1 : world m1) by (apply world_keeps with (1 := proj1 LV1); auto; intros [X|X]; auto).
    assert (RE2 : jrest m2 r).
    { apply jrest_keeps with (1 := proj1 LV2); [intros z [<-|[]]; auto|intros [X|[]]; auto|intros [X|[]]; auto|intros z []|]. split; [exact N1|]. split; [exact W1|]. split; [exact ATL1|]. eauto. }
    assert (RA2 : right_at m2 ls).
    { apply right_keeps with [g2] [] m1; [apply LV2|intros z [<-|[]]; auto|intros [X|[]]; auto|intros z []|]. apply right_keeps with (1 := proj1 LV1); auto; [intros z [<-|Z]; auto|intros [X|X]; auto]. }
    assert (IA2 : inner_at cs0 SI m2 ls w).
    { apply (inner_keeps N h cond opr f0 SL SR SRw SRr SR0 SF SI_) with [g2] [] m1; auto; [apply LV2| |intros [X|[]]; auto|intros z []]. intros z [<-|[]] Z. now apply G2R, I5. }
    assert (OW2 : s_at (ones x g' SI) m2 w).
    { split; [exact (proj2 LG')|]. split; [|split; [apply IA2|]].
      - split; [apply RE2|]. split; [cbn; lia|]. rewrite (k_frames _ _ _ _ _ (proj1 LV2)); [now rewrite EG1|lia|intros [X|[]]; auto].
      - exists [(RI, None)]. split; [intros v; cbn [put_var]; now rewrite teqb_refl|]. left. rewrite (k_frames _ _ _ _ _ (proj1 LV2)); [exact EG'|lia|intros [X|[]]; auto]. }
    assert (OW : works (ones x g' SI)).
    { apply ones_works with cs0 m2 ls w; auto; try lia. intros X. apply BR in X. lia. }
    pose proof OW as (ADV & OSTAY & _). destruct (ADV m2 w OW2) as (m3 & o & NX3 & LV3 & O).
    cbn [ones filtered s_pv s_F s_I s_test] in NX3, LV3, O.
    assert (LV13 : exists F I, leaves F I m m3 /\ forall f, In f F -> changed f).
    { exists ((g1 :: s_F SL) ++ [g2] ++ g' :: s_F SI), (s_I SL ++ s_I SI). split.
      - apply leaves_trans with m1; [apply leaves_weaken with (1 := LV1); [apply incl_appl, incl_refl|apply incl_appl, incl_refl]|].
        apply leaves_trans with m2; [apply leaves_weaken with (1 := LV2); [apply incl_appr, incl_appl, incl_refl|intros z []]|].
        apply leaves_weaken with (1 := LV3); [apply incl_appr, incl_appr, incl_refl|apply incl_appr, incl_refl].
      - intros f Z. apply in_app_iff in Z as [Z|[<-|[<-|Z]]]; [auto|right; right; now left|left; lia|right; right; right; apply in_app_iff; right; now apply I5]. }
    assert (F3 : frames m3 g2 = mkFrame (jvars n (Some (Obj x)) (Some (Gen g')) c) [] None).
    { rewrite (k_frames _ _ _ _ _ (proj1 LV3)); [exact F2|cbn; lia|]. intros [X|X]; [auto|now apply G2R, I5]. }
    assert (START : forall m' o', runs g2 (map KDo join_body ++ join_loop) m2 m' o' -> runs g2 join_loop m m' o').
    { intros m' o' R. unfold join_loop. eapply runs_loop_item; [exact NX|reflexivity|exact R]. }
    pose proof (next_right_seek N h cond opr inputs f0 SL SR SRw SRr SRt x cs0 SI m2 ls w IA2 RA2) as NR.
    pose proof (jnext m2 m3 n _ g' c o F2 NX3) as EVN.
    assert (RE3 : jrest m3 r).
    { apply jrest_keeps with (1 := proj1 LV3); auto.
      - intros z [<-|Z] Y; [apply BL in Y; lia|now apply (I3 z)].
      - intros [X|X]; [lia|auto].
      - intros [X|X]; [lia|now apply G1R, I5].
      - intros z Z Y. now apply (I4 z). }
    assert (AG : forall z, In z [g'] -> In z (s_F SR) -> False) by (intros z [<-|[]] Y; apply BR in Y; lia).
    assert (A0 : ~ In f0 [g']) by (intros [X|[]]; lia).
    assert (END : forall v F I m', leaves F I (set_var m3 g2 RI v) m' -> (forall f, In f F -> changed f) -> exists F I, leaves F I m m' /\ forall f, In f F -> changed f).
    { intros v F I m' LV C. destruct LV13 as (F' & I' & LV' & C'). exists (F' ++ [g2] ++ F), (I' ++ I). split.
      - apply leaves_trans with m3; [apply leaves_weaken with (1 := LV'); apply incl_appl, incl_refl|]. apply leaves_trans with (set_var m3 g2 RI v); [apply leaves_var; apply in_app_iff; right; now left|].
        apply leaves_weaken with (1 := LV); [apply incl_appr, incl_appr, incl_refl|apply incl_appr, incl_refl].
      - intros f Z. apply in_app_iff in Z as [Z|[<-|Z]]; [auto|right; right; now left|auto]. }
    destruct (seek (both (s_test SI) (passes x)) w) as [y r'| |e].
    - destruct O as [-> AT3]. destruct NR as (ls' & c' & -> & NR). destruct (NR [g'] m3 (proj1 LV3) AG A0 (proj1 (proj2 (proj2 AT3)))) as [RA3 IA3].
      set (m4 := set_var m3 g2 RI (Obj y)). assert (F4 : frames m4 g2 = mkFrame (jvars n (Some (Obj x)) (Some (Gen g')) (Some (Obj y))) [] None) by apply (jput m3 _ _ _ _ F3).
      set (m5 := set_todo m4 g2 (Some (KDo ones_for :: join_loop))).
      assert (LV35 : leaves [g2] [] m3 m5) by (apply leaves_trans with m4; [apply leaves_var; now left|apply leaves_todo; now left]).
      exists m5, (GItem (Tup [Obj (fst (pair_of h x y)); Obj (snd (pair_of h x y))])). split.
      + apply START. unfold join_body. cbn [map app]. eapply runs_assign; [exact EVN|]. fold m4. eapply runs_if; [apply (jis _ _ _ _ _ _ F4); eauto|]. cbn [truth truthy map app].
        apply runs_yield. apply (jpair _ _ _ _ _ _ F4). reflexivity.
      + split; [apply END with (Obj y) [g2] []; [apply leaves_todo; now left|intros f [<-|[]]; right; right; now left]|].
        split; [reflexivity|]. split; [|split].
        * apply jrest_keeps with (1 := proj1 LV35); cbn [fst]; auto; [intros z [<-|[]]; auto|intros [X|[]]; auto|intros [X|[]]; auto|intros z []].
        * apply right_keeps with (1 := proj1 LV35); auto; [intros z [<-|[]]; auto|intros [X|[]]; auto|intros z []].
        * cbn [snd]. exists g', SI, r', n, (Some (Obj y)), (KDo ones_for). split; [lia|]. split; [|split; [|split; [|now left]]].
          -- apply (inner_keeps N h cond opr f0 SL SR SRw SRr SR0 SF SI_) with [g2] [] m3; auto; [apply LV35| |intros [X|[]]; auto|intros z []]. intros z [<-|[]] Z. now apply G2R, I5.
          -- apply OSTAY with m3 [g2] []; auto; [apply LV35| | |intros z []].
             ++ intros z [<-|[]] [X|X]; [auto|now apply G2R, I5].
             ++ intros z [<-|[]] X. apply in_app_iff in X as [[X|[X|[]]]|X]; [auto|auto|]. apply I2 in X as [X|[]]. auto.
          -- unfold m5. rewrite frames_set_todo, F4. reflexivity.
    - destruct O as [-> AT3]. destruct NR as (ls' & -> & NR). pose proof (NR [g'] m3 (proj1 LV3) AG A0 (proj1 (proj2 (proj2 AT3)))) as RA3.
      set (m4 := set_var m3 g2 RI (New n)). assert (F4 : frames m4 g2 = mkFrame (jvars n (Some (Obj x)) (Some (Gen g')) (Some (New n))) [] None) by apply (jput m3 _ _ _ _ F3).
      set (m5 := set_todo m4 g2 (Some join_loop)).
      assert (LV35 : leaves [g2] [] m3 m5) by (apply leaves_trans with m4; [apply leaves_var; now left|apply leaves_todo; now left]).
      exists m5, (GItem (Tup [Obj (fst (pair_of h x none_obj)); Obj (snd (pair_of h x none_obj))])). split.
      + apply START. unfold join_body. cbn [map app]. eapply runs_assign; [exact EVN|]. fold m4. eapply runs_if; [apply (jis _ _ _ _ _ _ F4); eauto|]. cbn [truth truthy map app].
        apply runs_yield. apply (jpair _ _ _ _ _ _ F4).
      + split; [apply END with (New n) [g2] []; [apply leaves_todo; now left|intros f [<-|[]]; right; right; now left]|].
        split; [reflexivity|]. split; [|split].
        * apply jrest_keeps with (1 := proj1 LV35); cbn [fst]; auto; [intros z [<-|[]]; auto|intros [X|[]]; auto|intros [X|[]]; auto|intros z []].
        * apply right_keeps with (1 := proj1 LV35); auto; [intros z [<-|[]]; auto|intros [X|[]]; auto|intros z []].
        * cbn [snd]. right. exists n, (Some (Obj x)), (Some (Gen g')), (Some (New n)). unfold m5. rewrite frames_set_todo, F4. reflexivity.
    - subst o. destruct NR as (ls' & ->). exists (set_todo m3 g2 (Some [])), (GFail e). split.
      + apply START. unfold join_body. cbn [map app]. destruct EVN as [K EVN]. exists (S K). intros k LE. destruct k as [|k]; [lia|]. cbn [Spec_GenRun.run]. fold (Spec_GenRun.next globals opr gfuns indexers k). rewrite EVN by lia. reflexivity.
      + split; [|reflexivity]. destruct LV13 as (F' & I' & LV' & C'). exists (g2 :: F'), I'. split.
        * apply leaves_trans with m3; [apply leaves_weaken with (1 := LV'); [apply incl_tl, incl_refl|apply incl_refl]|apply leaves_todo; now left].
        * intros f [<-|Z]; [right; right; now left|auto].
  Qed.

  Lemma joiner_inner u x c g' SI w n b m ls : jrest m u -> right_at m ls -> base <= g' -> inner_at c SI m ls w -> s_at (ones x g' SI) m w ->
    frames m g2 = mkFrame (jvars n (Some (Obj x)) (Some (Gen g')) b) [] None ->
    jdoes (KLoop [RI] (Gen g') [GYield (pair_ast (nm "left_item") (nm "right_item"))] :: join_loop) m (lead op h cond inputs (u, Some (x, c)) ls).
  Proof.
    intros RE RA BG IA OA E. pose proof RE as (LB & _).
    pose proof (inner_frames _ _ _ _ _ IA) as (I1 & I2 & I3 & I4 & I5).
    assert (OW : works (ones x g' SI)) by (apply ones_works with c m ls w; auto; try lia; intros X; apply BR in X; lia).
    pose proof OW as (ADV & OSTAY & _). destruct (ADV m w OA) as (m3 & o & NX3 & LV3 & O).
    cbn [ones filtered s_pv s_F s_I s_test] in NX3, LV3, O.
    assert (CH : forall f, In f (g' :: s_F SI) -> changed f) by (intros f [<-|Z]; [now left|right; right; right; apply in_app_iff; right; now apply I5]).
    assert (F3 : frames m3 g2 = mkFrame (jvars n (Some (Obj x)) (Some (Gen g')) b) [] None).
    { rewrite (k_frames _ _ _ _ _ (proj1 LV3)); [exact E|lia|]. intros [X|X]; [lia|now apply G2R, I5]. }
    assert (RE3 : jrest m3 u).
    { apply jrest_keeps with (1 := proj1 LV3); auto.
      - intros z [<-|Z] Y; [apply BL in Y; lia|now apply (I3 z)].
      - intros [X|X]; [lia|auto].
      - intros [X|X]; [lia|now apply G1R, I5].
      - intros z Z Y. now apply (I4 z). }
    assert (AG : forall z, In z [g'] -> In z (s_F SR) -> False) by (intros z [<-|[]] Y; apply BR in Y; lia).
    assert (A0 : ~ In f0 [g']) by (intros [X|[]]; lia).
    pose proof (next_right_seek N h cond opr inputs f0 SL SR SRw SRr SRt x c SI m ls w IA RA) as NR.
    unfold lead. cbn [fst snd]. destruct (seek (both (s_test SI) (passes x)) w) as [y r'| |e].
    - destruct O as [-> AT3]. destruct NR as (ls' & c' & -> & NR). destruct (NR [g'] m3 (proj1 LV3) AG A0 (proj1 (proj2 (proj2 AT3)))) as [RA3 IA3].
      set (m4 := set_var m3 g2 RI (Obj y)). assert (F4 : frames m4 g2 = mkFrame (jvars n (Some (Obj x)) (Some (Gen g')) (Some (Obj y))) [] None) by apply (jput m3 _ _ _ _ F3).
      set (k := KLoop [RI] (Gen g') [GYield (pair_ast (nm "left_item") (nm "right_item"))]).
      set (m5 := set_todo m4 g2 (Some (k :: join_loop))).
      assert (LV35 : leaves [g2] [] m3 m5) by (apply leaves_trans with m4; [apply leaves_var; now left|apply leaves_todo; now left]).
      exists m5, (GItem (Tup [Obj (fst (pair_of h x y)); Obj (snd (pair_of h x y))])). split.
      + unfold k. eapply runs_loop_item; [exact NX3|reflexivity|]. cbn [map app]. apply runs_yield. apply (jpair _ _ _ _ _ _ F4). reflexivity.
      + split.
        { exists ((g' :: s_F SI) ++ [g2]), (s_I SI). split; [|intros f Z; apply in_app_iff in Z as [Z|[<-|[]]]; [auto|right; right; now left]].
          apply leaves_trans with m3; [apply leaves_weaken with (1 := LV3); [apply incl_appl, incl_refl|apply incl_refl]|apply leaves_weaken with (1 := LV35); [apply incl_appr, incl_refl|intros z []]]. }
        split; [reflexivity|]. split; [|split].
        * apply jrest_keeps with (1 := proj1 LV35); cbn [fst]; auto; [intros z [<-|[]]; auto|intros [X|[]]; auto|intros [X|[]]; auto|intros z []].
        * apply right_keeps with (1 := proj1 LV35); auto; [intros z [<-|[]]; auto|intros [X|[]]; auto|intros z []].
        * cbn [snd]. exists g', SI, r', n, (Some (Obj y)), k. split; [lia|]. split; [|split; [|split; [|now right]]].
          -- apply (inner_keeps N h cond opr f0 SL SR SRw SRr SR0 SF SI_) with [g2] [] m3; auto; [apply LV35| |intros [X|[]]; auto|intros z []]. intros z [<-|[]] Z. now apply G2R, I5.
          -- apply OSTAY with m3 [g2] []; auto; [apply LV35| | |intros z []].
             ++ intros z [<-|[]] [X|X]; [lia|now apply G2R, I5].
             ++ intros z [<-|[]] X. apply in_app_iff in X as [[X|[X|[]]]|X]; [auto|auto|]. apply I2 in X as [X|[]]. auto.
          -- unfold m5. rewrite frames_set_todo, F4. reflexivity.
    - destruct O as [-> AT3]. destruct NR as (ls' & -> & NR). pose proof (NR [g'] m3 (proj1 LV3) AG A0 (proj1 (proj2 (proj2 AT3)))) as RA3.
      destruct (joiner_left u m3 ls' _ _ _ _ RE3 RA3 F3) as (m' & r & R & OC). exists m', r. split.
      + eapply runs_loop_end; [exact NX3|exact R].
      + now apply joutcome_after with (1 := LV3).
    - subst o. destruct NR as (ls' & ->). exists (set_todo m3 g2 (Some [])), (GFail e). split; [now apply runs_loop_fail|].
      split; [|reflexivity]. exists ((g' :: s_F SI) ++ [g2]), (s_I SI). split; [|intros f Z; apply in_app_iff in Z as [Z|[<-|[]]]; [auto|right; right; now left]].
      apply leaves_trans with m3; [apply leaves_weaken with (1 := LV3); [apply incl_appl, incl_refl|apply incl_refl]|apply leaves_todo; apply in_app_iff; right; now left].
  Qed.

  Lemma joiner_keeps F m m' s ls : keeps F [] m m' -> (forall f, In f F -> f < base /\ f <> f0 /\ f <> g1 /\ f <> g2 /\ ~ In f (s_F SL) /\ ~ In f (s_F SR)) ->
    joiner_inv m s ls -> joiner_inv m' s ls.
  Proof.
    intros K C (RE & RA & ST). pose proof RE as (LB & _).
    assert (E2 : frames m' g2 = frames m g2) by (apply (k_frames _ _ _ _ _ K); [lia|intros X; now apply C in X]).
    split; [|split].
    - apply jrest_keeps with (1 := K); auto; try (intros X; now apply C in X). intros z Z Y. now apply C in Z. intros z [].
    - apply right_keeps with (1 := K); auto; [intros z Z Y; now apply C in Z|intros X; now apply C in X|intros z []].
    - destruct (snd s) as [[x c]|]; rewrite E2; [|exact ST].
      destruct ST as (g' & SI & w & n & b & k & BG & IA & OA & F2 & KK). exists g', SI, w, n, b, k.
      pose proof (inner_frames _ _ _ _ _ IA) as (I1 & I2 & I3 & I4 & I5).
      assert (OW : works (ones x g' SI)) by (apply ones_works with c m ls w; auto; try lia; intros X; apply BR in X; lia).
      split; [exact BG|]. split; [|split; [|now split]].
      + apply (inner_keeps N h cond opr f0 SL SR SRw SRr SR0 SF SI_) with F [] m; auto; [|intros X; now apply C in X|intros z []]. intros z Z Y. apply I5 in Y. now apply C in Z.
      + destruct OW as (_ & OSTAY & _). apply OSTAY with m F []; auto; [| |intros z []].
        * intros z Z [<-|Y]; [apply C in Z; lia|apply I5 in Y; now apply C in Z].
        * intros z Z Y. apply C in Z. apply in_app_iff in Y as [[<-|[<-|[]]]|Y]; [tauto|tauto|]. apply I2 in Y as [<-|[]]. tauto.
  Qed.

  Theorem joiner_next m s ls : joiner_inv m s ls ->
    exists m' r, nexts (Gen g2) m m' r /\ joutcome m m' r (lead op h cond inputs s ls).
  Proof.
    intros (RE & RA & ST). pose proof RE as (LB & _). set (m0 := set_todo m g2 None).
    assert (LV0 : leaves [g2] [] m m0) by (apply leaves_todo; now left).
    assert (C2 : forall f, In f [g2] -> changed f) by (intros f [<-|[]]; right; right; now left).
    assert (RE0 : jrest m0 (fst s)) by (apply jrest_keeps with (1 := proj1 LV0); auto; [intros z [<-|[]]; auto|intros [X|[]]; auto|intros [X|[]]; auto|intros z []]).
    assert (RA0 : right_at m0 ls) by (apply right_keeps with (1 := proj1 LV0); auto; [intros z [<-|[]]; auto|intros [X|[]]; auto|intros z []]).
    destruct s as [u [[x c]|]]; cbn [fst snd] in *.
    - destruct ST as (g' & SI & w & n & b & k & BG & IA & OA & F2 & KK).
      pose proof (inner_frames _ _ _ _ _ IA) as (I1 & I2 & I3 & I4 & I5).
      assert (OW : works (ones x g' SI)) by (apply ones_works with c m ls w; auto; try lia; intros X; apply BR in X; lia).
      assert (F0 : frames m0 g2 = mkFrame (jvars n (Some (Obj x)) (Some (Gen g')) b) [] None) by (unfold m0; rewrite frames_set_todo, F2; reflexivity).
      assert (D : jdoes (KLoop [RI] (Gen g') [GYield (pair_ast (nm "left_item") (nm "right_item"))] :: join_loop) m0 (lead op h cond inputs (u, Some (x, c)) ls)).
      { apply joiner_inner with SI w n b; auto.
        - apply (inner_keeps N h cond opr f0 SL SR SRw SRr SR0 SF SI_) with [g2] [] m; auto; [apply LV0| |intros [X|[]]; auto|intros z []]. intros z [<-|[]] Z. now apply G2R, I5.
        - destruct OW as (_ & OSTAY & _). apply OSTAY with m [g2] []; auto; [apply LV0| | |intros z []].
          + intros z [<-|[]] [X|X]; [lia|now apply G2R, I5].
          + intros z [<-|[]] X. apply in_app_iff in X as [[X|[X|[]]]|X]; [auto|auto|]. apply I2 in X as [X|[]]. auto. }
      destruct D as (m' & r & R & OC). exists m', r. split; [|now apply joutcome_after with (1 := LV0)].
      eapply nexts_gen; [rewrite F2; reflexivity|]. fold m0. destruct KK as [->| ->]; [|exact R].
      unfold ones_for. eapply runs_for; [apply gives_evals; intros nx each; rewrite F0; unfold nm; cbn [around eval]; rewrite (proj1 (proj2 (proj2 (jlook _ _ _ _ _ _ F0)))); reflexivity|reflexivity|exact R].
    - destruct ST as [F2|(n & a & b & c & F2)].
      + assert (F0 : frames m0 g2 = mkFrame [(L2R, Some (Gen g1)); (NONE, None); (LI, None); (ONES, None); (RI, None)] [] None) by (unfold m0; rewrite frames_set_todo, F2; reflexivity).
        set (m1 := snd (new_object m0)). set (m2 := set_var m1 g2 NONE (New (news m0))).
        assert (LV2 : leaves [g2] [] m m2).
        { apply leaves_trans with m0; [exact LV0|]. apply leaves_trans with m1; [|apply leaves_var; now left]. split; [|auto]. constructor; auto. }
        assert (LK : look m0 [g2] L2R = Some (Some (Gen g1)) /\ callee globals m0 [g2] (T "object") = Some (T "object")).
        { cbn [look callee]. unfold callee. cbn [look]. rewrite F0. cbn [vars var_at]. rewrite !teqb_T. cbn [String.eqb Ascii.eqb Bool.eqb]. split; [reflexivity|].
          change (T "object") with (res_at N 10). rewrite (not_empty N cond CL) by lia. reflexivity. }
        assert (F2' : frames m2 g2 = mkFrame (jvars (news m0) None None None) [] None).
        { unfold m2. rewrite frames_set_var. unfold m1. cbn [new_object snd frames]. rewrite F0. cbn [vars around todo put_var]. rewrite !teqb_T. reflexivity. }
        destruct (joiner_left u m2 ls (news m0) None None None) as (m' & r & R & OC); auto.
        * apply jrest_keeps with (1 := proj1 LV2); auto; [intros z [<-|[]]; auto|intros [X|[]]; auto|intros [X|[]]; auto|intros z []].
        * apply right_keeps with (1 := proj1 LV2); auto; [intros z [<-|[]]; auto|intros [X|[]]; auto|intros z []].
        * exists m', r. split; [|now apply joutcome_after with (1 := LV2)].
          eapply nexts_gen; [rewrite F2; reflexivity|]. fold m0. cbn [left_joiner g_body map].
          eapply runs_assign with (m1 := m1) (v := New (news m0)).
          { apply gives_evals. intros nx each. rewrite F0. unfold fn, nm. cbn [around eval]. rewrite (proj2 LK). unfold give at 1. cbn [after]. unfold give at 1. cbn [after].
            unfold apply. change (T "object") with (res_at N 10). rewrite (not_gfun N h cond CL), (not_indexer N h cond opr CL) by lia. change (res_at N 10) with (T "object"). rewrite !teqb_T. cbn [String.eqb Ascii.eqb Bool.eqb]. reflexivity. }
          fold m2. eapply runs_for with (m1 := m2) (v := Gen g1); [|reflexivity|exact R].
          apply gives_evals. intros nx each. rewrite F2'. unfold nm. cbn [around eval look]. rewrite F2'. cbn [vars jvars var_at]. rewrite teqb_refl. reflexivity.
      + destruct (joiner_left u m0 ls n a b c) as (m' & r & R & OC); auto; [unfold m0; rewrite frames_set_todo, F2; reflexivity|].
        exists m', r. split; [|now apply joutcome_after with (1 := LV0)]. eapply nexts_gen; [rewrite F2; reflexivity|exact R].
  Qed.

  (** *** _add_right_part *)
  Variable g3 : nat.
  Hypothesis HO : how' h = Outer.
  Hypothesis B3 : g3 < base.
  Hypothesis G30 : g3 <> f0.
  Hypothesis G31 : g3 <> g1.
  Hypothesis G32 : g3 <> g2.
  Hypothesis G3L : ~ In g3 (s_F SL).
  Hypothesis G3R : ~ In g3 (s_F SR).
  Notation LJG := (T "left_join_gen").
  Notation GBL := (T "get_by_label_").
  Notation YRI := (T "yielded_right_ids").
  Notation LRT := (T "left_right").
  Notation RT := (T "right").
  Definition avars (i : nat) (c : option pv) : list (text * option pv) := [(LJG, Some (Gen g2)); (GBL, Some (Func GBL)); (YRI, Some (IdSet i)); (LRT, c)].
  Definition add_start : frame := mkFrame [(LJG, Some (Gen g2)); (GBL, Some (Func GBL)); (YRI, None); (LRT, None)] [] (Some (map KDo (g_body Model_JoinFuncs.add_right))).
  Definition add_body : list gstmt :=
    [GExpr (ACall (AAttr (nm "yielded_right_ids") (T "add")) [fn "id" [ASub (nm "left_right") (ANum 1)]] []); GYield (nm "left_right")].
  Definition add_loop : list kont := [KLoop [LRT] (Gen g2) add_body; KDo (GFrom right_part)].
  Definition tail_cond : ast := ACompare (fn "id" [nm "right"]) [(T "not in", nm "yielded_right_ids")].
  Definition tail_code (j : nat) : list kont := [KLoop [RT] (Iter j) (loop_body (Some tail_cond) (ATuple [none_ast; nm "right"]))].
  Definition tail_in (m : mem) (i g4 j : nat) (rest : list robj) (ids : list nat) : Prop :=
    g3 < g4 < nframes m /\ sets m i = ids /\ j < niters m /\ iters m j = map Ok rest /\ (exists c, vars (frames m g3) = avars i c) /\
    exists vs, (forall w, put_var vs RT w = [(RT, Some w)]) /\ frames m g4 = mkFrame vs [g3] (Some (tail_code j)).
  Definition adder_inv (m : mem) (s : gstate) (ls : Model_Labels.labels lab) : Prop :=
    match s with
    | GTail rest ids => exists i g4 j, tail_in m i g4 j rest ids /\ todo (frames m g3) = Some [KFrom (Gen g4)]
    | _ => exists st ids, s = as_state st ids /\ joiner_inv m st ls /\
        ((frames m g3 = add_start /\ ids = []) \/ exists i c, frames m g3 = mkFrame (avars i c) [] (Some add_loop) /\ sets m i = ids)
    end.
  Definition outcome (inv : mem -> gstate -> Model_Labels.labels lab -> Prop) (m' : mem) (r : gout) (o : Model_Labels.labels lab * gen_out lab exc gstate) : Prop :=
    match o with
    | (ls', Model_Labels.GYield v s') => exists p, v = LPair p /\ r = GItem (Tup [Obj (fst p); Obj (snd p)]) /\ inv m' s' ls'
    | (_, GStop) => r = GEnd
    | (_, GRaise e) => r = GFail e
    end.

  Definition fresh_row (ids : list nat) (y : robj) : res bool := Ok (negb (existsb (Nat.eqb (rid y)) ids)).
  Lemma tail_seek rest ids :
    match seek (both all_rows (fresh_row ids)) (map Ok rest) with
    | Found y r => exists r', r = map Ok r' /\ tail rest ids = Model_Labels.GYield (LPair (none_obj, y)) (GTail r' ids)
    | Nothing => tail rest ids = GStop
    | Failed _ => False
    end.
  Proof.
    induction rest as [|y rest IH]; cbn [map seek tail]; [reflexivity|]. unfold both, all_rows, fresh_row. cbn [bind].
    destruct (existsb (Nat.eqb (rid y)) ids); cbn [negb]; [exact IH|]. eauto.
  Qed.
  Lemma id_inside : T "id" <> n_empty N.
  Proof. change (T "id") with (res_at N 8). change (n_empty N) with (res_at N 20). apply (res_neq N cond CL); lia. Qed.
  Lemma tail_next m i g4 j rest ids : tail_in m i g4 j rest ids ->
    exists m' r, nexts (Gen g4) m m' r /\ leaves [g4] [j] m m' /\
    match tail rest ids with
    | Model_Labels.GYield v s' => exists y r', v = LPair (none_obj, y) /\ s' = GTail r' ids /\ r = GItem (Tup [Obj none_obj; Obj y]) /\ tail_in m' i g4 j r' ids
    | GStop => r = GEnd
    | GRaise _ => False
    end.
  Proof.
    intros (LG & SI & LJ & IJ & (c & V3) & vs & PV & E4). set (m0 := set_todo m g4 None).
    assert (LV0 : leaves [g4] [j] m m0) by (apply leaves_todo; now left).
    assert (F0 : frames m0 g4 = mkFrame vs [g3] None) by (unfold m0; rewrite frames_set_todo, E4; reflexivity).
    set (Q := fun m => g3 < nframes m /\ vars (frames m g3) = avars i c /\ sets m i = ids).
    assert (HQ : forall m m', Q m -> leaves (g4 :: []) [j] m m' -> Q m').
    { intros a b (Q1 & Q2 & Q3) (K & S1 & _). split; [pose proof (k_nf _ _ _ _ _ K); lia|]. rewrite S1. rewrite (k_frames _ _ _ _ _ K); auto. intros [X|[]]. lia. }
    assert (LK : forall m y, Q m -> bound g4 RT vs [g3] m y -> look m [g4; g3] RT = Some (Some (Obj y)) /\ look m [g4; g3] YRI = Some (Some (IdSet i)) /\ callee globals m [g4; g3] (T "id") = Some (T "id")).
    { intros a y (_ & Q2 & _) (_ & B). unfold callee. cbn [look]. rewrite B, PV, Q2. cbn [vars avars var_at]. rewrite !teqb_T. cbn [String.eqb Ascii.eqb Bool.eqb]. split; [reflexivity|]. split; [reflexivity|].
      unfold module_globals. rewrite teqb_neq; [reflexivity|]. apply id_inside. }
    assert (Q0 : Q m0).
    { split; [cbn; lia|]. split; [|exact SI]. unfold m0. cbn. rewrite at_other by lia. exact V3. }
    assert (TT : forall m y, Q m -> bound g4 RT vs [g3] m y -> exists q, worth globals opr gfuns indexers [g4; g3] tail_cond m q /\ fresh_row ids y = do v <- q; Ok (truthy v)).
    { intros a y QA B. destruct (LK a y QA B) as (L1 & L2 & L3). exists (Ok (VBool (negb (existsb (Nat.eqb (rid y)) ids)))). split; [|reflexivity].
      exists (Ok (Val (VBool (negb (existsb (Nat.eqb (rid y)) ids))))). split.
      - intros nx each. unfold tail_cond, fn, nm. cbn [eval]. rewrite L3, L1. unfold give at 1. cbn [after]. unfold give at 1. cbn [after]. unfold give at 1. cbn [after]. unfold give at 1. cbn [after].
        unfold apply at 1. change (T "id") with (res_at N 8). rewrite (not_gfun N h cond CL), (not_indexer N h cond opr CL) by lia. change (res_at N 8) with (T "id"). rewrite !teqb_T. cbn [String.eqb Ascii.eqb Bool.eqb].
        unfold give at 1. cbn [after]. rewrite L2. unfold give at 1. cbn [after compare]. rewrite teqb_refl. destruct QA as (_ & _ & QA). rewrite QA. reflexivity.
      - eexists. split; [reflexivity|now left]. }
    assert (EM : forall m y, Q m -> bound g4 RT vs [g3] m y -> gives [g4; g3] (ATuple [none_ast; nm "right"]) m m (Ok (Tup [Obj none_obj; Obj y]))).
    { intros a y QA B nx each. destruct (LK a y QA B) as (L1 & L2 & L3). unfold none_ast, nm. cbn [eval]. rewrite teqb_refl. unfold give at 1. cbn [after]. rewrite L1. reflexivity. }
    pose proof (loop_runs _ _ _ _ _ (plain_source j) (plain_works _ _ _ _ _ j) g4 RT (Some tail_cond) (ATuple [none_ast; nm "right"]) [] vs [g3] Q (fresh_row ids) (fun y => Tup [Obj none_obj; Obj y])
      (conj (fun x => x) (fun x => x)) HQ TT EM (length (map Ok rest)) (map Ok rest) m0 vs (le_n _) (conj LJ IJ) Q0 (proj2 LG) (fun w => eq_refl) F0) as R.
    cbn [plain_source s_test s_pv s_F s_I s_at] in R. pose proof (tail_seek rest ids) as TS.
    assert (START : forall m' o, runs g4 (tail_code j) m0 m' o -> nexts (Gen g4) m m' o) by (intros m' o R'; eapply nexts_gen; [rewrite E4; reflexivity|exact R']).
    destruct (seek (both all_rows (fresh_row ids)) (map Ok rest)) as [y r| |e]; [| |contradiction].
    - destruct R as (m' & R & LV & AT & E'). destruct TS as (r' & -> & ->). exists m', (GItem (Tup [Obj none_obj; Obj y])). split; [apply START; exact R|].
      split; [now apply leaves_trans with m0|]. exists y, r'. split; [reflexivity|]. split; [reflexivity|]. split; [reflexivity|].
      destruct (HQ m0 m' Q0 LV) as (Q1 & Q2 & Q3). split; [pose proof (k_nf _ _ _ _ _ (proj1 LV)); cbn in *; lia|]. split; [exact Q3|]. split; [apply AT|]. split; [apply AT|]. split; [eauto|].
      exists [(RT, Some (Obj y))]. split; [intros w; cbn [put_var]; now rewrite teqb_refl|]. rewrite E', PV. reflexivity.
    - destruct R as (m1 & vs1 & R & LV & _ & _ & E'). rewrite TS. exists (set_todo m1 g4 (Some [])), GEnd. split; [apply START, R, runs_nil|]. split; [|reflexivity].
      apply leaves_trans with m0; [exact LV0|]. apply leaves_trans with m1; [exact LV|apply leaves_todo; now left].
  Qed.
  Lemma tail_does m i g4 j rest ids ls : tail_in m i g4 j rest ids ->
    exists m' r, runs g3 [KFrom (Gen g4)] m m' r /\ outcome adder_inv m' r (ls, tail rest ids).
  Proof.
    intros TI. destruct (tail_next m i g4 j rest ids TI) as (m1 & r & NX & LV & O). unfold outcome. destruct (tail rest ids) as [v s'| |e]; [| |contradiction].
    - destruct O as (y & r' & -> & -> & -> & TI'). exists (set_todo m1 g3 (Some [KFrom (Gen g4)])), (GItem (Tup [Obj none_obj; Obj y])). split; [now apply runs_from_item|].
      exists (none_obj, y). split; [reflexivity|]. split; [reflexivity|]. exists i, g4, j. split; [|now rewrite frames_set_todo].
      destruct TI' as (A & B & C & D & (c & E) & vs & F & G). split; [exact A|]. split; [exact B|]. split; [exact C|]. split; [exact D|]. split.
      + exists c. rewrite frames_set_todo. exact E.
      + exists vs. split; [exact F|]. cbn. rewrite at_other by lia. exact G.
    - subst r. exists (set_todo m1 g3 (Some [])), GEnd. split; [|reflexivity]. eapply runs_from_end; [exact NX|apply runs_nil].
  Qed.

  Lemma alook m i c t : frames m g3 = mkFrame (avars i c) [] t ->
    look m [g3] LJG = Some (Some (Gen g2)) /\ look m [g3] YRI = Some (Some (IdSet i)) /\ look m [g3] LRT = Some c /\
    callee globals m [g3] (T "id") = Some (T "id") /\ callee globals m [g3] GBL = Some GBL.
  Proof.
    intros E. unfold callee. cbn [look]. rewrite E. cbn [vars avars var_at]. rewrite !teqb_T. cbn [String.eqb Ascii.eqb Bool.eqb]. repeat (split; [reflexivity|]). split; [|reflexivity].
    unfold module_globals. rewrite teqb_neq; [reflexivity|]. apply id_inside.
  Qed.
  Lemma adder_lead st ids m ls i c : joiner_inv m st ls -> frames m g3 = mkFrame (avars i c) [] None -> sets m i = ids ->
    exists m' r, runs g3 add_loop m m' r /\ outcome adder_inv m' r (next_pair op h cond inputs (as_state st ids) ls).
  Proof.
    intros J E SI. destruct (joiner_next m st ls J) as (m1 & r & NX & (F & I & LV & CH) & O).
    rewrite next_pair_lead by (rewrite HO; discriminate).
    assert (LB : base <= nframes m) by (destruct J as ((X & _) & _); exact X).
    assert (E1 : frames m1 g3 = mkFrame (avars i c) [] None).
    { rewrite (k_frames _ _ _ _ _ (proj1 LV)); [exact E|lia|]. intros X. apply CH in X as [X|[X|[X|X]]]; [lia|auto|auto|]. apply in_app_iff in X as [X|X]; auto. }
    assert (S1 : sets m1 i = ids) by (destruct LV as (_ & -> & _); exact SI).
    destruct (lead op h cond inputs st ls) as [ls' [p st'| |e]].
    - destruct O as [-> J1]. set (v := Tup [Obj (fst p); Obj (snd p)]) in *. set (m2 := set_var m1 g3 LRT v).
      assert (E2 : frames m2 g3 = mkFrame (avars i (Some v)) [] None).
      { unfold m2. rewrite frames_set_var, E1. cbn [vars around todo avars put_var]. rewrite !teqb_T. reflexivity. }
      set (m3 := set_set m2 i (rid (snd p) :: sets m2 i)). set (m4 := set_todo m3 g3 (Some add_loop)).
      assert (E3 : frames m3 g3 = mkFrame (avars i (Some v)) [] None) by exact E2.
      assert (K4 : keeps [g3] [] m1 m4).
      { apply keeps_trans with m2; [apply leaves_var; now left|]. apply keeps_trans with m3; [constructor; auto|apply leaves_todo; now left]. }
      exists m4, (GItem v). split.
      + unfold add_loop at 1. eapply runs_loop_item; [exact NX|reflexivity|]. fold m2. cbn [add_body map app].
        destruct (alook m2 _ _ _ E2) as (A1 & A2 & A3 & A4 & A5).
        eapply runs_expr with (m1 := m3) (v := Obj none_obj).
        { apply gives_evals. intros nx each. rewrite E2. unfold fn, nm. cbn [around eval]. rewrite A2. unfold give at 1. cbn [after]. rewrite A4, A3. unfold give at 1. cbn [after]. unfold give at 1. cbn [after].
          unfold v at 1. cbn [subscript as_val Z.of_N Z.leb Z.compare Z.to_nat Pos.to_nat Pos.iter_op nth_error Nat.add]. unfold give at 1. cbn [after]. unfold give at 1. cbn [after]. unfold give at 1. cbn [after]. unfold give at 1. cbn [after].
          unfold apply at 1. change (T "id") with (res_at N 8). rewrite (not_gfun N h cond CL), (not_indexer N h cond opr CL) by lia. change (res_at N 8) with (T "id"). rewrite !teqb_T. cbn [String.eqb Ascii.eqb Bool.eqb].
          unfold give at 1. cbn [after]. unfold give at 1. cbn [after]. unfold give at 1. cbn [after]. unfold give at 1. cbn [after]. reflexivity. }
        apply runs_yield. apply gives_evals. intros nx each. rewrite E3. unfold nm. cbn [around eval].
        change (look m3 [g3] LRT) with (look m2 [g3] LRT). rewrite A3. reflexivity.
      + cbn [outcome]. exists p. split; [reflexivity|]. split; [reflexivity|].
        assert (J4 : joiner_inv m4 st' ls') by (apply joiner_keeps with (1 := K4); auto; intros f [<-|[]]; auto 10).
        assert (A4 : frames m4 g3 = mkFrame (avars i (Some v)) [] (Some add_loop) /\ sets m4 i = rid (snd p) :: ids).
        { split; [unfold m4; rewrite frames_set_todo, E3; reflexivity|]. cbn. rewrite at_same. unfold m2. cbn. now rewrite S1. }
        destruct st' as [u' [[x' c']|]]; cbn [adder_inv as_state fst snd]; exists (u', Some (x', c')), (rid (snd p) :: ids) || exists (u', None), (rid (snd p) :: ids); (split; [reflexivity|]; split; [exact J4|]); right; eauto.
    - destruct O as (-> & RA1 & W1 & LB1). unfold finish. rewrite HO.
      destruct RA1 as (_ & _ & RO). destruct (RO HO) as (l & LA & LO). rewrite LA.
      set (m2 := snd (new_iter m1 (map Ok l))). set (m3 := snd (new_frame m2 (mkFrame [(RT, None)] [g3] (Some (tail_code (niters m1)))))).
      destruct (tail_does m3 i (nframes m2) (niters m1) l ids ls') as (m' & r & R & OC).
      + split; [cbn; lia|]. split; [exact S1|]. split; [cbn; lia|]. split; [cbn; apply at_same|]. split.
        * exists c. unfold m3. cbn. rewrite at_other by lia. now rewrite E1.
        * exists [(RT, None)]. split; [intros w; cbn [put_var]; now rewrite teqb_refl|]. unfold m3. cbn. apply at_same.
      + exists m', r. split; [|exact OC]. unfold add_loop. eapply runs_loop_end; [exact NX|].
        eapply runs_from with (m1 := m3) (v := Gen (nframes m2)); [|reflexivity|exact R].
        apply gives_evals. intros nx each. rewrite E1. destruct (alook m1 _ _ _ E1) as (A1 & A2 & A3 & A4 & A5). unfold right_part, fn, nm. cbn [around eval]. rewrite A5.
        rewrite (str_of_T "right_collection"). unfold give at 1. cbn [after]. unfold give at 1. cbn [after]. unfold give at 1. cbn [after]. unfold give at 1. cbn [after].
        unfold apply at 1. change GBL with (res_at N 5). rewrite (not_gfun N h cond CL), (not_indexer N h cond opr CL) by lia. change (res_at N 5) with GBL. rewrite !teqb_T. cbn [String.eqb Ascii.eqb Bool.eqb].
        unfold right_key in LO. rewrite LO. reflexivity.
    - subst r. exists (set_todo m1 g3 (Some [])), (GFail e). split; [|reflexivity]. unfold add_loop. now apply runs_loop_fail.
  Qed.
  Theorem adder_next m s ls : adder_inv m s ls ->
    exists m' r, nexts (Gen g3) m m' r /\ outcome adder_inv m' r (next_pair op h cond inputs s ls).
  Proof.
    assert (LEAD : (exists st ids, s = as_state st ids /\ joiner_inv m st ls /\
        ((frames m g3 = add_start /\ ids = []) \/ exists i c, frames m g3 = mkFrame (avars i c) [] (Some add_loop) /\ sets m i = ids)) ->
        exists m' r, nexts (Gen g3) m m' r /\ outcome adder_inv m' r (next_pair op h cond inputs s ls)).
    { intros (st & ids & -> & J & ST). set (m0 := set_todo m g3 None).
      assert (K0 : keeps [g3] [] m m0) by (apply leaves_todo; now left).
      assert (J0 : joiner_inv m0 st ls) by (apply joiner_keeps with (1 := K0); auto; intros f [<-|[]]; auto 10).
      destruct ST as [[F3 ->]|(i & c & F3 & S3)].
      - assert (F0 : frames m0 g3 = mkFrame [(LJG, Some (Gen g2)); (GBL, Some (Func GBL)); (YRI, None); (LRT, None)] [] None) by (unfold m0; rewrite frames_set_todo, F3; reflexivity).
        set (m1 := snd (new_set m0)). set (m2 := set_var m1 g3 YRI (IdSet (nsets m0))).
        assert (K2 : keeps [g3] [] m0 m2) by (apply keeps_trans with m1; [constructor; auto|apply leaves_var; now left]).
        assert (F2 : frames m2 g3 = mkFrame (avars (nsets m0) None) [] None).
        { unfold m2. rewrite frames_set_var. unfold m1. cbn [new_set snd frames]. rewrite F0. cbn [vars around todo put_var]. rewrite !teqb_T. reflexivity. }
        destruct (adder_lead st [] m2 ls (nsets m0) None) as (m' & r & R & OC).
        + apply joiner_keeps with (1 := K2); auto; intros f [<-|[]]; auto 10.
        + exact F2.
        + unfold m2. cbn. apply at_same.
        + exists m', r. split; [|exact OC]. eapply nexts_gen; [rewrite F3; reflexivity|]. fold m0. cbn [Model_JoinFuncs.add_right g_body map].
          assert (LK : callee globals m0 [g3] (T "set") = Some (T "set")).
          { unfold callee. cbn [look]. rewrite F0. cbn [vars var_at]. rewrite !teqb_T. cbn [String.eqb Ascii.eqb Bool.eqb].
            change (T "set") with (res_at N 9). rewrite (not_empty N cond CL) by lia. reflexivity. }
          eapply runs_assign with (m1 := m1) (v := IdSet (nsets m0)).
          { apply gives_evals. intros nx each. rewrite F0. unfold fn, nm. cbn [around eval]. rewrite LK. unfold give at 1. cbn [after]. unfold give at 1. cbn [after].
            unfold apply. change (T "set") with (res_at N 9). rewrite (not_gfun N h cond CL), (not_indexer N h cond opr CL) by lia. change (res_at N 9) with (T "set"). rewrite !teqb_T. cbn [String.eqb Ascii.eqb Bool.eqb]. reflexivity. }
          fold m2. eapply runs_for with (m1 := m2) (v := Gen g2); [|reflexivity|exact R].
          apply gives_evals. intros nx each. rewrite F2. unfold nm. cbn [around eval]. destruct (alook m2 _ _ _ F2) as (A1 & _). rewrite A1. reflexivity.
      - destruct (adder_lead st ids m0 ls i c) as (m' & r & R & OC); auto; [unfold m0; rewrite frames_set_todo, F3; reflexivity|].
        exists m', r. split; [|exact OC]. eapply nexts_gen; [rewrite F3; reflexivity|exact R]. }
    destruct s as [u ids|u x y c ids|rest ids]; [exact LEAD|exact LEAD|].
    cbn [adder_inv next_pair]. intros (i & g4 & j & TI & TD).
    destruct (tail_does (set_todo m g3 None) i g4 j rest ids ls) as (m' & r & R & OC).
    - destruct TI as (A & B & C & D & (c & E) & vs & F & G). split; [exact A|]. split; [exact B|]. split; [exact C|]. split; [exact D|]. split.
      + exists c. rewrite frames_set_todo. exact E.
      + exists vs. split; [exact F|]. cbn. rewrite at_other by lia. exact G.
    - exists m', r. split; [|exact OC]. eapply nexts_gen; [exact TD|exact R].
  Qed.
End SimLeft.
