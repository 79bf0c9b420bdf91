(** Relating the evaluation of generated code to the direct reading. *)
From Coq Require Import String Ascii List ZArith NArith Bool Arith Lia.
From Verif Require Import Model_Code Model_Eval Spec_Frag Spec_Eval Proofs_Code.
Import ListNotations.

Section Sim.
  Context {V W X : Type}.
  Variable pr : prims V W X.
  (** bool(None) is False, and has no effect *)
  Hypothesis truth_none : forall w, truth pr (litv pr LNone) w = (w, Val false).

  Notation st := (@st V W).
  Notation M := (@M V W X).
  Notation env := (@env V).
  Notation labels := (@labels V).

  (** Same world; same labels, up to the ones If invents. *)
  Definition R (s t : st) : Prop :=
    fst s = fst t /\ forall n, user_name n = true -> snd s n = snd t n.

  (** Codes that can be evaluated any number of times: names, constants, labels
      and the caching of such a code under a fresh name. *)
  Inductive inp (E : env) (L : labels) : px -> V -> Prop :=
  | I_name x v : lookup E x = Some v -> inp E L (PName x) v
  | I_lit l : inp E L (PLit l) (litv pr l)
  | I_glob g : inp E L (PGlob g) (globv pr g)
  | I_get n v : L n = Some v -> inp E L (PGet n) v
  | I_cache q a v : inp E L a v ->
      inp E L (PBool true [PAdd (P q) a; PGet (P q)]) v.
  Fixpoint reads (e : px) : list lname :=
    match e with
    | PGet n => [n]
    | PBool _ (PAdd _ a :: _) => reads a
    | _ => []
    end.
  Fixpoint cw (e : px) : list lname :=
    match e with
    | PBool _ (PAdd n a :: _) => n :: cw a
    | _ => []
    end.
  Definition disj (a : px) : Prop := forall n, In n (reads a) -> ~ In n (cw a).

  Lemma inp_frame E L L' a v : inp E L a v -> (forall n, In n (reads a) -> L' n = L n) -> inp E L' a v.
  Proof.
    induction 1; intros HL; try (constructor; auto; fail).
    - constructor. rewrite HL; [auto|now left].
  Qed.

  Definition Post (Q : lname -> Prop) (E : env) (a : px) (v : V) (str : bool)
             (s s' : st) (isval : Prop) : Prop :=
    inp E (snd s') a v /\
    (forall n, ~ Q n -> ~ In n (cw a) -> snd s' n = snd s n) /\
    (forall n, In n (cw a) -> snd s' n = snd s n \/ snd s' n = Some v) /\
    (str = true -> isval -> forall n, In n (cw a) -> snd s' n = Some v).

  Definition is_val {B} (r : out X B) : Prop := exists b, r = Val b.

  (** [m] (generated code) and [m'] (direct reading) do the same from [s] and [t]. *)
  Definition simp (Q : lname -> Prop) (E : env) (a : px) (v : V) (str : bool) {B}
             (m m' : M B) (s t : st) : Prop :=
    R s t -> inp E (snd s) a v ->
    R (fst (m s)) (fst (m' t)) /\ snd (m s) = snd (m' t) /\
    Post Q E a v str s (fst (m s)) (is_val (snd (m s))).
  Definition sim Q E a v str {B} (m m' : M B) : Prop := forall s t, simp Q E a v str m m' s t.

  Definition avoid (Q : lname -> Prop) (a : px) : Prop :=
    disj a /\ forall n, Q n -> ~ In n (reads a) /\ ~ In n (cw a).

  Lemma Post_refl Q E a v s p : inp E (snd s) a v -> Post Q E a v false s s p.
  Proof. intros H. repeat split; auto. discriminate. Qed.

  Lemma simp_bind (Q : lname -> Prop) E a v s1 s2 {B C} (m m' : M B) (k k' : B -> M C) s t :
    simp Q E a v s1 m m' s t ->
    (forall b s' t', m s = (s', Val b) -> m' t = (t', Val b) -> simp Q E a v s2 (k b) (k' b) s' t') ->
    simp Q E a v (s1 || s2) (bind m k) (bind m' k') s t.
  Proof.
    intros H1 H2 HR HI. destruct (H1 HR HI) as (HR1 & Ho & HI1 & HF1 & HC1 & HS1).
    unfold bind in *. destruct (m s) as [s' [b|x]] eqn:Em; destruct (m' t) as [t' r'] eqn:Em';
      cbn [fst snd] in *; subst r'.
    - destruct (H2 b s' t' eq_refl eq_refl HR1 HI1) as (HR2 & Ho2 & HI2 & HF2 & HC2 & HS2).
      split; [exact HR2|]. split; [exact Ho2|]. split; [exact HI2|]. split; [|split].
      + intros n Hq Hc. rewrite HF2 by auto. auto.
      + intros n Hc. destruct (HC2 n Hc) as [-> | ->]; auto.
      + intros Hs Hv n Hc. apply orb_true_iff in Hs. destruct Hs as [Hs|Hs].
        * destruct (HC2 n Hc) as [-> | ->]; auto. apply HS1; auto. now exists b.
        * now apply HS2.
    - split; [exact HR1|]. split; [reflexivity|]. split; [exact HI1|]. split; [exact HF1|]. split; [exact HC1|].
      intros Hs (c & Hc). discriminate.
  Qed.
  Lemma sim_bind (Q : lname -> Prop) E a v s1 s2 {B C} (m m' : M B) (k k' : B -> M C) :
    sim Q E a v s1 m m' -> (forall b, sim Q E a v s2 (k b) (k' b)) ->
    sim Q E a v (s1 || s2) (bind m k) (bind m' k').
  Proof. intros H1 H2 s t. apply simp_bind; [apply H1|]. intros. apply H2. Qed.

  Lemma simp_weaken (Q : lname -> Prop) E a v str str' {B} (m m' : M B) s t :
    simp Q E a v str m m' s t -> (str' = true -> str = true) -> simp Q E a v str' m m' s t.
  Proof.
    intros H Hs HR HI. destruct (H HR HI) as (H1 & H2 & H3 & H4 & H5 & H6).
    split; [exact H1|]. split; [exact H2|]. split; [exact H3|]. split; [exact H4|]. split; [exact H5|]. auto.
  Qed.
  Lemma sim_weaken (Q : lname -> Prop) E a v str str' {B} (m m' : M B) :
    sim Q E a v str m m' -> (str' = true -> str = true) -> sim Q E a v str' m m'.
  Proof. intros H Hs s t. eapply simp_weaken; [apply H|exact Hs]. Qed.
  Lemma sim_false (Q : lname -> Prop) E a v str {B} (m m' : M B) : sim Q E a v str m m' -> sim Q E a v false m m'.
  Proof. intros H. eapply sim_weaken; [exact H|]. discriminate. Qed.
  Lemma sim_bind0 (Q : lname -> Prop) E a v s1 {B C} (m m' : M B) (k k' : B -> M C) :
    sim Q E a v s1 m m' -> (forall b, sim Q E a v false (k b) (k' b)) ->
    sim Q E a v s1 (bind m k) (bind m' k').
  Proof.
    intros H1 H2. eapply sim_weaken; [apply (sim_bind Q E a v s1 false); [exact H1|exact H2]|].
    now rewrite orb_false_r.
  Qed.

  Lemma sim_ret (Q : lname -> Prop) E a v {B} (b : B) : sim Q E a v false (ret b) (ret b).
  Proof. intros s t HR HI. repeat split; auto; try apply HR. discriminate. Qed.
  Lemma sim_raise (Q : lname -> Prop) E a v str {B} x : sim Q E a v str (B := B) (raise x) (raise x).
  Proof. intros s t HR HI. repeat split; auto; try apply HR. intros _ (b & Hb). discriminate. Qed.
  Lemma sim_prim (Q : lname -> Prop) E a v {B} (f : W -> W * out X B) : sim Q E a v false (prim f) (prim f).
  Proof.
    intros s t [HW HL] HI. unfold prim. rewrite <- HW. destruct (f (fst s)) as [w r].
    cbn. repeat split; auto. discriminate.
  Qed.
  Lemma sim_prim1 (Q : lname -> Prop) E a v {B} (f : W -> W * B) : sim Q E a v false (prim1 f) (prim1 f).
  Proof.
    intros s t [HW HL] HI. unfold prim1. rewrite <- HW. destruct (f (fst s)) as [w r].
    cbn. repeat split; auto. discriminate.
  Qed.
  Lemma simp_ext (Q : lname -> Prop) E a v str {B} (m m1 m' m1' : M B) s t :
    simp Q E a v str m m' s t -> m1 s = m s -> m1' t = m' t -> simp Q E a v str m1 m1' s t.
  Proof. unfold simp. intros H -> ->. exact H. Qed.
  Lemma sim_ext (Q : lname -> Prop) E a v str {B} (m m1 m' m1' : M B) :
    sim Q E a v str m m' -> (forall s, m1 s = m s) -> (forall t, m1' t = m' t) ->
    sim Q E a v str m1 m1'.
  Proof. intros H H1 H2 s t. eapply simp_ext; [apply H| |]; auto. Qed.

  (** setting a label that the input code does not read *)
  Lemma simp_set (Q : lname -> Prop) E a v {B} n u (k k' : unit -> M B) str s t :
    Q n -> avoid Q a ->
    simp Q E a v str (k tt) (k' tt) (fst s, upd (snd s) n u) (fst t, upd (snd t) n u) ->
    simp Q E a v str (bind (set_label n u) k) (bind (set_label n u) k') s t.
  Proof.
    intros Hq [Hd Hv] H HR HI. unfold bind, set_label. cbn [fst snd].
    destruct (Hv n Hq) as [Hr Hc].
    assert (HR' : R (fst s, upd (snd s) n u) (fst t, upd (snd t) n u)).
    { destruct HR as [HW HL]. split; auto. cbn. intros m Hm. unfold upd.
      destruct (lname_eq_dec n m); auto. }
    assert (Hup : forall m, m <> n -> upd (snd s) n u m = snd s m).
    { intros m Hm. unfold upd. destruct (lname_eq_dec n m); congruence. }
    assert (HI' : inp E (snd (fst s, upd (snd s) n u)) a v).
    { eapply inp_frame; [exact HI|]. intros m Hm. cbn. apply Hup. intros ->. auto. }
    destruct (H HR' HI') as (H1 & H2 & H3 & H4 & H5 & H6).
    split; [exact H1|]. split; [exact H2|]. split; [exact H3|]. split; [|split].
    - intros m Hm Hcm. rewrite H4 by auto. cbn. apply Hup. intros ->. auto.
    - intros m Hm. destruct (H5 m Hm) as [-> | ->]; auto. left. cbn. apply Hup. intros ->. auto.
    - exact H6.
  Qed.
  Lemma sim_set (Q : lname -> Prop) E a v {B} n u (k k' : unit -> M B) str :
    Q n -> avoid Q a -> sim Q E a v str (k tt) (k' tt) ->
    sim Q E a v str (bind (set_label n u) k) (bind (set_label n u) k').
  Proof. intros Hq Hv H s t. apply simp_set; auto. Qed.
  (** a label of If: only the generated code sets it *)
  Lemma simp_setP (Q : lname -> Prop) E a v {B} q u (k : unit -> M B) m' str s t :
    Q (P q) -> avoid Q a ->
    simp Q E a v str (k tt) m' (fst s, upd (snd s) (P q) u) t ->
    simp Q E a v str (bind (set_label (P q) u) k) m' s t.
  Proof.
    intros Hq [Hd Hv] H HR HI. unfold bind, set_label. cbn [fst snd].
    destruct (Hv _ Hq) as [Hr Hc].
    assert (HR' : R (fst s, upd (snd s) (P q) u) t).
    { destruct HR as [HW HL]. split; auto. cbn. intros m Hm. unfold upd.
      destruct (lname_eq_dec (P q) m); [subst; discriminate|auto]. }
    assert (Hup : forall m, m <> P q -> upd (snd s) (P q) u m = snd s m).
    { intros m Hm. unfold upd. destruct (lname_eq_dec (P q) m); congruence. }
    assert (HI' : inp E (snd (fst s, upd (snd s) (P q) u)) a v).
    { eapply inp_frame; [exact HI|]. intros m Hm. cbn. apply Hup. intros ->. auto. }
    destruct (H HR' HI') as (H1 & H2 & H3 & H4 & H5 & H6).
    split; [exact H1|]. split; [exact H2|]. split; [exact H3|]. split; [|split].
    - intros m Hm Hcm. rewrite H4 by auto. cbn. apply Hup. intros ->. auto.
    - intros m Hm. destruct (H5 m Hm) as [-> | ->]; auto. left. cbn. apply Hup. intros ->. auto.
    - exact H6.
  Qed.

  Lemma sim_get (Q : lname -> Prop) E a v n : user_name n = true -> sim Q E a v false (get_label pr n) (get_label pr n).
  Proof.
    intros Hn s t HR HI. unfold get_label. destruct HR as [HW HL]. rewrite <- (HL n Hn).
    destruct (snd s n); repeat split; auto; discriminate.
  Qed.

  (** evaluating a stable code *)
  Lemma eval_inp E a v : forall s, inp E (snd s) a v -> disj a ->
    exists L', eval pr E a s = ((fst s, L'), Val v) /\
               (forall n, ~ In n (cw a) -> L' n = snd s n) /\ (forall n, In n (cw a) -> L' n = Some v).
  Proof.
    intros s H. remember (snd s) as L eqn:EL. revert s EL. induction H; intros s EL Hd; subst L.
    - exists (snd s). cbn. rewrite H. destruct s. repeat split; auto. intros n [].
    - exists (snd s). cbn. destruct s. repeat split; auto. intros n [].
    - exists (snd s). cbn. destruct s. repeat split; auto. intros n [].
    - exists (snd s). cbn. unfold get_label. rewrite H. destruct s. repeat split; auto. intros m [].
    - assert (Hda : disj a). { intros n Hn Hc. apply (Hd n Hn). right. exact Hc. }
      destruct (IHinp s eq_refl Hda) as (L' & He & Hout & Hin).
      cbn [eval boolM]. exists (upd L' (P q) v).
      unfold bind at 1. cbn [eval]. unfold bind at 1 2. rewrite He. cbn [set_label fst snd].
      unfold set_label, ret, prim. cbn [fst snd]. unfold bind. cbn [fst snd]. rewrite truth_none.
      cbn [Bool.eqb]. unfold get_label. cbn [snd]. unfold upd at 1.
      destruct (lname_eq_dec (P q) (P q)) as [_|NE]; [|congruence].
      split; [reflexivity|]. cbn [cw]. split.
      + intros n Hn. unfold upd. destruct (lname_eq_dec (P q) n); [subst; elim Hn; now left|].
        apply Hout. intros Hc. apply Hn. now right.
      + intros n Hn. unfold upd. destruct (lname_eq_dec (P q) n); [reflexivity|].
        destruct Hn as [Hn|Hn]; [congruence|auto].
  Qed.
  Lemma disj_name_ok Q a : avoid Q a -> disj a. Proof. intros [H _]. exact H. Qed.

  Lemma sim_inp (Q : lname -> Prop) E a v : disj a -> sim Q E a v true (eval pr E a) (ret v).
  Proof.
    intros Hd s t HR HI.
    destruct (eval_inp E a v s HI Hd) as (L' & He & Hout & Hin).
    rewrite He. cbn [fst snd ret]. destruct HR as [HW HL]. repeat split.
    - exact HW.
    - intros n Hn. cbn. rewrite Hout; auto.
      intros Hc. assert (HP : forall e L, inp E L e v -> forall m, In m (cw e) -> user_name m = false).
      { clear. intros e L H. induction H; cbn; intros m Hm; try tauto.
        destruct Hm as [<-|Hm]; auto. }
      rewrite (HP _ _ HI _ Hc) in Hn. discriminate.
    - eapply inp_frame; [exact HI|]. intros n Hn. cbn. apply Hout. now apply Hd.
    - intros n _ Hn. cbn. auto.
    - intros n Hn. right. cbn. auto.
    - intros _ _ n Hn. cbn. auto.
  Qed.

  (** the same computation, seen with another stable code as the input *)
  Lemma simp_switch (Q Q2 : lname -> Prop) E a v E2 a2 u str {B} (m m' : M B) s t :
    (forall n, Q2 n -> Q n) -> avoid Q a -> cw a2 = [] -> inp E2 (snd s) a2 u ->
    simp Q2 E2 a2 u str m m' s t -> simp Q E a v false m m' s t.
  Proof.
    intros HQ [Hd Hv] Hc Hi2 H HR HI. destruct (H HR Hi2) as (H1 & H2 & H3 & H4 & _).
    assert (HF : forall n, ~ Q n -> snd (fst (m s)) n = snd s n).
    { intros n Hn. apply H4; [auto|]. rewrite Hc. intros []. }
    split; [exact H1|]. split; [exact H2|]. split; [|split; [|split]].
    - eapply inp_frame; [exact HI|]. intros n Hn. apply HF. intros Hq. now destruct (Hv n Hq).
    - intros n Hn _. auto.
    - intros n Hn. left. apply HF. intros Hq. now destruct (Hv n Hq).
    - discriminate.
  Qed.
  Lemma sim_switch (Q : lname -> Prop) E a v E2 x u str {B} (m m' : M B) :
    avoid Q a -> lookup E2 x = Some u ->
    sim Q E2 (PName x) u str m m' -> sim Q E a v false m m'.
  Proof.
    intros Hv Hx H s t. eapply (simp_switch Q Q E a v E2 (PName x) u str); auto.
    now constructor.
  Qed.

  (** lists of operands *)
  Section Ops.
    Context {B C : Type}.
    Variables (f : B -> M V) (g : C -> M V) (str : C -> bool).
    Variables (Q : lname -> Prop) (E : env) (a : px) (v : V).
    Definition rel (b : B) (c : C) : Prop := sim Q E a v (str c) (f b) (g c).

    Lemma sim_mapM bs cs : Forall2 rel bs cs -> sim Q E a v (existsb str cs) (mapM f bs) (mapM g cs).
    Proof.
      induction 1 as [|b c bs cs Hb Hr IH]; cbn [mapM existsb]; [apply sim_ret|].
      apply sim_bind; [exact Hb|]. intros u. apply sim_bind0; [exact IH|]. intros us. apply sim_ret.
    Qed.
    Lemma sim_boolM isor bs cs : Forall2 rel bs cs ->
      sim Q E a v (match cs with [] => false | c :: _ => str c end) (boolM pr f isor bs) (boolM pr g isor cs).
    Proof.
      induction 1 as [|b c bs cs Hb Hr IH]; cbn [boolM]; [apply sim_ret|].
      destruct Hr as [|b2 c2 bs cs Hb2 Hr]; [exact Hb|].
      apply sim_bind0; [exact Hb|]. intros u. apply sim_bind0; [apply sim_prim|]. intros t.
      destruct (Bool.eqb t isor); [apply sim_ret|]. eapply sim_false. exact IH.
    Qed.
    Lemma sim_chainM bs cs : Forall2 rel bs cs -> forall u,
      sim Q E a v (match cs with [] => false | c :: _ => str c end) (chainM pr f u bs) (chainM pr g u cs).
    Proof.
      induction 1 as [|b c bs cs Hb Hr IH]; intros u; cbn [chainM]; [apply sim_ret|].
      apply sim_bind0; [exact Hb|]. intros w. apply sim_bind0; [apply sim_prim|]. intros e.
      destruct Hr as [|b2 c2 bs cs Hb2 Hr]; [apply sim_ret|].
      apply sim_bind0; [apply sim_prim|]. intros t. destruct t; [|apply sim_ret].
      eapply sim_false. apply IH.
    Qed.
    Lemma sim_eqsM bs cs : Forall2 rel bs cs ->
      sim Q E a v (match cs with c :: d :: _ => str c || str d | _ => false end)
          (eqsM pr f bs) (eqsM pr g cs).
    Proof.
      intros H. destruct H as [|b c bs cs Hb Hr]; cbn [eqsM]; [apply sim_ret|].
      eapply sim_weaken; [apply sim_bind; [exact Hb|intros u; apply (sim_chainM _ _ Hr)]|].
      destruct cs as [|d cs]; [discriminate|]. auto.
    Qed.
    Lemma sim_whenM {D} co co' (m m' o o' : M D) :
      match co, co' with
      | Some b, Some c => rel b c
      | None, None => True
      | _, _ => False
      end ->
      sim Q E a v false m m' -> sim Q E a v false o o' ->
      sim Q E a v false (whenM pr f co m o) (whenM pr g co' m' o').
    Proof.
      intros H Hm Ho. destruct co as [b|], co' as [c|]; try tauto; cbn [whenM].
      apply sim_bind0; [eapply sim_false; exact H|]. intros u.
      apply sim_bind0; [apply sim_prim|]. intros t. destruct t; auto.
    Qed.
    Definition lrel (l : option B * B) (l' : option C * C) : Prop :=
      match fst l, fst l' with
      | Some b, Some c => rel b c
      | None, None => True
      | _, _ => False
      end /\ rel (snd l) (snd l').
    Lemma sim_linesM k ls ls' : Forall2 lrel ls ls' -> forall acc,
      sim Q E a v false (linesM pr f k ls acc) (linesM pr g k ls' acc).
    Proof.
      induction 1 as [|l l' ls ls' Hl Hr IH]; intros acc; cbn [linesM]; [apply sim_ret|].
      destruct Hl as [Hc Hv]. apply sim_whenM; auto.
      apply sim_bind0; [eapply sim_false; exact Hv|]. intros u.
      apply sim_bind0; [apply sim_prim|]. intros acc'. apply IH.
    Qed.
    Lemma sim_mutM k vs : sim Q E a v false (mutM pr k vs) (mutM pr k vs).
    Proof. destruct k; cbn [mutM]; [apply sim_prim|apply sim_prim|apply sim_prim|apply sim_prim|apply sim_ret]. Qed.
    Definition srel (l : mkind * list B) (l' : mkind * list C) : Prop :=
      fst l = fst l' /\ Forall2 rel (snd l) (snd l').
    Lemma sim_stmtsM data ls ls' : Forall2 srel ls ls' ->
      sim Q E a v false (stmtsM pr f data ls) (stmtsM pr g data ls').
    Proof.
      induction 1 as [|[k l] [k' l'] ls ls' Hl Hr IH]; cbn [stmtsM]; [apply sim_ret|].
      destruct Hl as [Hk Hl]. cbn [fst snd] in Hk, Hl. subst k'.
      apply sim_bind0; [|intros u; exact IH].
      assert (HG : sim Q E a v false (bind (mapM f l) (fun vs => mutM pr k (data :: vs)))
                       (bind (mapM g l') (fun vs => mutM pr k (data :: vs)))).
      { apply sim_bind0; [eapply sim_false, sim_mapM, Hl|]. intros vs. apply sim_mutM. }
      destruct k; try exact HG.
      destruct Hl as [|b c l l' Hb Hl]; [exact HG|].
      destruct Hl as [|b2 c2 l l' Hb2 Hl]; [exact HG|].
      destruct Hl as [|b3 c3 l l' Hb3 Hl]; [|exact HG].
      apply sim_bind0; [eapply sim_false; exact Hb2|]. intros vv.
      apply sim_bind0; [eapply sim_false; exact Hb|]. intros vn. apply sim_mutM.
    Qed.
  End Ops.

  Lemma sim_iterate (Q : lname -> Prop) E a v body body' (i : iterator V W X) :
    (forall item acc, sim Q E a v false (body item acc) (body' item acc)) ->
    forall acc, sim Q E a v false (iterate body i acc) (iterate body' i acc).
  Proof.
    intros Hb. 
    refine ((fix F (i : iterator V W X) : forall acc,
               sim Q E a v false (iterate body i acc) (iterate body' i acc) :=
      match i with It next => _ end) i).
    intros acc s t HR HI. cbn [iterate].
    destruct HR as [HW HL]. rewrite <- HW.
    pose proof (match snd (next (fst s)) as r return
       match r with IYield _ rest => forall acc,
               sim Q E a v false (iterate body rest acc) (iterate body' rest acc) | _ => True end
       with IYield _ rest => F rest | _ => I end) as HF.
    destruct (next (fst s)) as [w [|x|item rest]]; cbn [snd] in HF.
    - cbn. repeat split; auto. discriminate.
    - cbn. repeat split; auto. discriminate.
    - assert (H := simp_bind Q E a v false false (body item acc) (body' item acc)
                     (iterate body rest) (iterate body' rest) (w, snd s) (w, snd t)
                     (Hb item acc _ _) (fun b s' t' _ _ => HF b s' t')).
      assert (HR' : R (w, snd s) (w, snd t)) by (split; auto).
      exact (H HR' HI).
  Qed.
  Lemma sim_comprehend (Q : lname -> Prop) E a v k u body body' :
    (forall item acc, sim Q E a v false (body item acc) (body' item acc)) ->
    sim Q E a v false (comprehend pr k u body) (comprehend pr k u body').
  Proof.
    intros Hb. unfold comprehend.
    apply sim_bind0; [apply sim_prim|]. intros i.
    apply sim_bind0; [apply sim_prim1|]. intros acc.
    apply sim_bind0; [apply sim_iterate, Hb|]. intros acc'. apply sim_prim1.
  Qed.
  Lemma sim_or_default (Q : lname -> Prop) E a v {B} (m m' : M B) d :
    sim Q E a v false m m' -> sim Q E a v false (or_default pr m d) (or_default pr m' d).
  Proof.
    intros H s t HR HI. destruct (H s t HR HI) as (H1 & H2 & H3). unfold or_default.
    destruct (m s) as [s' r]; destruct (m' t) as [t' r']; cbn [fst snd] in *; subst r'.
    destruct H3 as (H3 & H4 & H5 & _).
    destruct r as [b|x]; [|destruct (caught pr x)]; cbn [fst snd]; repeat split; auto;
      try apply H1; discriminate.
  Qed.
End Sim.
