(** The simulation between generated code and the direct reading. *)
From Coq Require Import String Ascii List ZArith NArith Bool Arith Lia.
From Verif Require Import Model_Code Model_Eval Spec_Frag Spec_Eval Proofs_Code Proofs_Eval.
Import ListNotations.

Section MonadEq.
  Context {V W X : Type}.
  Variable pr : prims V W X.
  Notation M := (@M V W X).
  Definition meq {B} (m m' : M B) : Prop := forall s, m s = m' s.
  Lemma meq_refl {B} (m : M B) : meq m m. Proof. intros s. reflexivity. Qed.
  Lemma meq_sym {B} (m m' : M B) : meq m m' -> meq m' m. Proof. intros H s. now rewrite H. Qed.
  Lemma meq_trans {B} (m m' m2 : M B) : meq m m' -> meq m' m2 -> meq m m2.
  Proof. intros H H' s. now rewrite H. Qed.
  Lemma bind_meq {B C} (m m' : M B) (k k' : B -> M C) :
    meq m m' -> (forall b, meq (k b) (k' b)) -> meq (bind m k) (bind m' k').
  Proof. intros H Hk s. unfold bind. rewrite H. destruct (m' s) as [s' [b|x]]; auto. apply Hk. Qed.
  Lemma bind_assoc {B C D} (m : M B) (k : B -> M C) (h : C -> M D) :
    meq (bind (bind m k) h) (bind m (fun b => bind (k b) h)).
  Proof. intros s. unfold bind. destruct (m s) as [s' [b|x]]; auto. Qed.
  Lemma bind_ret_l {B C} (b : B) (k : B -> M C) : meq (bind (ret b) k) (k b).
  Proof. intros s. reflexivity. Qed.
  Lemma bind_ret_r {B} (m : M B) : meq (bind m ret) m.
  Proof. intros s. unfold bind, ret. destruct (m s) as [s' [b|x]]; auto. Qed.

  Section F.
    Context {B : Type}.
    Variables f g : B -> M V.
    Definition feq (b : B) := meq (f b) (g b).
    Lemma mapM_meq l : Forall feq l -> meq (mapM f l) (mapM g l).
    Proof.
      induction 1; cbn [mapM]; [apply meq_refl|]. apply bind_meq; auto. intros v.
      apply bind_meq; auto. intros vs. apply meq_refl.
    Qed.
    Lemma boolM_meq i l : Forall feq l -> meq (boolM pr f i l) (boolM pr g i l).
    Proof.
      induction 1 as [|b l Hb Hl IH]; cbn [boolM]; [apply meq_refl|].
      destruct l as [|b2 l]; auto. apply bind_meq; auto. intros v. apply bind_meq; [apply meq_refl|].
      intros t. destruct (Bool.eqb t i); auto. apply meq_refl.
    Qed.
    Lemma chainM_meq l : Forall feq l -> forall u, meq (chainM pr f u l) (chainM pr g u l).
    Proof.
      induction 1 as [|b l Hb Hl IH]; intros u; cbn [chainM]; [apply meq_refl|].
      apply bind_meq; auto. intros w. apply bind_meq; [apply meq_refl|]. intros c.
      destruct l as [|b2 l]; [apply meq_refl|]. apply bind_meq; [apply meq_refl|].
      intros t. destruct t; [apply IH|apply meq_refl].
    Qed.
    Lemma eqsM_meq l : Forall feq l -> meq (eqsM pr f l) (eqsM pr g l).
    Proof.
      intros H. destruct H as [|b l Hb Hl]; cbn [eqsM]; [apply meq_refl|].
      apply bind_meq; auto. intros u. now apply chainM_meq.
    Qed.
  End F.

  Variable args : list (text * V).
  Lemma den_free c : free c = true -> forall v v', meq (den pr args c v) (den pr args c v').
  Proof.
    assert (HL : forall l, Forall (fun c => free c = true -> forall v v', meq (den pr args c v) (den pr args c v')) l ->
        forallb free l = true -> forall v v',
        Forall (feq (fun c => den pr args c v) (fun c => den pr args c v')) l).
    { intros l Hl Hf v v'. rewrite Forall_forall in *. rewrite forallb_forall in Hf.
      intros c0 Hc. apply Hl; auto. }
    induction c as [|l|g|ax|n|o l IH|a n IHa IHn|i l IH|l IH|nc co t f IHc IHt IHf
                    |a s idx d IHs IHi IHd|k es co IHe IHc|k ls IH|n c ls IHc IHl|a b IHa IHb|o ms IHo IHm]
      using cv_ind'; intros Hf v v'; cbn [free] in Hf; try discriminate; cbn [den];
      try (apply meq_refl).
    - apply bind_meq; [|intros; apply meq_refl]. apply mapM_meq. auto.
    - apply andb_true_iff in Hf. destruct Hf. apply bind_meq; auto. intros va.
      apply bind_meq; auto. intros. apply meq_refl.
    - apply boolM_meq. auto.
    - apply eqsM_meq. auto.
    - apply bind_meq; auto. intros u. apply meq_refl.
    - apply bind_meq; auto. intros u. apply meq_refl.
    - apply bind_meq; auto. intros u. apply meq_refl.
  Qed.
End MonadEq.

Section Main.
  Context {V W X : Type}.
  Variable pr : prims V W X.
  Hypothesis truth_none : forall w, truth pr (litv pr LNone) w = (w, Val false).
  (** a.n is getattr(a, "n") *)
  Hypothesis attr_ok : forall s v w,
    op pr (OAttr s) [v] w = op pr OGetattr [v; litv pr (LStr s)] w.
  Variable pt : bool.
  Hypothesis pt_ok : pt = true -> forall v w, exists b, truth pr v w = (w, Val b).

  Variable wordch : N -> bool.
  Variable srepr : text -> text.
  Variable gname : nat -> text.
  Variable pnum : list nat -> nat.
  Variable pname : text -> text.
  Variable hname : list nat -> text.
  Hypothesis wordch_ascii : forall c, (c < 128)%N ->
    wordch c = (ascii_alpha c || (N.leb 48 c && N.leb c 57) || N.eqb c 95).
  Hypothesis gname_ne : forall g, gname g <> [].
  Hypothesis hname_ne : forall q, hname q <> [].
  Hypothesis srepr_ne : forall s, srepr s <> [].
  Hypothesis pname_simple : forall t, simple wordch (pname t) = true /\ pname t <> [].

  Variable args : list (text * V).

  Notation st := (@st V W).
  Notation M := (@M V W X).
  Notation env := (@env V).
  Notation print := (print srepr gname pnum).
  Notation simple := (simple wordch).
  Notation attach := (attach wordch srepr gname pnum).
  Notation gen := (gen wordch srepr gname pnum pname hname).
  Notation gens := (gens wordch srepr gname pnum pname hname).
  Notation complex := (complex wordch srepr gname pnum).
  Notation sim := (sim pr).
  Notation simp := (simp pr).
  Notation inp := (inp pr).
  Notation eval := (eval pr).
  Notation den := (den pr args).

  Definition okarg (E : env) (y : text) : Prop :=
    y <> [] /\ y <> T "data_" /\ (forall t, pname t <> y) /\
    exists u, lookup E y = Some u /\ lookup args y = Some u.
  Definition agree (E : env) (c : cv) : Prop := forall y, In y (args_of c) -> okarg E y.

  Lemma agree_ne E c : agree E c -> forall y, In y (args_of c) -> y <> [].
  Proof. intros H y Hy. apply (H y Hy). Qed.

  Definition room (Q : lname -> Prop) (c : cv) (q : list nat) : Prop :=
    (forall n, In n (writes c) -> Q n) /\ (forall p, Q (P (p ++ q))).

  Definition MainP (c : cv) : Prop := forall fed x q A E v Q,
    frag pt fed x c = true -> (x = false -> simple (print A) = true) -> print A <> [] ->
    room Q c q -> avoid Q A -> agree E c ->
    sim Q E A v (strict c) (eval E (gen fed q c A)) (den c v).
  Definition LinP (c : cv) : Prop := forall q e E Q,
    lin c = true -> frag pt false true c = true -> complex e -> room Q c q -> agree E c ->
    exists K, meq (eval E (gen false q c e)) (bind (eval E e) K) /\
              forall A v, avoid Q A -> forall u, sim Q E A v false (K u) (den c u).

  Lemma P_ne p i q : P (p ++ i :: q) <> P q.
  Proof.
    intros H. injection H as H. apply (f_equal (@length nat)) in H.
    rewrite app_length in H. cbn in H. lia.
  Qed.
  Lemma room_P Q c q p i : room Q c q -> Q (P (p ++ i :: q)).
  Proof. intros [_ H]. specialize (H (p ++ [i])). rewrite <- app_assoc in H. exact H. Qed.
  Lemma room_sub Q c q c' i : room Q c q -> (forall n, In n (writes c') -> In n (writes c)) ->
    room Q c' (i :: q).
  Proof. intros HQ Hw. split; [intros n Hn; apply HQ; auto|]. intros p. eapply room_P; eauto. Qed.
  Lemma room_sub2 Q c q c' i j : room Q c q -> (forall n, In n (writes c') -> In n (writes c)) ->
    room Q c' (i :: j :: q).
  Proof.
    intros HQ Hw. split; [intros n Hn; apply HQ; auto|]. intros p.
    change (p ++ i :: j :: q) with (p ++ [i] ++ j :: q). rewrite app_assoc. eapply room_P; eauto.
  Qed.
  Lemma agree_sub E c c' : agree E c -> (forall n, In n (args_of c') -> In n (args_of c)) -> agree E c'.
  Proof. intros H Hi y Hy. apply H. auto. Qed.

  Lemma avoid_lit Q l : avoid Q (PLit l).
  Proof. split; [intros n []|]. intros n _. split; intros []. Qed.
  Lemma avoid_glob Q l : avoid Q (PGlob l).
  Proof. split; [intros n []|]. intros n _. split; intros []. Qed.
  Lemma avoid_name Q l : avoid Q (PName l).
  Proof. split; [intros n []|]. intros n _. split; intros []. Qed.
  Lemma avoid_get (Q : lname -> Prop) n : ~ Q n -> avoid Q (PGet n).
  Proof.
    intros H. split; [intros m _ []|]. intros m Hm. split; [|intros []].
    intros [->|[]]. auto.
  Qed.

  (** the input, re-evaluated for its effects *)
  Lemma sim_attach Q E A v str r (m' : M V) :
    sim Q E A v str (eval E r) m' -> disj A ->
    simple (print A) = true \/ Sub (print A) (print r) \/ pt = true ->
    sim Q E A v str (eval E (attach A r)) m'.
  Proof.
    intros H Hd [Hs|[Hs|Hs]].
    - now rewrite attach_simple.
    - now rewrite attach_id.
    - destruct (attach_cases wordch srepr gname pnum A r) as [E1|E1]; rewrite E1; [exact H|].
      cbn [Model_Eval.eval].
      apply (sim_weaken pr Q E A v (true || str) str); [|auto].
      change (sim Q E A v (true || str)
        (bind (eval E A) (fun v0 => bind (prim (truth pr v0)) (fun _ => eval E r)))
        (bind (ret v) (fun _ => m'))).
      apply sim_bind; [now apply sim_inp|]. intros b.
      eapply sim_ext; [exact H| |reflexivity]. intros s. unfold bind, prim.
      destruct (pt_ok Hs b (fst s)) as [b' Hb]. rewrite Hb. now destruct s.
  Qed.
  Lemma sim_fed c fed x q E A v Q str (m' : M V) :
    nopipe c = true -> sim Q E A v str (eval E (gen false q c A)) m' -> disj A ->
    negb (fed && x) || uses c || pt = true -> (x = false -> simple (print A) = true) ->
    sim Q E A v str (eval E (gen fed q c A)) m'.
  Proof.
    intros Hn H Hd Hh Hx. destruct fed; [|exact H].
    rewrite nopipe_fed by auto. apply sim_attach; auto.
    destruct (simple (print A)) eqn:Es; [now left|right].
    rewrite !orb_true_iff in Hh. destruct Hh as [[Hh|Hh]|Hh]; auto.
    - cbn in Hh. destruct x; [discriminate|]. specialize (Hx eq_refl). congruence.
    - left. eapply uses_code; eauto.
  Qed.

  (** operands that do not look at the input *)
  Lemma free_sim c q e E A v Q x : MainP c -> free c = true -> frag pt false x c = true ->
    room Q c q -> avoid Q A -> agree E c ->
    forall u, sim Q E A v false (eval E (gen false q c e)) (den c u).
  Proof.
    intros HM Hf Hfr HQ Hv Ha u.
    rewrite (gen_free wordch srepr gname pnum pname hname c Hf q e (PLit LNone)).
    assert (Hfr' : frag pt false false c = true) by (destruct x; auto; now apply frag_mono).
    assert (H := HM false false q (PLit LNone) E (litv pr LNone) Q Hfr').
    assert (Hs : simple (print (PLit LNone)) = true).
    { cbn [Model_Code.print lit_text]. unfold Model_Code.simple. cbn.
      rewrite !wordch_ascii by lia. reflexivity. }
    specialize (H (fun _ => Hs)).
    assert (H' : sim Q E A v false (eval E (gen false q c (PLit LNone))) (den c (litv pr LNone))).
    { intros s t. eapply (simp_switch pr Q Q E A v E (PLit LNone) (litv pr LNone)); auto.
      - constructor.
      - apply H; auto. + discriminate. + apply avoid_lit. }
    eapply sim_ext; [exact H'|reflexivity|]. intros s. now apply den_free.
  Qed.

  Lemma gens_rel l : Forall MainP l -> forall x q i A E v (Q : lname -> Prop),
    forallb (frag pt false x) l = true -> (x = false -> simple (print A) = true) -> print A <> [] ->
    (forall n, In n (flat_map writes l) -> Q n) -> (forall p j, Q (P (p ++ j :: q))) ->
    avoid Q A -> (forall c, In c l -> agree E c) ->
    Forall2 (rel pr (eval E) (fun c => den c v) strict Q E A v) (gens q i l A) l.
  Proof.
    induction 1 as [|c l Hc Hl IH]; intros x q i A E v Q Hf Hx Hne Hw HP Hv Ha;
      cbn [Proofs_Code.gens]; constructor.
    - cbn [forallb] in Hf. apply andb_true_iff in Hf. destruct Hf as [Hf _].
      apply (Hc false x); auto.
      + split; [|intros p; apply HP]. intros n Hn. apply Hw. cbn. apply in_or_app. auto.
      + apply Ha. now left.
    - cbn [forallb] in Hf. apply andb_true_iff in Hf. destruct Hf as [_ Hf].
      apply (IH x); auto.
      + intros n Hn. apply Hw. cbn. apply in_or_app. auto.
      + intros c' Hc'. apply Ha. now right.
  Qed.
  Lemma gens_free_rel l : Forall MainP l -> forall q i e A E v (Q : lname -> Prop) u,
    forallb (frag pt false true) l = true -> forallb free l = true ->
    (forall n, In n (flat_map writes l) -> Q n) -> (forall p j, Q (P (p ++ j :: q))) ->
    avoid Q A -> (forall c, In c l -> agree E c) ->
    Forall2 (rel pr (eval E) (fun c => den c u) (fun _ => false) Q E A v) (gens q i l e) l.
  Proof.
    induction 1 as [|c l Hc Hl IH]; intros q i e A E v Q u Hf Hfr Hw HP Hv Ha;
      cbn [Proofs_Code.gens]; constructor; cbn [forallb] in Hf, Hfr; apply andb_true_iff in Hf, Hfr.
    - eapply free_sim; eauto; try apply Hf; try apply Hfr.
      + split; [|intros p; apply HP]. intros n Hn. apply Hw. cbn. apply in_or_app. auto.
      + apply Ha. now left.
    - apply IH; auto; try apply Hf; try apply Hfr.
      + intros n Hn. apply Hw. cbn. apply in_or_app. auto.
      + intros c' Hc'. apply Ha. now right.
  Qed.

  (** a.n and getattr(a, "n") *)
  Lemma attr_code_eval E a n : meq (eval E (attr_code a n)) (eval E (POp OGetattr [a; n])).
  Proof.
    intros s. unfold attr_code. destruct n; try reflexivity. destruct l; try reflexivity.
    destruct (valid_attr s0); [|reflexivity].
    cbn [Model_Eval.eval mapM]. unfold bind, ret, prim.
    destruct (eval E a s) as [s' [u|x]]; [|reflexivity]. now rewrite attr_ok.
  Qed.
  Lemma den_attr a n v : meq (den (CAttr a n) v)
    (bind (mapM (fun c => den c v) [a; n]) (fun vs => prim (op pr OGetattr vs))).
  Proof.
    intros s. cbn [Spec_Eval.den mapM]. unfold bind, ret.
    destruct (den a v s) as [s' [u|x]]; [|reflexivity].
    destruct (den n v s') as [s2 [u2|x]]; reflexivity.
  Qed.

  (** the condition of an If while the piped value is being cached *)
  Lemma eval_ic E k e : meq (eval E (PBool true [PAdd k e; PGet k]))
    (bind (eval E e) (fun u => bind (set_label k u) (fun _ => ret u))).
  Proof.
    intros s. cbn [Model_Eval.eval boolM]. unfold bind, ret, prim, set_label.
    destruct (eval E e s) as [s' [u|x]]; [|reflexivity]. cbn [fst snd]. rewrite truth_none.
    cbn [Bool.eqb]. unfold get_label, upd. cbn [snd fst].
    destruct (lname_eq_dec k k); [reflexivity|congruence].
  Qed.

  (** CCache: the chain of add_label_(...) or ... or get_by_label_(...) *)
  Fixpoint addsM (E : env) (l : list (lname * px)) (last : M V) : M V :=
    match l with
    | [] => last
    | (n, e) :: r => bind (eval E e) (fun u => bind (set_label n u) (fun _ => addsM E r last))
    end.
  Lemma eval_adds E l last : meq (eval E (PBool true (map (fun p => PAdd (fst p) (snd p)) l ++ [last])))
                                 (addsM E l (eval E last)).
  Proof.
    induction l as [|[n e] l IH]; [apply meq_refl|].
    intros s. cbn [Model_Eval.eval map app boolM].
    destruct (map (fun p => PAdd (fst p) (snd p)) l ++ [last]) as [|y ys] eqn:Ey.
    { destruct l; discriminate. }
    rewrite <- Ey in *. change (boolM pr (Model_Eval.eval pr E) true) with
      (fun l => eval E (PBool true l)). cbv beta.
    cbn [addsM fst snd Model_Eval.eval]. unfold bind, ret, prim, set_label.
    destruct (Model_Eval.eval pr E e s) as [s' [u|x]]; [|reflexivity]. cbn [fst snd].
    rewrite truth_none. cbn [Bool.eqb]. apply IH.
  Qed.
  Fixpoint label_codes (q : list nat) (n : lname) (i : nat) (ls : list (lname * cv)) :=
    match ls with
    | [] => []
    | (l, lc) :: r => (l, gen false (i :: q) lc (PGet n)) :: label_codes q n (S i) r
    end.
  Lemma gen_labels_eq q n ls : forall i,
    gen_labels wordch srepr gname pnum pname hname q n i ls
    = map (fun p => PAdd (fst p) (snd p)) (label_codes q n i ls) ++ [PGet n].
  Proof. induction ls as [|[l lc] ls IH]; intros i; cbn; [reflexivity|]. f_equal. apply IH. Qed.

  Lemma in_names_false n l : in_names n l = false -> ~ In n l.
  Proof.
    unfold in_names. intros H Hi. assert (H' : existsb (fun m => if lname_eq_dec n m then true else false) l = true).
    { apply existsb_exists. exists n. split; auto. destruct (lname_eq_dec n n); congruence. }
    congruence.
  Qed.

  (** the statements shared by Main and Lin for a cached value [u] *)
  Lemma cache_tail n c ls q E A v Q u fed x :
    Forall (fun l => MainP (snd l)) ls -> frag pt fed x (CCache n c ls) = true ->
    room Q (CCache n c ls) q -> avoid Q A -> agree E (CCache n c ls) ->
    sim Q E A v false
      (bind (set_label n u) (fun _ => addsM E (label_codes q n 1 ls) (eval E (PGet n))))
      (bind (set_label n u) (fun _ => bind (labelsM (fun c => den c u) ls) (fun _ => ret u))).
  Proof.
    intros HM Hf HQ Hv Ha. cbn [frag] in Hf. rewrite !andb_true_iff in Hf.
    destruct Hf as [[[[[_ _] Hls] Hn] Hus] Hin]. apply negb_true_iff in Hin.
    apply in_names_false in Hin.
    assert (Hqn : Q n) by (apply HQ; cbn; auto).
    intros s t. apply simp_set; auto.
    pose (Q2 := fun m => Q m /\ m <> n).
    assert (Hs2 : sim Q2 E (PGet n) u false (addsM E (label_codes q n 1 ls) (eval E (PGet n)))
                   (bind (labelsM (fun c => den c u) ls) (fun _ => ret u))).
    { assert (HP : forall p i, Q2 (P (p ++ i :: q))).
      { intros p i. split; [eapply room_P; eauto|]. intros <-. discriminate. }
      assert (HW : forall m, In m (map fst ls ++ flat_map (fun l => writes (snd l)) ls) -> Q2 m).
      { intros m Hm. split; [|intros ->; auto]. apply HQ. cbn. right. apply in_or_app. now right. }
      assert (HA : forall l, In l ls -> agree E (snd l)).
      { intros l Hl. eapply agree_sub; [exact Ha|]. intros y Hy. cbn. apply in_or_app. right.
        apply in_flat_map. eauto. }
      assert (Hav : avoid Q2 (PGet n)) by (apply avoid_get; intros [_ H]; auto).
      clear Ha Hin HQ. generalize 1 as i. revert HM Hls Hus HW HA.
      induction ls as [|[l lc] ls IH]; intros HM Hls Hus HW HA i; cbn [label_codes addsM labelsM].
      - eapply sim_ext; [apply (sim_false pr Q2 E (PGet n) u true); apply sim_inp; auto|reflexivity|].
        + apply Hav. + intros s'. reflexivity.
      - inversion HM as [|? ? Hm HM']; subst. cbn [forallb fst snd] in *.
        apply andb_true_iff in Hls, Hus. destruct Hls as [Hl Hls], Hus as [Hu Hus].
        eapply sim_ext; [|reflexivity|intros s'; apply bind_assoc].
        apply sim_bind0.
        + eapply sim_false. apply (Hm false true); auto.
          * discriminate.
          * discriminate.
          * split; [|intros p; apply HP]. intros m Hi. apply HW. cbn [map flat_map fst snd]. right. apply in_or_app. right.
            apply in_or_app. now left.
          * apply (HA (l, lc)). now left.
        + intros b. eapply sim_ext; [|reflexivity|intros s'; apply bind_assoc].
          apply sim_set; auto.
          * apply HW. now left.
          * apply IH; auto.
            -- intros m Hi. apply HW. cbn [map flat_map fst snd]. apply in_app_or in Hi. destruct Hi as [Hi|Hi].
               ++ right. apply in_or_app. now left.
               ++ right. apply in_or_app. right. apply in_or_app. now right.
            -- intros l' Hl'. apply HA. now right. }
    eapply (simp_switch pr Q Q2 E A v E (PGet n) u false); auto.
    - intros m [Hm _]. exact Hm.
    - constructor. cbn. unfold upd. destruct (lname_eq_dec n n); congruence.
  Qed.

  (** get_or_default: the lookups in the helper function *)
  Fixpoint goM (E : env) (o : opn) (l : list px) (cur : V) : M V :=
    match l with
    | [] => ret cur
    | i :: r => bind (eval E i) (fun vi => bind (prim (op pr o [cur; vi])) (goM E o r))
    end.
  Lemma path_eval E at_ idx : forall start,
    meq (eval E (path_code at_ idx start))
        (bind (eval E start)
           (goM E (if at_ then OGetattr else OItem) idx)).
  Proof.
    unfold path_code. induction idx as [|i idx IH]; intros start; cbn [fold_left].
    - apply meq_sym, bind_ret_r.
    - eapply meq_trans; [apply IH|].
      assert (HS : meq (eval E (if at_ then attr_code start i else POp OItem [start; i]))
                       (eval E (POp (if at_ then OGetattr else OItem) [start; i]))).
      { destruct at_; [apply attr_code_eval|apply meq_refl]. }
      intros s. unfold bind at 1. rewrite HS. cbn [Model_Eval.eval mapM goM]. unfold bind, ret.
      destruct (Model_Eval.eval pr E start s) as [s1 [u|x]]; [|reflexivity].
      destruct (Model_Eval.eval pr E i s1) as [s2 [u2|x]]; reflexivity.
  Qed.

  Lemma sim_lookups Q E2 A u o gs idx :
    Forall2 (rel pr (eval E2) (fun c => den c u) strict Q E2 A u) gs idx -> forall cur,
    sim Q E2 A u false
      (goM E2 o gs cur)
      (lookupsM pr (fun c => den c u) o idx cur).
  Proof.
    induction 1 as [|g c gs idx Hg Hr IH]; intros cur; cbn [lookupsM goM]; [apply sim_ret|].
    apply sim_bind0; [eapply sim_false; exact Hg|]. intros vi.
    apply sim_bind0; [apply sim_prim|]. exact IH.
  Qed.

  Lemma simple_T x : forallb (fun c => N.ltb c 128 &&
      (ascii_alpha c || (N.leb 48 c && N.leb c 57) || N.eqb c 95)) (T x) = true ->
    simple (T x) = true.
  Proof.
    intros H. unfold Model_Code.simple.
    assert (HS := strip_sub (T x)). apply forallb_forall. intros c Hc.
    assert (Hc' : In c (T x)) by (eapply Sub_in; eauto).
    rewrite forallb_forall in H. specialize (H c Hc'). apply andb_true_iff in H. destruct H as [H1 H2].
    apply N.ltb_lt in H1. rewrite wordch_ascii by auto. rewrite H2. reflexivity.
  Qed.

  Lemma default_body at_ idx q E2 E A v (Q : lname -> Prop) x0 cur u :
    Forall MainP idx -> forallb (frag pt false false) idx = true ->
    forallb (fun i => match args_of i with [] => true | _ => false end) idx = true ->
    (forall n, In n (flat_map writes idx) -> Q n) -> (forall p j, Q (P (p ++ j :: q))) ->
    avoid Q A -> lookup E2 (T "obj_") = Some u -> lookup E2 x0 = Some cur ->
    sim Q E A v false
      (eval E2 (path_code at_ (gens q 2 idx (PName (T "obj_"))) (PName x0)))
      (lookupsM pr (fun c => den c u) (if at_ then OGetattr else OItem) idx cur).
  Proof.
    intros HM Hf Hna HW HP Hv Hobj Hx.
    eapply (sim_switch pr Q E A v E2 (T "obj_") u false); auto.
    eapply sim_ext; [|intros s; apply path_eval|reflexivity].
    eapply (sim_ext pr Q E2 (PName (T "obj_")) u false).
    - apply (sim_lookups Q E2 (PName (T "obj_")) u (if at_ then OGetattr else OItem)
               (gens q 2 idx (PName (T "obj_"))) idx).
      apply (gens_rel idx HM false); auto.
      + intros _. apply simple_T. reflexivity.
      + discriminate.
      + apply avoid_name.
      + intros c Hc y Hy. rewrite forallb_forall in Hna. specialize (Hna c Hc).
        destruct (args_of c); [destruct Hy|discriminate].
    - intros s. unfold bind. cbn [Model_Eval.eval]. rewrite Hx. reflexivity.
    - reflexivity.
  Qed.

  Lemma eval_args E ps : (forall y, In y ps -> exists u, lookup E y = Some u) ->
    exists vals, meq (mapM (eval E) (map PName ps)) (ret vals) /\
                 forall y, In y ps -> lookup (combine ps vals) y = lookup E y.
  Proof.
    induction ps as [|y ps IH]; intros H.
    - exists []. split; [apply meq_refl|]. intros y [].
    - destruct IH as (vals & H1 & H2). { intros z Hz. apply H. now right. }
      destruct (H y (or_introl eq_refl)) as [u Hu]. exists (u :: vals). split.
      + intros s. cbn [map mapM Model_Eval.eval]. rewrite Hu. unfold bind, ret at 1. rewrite H1. reflexivity.
      + intros z Hz. cbn [combine lookup]. destruct (text_eq_dec z y) as [->|Hne]; [now rewrite Hu|].
        apply H2. destruct Hz as [Hz|Hz]; [congruence|exact Hz].
  Qed.
  Lemma agree_helper E c c' vals (u : V) :
    agree E c -> (forall y, In y (args_of c') -> In y (args_of c)) ->
    (forall y, In y (params_of c) -> lookup (combine (params_of c) vals) y = lookup E y) ->
    agree (helper_env (params_of c) (u :: vals)) c'.
  Proof.
    intros Ha Hi Hl y Hy. destruct (Ha y (Hi y Hy)) as (H1 & H2 & H3 & w & H4 & H5).
    repeat split; auto. exists w. split; [|exact H5]. unfold helper_env. cbn [combine lookup].
    destruct (text_eq_dec y (T "data_")); [congruence|]. rewrite Hl; [exact H4|].
    apply in_params. auto.
  Qed.
  Lemma helper_data ps (u : V) vals : lookup (helper_env ps (u :: vals)) (T "data_") = Some u.
  Proof. unfold helper_env. cbn [combine lookup]. destruct (text_eq_dec (T "data_") (T "data_")); congruence. Qed.
  Lemma agree_bound E c : agree E c -> forall y, In y (params_of c) -> exists u, lookup E y = Some u.
  Proof.
    intros H y Hy. apply in_params in Hy.
    destruct (H y Hy) as (_ & _ & _ & u & Hu & _). eauto.
  Qed.

  (** what follows once the input value is known *)
  Lemma comp_tail k elts co q E A v Q fed x t0 u :
    Forall MainP elts -> optP MainP co -> frag pt fed x (CComp k elts co) = true ->
    room Q (CComp k elts co) q -> avoid Q A -> agree E (CComp k elts co) ->
    let y := pname t0 in
    sim Q E A v false
      (comprehend pr k u (fun item acc =>
         whenM pr (eval ((y, item) :: E))
           (match co with Some c => Some (gen false (0 :: q) c (PName y)) | None => None end)
           (bind (mapM (eval ((y, item) :: E)) (gens q 1 elts (PName y))) (fun vs => prim (push pr k acc vs)))
           (ret acc)))
      (den (CComp k elts co) u).
  Proof.
    intros He Hc Hf HQ Hv Ha y. cbn [Spec_Eval.den]. cbn [frag] in Hf. rewrite !andb_true_iff in Hf.
    destruct Hf as [[_ Hfe] Hfc]. destruct (pname_simple t0) as [Hps Hpn].
    apply sim_comprehend. intros item acc.
    assert (Hlk : lookup ((y, item) :: E) y = Some item).
    { cbn. destruct (text_eq_dec y y); congruence. }
    assert (Hag : forall c, (forall z, In z (args_of c) -> In z (args_of (CComp k elts co))) ->
                            agree ((y, item) :: E) c).
    { intros c Hc' z Hz. destruct (Ha z (Hc' z Hz)) as (H1 & H2 & H3 & w & H4 & H5).
      repeat split; auto. exists w. split; [|exact H5]. cbn. destruct (text_eq_dec z y) as [E1|_]; auto.
      exfalso. apply (H3 t0). now symmetry. }
    eapply (sim_switch pr Q E A v ((y, item) :: E) y item false); auto.
    apply (sim_whenM pr (eval ((y, item) :: E)) (fun c => den c item) strict).
    - destruct co as [c|]; [|exact I]. apply (Hc false false); auto.
      + apply (room_sub Q (CComp k elts (Some c)) q c 0 HQ). intros n Hn. cbn. apply in_or_app. auto.
      + apply avoid_name.
      + apply Hag. intros z Hz. cbn. apply in_or_app. auto.
    - apply sim_bind0; [|intros vs; apply sim_prim].
      eapply sim_false. apply sim_mapM. apply (gens_rel elts He false); auto.
      + intros n Hn. apply HQ. cbn. apply in_or_app. auto.
      + intros p j. eapply room_P; eauto.
      + apply avoid_name.
      + intros c Hin. apply Hag. intros z Hz. cbn. apply in_or_app. left. apply in_flat_map. eauto.
    - apply sim_ret.
  Qed.

  Notation gen_lines := (gen_lines wordch srepr gname pnum pname hname).
  Notation gen_stmts := (gen_stmts wordch srepr gname pnum pname hname).

  Lemma items_tail k lines q E A v Q fed x u :
    Forall (fun l => optP MainP (fst l) /\ MainP (snd l)) lines -> frag pt fed x (CItems k lines) = true ->
    room Q (CItems k lines) q -> avoid Q A -> agree E (CItems k lines) ->
    let ps := params_of (CItems k lines) in
    sim Q E A v false
      (bind (mapM (eval E) (map PName ps)) (fun vals =>
         bind (prim1 (start pr k)) (fun acc =>
         bind (linesM pr (eval (helper_env ps (u :: vals))) k (gen_lines q 0 lines) acc) (fun acc =>
         prim1 (finish pr k acc)))))
      (den (CItems k lines) u).
  Proof.
    intros HM Hf HQ Hv Ha ps. cbn [Spec_Eval.den].
    destruct (eval_args E ps (agree_bound E _ Ha)) as (vals & Hv1 & Hv2).
    eapply sim_ext; [|intros s; unfold bind at 1; rewrite Hv1; reflexivity|reflexivity]. 
    apply sim_bind0; [apply sim_prim1|]. intros acc.
    apply sim_bind0; [|intros; apply sim_prim1].
    set (E2 := helper_env ps (u :: vals)).
    eapply (sim_switch pr Q E A v E2 (T "data_") u false); [exact Hv|apply helper_data|].
    apply (sim_linesM pr (eval E2) (fun c => den c u) strict).
    assert (Hag : forall c, (forall z, In z (args_of c) -> In z (args_of (CItems k lines))) -> agree E2 c).
    { intros c Hc. eapply agree_helper; eauto. }
    assert (HA : forall l, In l lines ->
       match fst l with Some c => agree E2 c | None => True end /\ agree E2 (snd l)).
    { intros l Hl. split.
      - destruct (fst l) as [c|] eqn:El; [|exact I]. apply Hag. intros z Hz. cbn. apply in_flat_map.
        exists l. rewrite El. split; auto. apply in_or_app. auto.
      - apply Hag. intros z Hz. cbn. apply in_flat_map. exists l. split; auto. apply in_or_app. auto. }
    assert (HW : forall l n, In l lines ->
       In n (match fst l with Some c => writes c | None => [] end ++ writes (snd l)) -> Q n).
    { intros l n Hl Hn. apply HQ. cbn. apply in_flat_map. exists l. split; auto. }
    assert (HP : forall p i j, Q (P (p ++ i :: j :: q))).
    { intros p i j. change (p ++ i :: j :: q) with (p ++ [i] ++ j :: q). rewrite app_assoc. eapply room_P; eauto. }
    assert (Hs : simple (print (PName (T "data_"))) = true) by (apply simple_T; reflexivity).
    cbn [frag] in Hf. clear Ha Hag HQ Hv1 Hv2. clearbody E2. generalize 0 as i. revert HM Hf HA HW.
    induction lines as [|[co c] lines IH]; intros HM Hf HA HW i; cbn [Proofs_Code.gen_lines]; constructor.
    - inversion HM as [|? ? [Hc1 Hc2] HM']; subst. cbn [fst snd] in *. cbn [forallb fst snd] in Hf.
      apply andb_true_iff in Hf. destruct Hf as [Hf _]. apply andb_true_iff in Hf. destruct Hf as [Hf1 Hf2].
      destruct (HA (co, c) (or_introl eq_refl)) as [Ha1 Ha2]. cbn [fst snd] in *.
      split; cbn [fst snd].
      + destruct co as [c1|]; [|exact I]. apply (Hc1 false false); auto.
        * discriminate.
        * split; [|intros p; apply HP]. intros n Hn. apply (HW (Some c1, c)); [now left|].
          apply in_or_app. now left.
        * apply avoid_name.
      + apply (Hc2 false false); auto.
        * discriminate.
        * split; [|intros p; apply HP]. intros n Hn. apply (HW (co, c)); [now left|].
          apply in_or_app. now right.
        * apply avoid_name.
    - inversion HM as [|? ? _ HM']; subst. cbn [forallb] in Hf. apply andb_true_iff in Hf.
      apply IH; auto.
      + apply Hf.
      + intros l Hl. apply HA. now right.
      + intros l n Hl. apply HW. now right.
  Qed.

  Lemma tap_tail o ms q E A v Q fed x u :
    Forall (fun m => Forall MainP (snd m)) ms -> frag pt fed x (CTap o ms) = true ->
    room Q (CTap o ms) q -> avoid Q A -> agree E (CTap o ms) ->
    let ps := params_of (CTap o ms) in
    sim Q E A v false
      (bind (mapM (eval E) (map PName ps)) (fun vals =>
         bind (stmtsM pr (eval (helper_env ps (u :: vals))) u (gen_stmts q 1 ms)) (fun _ => ret u)))
      (bind (stmtsM pr (fun c => den c u) u ms) (fun _ => ret u)).
  Proof.
    intros HM Hf HQ Hv Ha ps.
    destruct (eval_args E ps (agree_bound E _ Ha)) as (vals & Hv1 & Hv2).
    eapply sim_ext; [|intros s; unfold bind at 1; rewrite Hv1; reflexivity|reflexivity]. 
    apply sim_bind0; [|intros; apply sim_ret].
    set (E2 := helper_env ps (u :: vals)).
    eapply (sim_switch pr Q E A v E2 (T "data_") u false); [exact Hv|apply helper_data|].
    apply (sim_stmtsM pr (eval E2) (fun c => den c u) strict).
    assert (HA : forall l c, In l ms -> In c (snd l) -> agree E2 c).
    { intros l c Hl Hc. eapply agree_helper; [exact Ha| |exact Hv2].
      intros y Hy. cbn. apply in_or_app. right. apply in_flat_map. exists l. split; auto.
      apply in_flat_map. eauto. }
    assert (HW : forall l n, In l ms -> In n (flat_map writes (snd l)) -> Q n).
    { intros l n Hl Hn. apply HQ. cbn. apply in_or_app. right. apply in_flat_map. eauto. }
    assert (HP : forall p i j, Q (P (p ++ i :: j :: q))).
    { intros p i j. change (p ++ i :: j :: q) with (p ++ [i] ++ j :: q). rewrite app_assoc. eapply room_P; eauto. }
    assert (Hs : simple (print (PName (T "data_"))) = true) by (apply simple_T; reflexivity).
    cbn [frag] in Hf. rewrite !andb_true_iff in Hf. destruct Hf as [_ Hf].
    clear Ha HQ Hv1 Hv2. clearbody E2. generalize 1 as i. revert HM Hf HA HW.
    induction ms as [|[k l] ms IH]; intros HM Hf HA HW i; cbn [Proofs_Code.gen_stmts]; constructor.
    - inversion HM as [|? ? Hl HM']; subst. cbn [forallb fst snd] in *. apply andb_true_iff in Hf.
      split; cbn [fst snd]; [reflexivity|].
      apply (gens_rel l Hl false); auto.
      + apply Hf.
      + discriminate.
      + intros n Hn. apply (HW (k, l)); [now left|exact Hn].
      + apply avoid_name.
      + intros c Hc. apply (HA (k, l)); [now left|exact Hc].
    - inversion HM as [|? ? _ HM']; subst. cbn [forallb] in Hf. apply andb_true_iff in Hf.
      apply IH; auto.
      + apply Hf.
      + intros l' c Hl. apply HA. now right.
      + intros l' n Hl. apply HW. now right.
  Qed.

  (** a branch of an If, reading the cached value *)
  Definition optd (o : option cv) (u : V) : M V := match o with None => ret u | Some c => den c u end.
  Notation fed_opt := (fed_opt wordch srepr gname pnum pname hname).
  Lemma opt_sim o x i q E A v (Q : lname -> Prop) str : optP MainP o -> optb (frag pt true x) o = true ->
    (x = false -> simple (print A) = true) -> print A <> [] ->
    (forall n, In n (match o with Some c => writes c | None => [] end) -> Q n) ->
    (forall p, Q (P (p ++ i :: q))) ->
    avoid Q A -> (forall c, o = Some c -> agree E c) ->
    (str = true -> optb strict o = true) ->
    sim Q E A v str (eval E (fed_opt (i :: q) o A)) (optd o v).
  Proof.
    intros HM Hf Hx Hne HW HP Hv Ha Hs. destruct o as [c|]; cbn [Proofs_Code.fed_opt optd].
    - apply (sim_weaken pr Q E A v (strict c) str); [apply (HM true x); auto; split; auto|exact Hs].
    - eapply sim_weaken; [apply sim_inp; auto; apply Hv|reflexivity].
  Qed.

  Lemma if_branches q t f E (Q : lname -> Prop) u :
    optP MainP t -> optP MainP f -> optb (frag pt true true) t = true -> optb (frag pt true true) f = true ->
    let Q2 := fun m => Q m /\ m <> P q in
    (forall n, In n (match t with Some c => writes c | None => [] end ++
                     match f with Some c => writes c | None => [] end) -> Q n) ->
    (forall p, Q (P (p ++ q))) -> (forall c, t = Some c -> agree E c) -> (forall c, f = Some c -> agree E c) ->
    forall vc, sim Q2 E (PGet (P q)) u false
      (bind (prim (truth pr vc)) (fun b => if b then eval E (fed_opt (1 :: q) t (PGet (P q)))
                                           else eval E (fed_opt (2 :: q) f (PGet (P q)))))
      (bind (prim (truth pr vc)) (fun b => if b then optd t u else optd f u)).
  Proof.
    intros HMt HMf Hft Hff Q2 HW HP Hat Haf vc.
    assert (Hav : avoid Q2 (PGet (P q))) by (apply avoid_get; intros [_ H]; auto).
    assert (HP2 : forall i p, Q2 (P (p ++ i :: q))).
    { intros i p. split; [|apply P_ne]. specialize (HP (p ++ [i])). now rewrite <- app_assoc in HP. }
    assert (HU : forall o n, optb (frag pt true true) o = true ->
       In n (match o with Some c => writes c | None => [] end) -> n <> P q).
    { intros [c|] n Hf Hn; [|destruct Hn]. intros ->. apply (frag_writes pt c _ _ Hf) in Hn. discriminate. }
    apply sim_bind0; [apply sim_prim|]. intros b. destruct b.
    - apply (opt_sim t true); auto; try discriminate.
      intros n Hn. split; [|exact (HU t n Hft Hn)]. apply HW, in_or_app. now left.
    - apply (opt_sim f true); auto; try discriminate.
      intros n Hn. split; [|exact (HU f n Hff Hn)]. apply HW, in_or_app. now right.
  Qed.

  Lemma mem_l {B} (x : B) l l' : In x l -> In x (l ++ l'). Proof. intros. apply in_or_app. now left. Qed.
  Lemma mem_r {B} (x : B) l l' : In x l' -> In x (l ++ l'). Proof. intros. apply in_or_app. now right. Qed.

  Lemma avoid_ic (Q : lname -> Prop) q A : Q (P q) -> avoid Q A ->
    avoid (fun m => Q m /\ m <> P q) (PBool true [PAdd (P q) A; PGet (P q)]).
  Proof.
    intros HQ [Hd Hv]. split.
    - intros n Hn [Hc|Hc]; cbn in Hn; [subst n; now destruct (Hv _ HQ)|now apply (Hd n)].
    - intros n [Hn Hne]. cbn. destruct (Hv n Hn) as [H1 H2]. split; auto. intros [Hc|Hc]; auto.
  Qed.

  (** If whose condition is evaluated with the caching expression as its input *)
  Lemma if_cached co t f q E A v (Q : lname -> Prop) :
    optP MainP co -> optP MainP t -> optP MainP f ->
    optb (frag pt true true) co = true -> optb (frag pt true true) t = true ->
    optb (frag pt true true) f = true -> optb strict co = true ->
    room Q (CIf false co t f) q -> avoid Q A -> agree E (CIf false co t f) ->
    let k := P q in let ic := PBool true [PAdd k A; PGet k] in
    sim Q E A v true
      (bind (eval E (fed_opt (0 :: q) co ic)) (fun vc => bind (prim (truth pr vc)) (fun b =>
         if b then eval E (fed_opt (1 :: q) t (PGet k)) else eval E (fed_opt (2 :: q) f (PGet k)))))
      (bind (optd co v) (fun vc => bind (prim (truth pr vc)) (fun b =>
         if b then optd t v else optd f v))).
  Proof.
    intros HMc HMt HMf Hc Ht Hf Hst HQ Hv Ha k ic.
    assert (Hqk : Q k) by (apply (proj2 HQ [])).
    pose (Q2 := fun m => Q m /\ m <> P q).
    assert (Hav : avoid Q2 ic) by (apply avoid_ic; auto).
    assert (HU : forall o n, optb (frag pt true true) o = true ->
       In n (match o with Some c => writes c | None => [] end) -> n <> P q).
    { intros [c|] n Hfr Hn; [|destruct Hn]. intros ->. apply (frag_writes pt c _ _ Hfr) in Hn. discriminate. }
    assert (Hag : forall o, (o = co \/ o = t \/ o = f) -> forall c, o = Some c -> agree E c).
    { intros o Ho c ->. eapply agree_sub; [exact Ha|]. intros y Hy. cbn.
      destruct Ho as [Ho|[Ho|Ho]]; rewrite <- Ho; [apply mem_l|apply mem_r, mem_l|apply mem_r, mem_r]; exact Hy. }
    assert (Hcond : sim Q2 E ic v true (eval E (fed_opt (0 :: q) co ic)) (optd co v)).
    { apply (opt_sim co true); auto; try discriminate.
      - intros n Hn. split; [|exact (HU co n Hc Hn)]. apply HQ. cbn. apply mem_l. exact Hn.
      - intros p. split; [eapply room_P; eauto|apply P_ne].
      - apply (Hag co). now left. }
    assert (Hbr : forall vc, sim Q2 E (PGet k) v false
      (bind (prim (truth pr vc)) (fun b => if b then eval E (fed_opt (1 :: q) t (PGet k))
                                           else eval E (fed_opt (2 :: q) f (PGet k))))
      (bind (prim (truth pr vc)) (fun b => if b then optd t v else optd f v))).
    { apply if_branches; auto.
      - intros n Hn. apply HQ. cbn. apply mem_r. exact Hn.
      - apply HQ.
      - apply (Hag t). auto.
      - apply (Hag f). auto. }
    intros s t0 HR HI.
    assert (HIc : inp E (snd s) ic v) by now apply I_cache.
    assert (Hmem : forall n, In n (cw A) -> In n (cw ic)) by (intros n Hn; right; exact Hn).
    assert (Hcs : simp Q E A v true (eval E (fed_opt (0 :: q) co ic)) (optd co v) s t0).
    { intros _ _. destruct (Hcond s t0 HR HIc) as (H1 & H2 & H3 & H4 & H5 & H6).
      split; [exact H1|]. split; [exact H2|]. split; [|split; [|split]].
      - inversion H3; subst. assumption.
      - intros n Hn Hcn. apply H4; [intros [H _]; auto|]. intros [Hk|Hk]; [|auto]. subst n. auto.
      - intros n Hn. apply H5. auto.
      - intros _ Hval n Hn. apply H6; auto. }
    apply (simp_bind pr Q E A v true false); auto.
    intros b s' t' Es Et.
    eapply (simp_switch pr Q Q2 E A v E (PGet k) v false); auto.
    - intros m [Hm _]. exact Hm.
    - destruct (Hcond s t0 HR HIc) as (_ & _ & _ & _ & _ & H6). rewrite Es in H6. constructor.
      cbn [fst snd] in H6. apply H6; auto. now exists b. now left.
    - apply Hbr.
  Qed.

  Lemma frag_unfed x c : frag pt true x c = true -> frag pt false x c = true.
  Proof.
    induction c as [|l|g|ax|n|o l IH|a n IHa IHn|i l IH|l IH|nc co t f IHc IHt IHf
                    |a s idx d IHs IHi IHd|k es co IHe IHc|k ls IH|n c ls IHc IHl|a b IHa IHb|o ms IHo IHm]
      using cv_ind'; intros H; cbn [frag] in *; rewrite ?andb_true_iff in *; cbn [andb negb orb] in *;
      try tauto.
    destruct a; rewrite ?andb_true_iff in *; cbn [andb negb] in *; tauto.
  Qed.

  (** the same for any code of the input, evaluated once *)
  Lemma if_lin co t f q e E (Q : lname -> Prop) :
    optP (fun c => MainP c /\ LinP c) co -> optP MainP t -> optP MainP f ->
    optb (frag pt true true) co = true -> optb (frag pt true true) t = true ->
    optb (frag pt true true) f = true -> optb lin co = true -> complex e ->
    room Q (CIf false co t f) q -> agree E (CIf false co t f) ->
    let k := P q in let ic := PBool true [PAdd k e; PGet k] in
    exists K, meq
      (bind (eval E (fed_opt (0 :: q) co ic)) (fun vc => bind (prim (truth pr vc)) (fun b =>
         if b then eval E (fed_opt (1 :: q) t (PGet k)) else eval E (fed_opt (2 :: q) f (PGet k)))))
      (bind (eval E e) K) /\
      forall A v, avoid Q A -> forall u, sim Q E A v false (K u) 
        (bind (optd co u) (fun vc => bind (prim (truth pr vc)) (fun b =>
           if b then optd t u else optd f u))).
  Proof.
    intros HMc HMt HMf Hc Ht Hf Hl He HQ Ha k ic.
    assert (Hqk : Q k) by (apply (proj2 HQ [])).
    pose (Q2 := fun m => Q m /\ m <> P q).
    assert (HU : forall o n, optb (frag pt true true) o = true ->
       In n (match o with Some c => writes c | None => [] end) -> n <> P q).
    { intros [c|] n Hfr Hn; [|destruct Hn]. intros ->. apply (frag_writes pt c _ _ Hfr) in Hn. discriminate. }
    assert (Hag : forall o, (o = co \/ o = t \/ o = f) -> forall c, o = Some c -> agree E c).
    { intros o Ho c ->. eapply agree_sub; [exact Ha|]. intros y Hy. cbn.
      destruct Ho as [Ho|[Ho|Ho]]; rewrite <- Ho; [apply mem_l|apply mem_r, mem_l|apply mem_r, mem_r]; exact Hy. }
    assert (Hav : avoid Q2 (PGet k)) by (apply avoid_get; intros [_ H]; auto).
    assert (Hic : complex ic).
    { apply complex_sep_bool; auto. }
    assert (HC : exists Kc, meq (eval E (fed_opt (0 :: q) co ic))
                   (bind (eval E e) (fun u => bind (set_label k u) (fun _ => Kc u))) /\
                 forall u, sim Q2 E (PGet k) u false (Kc u) (optd co u)).
    { destruct co as [c|]; cbn [Proofs_Code.fed_opt optd].
      - assert (Hfr : frag pt true true c = true) by exact Hc.
        assert (Hfr' : frag pt false true c = true).
        { now apply frag_unfed. }
        destruct HMc as [_ HL].
        rewrite (fed_uses wordch srepr gname pnum pname hname wordch_ascii c) by
          (auto; eapply lin_uses; eauto).
        destruct (HL (0 :: q) ic E Q2 Hl Hfr' Hic) as (Kc & HK1 & HK2).
        + split.
          * intros n Hn. split; [|exact (HU (Some c) n Hc Hn)]. apply HQ. cbn. apply mem_l. exact Hn.
          * intros p. split; [eapply room_P; eauto|apply P_ne].
        + apply (Hag (Some c)); auto.
        + exists Kc. split.
          * eapply meq_trans; [exact HK1|]. eapply meq_trans; [apply bind_meq; [apply eval_ic|intros; apply meq_refl]|].
            eapply meq_trans; [apply bind_assoc|]. apply bind_meq; [apply meq_refl|]. intros u.
            eapply meq_trans; [apply bind_assoc|]. apply meq_refl.
          * intros u. apply HK2. exact Hav.
      - exists (fun u => ret u). split; [apply eval_ic|]. intros u. apply sim_ret. }
    destruct HC as (Kc & HE & HK).
    exists (fun u => bind (set_label k u) (fun _ => bind (Kc u) (fun vc => bind (prim (truth pr vc)) (fun b =>
         if b then eval E (fed_opt (1 :: q) t (PGet k)) else eval E (fed_opt (2 :: q) f (PGet k)))))).
    split.
    - eapply meq_trans; [apply bind_meq; [exact HE|intros; apply meq_refl]|].
      eapply meq_trans; [apply bind_assoc|]. apply bind_meq; [apply meq_refl|]. intros u.
      apply bind_assoc.
    - intros A v Hv u s t0. apply simp_setP; auto.
      eapply (simp_switch pr Q Q2 E A v E (PGet k) u false); auto.
      + intros m [Hm _]. exact Hm.
      + constructor. cbn [snd]. unfold upd, k. destruct (lname_eq_dec (P q) (P q)); [reflexivity|congruence].
      + apply sim_bind0; [apply HK|]. apply if_branches; auto.
        * intros n Hn. apply HQ. cbn. apply mem_r. exact Hn.
        * apply HQ.
        * apply (Hag t). auto.
        * apply (Hag f). auto.
  Qed.

  Definition lin_go := fix go (l : list cv) : bool :=
         match l with
         | [] => false
         | c :: r => (lin c && forallb free r) || (const c && go r)
         end.
  Definition BothP (c : cv) : Prop := MainP c /\ LinP c.
  Lemma both_main l : Forall BothP l -> Forall MainP l.
  Proof. intros H. eapply Forall_impl; [|exact H]. intros c Hc. apply Hc. Qed.
  Lemma both_opt o : optP BothP o -> optP MainP o.
  Proof. destruct o; cbn; [intros H; apply H|auto]. Qed.

  Lemma lin_list l : Forall BothP l -> lin_go l = true -> forall q i e E (Q : lname -> Prop),
    forallb (frag pt false true) l = true -> complex e ->
    (forall n, In n (flat_map writes l) -> Q n) -> (forall p j, Q (P (p ++ j :: q))) ->
    (forall c, In c l -> agree E c) ->
    exists K, meq (mapM (eval E) (gens q i l e)) (bind (eval E e) K) /\
              forall A v, avoid Q A -> forall u, sim Q E A v false (K u) (mapM (fun c => den c u) l).
  Proof.
    induction 1 as [|c l Hc Hl IH]; intros Hgo q i e E Q Hf He HW HP Ha; [discriminate|].
    cbn [lin_go] in Hgo. cbn [forallb] in Hf. apply andb_true_iff in Hf. destruct Hf as [Hfc Hf].
    cbn [Proofs_Code.gens mapM]. apply orb_true_iff in Hgo. destruct Hgo as [Hgo|Hgo];
      apply andb_true_iff in Hgo; destruct Hgo as [Hg1 Hg2].
    - destruct (proj2 Hc (i :: q) e E Q Hg1 Hfc He) as (Kc & HK1 & HK2).
      + split; [|intros p; apply HP]. intros n Hn. apply HW. cbn. apply mem_l. exact Hn.
      + apply Ha. now left.
      + exists (fun u => bind (Kc u) (fun v => bind (mapM (eval E) (gens q (S i) l e)) (fun vs => ret (v :: vs)))).
        split.
        * eapply meq_trans; [apply bind_meq; [exact HK1|intros; apply meq_refl]|]. apply bind_assoc.
        * intros A v Hv u. apply sim_bind0; [auto|]. intros vc.
          apply sim_bind0; [|intros; apply sim_ret].
          eapply sim_false, sim_mapM. apply gens_free_rel; auto using both_main.
          -- intros n Hn. apply HW. cbn. apply mem_r. exact Hn.
          -- intros c' Hc'. apply Ha. now right.
    - destruct (IH Hg2 q (S i) e E Q Hf He) as (K & HK1 & HK2); auto.
      { intros n Hn. apply HW. cbn. apply mem_r. exact Hn. }
      { intros c' Hc'. apply Ha. now right. }
      assert (HC : exists w, meq (eval E (gen false (i :: q) c e)) (ret w) /\ forall u, meq (den c u) (ret w)).
      { destruct c; try discriminate.
        - exists (litv pr l0). split; [|intros u]; apply meq_refl.
        - exists (globv pr g). split; [|intros u]; apply meq_refl. }
      destruct HC as (w & Hw1 & Hw2).
      exists (fun u => bind (K u) (fun vs => ret (w :: vs))). split.
      + eapply meq_trans; [apply bind_meq; [exact Hw1|intros; apply meq_refl]|].
        eapply meq_trans; [apply bind_ret_l|].
        eapply meq_trans; [apply bind_meq; [exact HK1|intros; apply meq_refl]|]. apply bind_assoc.
      + intros A v Hv u. eapply sim_ext; [|reflexivity|].
        * apply (sim_bind0 pr Q E A v false (K u) (mapM (fun c => den c u) l)
                   (fun vs => ret (w :: vs)) (fun vs => ret (w :: vs))); [auto|]. intros vs. apply sim_ret.
        * intros s. unfold bind at 1. rewrite Hw2. reflexivity.
  Qed.

  Lemma frag_op_room o l q Q : room Q (COp o l) q -> forall p j, Q (P (p ++ j :: q)).
  Proof. intros H p j. eapply room_P; eauto. Qed.

  (** boolM with its first operand already evaluated *)
  Definition boolK (E : env) (isor : bool) (r : list px) (v : V) : M V :=
    match r with
    | [] => ret v
    | _ => bind (prim (truth pr v)) (fun b => if Bool.eqb b isor then ret v else boolM pr (eval E) isor r)
    end.

  Theorem both c : BothP c.
  Proof.
    induction c as [|l|g|ax|n|o l IH|a n IHa IHn|i l IH|l IH|nc co t f IHc IHt IHf
                    |a s idx d IHs IHi IHd|k es co IHe IHc|k ls IH|n c ls IHc IHl|a b IHa IHb|o ms IHo IHm]
      using cv_ind'.
    - (* CThis *) split.
      + intros fed x q A E v Q Hf Hx Hne HQ Hv Ha.
        apply (sim_fed CThis fed x); auto; [|apply Hv|cbn; now rewrite orb_true_r].
        cbn [Model_Code.gen strict Spec_Eval.den]. apply sim_inp; auto. apply Hv.
      + intros q e E Q Hl Hf He HQ Ha. exists ret. split; [apply meq_sym, bind_ret_r|].
        intros. apply sim_ret.
    - (* CLit *) split; [|intros q e E Q Hl; discriminate].
      intros fed x q A E v Q Hf Hx Hne HQ Hv Ha. apply (sim_fed (CLit l) fed x); auto; [|apply Hv].
      apply sim_ret.
    - (* CGlob *) split; [|intros q e E Q Hl; discriminate].
      intros fed x q A E v Q Hf Hx Hne HQ Hv Ha. apply (sim_fed (CGlob g) fed x); auto; [|apply Hv].
      apply sim_ret.
    - (* CArg *) split; [|intros q e E Q Hl; discriminate].
      intros fed x q A E v Q Hf Hx Hne HQ Hv Ha. apply (sim_fed (CArg ax) fed x); auto; [|apply Hv].
      cbn [Model_Code.gen Model_Eval.eval Spec_Eval.den strict].
      destruct (Ha ax) as (_ & _ & _ & u & H1 & H2); [now left|]. rewrite H1, H2. apply sim_ret.
    - (* CLabel *) split; [|intros q e E Q Hl; discriminate].
      intros fed x q A E v Q Hf Hx Hne HQ Hv Ha. cbn [frag] in Hf. apply andb_true_iff in Hf.
      apply (sim_fed (CLabel n) fed x); auto; [|apply Hv|apply Hf]. apply sim_get. apply Hf.
    - (* COp *)
      assert (Hch : forall E, agree E (COp o l) -> forall c, In c l -> agree E c).
      { intros E Ha c Hc. eapply agree_sub; [exact Ha|]. intros y Hy. cbn. apply in_flat_map. eauto. }
      split.
      + intros fed x q A E v Q Hf Hx Hne HQ Hv Ha. cbn [frag] in Hf. rewrite !andb_true_iff in Hf.
        destruct Hf as [[Hh Hw] Hf]. apply (sim_fed (COp o l) fed x); auto; [|apply Hv].
        rewrite gen_COp. cbn [fin Model_Eval.eval Spec_Eval.den strict].
        apply sim_bind0; [|intros; apply sim_prim].
        apply sim_mapM. apply (gens_rel l (both_main l IH) x); eauto; [apply HQ|apply (frag_op_room o l q Q HQ)].
      + intros q e E Q Hl Hf He HQ Ha. cbn [frag] in Hf. rewrite !andb_true_iff in Hf.
        destruct Hf as [_ Hf]. change (lin (COp o l)) with (lin_go l) in Hl.
        destruct (lin_list l IH Hl q 0 e E Q Hf He) as (K & HK1 & HK2);
          eauto; [apply HQ|apply (frag_op_room o l q Q HQ)|].
        exists (fun u => bind (K u) (fun vs => prim (op pr o vs))). split.
        * rewrite gen_COp. cbn [fin Model_Eval.eval].
          eapply meq_trans; [apply bind_meq; [exact HK1|intros; apply meq_refl]|]. apply bind_assoc.
        * intros A v Hv u. cbn [Spec_Eval.den]. apply sim_bind0; [auto|]. intros; apply sim_prim.
    - (* CAttr *)
      assert (Hch : forall E, agree E (CAttr a n) -> forall c, In c [a; n] -> agree E c).
      { intros E Ha c Hc. eapply agree_sub; [exact Ha|]. intros y Hy. cbn.
        destruct Hc as [->|[->|[]]]; [now apply mem_l|now apply mem_r]. }
      assert (IH2 : Forall BothP [a; n]) by (constructor; [exact IHa|constructor; [exact IHn|constructor]]).
      assert (HWc : forall Q q, room Q (CAttr a n) q -> forall m, In m (flat_map writes [a; n]) -> Q m).
      { intros Q q HQ m Hm. apply HQ. cbn in *. now rewrite app_nil_r in Hm. }
      split.
      + intros fed x q A E v Q Hf Hx Hne HQ Hv Ha. cbn [frag] in Hf. rewrite !andb_true_iff in Hf.
        destruct Hf as [[Hh Hfa] Hfn]. apply (sim_fed (CAttr a n) fed x); auto; [|apply Hv].
        rewrite gen_CAttr. cbn [fin].
        eapply sim_ext; [|intros t; apply attr_code_eval|intros t; apply den_attr].
        cbn [Model_Eval.eval]. apply sim_bind0; [|intros; apply sim_prim].
        change [gen false (0 :: q) a A; gen false (1 :: q) n A] with (gens q 0 [a; n] A).
        apply (sim_weaken pr Q E A v (existsb strict [a; n])).
        * apply sim_mapM. apply (gens_rel [a; n] (both_main _ IH2) x);
            [|exact Hx|exact Hne|exact (HWc Q q HQ)|intros p j; eapply room_P; eauto|exact Hv|exact (Hch E Ha)].
          cbn. now rewrite Hfa, Hfn.
        * cbn. intros ->. reflexivity.
      + intros q e E Q Hl Hf He HQ Ha. cbn [frag lin] in Hf, Hl. rewrite !andb_true_iff in Hf; rewrite !andb_true_iff in Hl.
        destruct Hf as [[_ Hfa] Hfn], Hl as [Hl1 Hl2].
        destruct (lin_list [a; n] IH2) with (q := q) (i := 0) (e := e) (E := E) (Q := Q) as (K & HK1 & HK2).
        * cbn. now rewrite Hl1, Hl2.
        * cbn. now rewrite Hfa, Hfn.
        * exact He.
        * exact (HWc Q q HQ).
        * intros p j. eapply room_P; eauto.
        * exact (Hch E Ha).
        * exists (fun u => bind (K u) (fun vs => prim (op pr OGetattr vs))). split.
          -- rewrite gen_CAttr. cbn [fin]. eapply meq_trans; [apply attr_code_eval|]. cbn [Model_Eval.eval].
             change [gen false (0 :: q) a e; gen false (1 :: q) n e] with (gens q 0 [a; n] e).
             eapply meq_trans; [apply bind_meq; [exact HK1|intros; apply meq_refl]|]. apply bind_assoc.
          -- intros A v Hv u. eapply sim_ext; [|reflexivity|intros t; apply den_attr].
             apply sim_bind0; [auto|]. intros; apply sim_prim.
    - (* CBool *)
      assert (Hch : forall E, agree E (CBool i l) -> forall c, In c l -> agree E c).
      { intros E Ha c Hc. eapply agree_sub; [exact Ha|]. intros y Hy. cbn. apply in_flat_map. eauto. }
      split.
      + intros fed x q A E v Q Hf Hx Hne HQ Hv Ha. cbn [frag] in Hf. rewrite !andb_true_iff in Hf.
        destruct Hf as [[Hh Hw] Hf]. apply (sim_fed (CBool i l) fed x); auto; [|apply Hv].
        rewrite gen_CBool. cbn [fin Model_Eval.eval Spec_Eval.den strict].
        apply sim_boolM. apply (gens_rel l (both_main l IH) x); eauto; [apply HQ|].
        intros p j. eapply room_P; eauto.
      + intros q e E Q Hl Hf He HQ Ha. cbn [frag lin] in Hf, Hl. rewrite !andb_true_iff in Hf.
        destruct Hf as [_ Hf]. destruct l as [|c l]; [discriminate|]. apply andb_true_iff in Hl.
        destruct Hl as [Hl1 Hl2]. cbn [forallb] in Hf. apply andb_true_iff in Hf. destruct Hf as [Hfc Hf].
        inversion IH as [|? ? Hc IHl]; subst.
        destruct (proj2 Hc (0 :: q) e E Q Hl1 Hfc He) as (Kc & HK1 & HK2).
        { apply (room_sub Q _ q c 0 HQ). intros m Hm. cbn. now apply mem_l. }
        { apply Hch; auto. now left. }
        rewrite gen_CBool. cbn [fin Model_Eval.eval Proofs_Code.gens].
        exists (fun u => bind (Kc u) (boolK E i (gens q 1 l e))). split.
        * cbn [boolM]. unfold boolK. destruct (gens q 1 l e) as [|y ys] eqn:Eg.
          -- eapply meq_trans; [exact HK1|]. apply bind_meq; [apply meq_refl|]. intros u.
             apply meq_sym, bind_ret_r.
          -- eapply meq_trans; [apply bind_meq; [exact HK1|intros; apply meq_refl]|]. apply bind_assoc.
        * intros A v Hv u. cbn [Spec_Eval.den boolM].
          assert (HR : Forall2 (rel pr (eval E) (fun c => den c u) (fun _ => false) Q E A v) (gens q 1 l e) l).
          { apply gens_free_rel; auto using both_main.
            - intros m Hm. apply HQ. cbn. now apply mem_r.
            - intros p j. eapply room_P; eauto.
            - intros c' Hc'. apply Hch; auto. now right. }
          unfold boolK. destruct HR as [|y c2 ys cs Hy HR].
          -- eapply sim_ext; [apply HK2; exact Hv|intros t; apply bind_ret_r|reflexivity].
          -- apply sim_bind0; [auto|]. intros w. apply sim_bind0; [apply sim_prim|]. intros t.
             destruct (Bool.eqb t i); [apply sim_ret|].
             eapply sim_false. eapply sim_boolM. constructor; eauto.
    - (* CEqs *)
      assert (Hch : forall E, agree E (CEqs l) -> forall c, In c l -> agree E c).
      { intros E Ha c Hc. eapply agree_sub; [exact Ha|]. intros y Hy. cbn. apply in_flat_map. eauto. }
      split.
      + intros fed x q A E v Q Hf Hx Hne HQ Hv Ha. cbn [frag] in Hf. rewrite !andb_true_iff in Hf.
        destruct Hf as [[Hh Hw] Hf]. apply (sim_fed (CEqs l) fed x); auto; [|apply Hv].
        rewrite gen_CEqs. cbn [fin Model_Eval.eval Spec_Eval.den strict].
        apply sim_eqsM. apply (gens_rel l (both_main l IH) x); eauto; [apply HQ|].
        intros p j. eapply room_P; eauto.
      + intros q e E Q Hl Hf He HQ Ha. cbn [frag lin] in Hf, Hl. rewrite !andb_true_iff in Hf.
        destruct Hf as [_ Hf]. destruct l as [|c l]; [discriminate|]. apply andb_true_iff in Hl.
        destruct Hl as [Hl1 Hl2]. cbn [forallb] in Hf. apply andb_true_iff in Hf. destruct Hf as [Hfc Hf].
        inversion IH as [|? ? Hc IHl]; subst.
        destruct (proj2 Hc (0 :: q) e E Q Hl1 Hfc He) as (Kc & HK1 & HK2).
        { apply (room_sub Q _ q c 0 HQ). intros m Hm. cbn. now apply mem_l. }
        { apply Hch; auto. now left. }
        rewrite gen_CEqs. cbn [fin Model_Eval.eval Proofs_Code.gens].
        exists (fun u => bind (Kc u) (fun w => chainM pr (eval E) w (gens q 1 l e))). split.
        * cbn [eqsM]. eapply meq_trans; [apply bind_meq; [exact HK1|intros; apply meq_refl]|]. apply bind_assoc.
        * intros A v Hv u. cbn [Spec_Eval.den eqsM].
          apply sim_bind0; [auto|]. intros w. eapply sim_false. eapply sim_chainM.
          apply gens_free_rel; auto using both_main.
          -- intros m Hm. apply HQ. cbn. now apply mem_r.
          -- intros p j. eapply room_P; eauto.
          -- intros c' Hc'. apply Hch; auto. now right.
    - (* CIf *)
      assert (HD : forall u, den (CIf nc co t f) u =
        bind (optd co u) (fun vc => bind (prim (truth pr vc)) (fun b => if b then optd t u else optd f u)))
        by reflexivity.
      split.
      + intros fed x q A E v Q Hf Hx Hne HQ Hv Ha. cbn [frag] in Hf. rewrite !andb_true_iff in Hf.
        destruct Hf as [[[[Hh Hfc] Hft] Hff] Hst]. apply (sim_fed (CIf nc co t f) fed x); auto; [|apply Hv].
        rewrite gen_CIf, HD. cbn [fin Model_Eval.eval]. unfold if_cond_input, if_branch_input.
        assert (Hag : forall o, (o = co \/ o = t \/ o = f) -> forall c, o = Some c -> agree E c).
        { intros o Ho c ->. eapply agree_sub; [exact Ha|]. intros y Hy. cbn.
          destruct Ho as [Ho|[Ho|Ho]]; rewrite <- Ho; [apply mem_l|apply mem_r, mem_l|apply mem_r, mem_r]; exact Hy. }
        destruct (simple (print A) || nc) eqn:Ep.
        * apply sim_bind0.
          -- apply (opt_sim co x); auto using both_opt.
             ++ intros m Hm. apply HQ. cbn. now apply mem_l.
             ++ intros p. eapply room_P; eauto.
             ++ apply (Hag co). auto.
          -- intros vc. apply sim_bind0; [apply sim_prim|]. intros b. destruct b.
             ++ apply (opt_sim t x); auto using both_opt; try discriminate.
                ** intros m Hm. apply HQ. cbn. now apply mem_r, mem_l.
                ** intros p. eapply room_P; eauto.
                ** apply (Hag t). auto.
             ++ apply (opt_sim f x); auto using both_opt; try discriminate.
                ** intros m Hm. apply HQ. cbn. now apply mem_r, mem_r.
                ** intros p. eapply room_P; eauto.
                ** apply (Hag f). auto.
        * apply orb_false_iff in Ep. destruct Ep as [Es ->].
          destruct x; [|specialize (Hx eq_refl); congruence]. cbn [negb orb] in Hst.
          apply (sim_weaken pr Q E A v true); [|auto].
          apply if_cached; auto using both_opt.
      + intros q e E Q Hl Hf He HQ Ha. cbn [frag lin] in Hf, Hl. rewrite !andb_true_iff in Hf; rewrite !andb_true_iff in Hl.
        destruct Hf as [[[[Hh Hfc] Hft] Hff] Hst], Hl as [Hnc Hl]. apply negb_true_iff in Hnc. subst nc.
        rewrite gen_CIf. cbn [fin Model_Eval.eval]. unfold if_cond_input, if_branch_input.
        unfold Proofs_Code.complex in He. rewrite He. cbn [orb].
        destruct (if_lin co t f q e E Q) as (K & HK1 & HK2); auto using both_opt.
        exists K. split; [exact HK1|]. intros A v Hv u. rewrite HD. auto.
    - (* CDefault *)
      assert (HW : forall Q q, room Q (CDefault a s idx d) q -> forall n, In n (flat_map writes idx) -> Q n).
      { intros Q q HQ n Hn. apply HQ. cbn. now apply mem_r, mem_l. }
      assert (HD : forall v, den (CDefault a s idx d) v =
        bind (optd s v) (fun vs => bind (den d v) (fun vd =>
          or_default pr (lookupsM pr (fun c => den c v) (if a then OGetattr else OItem) idx vs) vd)))
        by reflexivity.
      split.
      + intros fed x q A E v Q Hf Hx Hne HQ Hv Ha. cbn [frag] in Hf. rewrite !andb_true_iff in Hf.
        destruct Hf as [[[Hfs Hfd] Hfi] Hna]. apply (sim_fed (CDefault a s idx d) fed x); auto;
          [|apply Hv|cbn; now rewrite orb_true_r].
        rewrite gen_CDefault, HD. cbn [fin Model_Eval.eval].
        assert (Hd : sim Q E A v false (eval E (gen false (1 :: q) d A)) (den d v)).
        { eapply sim_false. apply (proj1 IHd false x); auto.
          - apply (room_sub Q _ q d 1 HQ). intros m Hm. cbn. now apply mem_r, mem_r.
          - eapply agree_sub; [exact Ha|]. intros y Hy. cbn. now apply mem_r, mem_r. }
        assert (Hbody : forall E2 x0 cur, lookup E2 (T "obj_") = Some v -> lookup E2 x0 = Some cur ->
          sim Q E A v false
            (eval E2 (path_code a (gens q 2 idx (PName (T "obj_"))) (PName x0)))
            (lookupsM pr (fun c => den c v) (if a then OGetattr else OItem) idx cur)).
        { intros E2 x0 cur H1 H2. apply default_body; auto using both_main.
          - eapply HW; eauto.
          - intros p j. eapply room_P; eauto. }
        destruct (over_self s) eqn:Eo.
        * destruct s as [sc|]; [|discriminate]. cbn [self_code app mapM optd] in *.
          eapply (sim_ext pr Q E A v true
            (bind (eval E (gen false (0 :: q) sc A)) (fun vs => bind (eval E A) (fun vo =>
               bind (eval E (gen false (1 :: q) d A)) (fun vd =>
                 or_default pr (eval (default_env [vs; vo; vd])
                   (path_code a (gens q 2 idx (PName (T "obj_"))) (PName (T "self_")))) vd))))
            _
            (bind (den sc v) (fun vs => bind (ret v) (fun _ => bind (den d v) (fun vd =>
               or_default pr (lookupsM pr (fun c => den c v) (if a then OGetattr else OItem) idx vs) vd))))).
          -- assert (Hsc : sim Q E A v false (eval E (gen false (0 :: q) sc A)) (den sc v)).
             { eapply sim_false. apply (proj1 IHs false x); auto.
               - apply (room_sub Q _ q sc 0 HQ). intros m Hm. cbn. now apply mem_l.
               - eapply agree_sub; [exact Ha|]. intros y Hy. cbn. now apply mem_l. }
             intros t t0. apply (simp_bind pr Q E A v false true); [apply Hsc|].
             intros vs t1 t2 _ _. apply (simp_bind pr Q E A v true false); [apply sim_inp; auto; apply Hv|].
             intros vo t3 t4 _ Ho. injection Ho as _ <-.
             apply (simp_bind pr Q E A v false false); [apply Hd|]. intros vd t5 t6 _ _.
             apply sim_or_default. apply Hbody; reflexivity.
          -- intros t. unfold bind, ret.
             destruct (eval E (gen false (0 :: q) sc A) t) as [t1 [vs|]]; [|reflexivity].
             destruct (eval E A t1) as [t2 [vo|]]; [|reflexivity].
             destruct (eval E (gen false (1 :: q) d A) t2) as [t3 [vd|]]; reflexivity.
          -- reflexivity.
        * cbn [app mapM].
          eapply (sim_ext pr Q E A v true
            (bind (eval E A) (fun vo =>
               bind (eval E (gen false (1 :: q) d A)) (fun vd =>
                 or_default pr (eval (default_env [vo; vd])
                   (path_code a (gens q 2 idx (PName (T "obj_"))) (PName (T "obj_")))) vd)))
            _
            (bind (ret v) (fun vs => bind (den d v) (fun vd =>
               or_default pr (lookupsM pr (fun c => den c v) (if a then OGetattr else OItem) idx vs) vd)))).
          -- intros t t0. apply (simp_bind pr Q E A v true false); [apply sim_inp; auto; apply Hv|].
             intros vo t3 t4 _ Ho. injection Ho as _ <-.
             apply (simp_bind pr Q E A v false false); [apply Hd|]. intros vd t5 t6 _ _.
             apply sim_or_default. apply Hbody; reflexivity.
          -- intros t. unfold bind, ret.
             destruct (eval E A t) as [t2 [vo|]]; [|reflexivity].
             destruct (eval E (gen false (1 :: q) d A) t2) as [t3 [vd|]]; reflexivity.
          -- destruct s as [[]|]; try discriminate; reflexivity.
      + intros q e E Q Hl Hf He HQ Ha. cbn [frag lin] in Hf, Hl. rewrite !andb_true_iff in Hf.
        destruct Hf as [[[Hfs Hfd] Hfi] Hna].
        assert (Hl' : over_self s = false /\ free d = true) by (destruct s as [[]|]; try discriminate; auto).
        destruct Hl' as [Eo Hfr]. rewrite gen_CDefault, Eo. cbn [fin Model_Eval.eval app mapM].
        exists (fun vo => bind (eval E (gen false (1 :: q) d e)) (fun vd =>
                 or_default pr (eval (default_env [vo; vd])
                   (path_code a (gens q 2 idx (PName (T "obj_"))) (PName (T "obj_")))) vd)).
        split.
        * intros t. unfold bind, ret.
          destruct (eval E e t) as [t2 [vo|]]; [|reflexivity].
          destruct (eval E (gen false (1 :: q) d e) t2) as [t3 [vd|]]; reflexivity.
        * intros A v Hv u. rewrite HD.
          assert (HS : sim Q E A v false
            (bind (eval E (gen false (1 :: q) d e)) (fun vd =>
                 or_default pr (eval (default_env [u; vd])
                   (path_code a (gens q 2 idx (PName (T "obj_"))) (PName (T "obj_")))) vd))
            (bind (den d u) (fun vd =>
               or_default pr (lookupsM pr (fun c => den c u) (if a then OGetattr else OItem) idx u) vd))).
          { apply sim_bind0.
            - apply (free_sim d (1 :: q) e E A v Q true (proj1 IHd) Hfr Hfd); auto.
              + apply (room_sub Q _ q d 1 HQ). intros m Hm. cbn. now apply mem_r, mem_r.
              + eapply agree_sub; [exact Ha|]. intros y Hy. cbn. now apply mem_r, mem_r.
            - intros vd. apply sim_or_default.
              apply (default_body a idx q (default_env [u; vd])); auto using both_main.
              + eapply HW; eauto.
              + intros p j. eapply room_P; eauto. }
          eapply sim_ext; [exact HS|reflexivity|].
          destruct s as [[]|]; try discriminate; reflexivity.
    - (* CComp *) split.
      + intros fed x q A E v Q Hf Hx Hne HQ Hv Ha.
        apply (sim_fed (CComp k es co) fed x); auto; [|apply Hv|cbn; now rewrite orb_true_r].
        rewrite gen_CComp. cbn [fin Model_Eval.eval strict].
        eapply (sim_ext pr Q E A v true _ _ (bind (ret v) (den (CComp k es co)))); [|reflexivity|reflexivity].
        apply sim_bind0; [apply sim_inp; auto; apply Hv|]. intros u.
        eapply comp_tail; eauto using both_main, both_opt.
      + intros q e E Q Hl Hf He HQ Ha. rewrite gen_CComp. cbn [fin Model_Eval.eval].
        eexists. split; [apply meq_refl|]. intros A v Hv u. cbv beta.
        eapply comp_tail; eauto using both_main, both_opt.
    - (* CItems *)
      assert (IH' : Forall (fun l => optP MainP (fst l) /\ MainP (snd l)) ls).
      { eapply Forall_impl; [|exact IH]. intros l [H1 H2]. split; [now apply both_opt|apply H2]. }
      assert (HE : forall E q e, meq (eval E (gen false q (CItems k ls) e))
        (bind (eval E e) (fun u => bind (mapM (eval E) (map PName (params_of (CItems k ls)))) (fun vals =>
           bind (prim1 (start pr k)) (fun acc =>
           bind (linesM pr (eval (helper_env (params_of (CItems k ls)) (u :: vals))) k (gen_lines q 0 ls) acc)
             (fun acc => prim1 (finish pr k acc))))))).
      { intros E q e t. rewrite gen_CItems. cbn [fin Model_Eval.eval mapM]. unfold bind, ret.
        destruct (eval E e t) as [t1 [u|]]; [|reflexivity].
        destruct (mapM (eval E) (map PName (params_of (CItems k ls))) t1) as [t2 [vals|]]; reflexivity. }
      split.
      + intros fed x q A E v Q Hf Hx Hne HQ Hv Ha.
        apply (sim_fed (CItems k ls) fed x); auto; [|apply Hv|cbn; now rewrite orb_true_r].
        eapply (sim_ext pr Q E A v true _ _ (bind (ret v) (den (CItems k ls)))); [|apply HE|reflexivity].
        apply sim_bind0; [apply sim_inp; auto; apply Hv|]. intros u.
        eapply items_tail; eauto.
      + intros q e E Q Hl Hf He HQ Ha. eexists. split; [apply HE|]. intros A v Hv u. cbv beta.
        eapply items_tail; eauto.
    - (* CCache *)
      assert (IH' : Forall (fun l => MainP (snd l)) ls).
      { eapply Forall_impl; [|exact IHl]. intros l H. apply H. }
      assert (HE : forall E q e, meq (eval E (gen false q (CCache n c ls) e))
        (bind (eval E (gen false (0 :: q) c e)) (fun u => bind (set_label n u) (fun _ =>
           addsM E (label_codes q n 1 ls) (eval E (PGet n)))))).
      { intros E q e t. rewrite gen_CCache. cbn [fin]. rewrite gen_labels_eq.
        assert (H := eval_adds E ((n, gen false (0 :: q) c e) :: label_codes q n 1 ls) (PGet n) t).
        cbn [map fst snd addsM app] in H. exact H. }
      assert (HD : forall v, den (CCache n c ls) v = bind (den c v) (fun u => bind (set_label n u) (fun _ =>
        bind (labelsM (fun c => den c u) ls) (fun _ => ret u)))) by reflexivity.
      split.
      + intros fed x q A E v Q Hf Hx Hne HQ Hv Ha. assert (Hf0 := Hf).
        cbn [frag] in Hf. rewrite !andb_true_iff in Hf. destruct Hf as [[[[[Hh Hfc] _] _] _] _].
        apply (sim_fed (CCache n c ls) fed x); auto; [|apply Hv].
        eapply sim_ext; [|apply HE|intros t; now rewrite HD]. cbn [strict].
        apply sim_bind0.
        * apply (proj1 IHc false x); auto.
          -- apply (room_sub Q _ q c 0 HQ). intros m Hm. cbn. right. now apply mem_l.
          -- eapply agree_sub; [exact Ha|]. intros y Hy. cbn. now apply mem_l.
        * intros u. eapply cache_tail; eauto.
      + intros q e E Q Hl Hf He HQ Ha. assert (Hf0 := Hf). cbn [lin] in Hl.
        cbn [frag] in Hf. rewrite !andb_true_iff in Hf. destruct Hf as [[[[[Hh Hfc] _] _] _] _].
        destruct (proj2 IHc (0 :: q) e E Q Hl Hfc He) as (Kc & HK1 & HK2).
        { apply (room_sub Q _ q c 0 HQ). intros m Hm. cbn. right. now apply mem_l. }
        { eapply agree_sub; [exact Ha|]. intros y Hy. cbn. now apply mem_l. }
        eexists. split.
        * eapply meq_trans; [apply HE|]. eapply meq_trans; [apply bind_meq; [exact HK1|intros; apply meq_refl]|].
          apply bind_assoc.
        * intros A v Hv u. rewrite HD. cbv beta. apply sim_bind0; [auto|]. intros w.
          eapply cache_tail; eauto.
    - (* CPipe *)
      assert (Haa : forall E, agree E (CPipe a b) -> agree E a).
      { intros E Ha. eapply agree_sub; [exact Ha|]. intros y Hy. cbn. now apply mem_l. }
      assert (Hab : forall E, agree E (CPipe a b) -> agree E b).
      { intros E Ha. eapply agree_sub; [exact Ha|]. intros y Hy. cbn. now apply mem_r. }
      assert (HQa : forall Q q, room Q (CPipe a b) q -> room Q a (0 :: q)).
      { intros Q q HQ. apply (room_sub Q _ q a 0 HQ). intros m Hm. cbn. now apply mem_l. }
      assert (HQb : forall Q q, room Q (CPipe a b) q -> room Q b (1 :: q)).
      { intros Q q HQ. apply (room_sub Q _ q b 1 HQ). intros m Hm. cbn. now apply mem_r. }
      assert (HG : atom a = false -> forall fed x,
        frag pt fed x (CPipe a b) = frag pt fed x a && lin b && frag pt false true b && compound a).
      { intros Hat fed x. destruct a; try discriminate; reflexivity. }
      assert (Hatom : forall q A E v Q B w, avoid Q A -> avoid Q B -> cw B = [] -> print B <> [] ->
        (forall L, inp E L B w) -> room Q b (1 :: q) -> agree E b ->
        frag pt false true b = true -> uses b || pt = true ->
        sim Q E A v false (eval E (attach B (gen false (1 :: q) b B))) (den b w)).
      { intros q A E v Q B w Hv HvB Hc Hne HI HQ Ha Hf Hu.
        assert (HS : sim Q E B w (strict b) (eval E (attach B (gen false (1 :: q) b B))) (den b w)).
        { apply sim_attach; [|apply HvB|].
          - apply (proj1 IHb false true); auto. discriminate.
          - destruct (simple (print B)) eqn:Es; [now left|right].
            apply orb_true_iff in Hu. destruct Hu as [Hu|Hu]; [left|right; exact Hu].
            eapply uses_code; eauto. }
        intros s t. eapply (simp_switch pr Q Q E A v E B w (strict b)); auto. }
      assert (Hgen : forall fed x q A E v Q,
        frag pt fed x a = true -> lin b = true -> frag pt false true b = true ->
        complex (gen fed (0 :: q) a A) ->
        (x = false -> simple (print A) = true) -> print A <> [] ->
        room Q (CPipe a b) q -> avoid Q A -> agree E (CPipe a b) ->
        sim Q E A v (strict a) (eval E (gen fed q (CPipe a b) A)) (den (CPipe a b) v)).
      { intros fed x q A E v Q Hfa Hlb Hfb Hcx Hx Hne HQ Hv Ha.
        rewrite gen_CPipe. set (code := gen fed (0 :: q) a A) in *.
        rewrite attach_id by (eapply uses_code; eauto; eapply lin_uses; eauto).
        destruct (proj2 IHb (1 :: q) code E Q Hlb Hfb Hcx) as (Kb & HK1 & HK2); auto.
        eapply sim_ext; [|exact HK1|reflexivity]. cbn [Spec_Eval.den].
        apply sim_bind0; [apply (proj1 IHa fed x); auto|]. intros u. apply HK2. exact Hv. }
      split.
      + intros fed x q A E v Q Hf Hx Hne HQ Hv Ha.
        assert (Hatt : forall r, negb (fed && x) = true -> fin wordch srepr gname pnum fed A r = r).
        { intros r Hn. destruct fed; [|reflexivity]. destruct x; [discriminate|].
          apply attach_simple. auto. }
        destruct (atom a) eqn:Hat.
        * destruct a; try discriminate; cbn [frag] in Hf; rewrite ?andb_true_iff in Hf.
          -- destruct Hf as [Hfb Hu]. rewrite gen_CPipe.
             assert (HA : gen fed (0 :: q) CThis A = A).
             { cbn [Model_Code.gen]. destruct fed; [|reflexivity]. apply attach_id, Sub_refl. }
             rewrite HA. cbn [strict]. eapply (sim_ext pr Q E A v _ _ _ (den b v)); [|reflexivity|reflexivity].
             apply sim_attach; [|apply Hv|].
             ++ apply (proj1 IHb false x); auto.
             ++ destruct (simple (print A)) eqn:Es; [now left|right].
                rewrite !orb_true_iff in Hu. destruct Hu as [[Hu|Hu]|Hu]; auto.
                ** destruct x; [discriminate|]. specialize (Hx eq_refl). congruence.
                ** left. eapply uses_code; eauto.
          -- destruct Hf as [[Hn Hfb] Hu]. rewrite gen_CPipe.
             change (gen fed (0 :: q) (CLit l) A) with (fin wordch srepr gname pnum fed A (PLit l)).
             rewrite Hatt by auto. cbn [strict].
             apply (Hatom q A E v Q (PLit l) (litv pr l)); auto using avoid_lit.
             ++ cbn [Model_Code.print]. now apply lit_ne.
             ++ intros L. constructor.
          -- destruct Hf as [[Hn Hfb] Hu]. rewrite gen_CPipe.
             change (gen fed (0 :: q) (CGlob g) A) with (fin wordch srepr gname pnum fed A (PGlob g)).
             rewrite Hatt by auto. cbn [strict].
             apply (Hatom q A E v Q (PGlob g) (globv pr g)); auto using avoid_glob.
             ++ cbn [Model_Code.print]. auto.
             ++ intros L. constructor.
          -- destruct Hf as [[Hn Hfb] Hu]. rewrite gen_CPipe.
             change (gen fed (0 :: q) (CArg x0) A) with (fin wordch srepr gname pnum fed A (PName x0)).
             rewrite Hatt by auto. cbn [strict].
             destruct (Haa E Ha x0) as (Hx0 & _ & _ & u & Hu1 & Hu2); [now left|].
             eapply sim_ext; [apply (Hatom q A E v Q (PName x0) u); auto using avoid_name|reflexivity|].
             ++ intros L. now constructor.
             ++ intros t. cbn [Spec_Eval.den]. rewrite Hu2. reflexivity.
          -- destruct Hf as [[[Hn Hun] Hfb] Hl]. cbn [strict].
             assert (Hfa : frag pt fed x (CLabel n) = true).
             { cbn [frag]. rewrite Hn, Hun. reflexivity. }
             apply (Hgen fed x); auto.
             change (gen fed (0 :: q) (CLabel n) A) with (fin wordch srepr gname pnum fed A (PGet n)).
             rewrite Hatt by auto. unfold Proofs_Code.complex. cbn [Model_Code.print].
             change (T "get_by_label_('") with (T "get_by_label_" ++ T "(" ++ T "'").
             change (T "')") with (T "'" ++ T ")"). rewrite <- !app_assoc.
             rewrite (app_assoc (T "'")), (app_assoc _ (T "'") (T ")")).
             apply simple_call; auto. left. discriminate.
        * rewrite HG in Hf by auto. rewrite !andb_true_iff in Hf. destruct Hf as [[[Hfa Hlb] Hfb] Hcp].
          apply (sim_weaken pr Q E A v (strict a)).
          -- apply (Hgen fed x); auto. apply (compound_code wordch srepr gname pnum pname hname wordch_ascii gname_ne hname_ne srepr_ne pt a) with (x := x); auto.
             intros y Hy. apply (Haa E Ha y Hy).
          -- destruct a; try discriminate; auto.
      + intros q e E Q Hl Hf He HQ Ha. cbn [lin] in Hl. apply andb_true_iff in Hl. destruct Hl as [Hla Hlb].
        assert (Hff : frag pt false true a = true /\ frag pt false true b = true).
        { destruct (atom a) eqn:Hat.
          - destruct a; try discriminate. cbn [frag] in Hf. apply andb_true_iff in Hf. split; [reflexivity|apply Hf].
          - rewrite HG in Hf by auto. rewrite !andb_true_iff in Hf. tauto. }
        destruct Hff as [Hfa Hfb]. rewrite gen_CPipe.
        assert (Hua := lin_uses pt a Hla _ _ Hfa). assert (Hub := lin_uses pt b Hlb _ _ Hfb).
        assert (Hcx : complex (gen false (0 :: q) a e)) by (eapply uses_code; eauto).
        rewrite attach_id by (eapply uses_code; eauto).
        destruct (proj2 IHa (0 :: q) e E Q Hla Hfa He) as (Ka & HA1 & HA2); auto.
        destruct (proj2 IHb (1 :: q) (gen false (0 :: q) a e) E Q Hlb Hfb Hcx) as (Kb & HB1 & HB2); auto.
        exists (fun u => bind (Ka u) Kb). split.
        * eapply meq_trans; [exact HB1|]. eapply meq_trans; [apply bind_meq; [exact HA1|intros; apply meq_refl]|].
          apply bind_assoc.
        * intros A v Hv u. cbn [Spec_Eval.den]. apply sim_bind0; auto.
    - (* CTap *)
      assert (IH' : Forall (fun m => Forall MainP (snd m)) ms).
      { eapply Forall_impl; [|exact IHm]. intros l H. now apply both_main. }
      assert (HE : forall E q e, meq (eval E (gen false q (CTap o ms) e))
        (bind (eval E (gen false (0 :: q) o e)) (fun u =>
           bind (mapM (eval E) (map PName (params_of (CTap o ms)))) (fun vals =>
           bind (stmtsM pr (eval (helper_env (params_of (CTap o ms)) (u :: vals))) u (gen_stmts q 1 ms))
             (fun _ => ret u))))).
      { intros E q e t. rewrite gen_CTap. cbn [fin Model_Eval.eval mapM]. unfold bind, ret.
        destruct (eval E (gen false (0 :: q) o e) t) as [t1 [u|]]; [|reflexivity].
        destruct (mapM (eval E) (map PName (params_of (CTap o ms))) t1) as [t2 [vals|]]; reflexivity. }
      split.
      + intros fed x q A E v Q Hf Hx Hne HQ Hv Ha. assert (Hf0 := Hf).
        cbn [frag] in Hf. rewrite !andb_true_iff in Hf. destruct Hf as [[Hh Hfo] _].
        apply (sim_fed (CTap o ms) fed x); auto; [|apply Hv].
        eapply sim_ext; [|apply HE|reflexivity]. cbn [strict]. apply sim_bind0.
        * apply (proj1 IHo false x); auto.
          -- apply (room_sub Q _ q o 0 HQ). intros m Hm. cbn. now apply mem_l.
          -- eapply agree_sub; [exact Ha|]. intros y Hy. cbn. now apply mem_l.
        * intros u. eapply tap_tail; eauto.
      + intros q e E Q Hl Hf He HQ Ha. assert (Hf0 := Hf). cbn [lin] in Hl.
        cbn [frag] in Hf. rewrite !andb_true_iff in Hf. destruct Hf as [[Hh Hfo] _].
        destruct (proj2 IHo (0 :: q) e E Q Hl Hfo He) as (Kc & HK1 & HK2).
        { apply (room_sub Q _ q o 0 HQ). intros m Hm. cbn. now apply mem_l. }
        { eapply agree_sub; [exact Ha|]. intros y Hy. cbn. now apply mem_l. }
        eexists. split.
        * eapply meq_trans; [apply HE|]. eapply meq_trans; [apply bind_meq; [exact HK1|intros; apply meq_refl]|].
          apply bind_assoc.
        * intros A v Hv u. cbv beta. cbn [Spec_Eval.den]. apply sim_bind0; [auto|]. intros w.
          eapply tap_tail; eauto.
  Qed.
End Main.
