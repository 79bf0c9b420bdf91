From Coq Require Import String List ZArith NArith Bool Arith Lia.
From Verif Require Import Model_Code Model_Eval Spec_Frag Spec_Eval Spec_Pure
  Proofs_Code Proofs_Eval Proofs_Den.
Import ListNotations.

Section P.
  Context {V W X : Type}.
  Variable pr : prims V W X.
  Hypothesis HP : pure pr.
  Hypothesis truth_none : forall w, truth pr (litv pr LNone) w = (w, Val false).
  Hypothesis attr_ok : forall s v w,
    op pr (OAttr s) [v] w = op pr OGetattr [v; litv pr (LStr s)] w.
  Notation M := (@M V W X).
  Notation env := (@env V).

  Definition facts := list (lname * V).
  Definition off (K : facts) (D : lname -> Prop) : Prop := forall k u, In (k, u) K -> ~ D k.

  (** [m] returns [b] without touching the world, given the labels [K]; labels
      outside [D] stay, labels of [O] stay or get their value, those of [T] get it *)
  Definition G (K : facts) (D : lname -> Prop) (O T : facts) {B} (m : M B) (b : B) : Prop :=
    forall w L, (forall k u, In (k, u) K -> L k = Some u) ->
    exists L', m (w, L) = ((w, L'), Val b) /\ (forall k, ~ D k -> L' k = L k) /\
      (forall k u, In (k, u) O -> L' k = L k \/ L' k = Some u) /\
      (forall k u, In (k, u) T -> L' k = Some u).

  Lemma G_ret K D O {B} (b : B) : G K D O [] (ret b) b.
  Proof. intros w L HK. exists L. repeat split; auto. intros k u []. Qed.
  Lemma G_weak K D O T (D' : lname -> Prop) O' T' {B} (m : M B) b : G K D O T m b ->
    (forall k, D k -> D' k) -> incl O' O -> incl T' T -> G K D' O' T' m b.
  Proof.
    intros H HD HO HT w L HK. destruct (H w L HK) as (L' & H1 & H2 & H3 & H4).
    exists L'. repeat split; auto.
  Qed.
  Lemma G_bind' Kx K D O T T1 T2 {B C} (m : M B) (f : B -> M C) b c : off K D ->
    G K D O T1 m b -> G (Kx ++ K) D O T2 (f b) c -> incl Kx T1 -> incl T T1 -> incl T O ->
    G K D O (T ++ T2) (bind m f) c.
  Proof.
    intros Hoff H1 H2 HX HT HO w L HK. destruct (H1 w L HK) as (L1 & E1 & F1 & O1 & S1).
    destruct (H2 w L1) as (L2 & E2 & F2 & O2 & S2).
    { intros k u Hi. apply in_app_or in Hi. destruct Hi as [Hi|Hi]; [auto|].
      rewrite F1; [auto|]. eapply Hoff; eauto. }
    exists L2. repeat split.
    - unfold bind. now rewrite E1.
    - intros k Hk. rewrite F2, F1; auto.
    - intros k u Hi. destruct (O2 k u Hi) as [->| ->]; auto.
    - intros k u Hi. apply in_app_or in Hi. destruct Hi as [Hi|Hi]; [|auto].
      destruct (O2 k u (HO _ Hi)) as [->| ->]; auto.
  Qed.
  Lemma G_more K K' D O T {B} (m : M B) b : incl K K' -> G K D O T m b -> G K' D O T m b.
  Proof. intros Hi H w L HK. apply H. auto. Qed.
  Lemma G_bind K D O T1 T2 {B C} (m : M B) (f : B -> M C) b c : off K D -> incl T1 O ->
    G K D O T1 m b -> G K D O T2 (f b) c -> G K D O (T1 ++ T2) (bind m f) c.
  Proof.
    intros Hoff Hi H1 H2. eapply (G_bind' [] K D O T1 T1); eauto using incl_refl. intros z [].
  Qed.
  Lemma G_bind0 K D O T2 {B C} (m : M B) (f : B -> M C) b c : off K D ->
    G K D O [] m b -> G K D O T2 (f b) c -> G K D O T2 (bind m f) c.
  Proof. intros Hoff H1 H2. apply (G_bind K D O [] T2 m f b c); auto. intros z []. Qed.
  Lemma G_bind1 K D O T1 {B C} (m : M B) (f : B -> M C) b c : off K D -> incl T1 O ->
    G K D O T1 m b -> G K D O [] (f b) c -> G K D O T1 (bind m f) c.
  Proof. intros Hoff Hi H1 H2. rewrite <- (app_nil_r T1). eapply G_bind; eauto. Qed.
  Lemma G_ext K D O T {B} (m m' : M B) b : (forall s, m s = m' s) -> G K D O T m' b -> G K D O T m b.
  Proof. intros E H w L HK. rewrite E. auto. Qed.

  Lemma bind_val {B C} (m : M B) (f : B -> M C) s s' r : bind m f s = (s', Val r) ->
    exists b s1, m s = (s1, Val b) /\ f b s1 = (s', Val r).
  Proof. unfold bind. destruct (m s) as [s1 [b|x]]; [eauto|discriminate]. Qed.
  Lemma G_prim K D O {B} (f : W -> W * out X B) r0 (s s' : @st V W) r : (forall w, f w = (w, r0)) ->
    prim f s = (s', Val r) -> G K D O [] (prim f) r.
  Proof.
    intros Hf H. unfold prim in H. rewrite Hf in H. injection H as _ ->.
    intros w L HK. exists L. unfold prim. cbn [fst snd]. rewrite Hf. repeat split; auto. intros k u [].
  Qed.
  Lemma G_prim1 K D O {B} (f : W -> W * B) r0 (s s' : @st V W) r : (forall w, f w = (w, r0)) ->
    (prim1 f : M B) s = (s', Val r) -> G K D O [] (prim1 f) r.
  Proof.
    intros Hf H. unfold prim1 in H. rewrite Hf in H. injection H as _ ->.
    intros w L HK. exists L. unfold prim1. cbn [fst snd]. rewrite Hf. repeat split; auto. intros k u [].
  Qed.
  Lemma G_op K D O o vs (s s' : @st V W) r : prim (op pr o vs) s = (s', Val r) -> G K D O [] (prim (op pr o vs)) r.
  Proof. destruct (pure_op pr HP o vs) as [r0 H]. now apply G_prim with (r0 := r0). Qed.
  Lemma G_truth K D O v (s s' : @st V W) r : prim (truth pr v) s = (s', Val r) -> G K D O [] (prim (truth pr v)) r.
  Proof. destruct (pure_truth pr HP v) as [r0 H]. now apply G_prim with (r0 := Val r0). Qed.
  Lemma G_push K D O k acc vs (s s' : @st V W) r : prim (push pr k acc vs) s = (s', Val r) ->
    G K D O [] (prim (push pr k acc vs)) r.
  Proof. destruct (pure_push pr HP k acc vs) as [r0 H]. now apply G_prim with (r0 := r0). Qed.
  Lemma G_start K D O k (s s' : @st V W) r : (prim1 (start pr k) : M V) s = (s', Val r) -> G K D O [] (prim1 (start pr k)) r.
  Proof. destruct (pure_start pr HP k) as [r0 H]. now apply G_prim1 with (r0 := r0). Qed.
  Lemma G_finish K D O k acc (s s' : @st V W) r : (prim1 (finish pr k acc) : M V) s = (s', Val r) ->
    G K D O [] (prim1 (finish pr k acc)) r.
  Proof. destruct (pure_finish pr HP k acc) as [r0 H]. now apply G_prim1 with (r0 := r0). Qed.

  (** whenever the reading [d] returns, so does the code [m] *)
  Definition ref K D O T {B} (m d : M B) : Prop :=
    forall s s' r, d s = (s', Val r) -> G K D O T m r.
  Lemma ref_ret K D O {B} (b : B) : ref K D O [] (ret b) (ret b).
  Proof. intros s s' r H. injection H as _ ->. apply G_ret. Qed.
  Lemma ref_bind K D O T1 T2 {B C} (m d : M B) (f g : B -> M C) : off K D -> incl T1 O ->
    ref K D O T1 m d -> (forall b, ref K D O T2 (f b) (g b)) -> ref K D O (T1 ++ T2) (bind m f) (bind d g).
  Proof.
    intros Hoff Hi H1 H2 s s' r H. apply bind_val in H. destruct H as (b & s1 & E1 & E2).
    eapply G_bind; eauto. eapply H2; eauto.
  Qed.
  Lemma ref_bind0 K D O T2 {B C} (m d : M B) (f g : B -> M C) : off K D ->
    ref K D O [] m d -> (forall b, ref K D O T2 (f b) (g b)) -> ref K D O T2 (bind m f) (bind d g).
  Proof. intros Hoff H1 H2. apply (ref_bind K D O [] T2); auto. intros z []. Qed.
  Lemma ref_bind1 K D O T1 {B C} (m d : M B) (f g : B -> M C) : off K D -> incl T1 O ->
    ref K D O T1 m d -> (forall b, ref K D O [] (f b) (g b)) -> ref K D O T1 (bind m f) (bind d g).
  Proof. intros Hoff Hi H1 H2. rewrite <- (app_nil_r T1). now apply ref_bind. Qed.
  Lemma ref_weak K D O T (D' : lname -> Prop) O' T' {B} (m d : M B) : ref K D O T m d ->
    (forall k, D k -> D' k) -> incl O' O -> incl T' T -> ref K D' O' T' m d.
  Proof. intros H HD HO HT s s' r E. eapply G_weak; eauto. Qed.
  Lemma ref_none K D O T {B} (m d : M B) : ref K D O T m d -> ref K D O [] m d.
  Proof. intros H. eapply ref_weak; eauto using incl_refl. intros z []. Qed.
  Lemma ref_op K D O o vs : ref K D O [] (prim (op pr o vs)) (prim (op pr o vs)).
  Proof. intros s s' r. apply G_op. Qed.
  Lemma ref_truth K D O v : ref K D O [] (prim (truth pr v)) (prim (truth pr v)).
  Proof. intros s s' r. apply G_truth. Qed.
  Lemma ref_push K D O k a vs : ref K D O [] (prim (push pr k a vs)) (prim (push pr k a vs)).
  Proof. intros s s' r. apply G_push. Qed.
  Lemma ref_start K D O k : ref K D O [] (prim1 (start pr k)) (prim1 (start pr k)).
  Proof. intros s s' r. apply G_start. Qed.
  Lemma ref_finish K D O k a : ref K D O [] (prim1 (finish pr k a)) (prim1 (finish pr k a)).
  Proof. intros s s' r. apply G_finish. Qed.
  Lemma ref_ext K D O T {B} (m m' d d' : M B) : (forall s, m s = m' s) -> (forall s, d s = d' s) ->
    ref K D O T m' d' -> ref K D O T m d.
  Proof. intros E1 E2 H s s' r E. eapply G_ext; eauto. eapply H. rewrite <- E2. exact E. Qed.

  Definition tif (b : bool) (T : facts) : facts := if b then T else [].
  Lemma tif_incl b T O : incl T O -> incl (tif b T) O.
  Proof. destruct b; cbn; auto. intros _ z []. Qed.

  Section Lists.
    Context {B : Type}.
    Variables (K : facts) (D : lname -> Prop) (O T : facts).
    Hypothesis Hoff : off K D.
    Hypothesis HT : incl T O.
    Variable f : B -> M V.
    Variable g : cv -> M V.
    Definition rel1 (e : B) (c : cv) : Prop := ref K D O (tif (demands c) T) (f e) (g c).

    Lemma ref_mapM l l' : Forall2 rel1 l l' -> ref K D O (tif (existsb demands l') T) (mapM f l) (mapM g l').
    Proof.
      induction 1 as [|e c l l' H1 H2 IH]; cbn [mapM existsb]; [apply ref_ret|].
      assert (HR : ref K D O (tif (demands c) T ++ tif (existsb demands l') T)
                 (bind (f e) (fun v => bind (mapM f l) (fun vs => ret (v :: vs))))
                 (bind (g c) (fun v => bind (mapM g l') (fun vs => ret (v :: vs))))).
      { apply ref_bind; auto using tif_incl. intros b. apply ref_bind1; auto using tif_incl.
        intros vs. apply ref_ret. }
      eapply ref_weak; eauto using incl_refl.
      destruct (demands c), (existsb demands l'); cbn; intros z Hz; rewrite ?in_app_iff; auto.
    Qed.
    Lemma ref_boolM i l l' : Forall2 rel1 l l' ->
      ref K D O (tif (demands (CBool i l')) T) (boolM pr f i l) (boolM pr g i l').
    Proof.
      intros H. cbn [demands]. induction H as [|e c l l' H1 H2 IH]; [apply ref_ret|].
      cbn [boolM]. inversion H2; subst; [exact H1|].
      apply ref_bind1; auto using tif_incl. intros b.
      apply ref_bind0; auto; [apply ref_truth|]. intros b'.
      destruct (Bool.eqb b' i); [apply ref_ret|]. eapply ref_none; exact IH.
    Qed.
    Lemma ref_chainM l l' : Forall2 rel1 l l' -> forall v,
      ref K D O (match l' with c :: _ => tif (demands c) T | [] => [] end) (chainM pr f v l) (chainM pr g v l').
    Proof.
      induction 1 as [|e c l l' H1 H2 IH]; intros v; cbn [chainM]; [apply ref_ret|].
      apply ref_bind1; auto using tif_incl. intros u.
      apply ref_bind0; auto; [apply ref_op|]. intros u'.
      inversion H2; subst; [apply ref_ret|].
      apply ref_bind0; auto; [apply ref_truth|]. intros b. destruct b; [|apply ref_ret].
      eapply ref_none; apply IH.
    Qed.
    Lemma ref_eqsM l l' : Forall2 rel1 l l' ->
      ref K D O (tif (demands (CEqs l')) T) (eqsM pr f l) (eqsM pr g l').
    Proof.
      intros H. destruct H as [|e c l l' H1 H2]; cbn [eqsM]; [apply ref_ret|].
      assert (HR := fun v => ref_chainM l l' H2 v).
      assert (HB : ref K D O (tif (demands c) T ++ match l' with c :: _ => tif (demands c) T | [] => [] end)
                 (bind (f e) (fun v => chainM pr f v l)) (bind (g c) (fun v => chainM pr g v l'))).
      { apply ref_bind; auto using tif_incl. }
      eapply ref_weak; eauto using incl_refl. cbn [demands].
      destruct l' as [|c2 l']; [rewrite app_nil_r; apply incl_refl|].
      destruct (demands c), (demands c2); cbn; intros z Hz; rewrite ?in_app_iff; auto.
    Qed.
  End Lists.

  Definition relo {B} K D O (f : B -> M V) (g : cv -> M V) (co : option B) (co' : option cv) : Prop :=
    match co with
    | Some e => match co' with Some c => ref K D O [] (f e) (g c) | None => False end
    | None => match co' with Some _ => False | None => True end
    end.
  Lemma ref_whenM {B C} K D O (f : B -> M V) g (co : option B) co' (m m' d d' : M C) : off K D ->
    relo K D O f g co co' ->
    ref K D O [] m d -> ref K D O [] m' d' ->
    ref K D O [] (whenM pr f co m m') (whenM pr (g : cv -> M V) co' d d').
  Proof.
    intros Hoff H H1 H2. destruct co, co'; try contradiction; cbn [whenM]; auto.
    apply ref_bind0; auto. intros v. apply ref_bind0; auto; [apply ref_truth|]. intros b'. destruct b'; auto.
  Qed.
  Lemma ref_linesM {B} K D O (f : B -> M V) (g : cv -> M V) k ls ls' : off K D ->
    Forall2 (fun l l' => relo K D O f g (fst l) (fst l') /\
                         ref K D O [] (f (snd l)) (g (snd l'))) ls ls' ->
    forall acc, ref K D O [] (linesM pr f k ls acc) (linesM pr g k ls' acc).
  Proof.
    intros Hoff. induction 1 as [|l l' ls ls' [H1 H2] H3 IH]; intros acc; cbn [linesM]; [apply ref_ret|].
    apply ref_whenM; [auto|exact H1| |apply IH]. apply ref_bind0; auto. intros v.
    apply ref_bind0; auto. apply ref_push.
  Qed.
  Lemma ref_iterate K D O (f g : V -> V -> M V) i : off K D -> quiet i ->
    (forall item acc, ref K D O [] (f item acc) (g item acc)) ->
    forall acc, ref K D O [] (iterate f i acc) (iterate g i acc).
  Proof.
    intros Hoff Hq HB. induction Hq as [next Hn|next x Hn|next v rest Hn Hr IH]; intros acc s s' r E;
      cbn [iterate] in E; rewrite Hn in E.
    - injection E as _ ->. intros w L HK. exists L. cbn [iterate fst snd]. rewrite Hn. repeat split; auto. intros k u [].
    - discriminate.
    - destruct (g v acc (fst s, snd s)) as [s1 [a|x]] eqn:E1; [|discriminate].
      assert (H1 := HB v acc _ _ _ E1). assert (H2 := IH a _ _ _ E).
      assert (HG := G_bind0 K D O [] (f v acc) (iterate f rest) a r Hoff H1 H2).
      intros w L HK. destruct (HG w L HK) as (L' & A1 & A2). exists L'. split; [|exact A2].
      cbn [iterate fst snd]. rewrite Hn. exact A1.
  Qed.
  Lemma ref_comprehend K D O k v (f g : V -> V -> M V) : off K D ->
    (forall item acc, ref K D O [] (f item acc) (g item acc)) ->
    ref K D O [] (comprehend pr k v f) (comprehend pr k v g).
  Proof.
    intros Hoff HB s s' r E. unfold comprehend in *. apply bind_val in E.
    destruct E as (i & s1 & E1 & E2). destruct (pure_iter pr HP v) as (r0 & H1 & H2).
    assert (Hq : quiet i). { apply H2. unfold prim in E1. rewrite H1 in E1. now injection E1. }
    eapply G_bind0; [auto|eapply G_prim; eauto|]. clear E1. revert s1 s' r E2.
    change (ref K D O [] (bind (prim1 (start pr k)) (fun acc => bind (iterate f i acc) (fun acc => prim1 (finish pr k acc))))
                         (bind (prim1 (start pr k)) (fun acc => bind (iterate g i acc) (fun acc => prim1 (finish pr k acc))))).
    apply ref_bind0; auto; [apply ref_start|]. intros acc.
    apply ref_bind0; auto; [apply ref_iterate; auto|]. intros acc'. apply ref_finish.
  Qed.

  Variable wordch : N -> bool.
  Variable srepr : text -> text.
  Variable gname : nat -> text.
  Variable pnum : list nat -> nat.
  Variable pname : text -> text.
  Variable hname : list nat -> text.
  Hypothesis wordch_ascii : forall c, (c < 128)%N ->
    wordch c = (ascii_alpha c || (N.leb 48 c && N.leb c 57) || N.eqb c 95).
  Hypothesis pname_simple : forall t, simple wordch (pname t) = true.
  Variable args : list (text * V).
  Notation print := (print srepr gname pnum).
  Notation gen := (gen wordch srepr gname pnum pname hname).
  Notation gens := (gens wordch srepr gname pnum pname hname).
  Notation attach := (attach wordch srepr gname pnum).
  Notation fin := (fin wordch srepr gname pnum).
  Notation fed_opt := (fed_opt wordch srepr gname pnum pname hname).
  Notation gen_lines := (gen_lines wordch srepr gname pnum pname hname).
  Notation agree := (agree pname args).
  Notation eval := (eval pr).
  Notation den := (den pr args).
  Notation goM := (goM pr).

  Definition below (q : list nat) (k : lname) : Prop := exists p, k = P (p ++ q).
  Definition apart (K : facts) (D : lname -> Prop) (O : facts) (q : list nat) : Prop :=
    forall k, below q k -> ~ D k /\ (forall u, ~ In (k, u) K) /\ (forall u, ~ In (k, u) O).
  Definition wide (D : lname -> Prop) (q : list nat) (k : lname) : Prop := D k \/ below q k.

  Definition MainR (c : cv) : Prop := forall fed x q A E v K D O T,
    plain x c = true -> (x = false -> simple wordch (print A) = true) -> agree E c ->
    off K D -> apart K D O q -> incl T O -> G K D O T (eval E A) v ->
    ref K (wide D q) O (tif (demands c) T) (eval E (gen fed q c A)) (den c v).

  Lemma below_sub i q k : below (i :: q) k -> below q k.
  Proof. intros [p ->]. exists (p ++ [i]). now rewrite <- app_assoc. Qed.
  Lemma apart_sub K D O q i : apart K D O q -> apart K D O (i :: q).
  Proof. intros H k Hk. apply H. eapply below_sub; eauto. Qed.
  Lemma wide_sub D q i k : wide D (i :: q) k -> wide D q k.
  Proof. intros [H|H]; [now left|right; eapply below_sub; eauto]. Qed.
  Lemma off_wide K D O q : off K D -> apart K D O q -> off K (wide D q).
  Proof. intros H1 H2 k u Hi [Hd|Hb]; [now apply (H1 k u)|]. destruct (H2 k Hb) as (_ & H & _). now apply (H u). Qed.
  Lemma below_ne i j q k : below (i :: q) k -> below (j :: q) k -> i = j.
  Proof.
    intros [p ->] [p' H]. injection H as H.
    change (i :: q) with ([i] ++ q) in H. change (j :: q) with ([j] ++ q) in H.
    rewrite !app_assoc in H. apply app_inv_tail in H. apply app_inj_tail in H. apply H.
  Qed.

  Lemma ref_fin fed K D O T T0 E A v r (d : M V) : off K D -> incl T0 O -> G K D O T0 (eval E A) v ->
    ref K D O T (eval E r) d -> ref K D O T (eval E (fin fed A r)) d.
  Proof.
    intros Hoff Hi HA H. destruct (fin_cases wordch srepr gname pnum fed A r) as [-> | ->]; [exact H|].
    intros s s' x E0. specialize (H s s' x E0). cbn [Model_Eval.eval].
    apply (G_weak K D O (T0 ++ T) D O T); [|auto|apply incl_refl|].
    - eapply (G_bind K D O T0 T); eauto. destruct (pure_truth pr HP v) as [b Hb].
      eapply (G_bind0 K D O T _ _ b); eauto. eapply G_prim with (s := s); eauto.
      unfold prim. rewrite Hb. reflexivity.
    - intros z Hz. apply in_or_app. now right.
  Qed.
  Lemma ref_attach K D O T T0 E A v r (d : M V) : off K D -> incl T0 O -> G K D O T0 (eval E A) v ->
    ref K D O T (eval E r) d -> ref K D O T (eval E (attach A r)) d.
  Proof. apply (ref_fin true). Qed.

  Lemma gens_ref l : Forall MainR l -> forall x q i A E v K D O T,
    forallb (plain x) l = true -> (x = false -> simple wordch (print A) = true) ->
    (forall c, In c l -> agree E c) -> off K D -> apart K D O q -> incl T O -> G K D O T (eval E A) v ->
    Forall2 (rel1 K (wide D q) O T (eval E) (fun c => den c v)) (gens q i l A) l.
  Proof.
    induction 1 as [|c l Hc Hl IH]; intros x q i A E v K D O T Hp Hx Ha Hoff Hap HT HA; cbn [Proofs_Code.gens]; constructor.
    - cbn [forallb] in Hp. apply andb_true_iff in Hp. unfold rel1.
      eapply ref_weak; [apply (Hc false x (i :: q) A E v K D O T); auto|apply wide_sub|apply incl_refl|apply incl_refl].
      + apply Hp.
      + apply Ha. now left.
      + now apply apart_sub.
    - cbn [forallb] in Hp. apply andb_true_iff in Hp. apply (IH x); auto.
      + apply Hp.
      + intros c' Hc'. apply Ha. now right.
  Qed.

  Lemma G_wide K D O T q E A v : G K D O T (eval E A) v -> G K (wide D q) O T (eval E A) v.
  Proof. intros H. eapply G_weak; eauto using incl_refl. intros k Hk. now left. Qed.
  Lemma G_name K D O E y v : lookup E y = Some v -> G K D O [] (eval E (PName y)) v.
  Proof. intros H. cbn [Model_Eval.eval]. rewrite H. apply G_ret. Qed.

  Lemma args_sub_opt (o : option cv) c : o = Some c -> forall y, In y (args_of c) ->
    In y (match o with Some c => args_of c | None => [] end).
  Proof. intros -> y H. exact H. Qed.

  Definition optd (o : option cv) (u : V) : M V := match o with None => ret u | Some c => den c u end.
  Lemma opt_ref o x i q E A v K D O T : optP MainR o -> optb (plain x) o = true ->
    (x = false -> simple wordch (print A) = true) -> (forall c, o = Some c -> agree E c) ->
    off K D -> apart K D O (i :: q) -> incl T O -> G K D O T (eval E A) v ->
    ref K (wide D (i :: q)) O (tif (optb demands o) T) (eval E (fed_opt (i :: q) o A)) (optd o v).
  Proof.
    intros HM Hp Hx Ha Hoff Hap HT HA. destruct o as [c|]; cbn [Proofs_Code.fed_opt optd optb].
    - apply (HM true x); auto.
    - intros s s' r E0. injection E0 as _ <-. cbn [tif]. now apply G_wide.
  Qed.

  (** constant keys *)
  Lemma const_lookups E2 idx o u q A : forallb const idx = true -> forall i cur, exists r, forall s,
    goM E2 o (gens q i idx A) cur s = (s, r) /\ lookupsM pr (fun c => den c u) o idx cur s = (s, r).
  Proof.
    induction idx as [|c idx IH]; intros Hc i cur; cbn [Proofs_Code.gens Proofs_Den.goM lookupsM].
    - exists (Val cur). intros s. split; reflexivity.
    - cbn [forallb] in Hc. apply andb_true_iff in Hc. destruct Hc as [Hc Hr].
      assert (HK : exists w, (forall s, eval E2 (gen false (i :: q) c A) s = (s, Val w)) /\
                             (forall s, den c u s = (s, Val w))).
      { destruct c; try discriminate Hc; eexists; split; intros; reflexivity. }
      destruct HK as (w & K1 & K2). destruct (pure_op pr HP o [cur; w]) as [[b|x] Hb].
      + destruct (IH Hr (S i) b) as (r & HI). exists r. intros s. unfold bind. rewrite K1, K2.
        unfold prim. rewrite Hb. destruct s as [s1 s2]. cbn [fst snd]. apply HI.
      + exists (Exc x). intros s. unfold bind. rewrite K1, K2. unfold prim. rewrite Hb.
        destruct s; cbn [fst snd]. split; reflexivity.
  Qed.

  Lemma den_attr' a n v : meq (den (CAttr a n) v)
    (bind (mapM (fun c => den c v) [a; n]) (fun vs => prim (op pr OGetattr vs))).
  Proof. apply den_attr. Qed.

  Lemma optP_mono (P1 P2 : cv -> Prop) o : (forall c, P1 c -> P2 c) -> optP P1 o -> optP P2 o.
  Proof. destruct o; cbn; auto. Qed.

  Lemma main : forall c, MainR c.
  Proof.
    induction c as [|l|g|ax|n|o l IH|a n IHa IHn|i l IH|l IH|nc co t f IHc IHt IHf
                    |a s idx d IHs IHi IHd|k es co IHe IHc|k ls IH|n c ls IHc IHl|a b IHa IHb|o ms IHo IHm]
      using cv_ind'; intros fed x q A E v K D O T Hp Hx Ha Hoff Hap HT HA;
      assert (Hoff' := off_wide K D O q Hoff Hap);
      assert (HA' := G_wide K D O T q E A v HA).
    - (* this *)
      change (gen fed q CThis A) with (fin fed A A). eapply ref_fin; eauto.
      intros s s' r E0. injection E0 as _ <-. exact HA'.
    - (* constants *)
      change (gen fed q (CLit l) A) with (fin fed A (PLit l)). eapply ref_fin; eauto. apply ref_ret.
    - change (gen fed q (CGlob g) A) with (fin fed A (PGlob g)). eapply ref_fin; eauto. apply ref_ret.
    - change (gen fed q (CArg ax) A) with (fin fed A (PName ax)). eapply ref_fin; eauto.
      cbn [Spec_Eval.den Model_Eval.eval]. destruct (Ha ax) as (_ & _ & _ & u & H1 & H2); [now left|].
      rewrite H1, H2. apply ref_ret.
    - discriminate.
    - (* operations *)
      rewrite gen_COp. eapply ref_fin; eauto. cbn [Spec_Eval.den Model_Eval.eval demands].
      apply ref_bind1; auto using tif_incl; [|intros; apply ref_op].
      apply ref_mapM; auto. apply (gens_ref l IH x); auto.
      intros c Hc. eapply agree_sub; eauto. intros y Hy. cbn. apply in_flat_map. eauto.
    - (* attributes *)
      rewrite gen_CAttr. eapply ref_fin; eauto.
      cbn [plain] in Hp. apply andb_true_iff in Hp. destruct Hp as [Hp1 Hp2].
      eapply ref_ext; [intros s; apply (attr_code_eval pr attr_ok)|intros s; apply den_attr'|].
      cbn [Model_Eval.eval demands].
      replace (demands a || demands n) with (existsb demands [a; n]) by (cbn; now rewrite orb_false_r).
      apply ref_bind1; auto using tif_incl; [|intros; apply ref_op].
      apply ref_mapM; auto. apply (gens_ref [a; n]) with (x := x) (i := 0); auto.
      + cbn. now rewrite Hp1, Hp2.
      + intros c Hc. eapply agree_sub; eauto. intros y Hy. cbn. apply in_or_app.
        destruct Hc as [<-|[<-|[]]]; auto.
    - (* and, or *)
      rewrite gen_CBool. eapply ref_fin; eauto. cbn [Spec_Eval.den Model_Eval.eval].
      apply ref_boolM; auto. apply (gens_ref l IH x); auto.
      intros c Hc. eapply agree_sub; eauto. intros y Hy. cbn. apply in_flat_map. eauto.
    - (* == *)
      rewrite gen_CEqs. eapply ref_fin; eauto. cbn [Spec_Eval.den Model_Eval.eval].
      apply ref_eqsM; auto. apply (gens_ref l IH x); auto.
      intros c Hc. eapply agree_sub; eauto. intros y Hy. cbn. apply in_flat_map. eauto.
    - (* if *)
      cbn [plain] in Hp. rewrite !andb_true_iff in Hp. destruct Hp as [[[Hp1 Hp2] Hp3] Hp4].
      rewrite gen_CIf. eapply ref_fin; eauto.
      assert (Hag : forall o, (o = co \/ o = t \/ o = f) -> forall c, o = Some c -> agree E c).
      { intros o Ho c ->. eapply agree_sub; [exact Ha|]. intros y Hy. cbn.
        destruct Ho as [Ho|[Ho|Ho]]; rewrite <- Ho; rewrite !in_app_iff; auto. }
      cbn [Spec_Eval.den Model_Eval.eval].
      replace (demands (CIf nc co t f)) with (optb demands co) by (destruct co; reflexivity).
      unfold if_cond_input, if_branch_input.
      destruct (simple wordch (print A) || nc) eqn:Es.
      + (* the input is used as it is *)
        apply ref_bind1; auto using tif_incl.
        * eapply ref_weak; [exact (opt_ref co x 0 q E A v K D O T IHc Hp1 Hx (Hag co (or_introl eq_refl)) Hoff (apart_sub K D O q 0 Hap) HT HA)|apply wide_sub|apply incl_refl|apply incl_refl].
        * intros vc. apply ref_bind0; auto; [apply ref_truth|]. intros b. destruct b.
          -- eapply ref_none, ref_weak; [exact (opt_ref t x 1 q E A v K D O T IHt Hp2 Hx (Hag t (or_intror (or_introl eq_refl))) Hoff (apart_sub K D O q 1 Hap) HT HA)|apply wide_sub|apply incl_refl|apply incl_refl].
          -- eapply ref_none, ref_weak; [exact (opt_ref f x 2 q E A v K D O T IHf Hp3 Hx (Hag f (or_intror (or_intror eq_refl))) Hoff (apart_sub K D O q 2 Hap) HT HA)|apply wide_sub|apply incl_refl|apply incl_refl].
      + (* the input is stored *)
        apply orb_false_iff in Es. destruct Es as [Es ->].
        assert (x = true) by (destruct x; auto; rewrite Hx in Es; [discriminate|reflexivity]). subst x.
        cbn [negb orb] in Hp4. rewrite Hp4. cbn [tif].
        set (kq := P q). set (ic := PBool true [PAdd kq A; PGet kq]).
        assert (Hkq : below q kq) by (exists []; reflexivity).
        destruct (Hap kq Hkq) as (Hk1 & Hk2 & Hk3).
        assert (Hnq : forall i, ~ below (i :: q) kq).
        { intros i [p Hpp]. symmetry in Hpp. now apply P_ne in Hpp. }
        assert (Hic : G K (fun k => D k \/ k = kq) ((kq, v) :: O) ((kq, v) :: T) (eval E ic) v).
        { intros w L HK. destruct (HA w L HK) as (L' & E1 & F1 & O1 & S1).
          exists (upd L' kq v). repeat split.
          - unfold ic. rewrite (eval_ic pr truth_none). unfold bind. rewrite E1. reflexivity.
          - intros k Hk. unfold upd. destruct (lname_eq_dec kq k) as [<-|]; [tauto|]. apply F1. tauto.
          - intros k u [Hi|Hi].
            + injection Hi as <- <-. right. unfold upd. destruct (lname_eq_dec kq kq); congruence.
            + unfold upd. destruct (lname_eq_dec kq k) as [<-|]; [exfalso; eapply Hk3; eauto|]. now apply O1.
          - intros k u [Hi|Hi].
            + injection Hi as <- <-. unfold upd. destruct (lname_eq_dec kq kq); congruence.
            + unfold upd. destruct (lname_eq_dec kq k) as [<-|]; [exfalso; eapply Hk3; apply HT; eauto|]. now apply S1. }
        intros s s' r E0. apply bind_val in E0. destruct E0 as (vc & s1 & E1 & E2).
        rewrite <- (app_nil_r T).
        apply (G_bind' [(kq, v)] K (wide D q) O T ((kq, v) :: T) [] _ _ vc); auto.
        * (* condition *)
          assert (HC := opt_ref co true 0 q E ic v K (fun k => D k \/ k = kq) ((kq, v) :: O) ((kq, v) :: T) IHc Hp1).
          rewrite Hp4 in HC. cbn [tif] in HC.
          eapply G_weak; [eapply HC; try exact E1| | |].
          -- discriminate.
          -- apply (Hag co). now left.
          -- intros k u Hi [Hd| ->]; [now apply (Hoff k u)|now apply (Hk2 u)].
          -- intros k Hb. destruct (Hap k (below_sub _ _ _ Hb)) as (A1 & A2 & A3).
             split; [intros [Hd| ->]; [auto|now apply (Hnq 0)]|]. split; [auto|].
             intros u [Hi|Hi]; [|now apply (A3 u)]. injection Hi as <- _. now apply (Hnq 0).
          -- intros z [<-|Hz]; [now left|right; auto].
          -- exact Hic.
          -- intros k [[Hd| ->]|Hb]; [now left|now right|right; eapply below_sub; eauto].
          -- intros z Hz. now right.
          -- apply incl_refl.
        * (* the branches read the stored value *)
          assert (HK' : off ([(kq, v)] ++ K) D).
          { intros k u [Hi|Hi] Hd; [injection Hi as <- <-; auto|now apply (Hoff k u)]. }
          assert (HB : forall i, apart ([(kq, v)] ++ K) D O (i :: q)).
          { intros i k Hb. destruct (Hap k (below_sub _ _ _ Hb)) as (A1 & A2 & A3).
            split; [exact A1|]. split; [|exact A3].
            intros u [Hi|Hi]; [|now apply (A2 u)]. injection Hi as <- _. now apply (Hnq i). }
          assert (HG : G ([(kq, v)] ++ K) D O [] (eval E (PGet kq)) v).
          { intros w L HK. exists L. cbn [Model_Eval.eval]. unfold get_label. cbn [snd].
            rewrite (HK kq v); [|now left]. repeat split; auto. intros k u []. }
          clear E1. revert s1 s' r E2.
          change (ref ([(kq, v)] ++ K) (wide D q) O []
             (bind (prim (truth pr vc)) (fun b => if b then eval E (fed_opt (1 :: q) t (PGet kq))
                                                  else eval E (fed_opt (2 :: q) f (PGet kq))))
             (bind (prim (truth pr vc)) (fun b => if b then optd t v else optd f v))).
          assert (Hoff2 : off ([(kq, v)] ++ K) D) by exact HK'.
          intros s1 s' r E2. apply bind_val in E2. destruct E2 as (b & s2 & E2 & E3).
          assert (HR : G ([(kq, v)] ++ K) (wide D q) O [] (if b then eval E (fed_opt (1 :: q) t (PGet kq))
                                                  else eval E (fed_opt (2 :: q) f (PGet kq))) r).
          { destruct b.
            - eapply G_weak; [eapply (opt_ref t true 1 q E (PGet kq) v ([(kq, v)] ++ K) D O []); eauto|apply wide_sub|apply incl_refl|].
              + discriminate.
              + intros z [].
              + intros z [].
            - eapply G_weak; [eapply (opt_ref f true 2 q E (PGet kq) v ([(kq, v)] ++ K) D O []); eauto|apply wide_sub|apply incl_refl|].
              + discriminate.
              + intros z [].
              + intros z []. }
          intros w L HKL. destruct (HR w L HKL) as (L' & R1 & R2).
          exists L'. split; [|exact R2].
          destruct (pure_truth pr HP vc) as [b' Hb].
          unfold prim in E2. rewrite Hb in E2. injection E2 as _ ->.
          unfold bind, prim. cbn [fst snd]. rewrite Hb. exact R1.
        * intros z [<-|[]]. now left.
        * intros z Hz. now right.
    - (* lookups with a default *)
      cbn [plain] in Hp. rewrite !andb_true_iff in Hp. destruct Hp as [[Hp1 Hp2] Hp3].
      rewrite gen_CDefault. eapply ref_fin; eauto. cbn [demands tif].
      intros s0 s' r E0. cbn [Spec_Eval.den] in E0.
      apply bind_val in E0. destruct E0 as (vs & s1 & E1 & E0).
      apply bind_val in E0. destruct E0 as (vd & s2 & E2 & E0).
      assert (Had : agree E d).
      { eapply agree_sub; [exact Ha|]. intros y Hy. cbn. rewrite !in_app_iff. auto. }
      assert (HD : G K (wide D q) O (tif (demands d) T) (eval E (gen false (1 :: q) d A)) vd).
      { eapply G_weak; [eapply (IHd false x (1 :: q) A E v K D O T); eauto|apply wide_sub|apply incl_refl|apply incl_refl].
        now apply apart_sub. }
      assert (HS : s = None \/ s = Some CThis -> vs = v).
      { intros [-> | ->]; injection E1 as _ <-; reflexivity. }
      assert (HSc : over_self s = true -> G K (wide D q) O [] (eval E (self_code wordch srepr gname pnum pname hname q s A)) vs).
      { intros Ho. destruct s as [sc|]; [|discriminate Ho]. cbn [self_code].
        eapply G_weak; [eapply (IHs false x (0 :: q) A E v K D O T); eauto|apply wide_sub|apply incl_refl|intros z []].
        - eapply agree_sub; [exact Ha|]. intros y Hy. cbn. rewrite !in_app_iff. auto.
        - now apply apart_sub. }
      cbn [Model_Eval.eval].
      set (vals := if over_self s then [vs; v; vd] else [v; vd]).
      assert (HM : G K (wide D q) O T (mapM (eval E)
                ((if over_self s then [self_code wordch srepr gname pnum pname hname q s A; A] else [A]) ++
                 [gen false (1 :: q) d A])) vals).
      { assert (HT2 : G K (wide D q) O T (mapM (eval E) ([A] ++ [gen false (1 :: q) d A])) [v; vd]).
        { cbn [mapM app]. apply (G_bind1 _ _ _ _ _ _ v); auto. 
          apply (G_bind0 _ _ _ _ _ _ [vd]); auto; [|apply G_ret].
          apply (G_bind0 _ _ _ _ _ _ vd); auto; [eapply G_weak; [exact HD|auto|apply incl_refl|intros z []]|].
          apply (G_bind0 _ _ _ _ _ _ []); auto; apply G_ret. }
        unfold vals. destruct (over_self s) eqn:Eo; [|exact HT2].
        change ([self_code wordch srepr gname pnum pname hname q s A; A] ++ [gen false (1 :: q) d A])
          with (self_code wordch srepr gname pnum pname hname q s A :: ([A] ++ [gen false (1 :: q) d A])).
        cbn [mapM]. apply (G_bind0 _ _ _ _ _ _ vs); auto.
        apply (G_bind1 _ _ _ _ _ _ [v; vd]); auto. apply G_ret. }
      apply (G_bind1 _ _ _ _ _ _ vals); [auto|auto|exact HM|].
      set (E2' := default_env vals).
      set (st0 := if over_self s then Model_Code.T "self_" else Model_Code.T "obj_") in *.
      assert (Hst : lookup E2' st0 = Some vs).
      { unfold E2', st0, vals. destruct s as [sc|]; [destruct sc|]; cbn [over_self default_env];
          try reflexivity; rewrite HS by auto; reflexivity. }
      destruct (const_lookups E2' idx (if a then OGetattr else OItem) v q (PName (Model_Code.T "obj_")) Hp3 2 vs) as (r1 & HR).
      intros w L HKL. exists L. unfold or_default.
      assert (HB : eval E2' (path_code a (gens q 2 idx (PName (Model_Code.T "obj_"))) (PName st0)) (w, L) = ((w, L), r1)).
      { rewrite (path_eval pr attr_ok). unfold bind. cbn [Model_Eval.eval]. rewrite Hst. cbn [ret]. apply HR. }
      assert (Hd : default_of pr vals = vd) by (unfold vals; destruct (over_self s); reflexivity).
      rewrite HB. unfold or_default in E0. destruct (HR s2) as [_ HR2]. rewrite HR2 in E0.
      split; [|repeat split; auto; intros k0 u0 []].
      destruct r1 as [b|ex]; [injection E0 as _ ->; reflexivity|].
      destruct (caught pr ex); [|discriminate]. injection E0 as _ ->. now rewrite Hd.
    - (* comprehensions *)
      cbn [plain] in Hp. rewrite !andb_true_iff in Hp. destruct Hp as [Hp1 Hp2].
      rewrite gen_CComp. eapply ref_fin; eauto. cbn [Spec_Eval.den Model_Eval.eval demands tif].
      set (y := pname (print A)).
      intros s0 s' r E0. apply (G_bind1 _ _ _ _ _ _ v); auto. revert s0 s' r E0.
      apply (ref_comprehend K (wide D q) O k v _
               (fun item acc => whenM pr (fun c => den c item) co
                  (bind (mapM (fun c => den c item) es) (fun vs => prim (push pr k acc vs))) (ret acc))); auto.
      intros item acc.
      assert (Hlk : lookup ((y, item) :: E) y = Some item).
      { cbn. destruct (text_eq_dec y y); congruence. }
      assert (Hag : forall c, (forall z, In z (args_of c) -> In z (args_of (CComp k es co))) ->
                              agree ((y, item) :: E) c).
      { intros c Hc' z Hz. destruct (Ha z (Hc' z Hz)) as (H1 & H2 & H3 & w & H4 & H5).
        repeat split; auto. exists w. split; [|exact H5]. cbn. destruct (text_eq_dec z y) as [E1|_]; auto.
        exfalso. apply (H3 (print A)). now symmetry. }
      assert (Hnm : G K D O [] (eval ((y, item) :: E) (PName y)) item) by now apply G_name.
      assert (Hsy : false = false -> simple wordch (print (PName y)) = true) by (intros _; apply pname_simple).
      apply ref_whenM; auto.
      + destruct co as [c|]; [|exact I].
        eapply ref_none, ref_weak; [eapply (IHc false false (0 :: q) (PName y) ((y, item) :: E) item K D O []); eauto|apply wide_sub|apply incl_refl|apply incl_refl].
        * apply Hag. intros z Hz. cbn. rewrite in_app_iff. auto.
        * now apply apart_sub.
        * intros z [].
      + apply ref_bind0; auto; [|intros; apply ref_push].
        eapply ref_none, ref_mapM with (T := []); auto; [intros z []|].
        apply (gens_ref es IHe false); auto; [|intros z []].
        intros c Hin. apply Hag. intros z Hz. cbn. apply in_or_app. left. apply in_flat_map. eauto.
      + apply ref_ret.
    - (* optional items *)
      rewrite gen_CItems. eapply ref_fin; eauto. cbn [Spec_Eval.den Model_Eval.eval demands tif].
      set (ps := params_of (CItems k ls)) in *.
      destruct (eval_args pr E ps (agree_bound pname args E _ Ha)) as (vals & Hv1 & Hv2).
      intros s0 s' r E0.
      apply (G_bind1 _ _ _ _ _ _ (v :: vals)); auto.
      { cbn [mapM]. apply (G_bind1 _ _ _ _ _ _ v); auto.
        eapply G_ext; [intros s; unfold bind; rewrite Hv1; reflexivity|]. apply G_ret. }
      revert s0 s' r E0.
      change (ref K (wide D q) O []
        (bind (prim1 (start pr k)) (fun acc =>
         bind (linesM pr (eval (helper_env ps (v :: vals))) k (gen_lines q 0 ls) acc) (fun acc => prim1 (finish pr k acc))))
        (bind (prim1 (start pr k)) (fun acc =>
         bind (linesM pr (fun c => den c v) k ls acc) (fun acc => prim1 (finish pr k acc))))).
      apply ref_bind0; auto; [apply ref_start|]. intros acc.
      apply ref_bind0; auto; [|intros; apply ref_finish].
      set (E2 := helper_env ps (v :: vals)).
      assert (Hag : forall c, (forall z, In z (args_of c) -> In z (args_of (CItems k ls))) -> agree E2 c).
      { intros c Hc. eapply agree_helper; eauto. }
      assert (HAg : forall l, In l ls ->
         match fst l with Some c => agree E2 c | None => True end /\ agree E2 (snd l)).
      { intros l Hl. split.
        - destruct (fst l) as [c|] eqn:El; [|exact I]. apply Hag. intros z Hz. cbn. apply in_flat_map.
          exists l. rewrite El. split; auto. apply in_or_app. auto.
        - apply Hag. intros z Hz. cbn. apply in_flat_map. exists l. split; auto. apply in_or_app. auto. }
      assert (Hd : G K D O [] (eval E2 (PName (Model_Code.T "data_"))) v) by (apply G_name, helper_data).
      assert (Hs : false = false -> simple wordch (print (PName (Model_Code.T "data_"))) = true)
        by (intros _; now apply (simple_T wordch wordch_ascii)).
      apply ref_linesM; auto. cbn [plain] in Hp.
      clear Ha Hag Hv1 Hv2. clearbody E2. generalize 0 as i. revert IH Hp HAg.
      induction ls as [|[co c] ls IHls]; intros IH Hp HAg i; cbn [Proofs_Code.gen_lines]; constructor.
      + inversion IH as [|? ? [Hc1 Hc2] HM']; subst. cbn [fst snd] in *. cbn [forallb fst snd] in Hp.
        apply andb_true_iff in Hp. destruct Hp as [Hf _]. apply andb_true_iff in Hf. destruct Hf as [Hf1 Hf2].
        destruct (HAg (co, c) (or_introl eq_refl)) as [Ha1 Ha2]. cbn [fst snd] in *.
        split.
        * destruct co as [c1|]; [|exact I].
          eapply ref_none, ref_weak; [eapply (Hc1 false false (0 :: i :: q) (PName (Model_Code.T "data_")) E2 v K D O []); eauto|intros k0 Hk; eapply wide_sub, wide_sub; exact Hk|apply incl_refl|apply incl_refl].
          -- now apply apart_sub, apart_sub.
          -- intros z [].
        * eapply ref_none, ref_weak; [eapply (Hc2 false false (1 :: i :: q) (PName (Model_Code.T "data_")) E2 v K D O []); eauto|intros k0 Hk; eapply wide_sub, wide_sub; exact Hk|apply incl_refl|apply incl_refl].
          -- now apply apart_sub, apart_sub.
          -- intros z [].
      + inversion IH as [|? ? _ HM']; subst. cbn [forallb] in Hp. apply andb_true_iff in Hp.
        apply IHls; auto.
        * apply Hp.
        * intros l Hl. apply HAg. now right.
    - discriminate.
    - (* pipes *)
      cbn [plain] in Hp. apply andb_true_iff in Hp. destruct Hp as [Hp1 Hp2].
      rewrite gen_CPipe. cbn [Spec_Eval.den demands].
      intros s0 s' r E0. apply bind_val in E0. destruct E0 as (u & s1 & E1 & E2).
      set (A2 := gen fed (0 :: q) a A) in *.
      assert (H1 : G K (wide D (0 :: q)) O (tif (demands a) T) (eval E A2) u).
      { eapply (IHa fed x (0 :: q) A E v K D O T); eauto; [|now apply apart_sub].
        eapply agree_sub; [exact Ha|]. intros y Hy. cbn. apply in_or_app. auto. }
      assert (Hx2 : match a with CThis => x | _ => true end = false -> simple wordch (print A2) = true).
      { destruct a; try discriminate. intros Hf. unfold A2.
        change (gen fed (0 :: q) CThis A) with (fin fed A A). destruct fed; [|now apply Hx].
        unfold Proofs_Code.fin. rewrite attach_simple; auto. }
      assert (H2 : ref K (wide (wide D (0 :: q)) (1 :: q)) O (tif (demands b) (tif (demands a) T))
                     (eval E (gen false (1 :: q) b A2)) (den b u)).
      { apply (IHb false (match a with CThis => x | _ => true end)); auto using tif_incl.
        - eapply agree_sub; [exact Ha|]. intros y Hy. cbn. apply in_or_app. auto.
        - apply (off_wide K D O (0 :: q)); auto. now apply apart_sub.
        - intros k Hk. destruct (Hap k (below_sub _ _ _ Hk)) as (A1 & A3 & A4).
          split; [|split; auto]. intros [Hd|Hb]; [auto|]. assert (0 = 1) by (eapply below_ne; eauto). discriminate. }
      assert (Hsub : forall k, wide (wide D (0 :: q)) (1 :: q) k -> wide D q k).
      { intros k [[Hd|Hb]|Hb]; [now left| |]; right; eapply below_sub; eauto. }
      assert (H3 : ref K (wide D q) O (tif (demands a && demands b) T) (eval E (attach A2 (gen false (1 :: q) b A2))) (den b u)).
      { eapply (ref_attach K (wide D q) O _ (tif (demands a) T) E A2 u); auto using tif_incl.
        - eapply G_weak; [exact H1|apply wide_sub|apply incl_refl|apply incl_refl].
        - eapply ref_weak; [exact H2|exact Hsub|apply incl_refl|].
          destruct (demands a), (demands b); apply incl_refl. }
      eapply H3; eauto.
    - discriminate.
  Qed.
End P.
