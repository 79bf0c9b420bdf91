(** Labels a conversion does not mention do not influence it, labels it does not
    set stay as they are. *)
From Coq Require Import String Ascii List ZArith NArith Bool Arith Lia.
From Verif Require Import Model_Code Model_Eval Spec_Frag Spec_Eval Spec_Converter Spec_Api Proofs_Code Proofs_Eval Proofs_Den.
Import ListNotations.


Section Frame.
  Context {V W X : Type}.
  Variable pr : prims V W X.
  Notation st := (@st V W).
  Notation M := (@M V W X).
  Variables N K : lname -> Prop.   (* labels ignored; labels kept *)

  Definition eqx (s t : st) : Prop := fst s = fst t /\ forall n, ~ N n -> snd s n = snd t n.
  Definition pres {B} (m m' : M B) : Prop := forall s t, eqx s t ->
    eqx (fst (m s)) (fst (m' t)) /\ snd (m s) = snd (m' t) /\
    (forall n, K n -> snd (fst (m s)) n = snd s n).

  Lemma pres_ret {B} (b : B) : pres (ret b) (ret b).
  Proof. intros s t H. repeat split; auto; apply H. Qed.
  Lemma pres_raise {B} x : pres (B := B) (raise x) (raise x).
  Proof. intros s t H. repeat split; auto; apply H. Qed.
  Lemma pres_prim {B} (f : W -> W * out X B) : pres (prim f) (prim f).
  Proof. intros s t [H1 H2]. unfold prim. rewrite <- H1. destruct (f (fst s)). repeat split; auto. Qed.
  Lemma pres_prim1 {B} (f : W -> W * B) : pres (prim1 f) (prim1 f).
  Proof. intros s t [H1 H2]. unfold prim1. rewrite <- H1. destruct (f (fst s)). repeat split; auto. Qed.
  Lemma pres_get n : ~ N n -> pres (get_label pr n) (get_label pr n).
  Proof.
    intros Hn s t [H1 H2]. unfold get_label. rewrite <- (H2 n Hn).
    destruct (snd s n); cbn; repeat split; auto.
  Qed.
  Lemma pres_set n (u : V) : ~ K n -> pres (set_label (X := X) n u) (set_label n u).
  Proof.
    intros Hn s t [H1 H2]. unfold set_label. cbn. split; [|split].
    - split; [exact H1|]. cbn. intros m Hm. unfold upd. destruct (lname_eq_dec n m); auto.
    - reflexivity.
    - intros m Hm. unfold upd. destruct (lname_eq_dec n m); congruence.
  Qed.
  Lemma pres_bind {B C} (m m' : M B) (k k' : B -> M C) :
    pres m m' -> (forall b, pres (k b) (k' b)) -> pres (bind m k) (bind m' k').
  Proof.
    intros Hm Hk s t H. destruct (Hm s t H) as (H1 & H2 & H3). unfold bind.
    destruct (m s) as [s' [b|x]], (m' t) as [t' r']; cbn [fst snd] in *; subst r'; auto.
    destruct (Hk b s' t' H1) as (H4 & H5 & H6). split; auto. split; auto.
    intros n Hn. rewrite H6, H3; auto.
  Qed.
  Lemma pres_default {B} (m m' : M B) d : pres m m' -> pres (or_default pr m d) (or_default pr m' d).
  Proof.
    intros Hm s t H. destruct (Hm s t H) as (H1 & H2 & H3). unfold or_default.
    destruct (m s) as [s' [b|x]], (m' t) as [t' r']; cbn [fst snd] in *; subst r'; cbn; auto.
    destruct (caught pr x); cbn; auto.
  Qed.
  Lemma pres_iterate b b' : (forall v a, pres (b v a) (b' v a)) ->
    forall i a, pres (iterate b i a) (iterate b' i a).
  Proof.
    intros Hb. fix IH 1. intros [next] a s t H. cbn [iterate]. destruct H as [H1 H2]. rewrite <- H1.
    destruct (next (fst s)) as [w [|x|v rest]]; try (cbn; repeat split; auto; fail).
    destruct (Hb v a (w, snd s) (w, snd t)) as (A1 & A2 & A3); [split; auto|].
    destruct (b v a (w, snd s)) as [s' [acc|x]], (b' v a (w, snd t)) as [t' r']; cbn [fst snd] in *; subst r'; auto.
    destruct (IH rest acc s' t' A1) as (B1 & B2 & B3). split; auto. split; auto.
    intros n Hn. rewrite B3, A3; auto.
  Qed.
  Lemma pres_comprehend k v b b' : (forall v a, pres (b v a) (b' v a)) ->
    pres (comprehend pr k v b) (comprehend pr k v b').
  Proof.
    intros Hb. unfold comprehend. repeat (apply pres_bind; [|intros]).
    - apply pres_prim. - apply pres_prim1. - now apply pres_iterate. - apply pres_prim1.
  Qed.
  Section L.
    Context {B : Type}.
    Variables f g : B -> M V.
    Definition prel (b : B) := pres (f b) (g b).
    Lemma pres_mapM l : Forall prel l -> pres (mapM f l) (mapM g l).
    Proof.
      induction 1; cbn [mapM]; [apply pres_ret|]. apply pres_bind; auto. intros v.
      apply pres_bind; auto. intros. apply pres_ret.
    Qed.
    Lemma pres_boolM i l : Forall prel l -> pres (boolM pr f i l) (boolM pr g i l).
    Proof.
      induction 1 as [|b l Hb Hl IH]; cbn [boolM]; [apply pres_ret|]. destruct l; auto.
      apply pres_bind; auto. intros v. apply pres_bind; [apply pres_prim|]. intros t.
      destruct (Bool.eqb t i); auto. apply pres_ret.
    Qed.
    Lemma pres_chainM l : Forall prel l -> forall v, pres (chainM pr f v l) (chainM pr g v l).
    Proof.
      induction 1 as [|b l Hb Hl IH]; intros v; cbn [chainM]; [apply pres_ret|].
      apply pres_bind; auto. intros w. apply pres_bind; [apply pres_prim|]. intros c.
      destruct l; [apply pres_ret|]. apply pres_bind; [apply pres_prim|]. intros []; [apply IH|apply pres_ret].
    Qed.
    Lemma pres_eqsM l : Forall prel l -> pres (eqsM pr f l) (eqsM pr g l).
    Proof.
      intros H. destruct H; cbn [eqsM]; [apply pres_ret|]. apply pres_bind; auto. intros. now apply pres_chainM.
    Qed.
    Lemma pres_whenM {C} co (m m' o o' : M C) : (match co with Some c => prel c | None => True end) ->
      pres m m' -> pres o o' -> pres (whenM pr f co m o) (whenM pr g co m' o').
    Proof.
      intros H Hm Ho. destruct co; cbn [whenM]; auto. apply pres_bind; auto. intros v.
      apply pres_bind; [apply pres_prim|]. intros []; auto.
    Qed.
    Lemma pres_linesM k ls : Forall (fun l => (match fst l with Some c => prel c | None => True end) /\ prel (snd l)) ls ->
      forall acc, pres (linesM pr f k ls acc) (linesM pr g k ls acc).
    Proof.
      induction 1 as [|l ls [H1 H2] Hl IH]; intros acc; cbn [linesM]; [apply pres_ret|].
      apply pres_whenM; auto. apply pres_bind; auto. intros v. apply pres_bind; [apply pres_prim|]. auto.
    Qed.
    Lemma pres_mutM k vs : pres (mutM pr k vs) (mutM pr k vs).
    Proof. destruct k; cbn [mutM]; try apply pres_prim. apply pres_ret. Qed.
    Lemma pres_stmtsM d ls : Forall (fun l => Forall prel (snd l)) ls ->
      pres (stmtsM pr f d ls) (stmtsM pr g d ls).
    Proof.
      induction 1 as [|[k l] ls H1 H2 IH]; cbn [stmtsM]; [apply pres_ret|]. cbn [snd] in H1.
      assert (H3 : pres (bind (mapM f l) (fun vs => mutM pr k (d :: vs)))
                        (bind (mapM g l) (fun vs => mutM pr k (d :: vs)))).
      { apply pres_bind; [now apply pres_mapM|]. intros. apply pres_mutM. }
      apply pres_bind; [|intros; exact IH]. destruct k; auto.
      destruct l as [|a l]; [exact H3|]. destruct l as [|b l]; [exact H3|]. destruct l; [|exact H3].
      inversion H1; subst. inversion H5; subst.
      apply pres_bind; auto. intros. apply pres_bind; auto. intros. apply pres_mutM.
    Qed.
  End L.

  Variable args : list (text * V).
  Definition DP (c : cv) : Prop := (forall n, In n (label_uses c) -> ~ N n) -> (forall n, In n (writes c) -> ~ K n) ->
    forall v, pres (den pr args c v) (den pr args c v).
  Lemma DP_list l : Forall DP l -> (forall n, In n (flat_map label_uses l) -> ~ N n) ->
    (forall n, In n (flat_map writes l) -> ~ K n) -> forall v,
    Forall (prel (fun c => den pr args c v) (fun c => den pr args c v)) l.
  Proof.
    intros Hl HN HK v. rewrite Forall_forall in *. intros c Hc. apply Hl; auto.
    - intros n Hn. apply HN, in_flat_map. eauto.
    - intros n Hn. apply HK, in_flat_map. eauto.
  Qed.
  Ltac sub H := let n := fresh in let Hn := fresh in intros n Hn; apply H; cbn [In]; rewrite ?in_app_iff; cbn [In]; tauto.
  Lemma DP_opt o : optP DP o -> (forall n, In n (match o with Some c => label_uses c | None => [] end) -> ~ N n) ->
    (forall n, In n (match o with Some c => writes c | None => [] end) -> ~ K n) -> forall v,
    pres (match o with None => ret v | Some c => den pr args c v end)
         (match o with None => ret v | Some c => den pr args c v end).
  Proof. destruct o; cbn; intros H H1 H2 v; [now apply H|apply pres_ret]. Qed.

  Lemma den_pres c : DP c.
  Proof.
    induction c as [|l|g|ax|n|o l IH|a n IHa IHn|i l IH|l IH|nc co t f IHc IHt IHf
                    |a s idx d IHs IHi IHd|k es co IHe IHc|k ls IH|n c ls IHc IHl|a b IHa IHb|o ms IHo IHm]
      using cv_ind'; intros HN HK v; cbn [den]; cbn [label_uses] in HN; cbn [writes] in HK; try apply pres_ret.
    - destruct (lookup args ax); [apply pres_ret|apply pres_raise].
    - apply pres_get. apply HN. now left.
    - apply pres_bind; [|intros; apply pres_prim]. apply pres_mapM. now apply DP_list.
    - apply pres_bind; [apply IHa; [sub HN|sub HK]|]. intros va.
      apply pres_bind; [apply IHn; [sub HN|sub HK]|]. intros. apply pres_prim.
    - apply pres_boolM. now apply DP_list.
    - apply pres_eqsM. now apply DP_list.
    - apply pres_bind; [apply DP_opt; [auto|sub HN|sub HK]|]. intros vc.
      apply pres_bind; [apply pres_prim|]. intros []; (apply DP_opt; [auto|sub HN|sub HK]).
    - apply pres_bind; [apply DP_opt; [auto|sub HN|sub HK]|]. intros vs.
      apply pres_bind; [apply IHd; [sub HN|sub HK]|]. intros vd. apply pres_default.
      assert (HL : Forall (prel (fun c => den pr args c v) (fun c => den pr args c v)) idx)
        by (apply DP_list; [auto|sub HN|sub HK]).
      clear -HL. revert vs. induction HL as [|i idx Hi Hl IH]; intros vs; cbn [lookupsM]; [apply pres_ret|].
      apply pres_bind; auto. intros. apply pres_bind; [apply pres_prim|]. auto.
    - apply pres_comprehend. intros item acc. apply pres_whenM.
      + destruct co as [c|]; auto. apply IHc; [sub HN|sub HK].
      + apply pres_bind; [|intros; apply pres_prim]. apply pres_mapM. apply DP_list; [auto|sub HN|sub HK].
      + apply pres_ret.
    - apply pres_bind; [apply pres_prim1|]. intros acc. apply pres_bind; [|intros; apply pres_prim1].
      apply pres_linesM. rewrite Forall_forall in *. intros l Hl. specialize (IH l Hl). destruct IH as [I1 I2].
      split.
      + destruct (fst l) as [c|] eqn:E; auto. apply I1.
        * intros n Hn. apply HN, in_flat_map. exists l. split; auto. rewrite E. apply in_or_app. now left.
        * intros n Hn. apply HK, in_flat_map. exists l. split; auto. rewrite E. apply in_or_app. now left.
      + apply I2.
        * intros n Hn. apply HN, in_flat_map. exists l. split; auto. apply in_or_app. now right.
        * intros n Hn. apply HK, in_flat_map. exists l. split; auto. apply in_or_app. now right.
    - apply pres_bind; [apply IHc; [sub HN|sub HK]|]. intros u.
      apply pres_bind; [apply pres_set, HK; now left|]. intros _.
      apply pres_bind; [|intros; apply pres_ret].
      assert (HN' : forall m, In m (flat_map (fun l => label_uses (snd l)) ls) -> ~ N m) by sub HN.
      assert (HK' : forall m, In m (map fst ls ++ flat_map (fun l => writes (snd l)) ls) -> ~ K m).
      { intros m Hm. apply HK. right. apply in_or_app. now right. }
      clear -IHl HN' HK'. induction IHl as [|[m d] ls Hd Hl IH]; cbn [labelsM]; [apply pres_ret|].
      cbn [flat_map map fst snd] in *. apply pres_bind; [apply Hd|].
      + intros x Hx. apply HN', in_or_app. now left.
      + intros x Hx. apply HK'. right. apply in_or_app. right. apply in_or_app. now left.
      + intros x. apply pres_bind; [apply pres_set, HK'; now left|]. intros _. apply IH.
        * intros y Hy. apply HN', in_or_app. now right.
        * intros y Hy. apply HK'. right. apply in_or_app. apply in_app_or in Hy. destruct Hy; auto.
          right. apply in_or_app. now right.
    - apply pres_bind; [apply IHa; [sub HN|sub HK]|]. intros u. apply IHb; [sub HN|sub HK].
    - apply pres_bind; [apply IHo; [sub HN|sub HK]|]. intros u. apply pres_bind; [|intros; apply pres_ret].
      apply pres_stmtsM. rewrite Forall_forall in *. intros m Hm. specialize (IHm m Hm).
      apply DP_list; auto.
      + intros n Hn. apply HN, in_or_app. right. apply in_flat_map. eauto.
      + intros n Hn. apply HK, in_or_app. right. apply in_flat_map. eauto.
  Qed.
End Frame.

Section Use.
  Context {V W X : Type}.
  Variable pr : prims V W X.
  Variable args : list (text * V).
  Lemma den_keeps c v n s : ~ In n (writes c) -> snd (fst (den pr args c v s)) n = snd s n.
  Proof.
    intros H. destruct (den_pres pr (fun _ => False) (fun m => m = n) args c) with (v := v) (s := s) (t := s)
      as (_ & _ & H3).
    - auto.
    - intros m Hm ->. auto.
    - split; auto.
    - now apply H3.
  Qed.
End Use.
