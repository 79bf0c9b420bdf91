(** Which variables generated code depends on. *)
From Coq Require Import String Ascii List ZArith NArith Bool Arith Lia.
From Verif Require Import Model_Code Model_Eval Spec_Frag Spec_Eval Proofs_Code Proofs_Eval Proofs_Den.
Import ListNotations.

Section PxInd.
  Variable P : px -> Prop.
  Definition optPx (o : option px) : Prop := match o with Some e => P e | None => True end.
  Hypothesis Hname : forall x, P (PName x).
  Hypothesis Hlit : forall l, P (PLit l).
  Hypothesis Hglob : forall g, P (PGlob g).
  Hypothesis Hop : forall o l, Forall P l -> P (POp o l).
  Hypothesis Hbool : forall i l, Forall P l -> P (PBool i l).
  Hypothesis Heqs : forall l, Forall P l -> P (PEqs l).
  Hypothesis Hif : forall c t f, P c -> P t -> P f -> P (PIf c t f).
  Hypothesis Hatt : forall a b, P a -> P b -> P (PAttach a b).
  Hypothesis Hadd : forall n e, P e -> P (PAdd n e).
  Hypothesis Hget : forall n, P (PGet n).
  Hypothesis Hcomp : forall k l x it co, Forall P l -> P it -> optPx co -> P (PComp k l x it co).
  Hypothesis Hdef : forall f l b, Forall P l -> P b -> P (PDefault f l b).
  Hypothesis Hitems : forall f k l ps ls, Forall P l -> P (PItems f k l ps ls).
  Hypothesis Htap : forall f l ps ls, Forall P l -> P (PTap f l ps ls).
  Fixpoint px_ind' (e : px) : P e :=
    let lst := fix lst (l : list px) : Forall P l :=
      match l with [] => Forall_nil _ | e :: r => Forall_cons _ (px_ind' e) (lst r) end in
    match e with
    | PName x => Hname x
    | PLit l => Hlit l
    | PGlob g => Hglob g
    | POp o l => Hop o l (lst l)
    | PBool i l => Hbool i l (lst l)
    | PEqs l => Heqs l (lst l)
    | PIf c t f => Hif c t f (px_ind' c) (px_ind' t) (px_ind' f)
    | PAttach a b => Hatt a b (px_ind' a) (px_ind' b)
    | PAdd n e => Hadd n e (px_ind' e)
    | PGet n => Hget n
    | PComp k l x it co =>
        Hcomp k l x it co (lst l) (px_ind' it)
          (match co with Some c => px_ind' c | None => I end)
    | PDefault f l b => Hdef f l b (lst l) (px_ind' b)
    | PItems f k l ps ls => Hitems f k l ps ls (lst l)
    | PTap f l ps ls => Htap f l ps ls (lst l)
    end.
End PxInd.

(** free variables of an expression *)
Fixpoint fn (e : px) : list text :=
  match e with
  | PName x => [x]
  | PLit _ | PGlob _ | PGet _ => []
  | POp _ l | PBool _ l | PEqs l => flat_map fn l
  | PIf c t f => fn c ++ fn t ++ fn f
  | PAttach a b => fn a ++ fn b
  | PAdd _ e => fn e
  | PComp _ l x it co =>
      fn it ++ filter (fun y => negb (teqb y x))
        (flat_map fn l ++ match co with Some c => fn c | None => [] end)
  | PDefault _ l _ | PItems _ _ l _ _ | PTap _ l _ _ => flat_map fn l
  end.

Section Scope.
  Context {V W X : Type}.
  Variable pr : prims V W X.

  Lemma whenM_meq {B C} (f g : B -> @M V W X V) co (m m' o o' : @M V W X C) :
    (match co with Some c => meq (f c) (g c) | None => True end) -> meq m m' -> meq o o' ->
    meq (whenM pr f co m o) (whenM pr g co m' o').
  Proof.
    intros H Hm Ho. destruct co; cbn [whenM]; auto.
    apply bind_meq; auto. intros v. apply bind_meq; [apply meq_refl|]. intros []; auto.
  Qed.
  Lemma iterate_meq (b b' : V -> V -> @M V W X V) : (forall v a, meq (b v a) (b' v a)) ->
    forall i a, meq (iterate b i a) (iterate b' i a).
  Proof.
    intros H. fix IH 1. intros [next] a s. cbn [iterate].
    destruct (next (fst s)) as [w [|x|v rest]]; auto.
    rewrite (H v a (w, snd s)). destruct (b' v a (w, snd s)) as [s' [acc|x]]; auto. apply IH.
  Qed.
  Lemma comprehend_meq k v (b b' : V -> V -> @M V W X V) : (forall v a, meq (b v a) (b' v a)) ->
    meq (comprehend pr k v b) (comprehend pr k v b').
  Proof.
    intros H. unfold comprehend. apply bind_meq; [apply meq_refl|]. intros i.
    apply bind_meq; [apply meq_refl|]. intros a. apply bind_meq; [now apply iterate_meq|].
    intros. apply meq_refl.
  Qed.

  Definition eqon (l : list text) (E E' : list (text * V)) : Prop :=
    forall y, In y l -> lookup E y = lookup E' y.
  Lemma eval_scope e : forall E E', eqon (fn e) E E' -> meq (eval pr E e) (eval pr E' e).
  Proof.
    assert (HL : forall l, Forall (fun e => forall E E', eqon (fn e) E E' -> meq (eval pr E e) (eval pr E' e)) l ->
      forall E E', eqon (flat_map fn l) E E' -> Forall (feq (eval pr E) (eval pr E')) l).
    { intros l Hl E E' HE. rewrite Forall_forall in *. intros e0 He. apply Hl; auto.
      intros y Hy. apply HE. apply in_flat_map. eauto. }
    induction e as [x|l|g|o l IH|i l IH|l IH|c t f IHc IHt IHf|a b IHa IHb|n e IHe|n
                   |k l x it co IHl IHit IHco|f l b IHl IHb|f k l ps ls IHl|f l ps ls IHl]
      using px_ind'; intros E E' HE; cbn [eval]; try apply meq_refl.
    - rewrite (HE x) by now left. apply meq_refl.
    - apply bind_meq; [apply mapM_meq; auto|intros; apply meq_refl].
    - apply boolM_meq; auto.
    - apply eqsM_meq; auto.
    - cbn [fn] in HE. apply bind_meq; [apply IHc; intros y Hy; apply HE, in_or_app; now left|].
      intros v. apply bind_meq; [apply meq_refl|]. intros [].
      + apply IHt. intros y Hy. apply HE, in_or_app. right. apply in_or_app. now left.
      + apply IHf. intros y Hy. apply HE, in_or_app. right. apply in_or_app. now right.
    - cbn [fn] in HE. apply bind_meq; [apply IHa; intros y Hy; apply HE, in_or_app; now left|].
      intros v. apply bind_meq; [apply meq_refl|]. intros _.
      apply IHb. intros y Hy. apply HE, in_or_app. now right.
    - apply bind_meq; [now apply IHe|]. intros. apply meq_refl.
    - cbn [fn] in HE. apply bind_meq; [apply IHit; intros y Hy; apply HE, in_or_app; now left|].
      intros v. apply comprehend_meq. intros item acc.
      assert (Hin : eqon (flat_map fn l ++ match co with Some c => fn c | None => [] end)
                         ((x, item) :: E) ((x, item) :: E')).
      { intros y Hy. cbn [lookup]. destruct (text_eq_dec y x) as [|Hne]; auto.
        apply HE, in_or_app. right. apply filter_In. split; auto. unfold teqb.
        now destruct (text_eq_dec y x). }
      apply whenM_meq.
      + destruct co as [c|]; auto. apply IHco. intros y Hy. apply Hin, in_or_app. now right.
      + apply bind_meq; [|intros; apply meq_refl]. apply mapM_meq, HL; auto.
        intros y Hy. apply Hin, in_or_app. now left.
      + apply meq_refl.
    - apply bind_meq; [|intros; apply meq_refl]. apply mapM_meq, HL; auto.
    - apply bind_meq; [|intros; apply meq_refl]. apply mapM_meq, HL; auto.
    - apply bind_meq; [|intros; apply meq_refl]. apply mapM_meq, HL; auto.
  Qed.

  Variables (wordch : N -> bool) (srepr : text -> text) (gname : nat -> text) (pnum : list nat -> nat)
            (pname : text -> text) (hname : list nat -> text).
  Notation gen := (gen wordch srepr gname pnum pname hname).
  Notation gens := (gens wordch srepr gname pnum pname hname).
  Notation fin := (fin wordch srepr gname pnum).
  Notation attach := (attach wordch srepr gname pnum).
  Notation fed_opt := (fed_opt wordch srepr gname pnum pname hname).

  Lemma fn_attach a r y : In y (fn (attach a r)) -> In y (fn a) \/ In y (fn r).
  Proof.
    destruct (attach_cases wordch srepr gname pnum a r) as [E|E]; rewrite E; auto.
    cbn [fn]. intros H. now apply in_app_or in H.
  Qed.
  Lemma fn_fin fed a r y : In y (fn (fin fed a r)) -> In y (fn a) \/ In y (fn r).
  Proof. destruct fed; cbn; auto. apply fn_attach. Qed.
  Lemma fn_names ps y : In y (flat_map fn (map PName ps)) -> In y ps.
  Proof. intros H. apply in_flat_map in H. destruct H as (e & He & Hy).
    apply in_map_iff in He. destruct He as (z & <- & Hz). destruct Hy as [<-|[]]. exact Hz. Qed.
  Lemma params_in c y : In y (params_of c) -> In y (args_of c).
  Proof. apply in_params. Qed.

  Definition ScP (c : cv) : Prop := forall fed q A y,
    In y (fn (gen fed q c A)) -> In y (fn A) \/ In y (args_of c).
  Lemma gens_scope l : Forall ScP l -> forall q i A y,
    In y (flat_map fn (gens q i l A)) -> In y (fn A) \/ In y (flat_map args_of l).
  Proof.
    induction 1 as [|c l Hc Hl IH]; intros q i A y Hy; [destruct Hy|].
    cbn [Proofs_Code.gens flat_map] in *. apply in_app_or in Hy. destruct Hy as [Hy|Hy].
    - destruct (Hc _ _ _ _ Hy); auto. right. apply in_or_app. now left.
    - destruct (IH _ _ _ _ Hy); auto. right. apply in_or_app. now right.
  Qed.
  Lemma opt_scope o : optP ScP o -> forall q A y, In y (fn (fed_opt q o A)) ->
    In y (fn A) \/ In y (match o with Some c => args_of c | None => [] end).
  Proof. destruct o; cbn; intros H q A y Hy; auto. destruct (H true q A y Hy); auto. Qed.

  Lemma gen_scope c : ScP c.
  Proof.
    induction c as [|l|g|ax|n|o l IH|a n IHa IHn|i l IH|l IH|nc co t f IHc IHt IHf
                    |a s idx d IHs IHi IHd|k es co IHe IHc|k ls IH|n c ls IHc IHl|a b IHa IHb|o ms IHo IHm]
      using cv_ind'; intros fed q A y Hy.
    - change (gen fed q CThis A) with (fin fed A A) in Hy. destruct (fn_fin _ _ _ _ Hy); auto.
    - change (gen fed q (CLit l) A) with (fin fed A (PLit l)) in Hy. destruct (fn_fin _ _ _ _ Hy) as [|[]]; auto.
    - change (gen fed q (CGlob g) A) with (fin fed A (PGlob g)) in Hy. destruct (fn_fin _ _ _ _ Hy) as [|[]]; auto.
    - change (gen fed q (CArg ax) A) with (fin fed A (PName ax)) in Hy. destruct (fn_fin _ _ _ _ Hy); auto.
    - change (gen fed q (CLabel n) A) with (fin fed A (PGet n)) in Hy. destruct (fn_fin _ _ _ _ Hy) as [|[]]; auto.
    - rewrite gen_COp in Hy. destruct (fn_fin _ _ _ _ Hy) as [H|H]; auto. now apply (gens_scope l IH) in H.
    - rewrite gen_CAttr in Hy. destruct (fn_fin _ _ _ _ Hy) as [H|H]; auto.
      cbn [args_of].
      assert (H' : In y (fn (gen false (0 :: q) a A)) \/ In y (fn (gen false (1 :: q) n A))).
      { destruct (attr_code_cases (gen false (0 :: q) a A) (gen false (1 :: q) n A)) as [(s & E & E2)|E2];
          rewrite E2 in H; cbn [fn flat_map] in H; rewrite !app_nil_r in H; try apply in_app_or in H; auto. }
      destruct H' as [H'|H']; [apply IHa in H'|apply IHn in H']; destruct H'; auto;
        right; apply in_or_app; auto.
    - rewrite gen_CBool in Hy. destruct (fn_fin _ _ _ _ Hy) as [H|H]; auto. now apply (gens_scope l IH) in H.
    - rewrite gen_CEqs in Hy. destruct (fn_fin _ _ _ _ Hy) as [H|H]; auto. now apply (gens_scope l IH) in H.
    - rewrite gen_CIf in Hy. destruct (fn_fin _ _ _ _ Hy) as [H|H]; auto.
      assert (Hic : forall z, In z (fn (if_cond_input wordch srepr gname pnum nc q A)) -> In z (fn A)).
      { intros z. unfold if_cond_input. destruct (_ || _); auto. cbn [fn flat_map]. now rewrite app_nil_r. }
      assert (Hib : forall z, In z (fn (if_branch_input wordch srepr gname pnum nc q A)) -> In z (fn A)).
      { intros z. unfold if_branch_input. destruct (_ || _); auto. intros []. }
      cbn [fn] in H. cbn [args_of]. apply in_app_or in H. destruct H as [H|H]; [|apply in_app_or in H; destruct H as [H|H]].
      + apply (opt_scope co IHc) in H. destruct H; auto. right. apply in_or_app. now left.
      + apply (opt_scope t IHt) in H. destruct H; auto. right. apply in_or_app. right. apply in_or_app. now left.
      + apply (opt_scope f IHf) in H. destruct H; auto. right. apply in_or_app. right. apply in_or_app. now right.
    - rewrite gen_CDefault in Hy. destruct (fn_fin _ _ _ _ Hy) as [H|H]; auto.
      cbn [fn] in H. rewrite flat_map_app in H. apply in_app_or in H. cbn [args_of].
      destruct H as [H|H].
      + unfold self_code in H. destruct s as [s|]; [|cbn in H; rewrite app_nil_r in H; auto].
        assert (H' : In y (fn (gen false (0 :: q) s A)) \/ In y (fn A)).
        { destruct (over_self (Some s)); cbn [flat_map] in H; rewrite app_nil_r in H; auto.
          now apply in_app_or in H. }
        destruct H' as [H'|H']; auto. apply IHs in H'. destruct H'; auto. right. apply in_or_app. now left.
      + cbn [flat_map] in H. rewrite app_nil_r in H. apply IHd in H. destruct H; auto.
        right. apply in_or_app. right. apply in_or_app. now right.
    - rewrite gen_CComp in Hy. destruct (fn_fin _ _ _ _ Hy) as [H|H]; auto.
      cbn [fn] in H. apply in_app_or in H. destruct H as [H|H]; auto.
      apply filter_In in H. destruct H as [H Hne]. cbn [args_of].
      assert (Hnx : y <> pname (print srepr gname pnum A)).
      { unfold teqb in Hne. destruct (text_eq_dec y _); [discriminate|auto]. }
      apply in_app_or in H. destruct H as [H|H].
      + apply (gens_scope es IHe) in H. destruct H as [[H|[]]|H]; [congruence|].
        right. apply in_or_app. now left.
      + destruct co as [c|]; [|destruct H]. apply IHc in H. destruct H as [[H|[]]|H]; [congruence|].
        right. apply in_or_app. now right.
    - rewrite gen_CItems in Hy. destruct (fn_fin _ _ _ _ Hy) as [H|H]; auto.
      cbn [fn flat_map] in H. apply in_app_or in H. destruct H as [H|H]; auto.
      right. now apply params_in, fn_names.
    - rewrite gen_CCache in Hy. destruct (fn_fin _ _ _ _ Hy) as [H|H]; auto.
      cbn [fn flat_map] in H. cbn [args_of]. apply in_app_or in H. destruct H as [H|H].
      + apply IHc in H. destruct H; auto. right. apply in_or_app. now left.
      + right. apply in_or_app. right. revert H. clear -IHl. generalize 1.
        induction IHl as [|[m d] ls Hd Hl IH]; intros i H; cbn in H; [destruct H|].
        cbn [flat_map snd] in *. apply in_or_app. apply in_app_or in H. destruct H as [H|H].
        * left. apply Hd in H. destruct H as [[]|H]; auto.
        * right. eapply IH; eauto.
    - rewrite gen_CPipe in Hy. cbn [args_of].
      destruct (fn_attach _ _ _ Hy) as [H|H].
      + apply IHa in H. destruct H; auto. right. apply in_or_app. now left.
      + apply IHb in H. destruct H as [H|H].
        * apply IHa in H. destruct H; auto. right. apply in_or_app. now left.
        * right. apply in_or_app. now right.
    - rewrite gen_CTap in Hy. destruct (fn_fin _ _ _ _ Hy) as [H|H]; auto.
      cbn [fn flat_map] in H. apply in_app_or in H. destruct H as [H|H].
      + apply IHo in H. cbn [args_of]. destruct H; auto. right. apply in_or_app. now left.
      + right. now apply params_in, fn_names.
  Qed.
End Scope.
