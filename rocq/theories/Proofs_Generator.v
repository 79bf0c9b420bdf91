(** The text of a converter that returns a generator, run next() by next(). *)
From Coq Require Import String Ascii List NArith ZArith Bool Arith Lia.
From Verif Require Import Model_Code Model_Eval Model_Converter Model_Source Spec_Frag Spec_Eval Spec_Converter
  Spec_Syntax Spec_Tree Spec_Source Spec_Writable Spec_Module Spec_Generator Proofs_Code Proofs_Eval Proofs_Den Proofs_Scope
  Proofs_Lex Proofs_Tree Proofs_Writable Proofs_Converter Proofs_Meaning Proofs_Sourced Proofs_SourceText Proofs_Module.
Import ListNotations.

Section Advance.
  Context {V W X : Type}.
  Variable pr : prims V W X.
  Variable args : list (text * V).
  Variable e : cv.
  Notation M := (@M V W X).
  Notation st := (@st V W).
  (** the same result in states that differ only in the generator's own labels *)
  Definition alike {B} (m m' : M B) : Prop := forall s t, R s t -> R (fst (m s)) (fst (m' t)) /\ snd (m s) = snd (m' t).
  Variable it : V -> M V.
  Hypothesis Hi : forall v, alike (it v) (den pr args e v).

  Definition follows (te : option (V -> M V)) (co : option cv) (i : iterator V W X) : Prop := forall s t, R s t ->
    exists t' r, next_item pr args e co i t t' r /\ R (fst (advance pr it te i s)) t' /\ snd (advance pr it te i s) = r.

  Lemma out_follows co v rest (f : W -> W * @istep V W X) w w' L s t :
    f w = (w', IYield v rest) -> cond_is pr args co v (w', L) t true -> R s t ->
    exists t' r, next_item pr args e co (It f) (w, L) t' r /\
      R (fst (bind (it v) (fun u => ret (Some (u, rest))) s)) t' /\
      snd (bind (it v) (fun u => ret (Some (u, rest))) s) = r.
  Proof.
    intros Hf Hc HR. destruct (Hi v s t HR) as [H1 H2]. unfold bind, ret.
    destruct (it v s) as [s' [u|x]]; destruct (den pr args e v t) as [t' r'] eqn:D; cbn [fst snd] in *; subst r'.
    - exists t', (Val (Some (u, rest))). repeat split; try apply H1. eapply ni_yield; eauto.
    - exists t', (Exc x). repeat split; try apply H1. eapply ni_item_fails; eauto.
  Qed.

  Lemma none_follows i : follows None None i.
  Proof.
    destruct i as [next]. intros s [w0 L] [HW HL]. cbn [fst snd] in HW, HL.
    destruct (next (fst s)) as [w [|x|v rest]] eqn:En; cbn [advance]; rewrite En; rewrite HW in En.
    - exists (w, L), (Val None). repeat split; auto. now apply ni_end.
    - exists (w, L), (Exc x). repeat split; auto. now apply ni_source_fails.
    - assert (HR1 : R (w, snd s) (w, L)) by (split; auto). eapply out_follows; eauto. split; reflexivity.
  Qed.

  Lemma some_follows t c i : (forall v, alike (t v) (den pr args c v)) -> follows (Some t) (Some c) i.
  Proof.
    intros Ht.
    refine ((fix F (i : iterator V W X) : follows (Some t) (Some c) i := match i with It next => _ end) i).
    intros s [w0 L] [HW HL]. cbn [fst snd] in HW, HL.
    pose proof (match snd (next (fst s)) as r return match r with IYield _ rest => follows (Some t) (Some c) rest | _ => True end
                with IYield _ rest => F rest | _ => I end) as HF.
    destruct (next (fst s)) as [w [|x|v rest]] eqn:En; cbn [snd] in HF; cbn [advance]; rewrite En; rewrite HW in En.
    - exists (w, L), (Val None). repeat split; auto. now apply ni_end.
    - exists (w, L), (Exc x). repeat split; auto. now apply ni_source_fails.
    - assert (HR1 : R (w, snd s) (w, L)) by (split; auto).
      change ((fix advance (i1 : iterator V W X) : M (option (V * iterator V W X)) := _) rest) with (advance pr it (Some t) rest).
      destruct (Ht v _ _ HR1) as [H1 H2].
      set (k := fun c0 => bind (prim (truth pr c0)) _). unfold bind at 1 2.
      destruct (t v (w, snd s)) as [s1 [b|x]]; destruct (den pr args c v (w, L)) as [t1 r1] eqn:D; cbn [fst snd] in *; subst r1.
      2:{ exists t1, (Exc x). repeat split; try apply H1. eapply ni_cond_fails; eauto. left. exact D. }
      subst k. cbv beta. set (o := bind (it v) _). unfold bind, prim.
      destruct (truth pr b (fst s1)) as [w1 [tb|x]] eqn:Tb.
      2:{ exists (w1, snd t1), (Exc x). destruct H1 as [G1 G2]. repeat split; auto.
          eapply ni_cond_fails; eauto. right. exists b, t1. split; [exact D|]. unfold prim. rewrite <- G1, Tb. reflexivity. }
      assert (HR2 : R (w1, snd s1) (w1, snd t1)) by (destruct H1; split; auto).
      assert (HC : cond_is pr args (Some c) v (w, L) (w1, snd t1) tb).
      { exists b, t1. split; [exact D|]. unfold prim. destruct H1 as [G1 _]. rewrite <- G1, Tb. reflexivity. }
      destruct tb.
      + eapply out_follows; eauto.
      + destruct (HF _ _ HR2) as (t' & r & N & Q1 & Q2). exists t', r. repeat split; try apply Q1; auto.
        eapply ni_skip; eauto.
  Qed.

  Lemma all_generate te co : match te, co with
      | Some t, Some c => forall v, alike (t v) (den pr args c v)
      | None, None => True
      | _, _ => False
      end -> forall i, generates pr args e co {| source := i; item := it; test := te |}.
  Proof.
    intros H i j s. cbn [item test].
    assert (F : follows te co j) by (destruct te, co; try contradiction; [now apply some_follows|apply none_follows]).
    destruct (F s s) as (t' & r & N & Q1 & Q2); [split; auto|]. exists t', r. split; [exact N|].
    destruct Q1 as [A B]. repeat split; auto.
  Qed.
End Advance.

Section Made.
  Context {V W X : Type}.
  Variable pr : prims V W X.
  Variable glob : text -> option V.
  Variable key : text -> lname.
  Variable printable : N -> bool.
  Variables (wordch : N -> bool) (gname : nat -> text) (pnum : list nat -> nat)
            (pname : text -> text) (hname : list nat -> text) (tname : text -> text).
  Variable tab : table.
  Variable role_of : text -> role.
  Notation loc := (loc role_of).
  Notation fnm := (fnm role_of).
  Notation srepr := (py_repr printable).
  Notation gen := (gen wordch srepr gname pnum pname hname).
  Notation body := (body wordch srepr gname pnum pname hname tname).
  Notation tree := (tree gname pnum).
  Notation env := (list (text * V)).
  Notation M := (@M V W X).
  Notation src := (src key pnum loc fnm).
  Notation comp := (comp pr glob key tab).
  Notation stmts_src := (stmts_src key pnum role_of).
  Hypothesis Hmain : forall e, Main pr glob key tab gname pnum loc fnm e.
  Hypothesis Hn : names_ok wordch srepr gname pname hname tname.
  Hypothesis Hpy : py_ok pr.
  Hypothesis Htests : tests_ok pr.
  Variables (e : cv) (co : option cv).

  Definition made (args : env) (m : M (@generator V W X)) (m' : M (iterator V W X)) : Prop :=
    forall s t, R s t -> R (fst (m s)) (fst (m' t)) /\
      match snd (m s), snd (m' t) with
      | Val g, Val i => source g = i /\ generates pr args e co g
      | Exc x, Exc x' => x = x'
      | _, _ => False
      end.
  Definition fine_arg (args E : env) (y : text) : Prop :=
    y <> [] /\ y <> T "data_" /\ (forall t, pname t <> y) /\ (forall t, tname t <> y) /\
    exists u, lookup E y = Some u /\ lookup args y = Some u.
  Lemma fine_more args E y x v : fine_arg args E y -> y <> x -> fine_arg args ((x, v) :: E) y.
  Proof.
    intros (A1 & A2 & A3 & A4 & u & A5 & A6) N. repeat split; auto. exists u. split; [|exact A6].
    cbn. now destruct (text_eq_dec y x).
  Qed.
  Lemma gen_alike args c q E x v : frag true false false c = true -> lookup E x = Some v ->
    forallb wordch x = true -> x <> [] -> (forall y, In y (args_of c) -> fine_arg args E y) ->
    alike (eval pr E (gen false q c (PName x))) (den pr args c v).
  Proof.
    intros Hf Hx Hw Hxne Ha s t HR. destruct Hpy as [Hp1 Hp2].
    assert (HS : sim pr (fun _ => True) E (PName x) v (strict c) (eval pr E (gen false q c (PName x))) (den pr args c v)).
    { destruct (both pr Hp1 Hp2 true (fun _ => Htests) wordch srepr gname pnum pname hname
                  (nk_word _ _ _ _ _ _ Hn) (nk_g _ _ _ _ _ _ Hn) (nk_h _ _ _ _ _ _ Hn) (nk_s _ _ _ _ _ _ Hn)) with (args := args) (c := c)
        as [HM _].
      { intros t'. destruct (nk_p _ _ _ _ _ _ Hn t'). split; [now apply word_simple|auto]. }
      apply (HM false false); auto.
      - intros _. now apply word_simple.
      - split; intros; exact I.
      - apply avoid_name.
      - intros y Hy. destruct (Ha y Hy) as (H1 & H2 & H3 & _ & H4). repeat split; auto. }
    destruct (HS s t HR (I_name pr E (snd s) x v Hx)) as (H1 & H2 & _). split; auto.
  Qed.
  Lemma alike_meq {B} (m m1 m' : M B) : meq m m1 -> alike m1 m' -> alike m m'.
  Proof. intros H A s t HR. rewrite (H s). now apply A. Qed.

  Notation last_stage := (CComp KSrc [e] co).
  Lemma exec_made l : forall i x sc bd,
    scoped loc bd sc -> (forall y, In y (fst (body i x (l ++ [last_stage]))) -> In (fst y) sc) -> In x bd ->
    (forall y, In y (flat_map args_of (l ++ [last_stage])) -> In y bd) ->
    stmts_src true bd (fst (body i x (l ++ [last_stage]))) (snd (body i x (l ++ [last_stage]))) ->
    known tab gname pnum (flat_map (fun p => defs (snd p)) (fst (body i x (l ++ [last_stage]))) ++
                          defs (snd (body i x (l ++ [last_stage])))) ->
    forallb (frag true false false) (l ++ [last_stage]) = true ->
    exists n0, forall n, n0 <= n -> exists m,
      exec_generator pr (comp n) sc
        (map (fun p => SAssign (fst p) (tree (snd p))) (fst (body i x (l ++ [last_stage]))) ++
         [SReturn (tree (snd (body i x (l ++ [last_stage]))))]) = Some m /\
      forall args E v, bound bd E -> lookup E x = Some v -> forallb wordch x = true -> x <> [] ->
        (forall y, In y (flat_map args_of (l ++ [last_stage])) -> fine_arg args E y) ->
        made args (m E) (bind (in_turn pr args l v) (fun u => prim (iter pr u))).
  Proof.
    induction l as [|c l IH]; intros i x sc bd Sc HI Hx Hargs SS K F.
    - cbn [app Model_Converter.body fst snd map flat_map] in *.
      set (code := gen false [i] last_stage (PName x)) in *.
      set (y := pname (print srepr gname pnum (PName x))).
      assert (Ec : code = PComp KSrc [gen false [1; i] e (PName y)] y (PName x)
                      (match co with Some c => Some (gen false [0; i] c (PName y)) | None => None end)) by reflexivity.
      rewrite Ec in *. cbn [stmts_src Proofs_Module.stmts_src Proofs_Meaning.src defs forallb flat_map app] in SS, K. ands.
      cbn [forallb frag] in F. ands.
      assert (Scy : scoped loc (y :: bd) (y :: sc)).
      { destruct Sc as [A B]. split; intros z [<-|I]; auto; [now left|right; auto]. }
      rewrite ?app_nil_r in K. apply known_app in K as [K1 K2].
      destruct (Hmain (gen false [1; i] e (PName y)) (y :: sc) (y :: bd) Scy) as [n1 N1]; auto.
      destruct (Hmain (PName x) sc bd Sc) as [n2 N2]; auto. { intros f h []. }
      assert (N3 : exists n3, forall n, n3 <= n -> exists mc,
        match co with None => Some None | Some c => option_map Some (comp n (y :: sc) (tree (gen false [0; i] c (PName y)))) end = Some mc /\
        match mc, co with
        | Some m, Some c => forall E, bound (y :: bd) E -> meq (m E) (eval pr E (gen false [0; i] c (PName y)))
        | None, None => True | _, _ => False end).
      { destruct co as [c|]; [|exists 0; intros n _; exists None; auto].
        destruct (Hmain (gen false [0; i] c (PName y)) (y :: sc) (y :: bd) Scy) as [n3 N3]; auto.
        exists n3. intros n Hle. destruct (N3 n Hle) as (m & E1 & L1). exists (Some m). rewrite E1. split; [reflexivity|exact L1]. }
      destruct N3 as [n3 N3].
      exists (Nat.max n1 (Nat.max n2 n3)). intros n Hle.
      destruct (N1 n ltac:(lia)) as (m1 & E1 & L1), (N2 n ltac:(lia)) as (m2 & E2 & L2), (N3 n ltac:(lia)) as (m3 & E3 & L3).
      cbn [Spec_Tree.tree comp_tree map exec_generator]. cbn [Spec_Tree.tree] in E2. rewrite E2, E1.
      replace (match (match match co with Some c => Some (gen false [0; i] c (PName y)) | None => None end with
                      | Some c => Some (tree c) | None => None end) with
               | None => Some None | Some a => option_map Some (comp n (y :: sc) a) end) with (Some m3)
        by (rewrite <- E3; destruct co; reflexivity).
      eexists. split; [reflexivity|]. intros args E v B Lx Wx Nx Ha s t HR.
      cbn [in_turn]. unfold bind, prim. rewrite (L2 E B s). cbn [eval]. rewrite Lx. unfold ret. destruct HR as [HW HL]. rewrite <- HW.
      destruct (iter pr v (fst s)) as [w [it|xx]]; cbn [fst snd]; [|split; [split; auto|reflexivity]].
      split; [split; auto|]. split; [reflexivity|].
      assert (Hy : forall u, lookup ((y, u) :: E) y = Some u) by (intros u; cbn; destruct (text_eq_dec y y); congruence).
      assert (By : forall u, bound (y :: bd) ((y, u) :: E)).
      { intros u. apply bound_more. exact B. }
      destruct (nk_p _ _ _ _ _ _ Hn (print srepr gname pnum (PName x))) as [Wy Ny].
      apply all_generate.
      + intros u. eapply alike_meq; [apply L1, By|]. apply gen_alike; auto.
        intros z I. apply fine_more; [apply Ha; cbn [flat_map args_of]; rewrite ?app_nil_r; apply in_or_app; now left|].
        intros ->. destruct (Ha y) as (_ & _ & A & _).
        { cbn [flat_map args_of]. rewrite ?app_nil_r. apply in_or_app. now left. }
        now apply (A (print srepr gname pnum (PName x))).
      + destruct m3 as [m3|], co as [c|]; try contradiction; cbn [option_map]; auto.
        intros u. eapply alike_meq; [apply L3, By|]. cbn [optb] in *. apply gen_alike; auto.
        intros z I. apply fine_more; [apply Ha; cbn [flat_map args_of]; rewrite ?app_nil_r; apply in_or_app; now right|].
        intros ->. destruct (Ha y) as (_ & _ & A & _).
        { cbn [flat_map args_of]. rewrite ?app_nil_r. apply in_or_app. now right. }
        now apply (A (print srepr gname pnum (PName x))).
    - specialize (IH (S i) (tname x) sc (tname x :: bd)).
      assert (Eb : body i x ((c :: l) ++ [last_stage]) =
                   ((tname x, gen false [i] c (PName x)) :: fst (body (S i) (tname x) (l ++ [last_stage])),
                    snd (body (S i) (tname x) (l ++ [last_stage])))).
      { cbn [app Model_Converter.body]. destruct (l ++ [last_stage]) as [|s2 r] eqn:El; [destruct l; discriminate|].
        now destruct (body (S i) (tname x) (s2 :: r)). }
      rewrite Eb in *. clear Eb. cbn [fst snd map app flat_map forallb Proofs_Module.stmts_src] in *.
      destruct SS as (S1 & S2 & S3). rewrite <- app_assoc in K. apply known_app in K as [K1 K2].
      apply andb_true_iff in F as [F1 F2].
      destruct (Hmain _ sc bd Sc S1 K1) as [n1 N1].
      destruct IH as [n2 N2]; auto.
      { destruct Sc as [A B]. split; [|exact B]. intros y [<-|J]; [apply (HI (tname x, gen false [i] c (PName x))); now left|now apply A]. }
      { intros y I. apply HI. now right. }
      { now left. }
      { intros y I. right. apply Hargs. apply in_or_app. now right. }
      exists (Nat.max n1 n2). intros n Hle. destruct (N1 n ltac:(lia)) as (m1 & E1 & L1), (N2 n ltac:(lia)) as (m2 & E2 & L2).
      cbn [exec_generator]. rewrite E1, E2. eexists. split; [reflexivity|].
      intros args E v B Lx Wx Nx Ha s t HR.
      assert (A1 : alike (m1 E) (den pr args c v)).
      { eapply alike_meq; [apply L1, B|]. apply gen_alike; auto. intros y I. apply Ha, in_or_app. now left. }
      destruct (A1 s t HR) as [Q1 Q2]. cbn [in_turn].
      assert (Eq : forall m' : V -> M (iterator V W X), bind (bind (den pr args c v) (in_turn pr args l)) m' t =
                   match den pr args c v t with (t1, Val u) => bind (in_turn pr args l u) m' t1 | (t1, Exc x0) => (t1, Exc x0) end).
      { intros m'. unfold bind. now destruct (den pr args c v t) as [t1 [u|x0]]. }
      rewrite Eq. clear Eq.
      assert (Eq : forall k : V -> M (@generator V W X), bind (m1 E) k s =
                   match m1 E s with (s1, Val u) => k u s1 | (s1, Exc x0) => (s1, Exc x0) end) by reflexivity.
      rewrite Eq. clear Eq.
      destruct (m1 E s) as [s1 [u|xx]]; destruct (den pr args c v t) as [t1 r1]; cbn [fst snd] in *; subst r1; [|split; [exact Q1|reflexivity]].
      destruct (nk_t _ _ _ _ _ _ Hn x) as [Ht1 Ht2].
      assert (Q : made args (m2 ((tname x, u) :: E)) (bind (in_turn pr args l u) (fun u => prim (iter pr u)))).
      { apply L2; auto.
        - apply bound_more. exact B.
        - cbn. destruct (text_eq_dec (tname x) (tname x)); congruence.
        - intros y I. assert (Hy : fine_arg args E y) by (apply Ha, in_or_app; now right).
          apply fine_more; auto. destruct Hy as (_ & _ & _ & A & _). intros ->. now apply (A x). }
      apply (Q s1 t1 Q1).
  Qed.
End Made.
