(** Proofs about the text of reduce blocks. *)
From Coq Require Import String List ZArith NArith Bool Arith Lia.
From Verif Require Import Model_Reducers Model_Code Model_AggText Spec_AggText.
Import ListNotations.

(** *** str.replace *)
Lemma starts_app p t : starts p (p ++ t) = true.
Proof. induction p as [|c p IH]; [reflexivity|]. cbn [app starts]. now rewrite N.eqb_refl. Qed.
Lemma starts_spec p t : starts p t = true <-> exists r, t = p ++ r.
Proof.
  split.
  - revert t; induction p as [|c p IH]; intros t H; [now exists t|]. destruct t as [|d t]; [discriminate|].
    cbn [starts] in H. apply andb_true_iff in H as [E H]. apply N.eqb_eq in E as ->.
    destruct (IH _ H) as (r & ->). now exists r.
  - intros (r & ->). apply starts_app.
Qed.
Lemma contains_spec p t : contains p t = true <-> exists u r, t = u ++ p ++ r.
Proof.
  split.
  - induction t as [|c t IH]; intros H.
    + cbn [contains] in H. rewrite orb_false_r in H. apply starts_spec in H as (r & E). exists [], r. exact E.
    + cbn [contains] in H. apply orb_true_iff in H as [H|H].
      * apply starts_spec in H as (r & E). exists [], r. exact E.
      * destruct (IH H) as (u & r & ->). exists (c :: u), r. reflexivity.
  - intros (u & r & ->). induction u as [|c u IH].
    + cbn [app]. destruct (p ++ r) eqn:E; cbn [contains]; rewrite <- E, starts_app; reflexivity.
    + cbn [app contains]. rewrite IH. apply orb_true_r.
Qed.

Lemma replace_in_enough old new : old <> [] -> forall n m t, length t <= n -> length t <= m ->
  replace_in n old new t = replace_in m old new t.
Proof.
  intros NE. induction n as [|n IH]; intros m t Hn Hm.
  - destruct t; [|cbn in Hn; lia]. destruct m; reflexivity.
  - destruct m as [|m]; [destruct t; [reflexivity|cbn in Hm; lia]|]. cbn [replace_in].
    destruct t as [|c t]; [reflexivity|]. cbn [length] in *.
    destruct (starts old (c :: t)) eqn:E.
    + f_equal. apply IH; rewrite skipn_length; cbn [length]; destruct old; try congruence; cbn [length]; lia.
    + f_equal. apply IH; lia.
Qed.
Lemma replace_cons old new c t : old <> [] -> starts old (c :: t) = false -> replace old new (c :: t) = c :: replace old new t.
Proof. intros NE H. unfold replace. cbn [length replace_in]. now rewrite H. Qed.
Lemma replace_old old new t : old <> [] -> replace old new (old ++ t) = new ++ replace old new t.
Proof.
  intros NE. unfold replace. destruct old as [|c old]; [congruence|].
  cbn [app length replace_in]. pose proof (starts_app (c :: old) t) as S. cbn [app] in S. rewrite S.
  cbn [skipn length]. f_equal. rewrite skipn_app. rewrite skipn_all2 by lia. cbn [app].
  replace (length old - length old) with 0 by lia. cbn [skipn].
  apply replace_in_enough; [discriminate|rewrite app_length; lia|lia].
Qed.
Lemma replace_none old new t : old <> [] -> contains old t = false -> replace old new t = t.
Proof.
  intros NE. induction t as [|c t IH]; intros H; [reflexivity|]. cbn [contains] in H. apply orb_false_iff in H as [H1 H2].
  rewrite replace_cons by auto. now rewrite IH.
Qed.
Lemma starts_sep old u c v : ~ In c old -> starts old (u ++ c :: v) = starts old u.
Proof.
  revert u; induction old as [|d old IH]; intros u H; [reflexivity|]. destruct u as [|e u]; cbn [app starts].
  - destruct (N.eqb_spec d c) as [->|]; [exfalso; apply H; now left|reflexivity].
  - rewrite IH; [reflexivity|]. intros I. apply H. now right.
Qed.
Lemma replace_sep old new : old <> [] -> forall u c v, ~ In c old ->
  replace old new (u ++ c :: v) = replace old new u ++ c :: replace old new v.
Proof.
  intros NE u c v H. remember (length u) as n eqn:E. revert u E. induction n as [n IH] using lt_wf_ind. intros u E.
  destruct u as [|d u].
  - cbn [app]. rewrite replace_cons; [reflexivity|auto|]. destruct old as [|o old]; [congruence|].
    cbn [starts]. destruct (N.eqb_spec o c) as [->|]; [exfalso; apply H; now left|reflexivity].
  - destruct (starts old (d :: u)) eqn:S.
    + apply starts_spec in S as (r & E'). rewrite E'. rewrite <- app_assoc. rewrite !replace_old by auto.
      rewrite (IH (length r)) with (u := r); auto.
      * now rewrite app_assoc.
      * subst n. rewrite E', app_length. destruct old; [congruence|cbn [length]; lia].
    + rewrite (replace_cons old new d u) by auto. change ((d :: u) ++ c :: v) with (d :: (u ++ c :: v)).
      rewrite replace_cons; auto.
      * cbn [app]. f_equal. apply (IH (length u)); [subst n; cbn [length]; lia|reflexivity].
      * change (d :: u ++ c :: v) with ((d :: u) ++ c :: v). now rewrite starts_sep.
Qed.
Lemma replace_char c t : replace [c] [] t = filter (fun d => negb (N.eqb d c)) t.
Proof.
  induction t as [|d t IH]; [reflexivity|]. cbn [filter]. destruct (N.eqb_spec d c) as [->|N].
  - change (c :: t) with ([c] ++ t). rewrite replace_old by discriminate. exact IH.
  - rewrite replace_cons; [|discriminate|]. { cbn [negb]. now rewrite IH. }
    cbn [starts]. destruct (N.eqb_spec c d); [congruence|reflexivity].
Qed.

(** *** replacing in filled templates *)
Lemma fill_app x a l r : fill x a (l ++ r) = fill x a l ++ fill x a r.
Proof. unfold fill. apply flat_map_app. Qed.
Lemma fill_cons x a p l : fill x a (p :: l) = fill1 x a p ++ fill x a l.
Proof. reflexivity. Qed.

Section Replace.
  Variable sep : N -> bool.
  Variable old : text.
  Variable bad : text -> bool.
  Hypothesis old_ne : old <> [].
  Hypothesis sep_old : forall c, sep c = true -> ~ In c old.
  Hypothesis bad_run : forall w, bad w = false -> contains old w = false.

  Definition chars (l : list piece) : option text :=
    fold_right (fun p r => match p, r with Ch c, Some t => Some (c :: t) | _, _ => None end) (Some []) l.
  Lemma chars_fill x a l t : chars l = Some t -> fill x a l = t.
  Proof.
    revert t; induction l as [|p l IH]; intros t H.
    - now injection H as <-.
    - cbn [chars fold_right] in H. destruct p; try discriminate. fold (chars l) in H.
      destruct (chars l) as [u|]; [|discriminate]. injection H as <-. rewrite fill_cons. cbn [fill1]. now rewrite (IH u).
  Qed.
  Definition seg_ok (l : list piece) : bool :=
    match l with
    | [Arg n] => true
    | Res :: w => match chars w with Some t => negb (bad t) | None => false end
    | w => match chars w with Some t => negb (bad t) | None => false end
    end.
  Fixpoint segs_ok (acc l : list piece) : bool :=
    match l with
    | [] => seg_ok (rev acc)
    | Ch c :: r => if sep c then seg_ok (rev acc) && segs_ok [] r else segs_ok (Ch c :: acc) r
    | p :: r => segs_ok (p :: acc) r
    end.
  Variable a : nat -> text.
  Variable holes : nat -> Prop.
  Hypothesis clean : forall n, holes n -> contains old (a n) = false.
  Definition uses_holes (l : list piece) : Prop := forall n, In (Arg n) l -> holes n.

  Lemma seg_replace new l : seg_ok l = true -> uses_holes l -> replace old new (fill old a l) = fill new a l.
  Proof.
    intros H U. assert (CH : forall w, match chars w with Some t => negb (bad t) | None => false end = true ->
      replace old new (fill old a w) = fill new a w).
    { intros w Hw. destruct (chars w) as [t|] eqn:E; [|discriminate]. rewrite !(chars_fill _ _ _ _ E).
      apply replace_none; [exact old_ne|]. apply bad_run. now destruct (bad t). }
    destruct l as [|[c| |n] l]; auto.
    - rewrite !fill_cons. cbn [fill1]. rewrite replace_old by auto. f_equal. now apply CH.
    - destruct l as [|p l].
      + rewrite !fill_cons. cbn [fill1 fill flat_map]. rewrite app_nil_r. apply replace_none; auto. apply clean. apply U. now left.
      + exfalso. cbn [seg_ok] in H. destruct (chars (Arg n :: p :: l)) eqn:E; [|discriminate]. cbn in E. discriminate.
  Qed.
  Lemma segs_replace new l : forall acc, segs_ok acc l = true -> uses_holes (rev acc ++ l) ->
    replace old new (fill old a (rev acc ++ l)) = fill new a (rev acc ++ l).
  Proof.
    induction l as [|p l IH]; intros acc H U.
    - cbn [segs_ok] in H. rewrite app_nil_r in *. now apply seg_replace.
    - assert (SH : forall p, rev acc ++ p :: l = rev (p :: acc) ++ l) by (intros; cbn [rev]; now rewrite <- app_assoc).
      destruct p as [c| |n].
      + cbn [segs_ok] in H. destruct (sep c) eqn:S.
        * apply andb_true_iff in H as [H1 H2]. rewrite !fill_app, !fill_cons. cbn [fill1 app].
          rewrite replace_sep by auto. f_equal; [|f_equal].
          -- apply seg_replace; auto. intros n I. apply U. apply in_or_app. now left.
          -- apply (IH [] H2). intros n I. apply U. apply in_or_app. right. now right.
        * rewrite SH in *. now apply IH.
      + rewrite SH in *. now apply IH.
      + rewrite SH in *. now apply IH.
  Qed.
  Lemma fill_replace new l : segs_ok [] l = true -> uses_holes l -> replace old new (fill old a l) = fill new a l.
  Proof. intros H U. exact (segs_replace new l [] H U). Qed.
End Replace.

(** *** lines *)
Lemma intersperse_cons (s : text) (u : text) (l : list text) :
  l <> [] -> intersperse s (u :: l) = u ++ s ++ intersperse s l.
Proof. destruct l; [congruence|reflexivity]. Qed.
Lemma first_line (u v u' v' : text) : ~ In 10%N u -> ~ In 10%N u' -> u ++ 10%N :: v = u' ++ 10%N :: v' -> u = u' /\ v = v'.
Proof.
  revert u'; induction u as [|c u IH]; intros u' H H' E.
  - destruct u' as [|d u']; [injection E; auto|]. injection E as <- _. exfalso. apply H'. now left.
  - destruct u' as [|d u'].
    + injection E as -> _. exfalso. apply H. now left.
    + injection E as -> E. destruct (IH u') as [-> ->]; auto; intros I; [apply H|apply H']; now right.
Qed.
Lemma lines_inj : forall l l' : list text, l <> [] -> l' <> [] ->
  (forall u, In u l -> ~ In 10%N u) -> (forall u, In u l' -> ~ In 10%N u) ->
  intersperse nl l = intersperse nl l' -> l = l'.
Proof.
  induction l as [|u l IH]; intros l' NE NE' H H' E; [congruence|].
  destruct l' as [|u' l']; [congruence|].
  assert (Hu : ~ In 10%N u) by (apply H; now left). assert (Hu' : ~ In 10%N u') by (apply H'; now left).
  destruct l as [|v l], l' as [|v' l'].
  - cbn in E. now subst.
  - rewrite (intersperse_cons nl u' (v' :: l')) in E by discriminate. cbn [intersperse] in E. exfalso. apply Hu. rewrite E.
    apply in_or_app. right. now left.
  - rewrite (intersperse_cons nl u (v :: l)) in E by discriminate. cbn [intersperse] in E. exfalso. apply Hu'. rewrite <- E.
    apply in_or_app. right. now left.
  - rewrite (intersperse_cons nl u), (intersperse_cons nl u') in E by discriminate. unfold nl at 1 3 in E. cbn [app] in E.
    destruct (first_line _ _ _ _ Hu Hu' E) as [-> E']. f_equal.
    apply IH; try discriminate; auto; intros w I; [apply H|apply H']; now right.
Qed.

(** *** comparing templates *)
Definition eqs := list (nat * nat).
Definition known (e : eqs) (n m : nat) : bool := existsb (fun p => Nat.eqb (fst p) n && Nat.eqb (snd p) m) e.
(** the hole that holds the name of a function *)
Definition namehole : nat := 4.
(** the hole that holds several arguments *)
Definition resthole : nat := 6.
Definition paren (l : list piece) : bool := match l with Ch c :: _ => N.eqb c 40 | _ => false end.
Fixpoint front (e : eqs) (l l' : list piece) {struct l} : option (eqs * list piece * list piece) :=
  match l, l' with
  | Ch c :: r, Ch d :: r' => if N.eqb c d then front e r r' else None
  | Res :: r, Res :: r' => front e r r'
  | Arg n :: r, Arg m :: r' =>
      if known e n m then front e r r'
      else if Nat.eqb n namehole && Nat.eqb m namehole && paren r && paren r' then front ((n, m) :: e) r r'
      else Some (e, l, l')
  | _, _ => Some (e, l, l')
  end.
Fixpoint back (e : eqs) (l l' : list piece) {struct l} : option (list piece * list piece) :=
  match l, l' with
  | Ch c :: r, Ch d :: r' => if N.eqb c d then back e r r' else None
  | Res :: r, Res :: r' => back e r r'
  | Arg n :: r, Arg m :: r' => if known e n m then back e r r' else Some (l, l')
  | _, _ => Some (l, l')
  end.
Definition malformed (l : list piece) : bool :=
  match l with
  | Arg m :: Ch c :: Ch d :: _ => Nat.eqb m namehole && N.eqb c 40 && N.eqb d 44
  | _ => false
  end.
(** one hole against a text that has the same hole and something else in it *)
Definition longer (e : eqs) (n : nat) (l : list piece) : bool :=
  match l with
  | _ :: _ :: _ => existsb (fun p => match p with Arg m => known e n m | _ => false end) l
  | _ => false
  end.
Definition shorter (e : eqs) (l : list piece) (m : nat) : bool :=
  match l with
  | _ :: _ :: _ => existsb (fun p => match p with Arg n => known e n m | _ => false end) l
  | _ => false
  end.
Definition core (e : eqs) (l l' : list piece) : option (eqs * list piece * list piece) :=
  match front e l l' with
  | None => None
  | Some (e1, r, r') =>
      match back e1 (rev r) (rev r') with None => None | Some (s, s') => Some (e1, rev s, rev s') end
  end.
Definition nores (l : list piece) : list piece := filter (fun p => match p with Res => false | _ => true end) l.
(** None: no two fillings give the same text *)
Definition learn_line (e : eqs) (l l' : list piece) : option eqs :=
  match core e (nores l) (nores l') with
  | None => None
  | Some (e1, r, r') =>
      match r, r' with
      | [], [] => Some e1
      | [], _ :: _ => None
      | _ :: _, [] => None
      | [Arg n], [Arg m] => Some ((n, m) :: e1)
      | [Arg n], _ => if malformed r' && negb (Nat.eqb n resthole) || longer e1 n r' then None else Some e1
      | _, [Arg m] => if malformed r && negb (Nat.eqb m resthole) || shorter e1 r m then None else Some e1
      | _, _ => Some e1
      end
  end.
Fixpoint learn (e : eqs) (ls ls' : list (list piece)) : option eqs :=
  match ls, ls' with
  | [], [] => Some e
  | l :: r, l' :: r' => match learn_line e l l' with None => None | Some e1 => learn e1 r r' end
  | _, _ => None
  end.
Definition align_line (e : eqs) (l l' : list piece) : bool :=
  match core e l l' with
  | None => true
  | Some (_, r, r') => forallb (fun p => match p with Res => false | _ => true end) (r ++ r')
  end.
Fixpoint align (e : eqs) (ls ls' : list (list piece)) : bool :=
  match ls, ls' with
  | [], [] => true
  | l :: r, l' :: r' => align_line e l l' && align e r r'
  | _, _ => true
  end.
Definition clash (ls ls' : list (list piece)) : bool :=
  match learn [] ls ls' with
  | None => true
  | Some e => match learn e ls ls' with None => true | Some _ => false end
  end.
Definition pair_ok (ls ls' : list (list piece)) : bool :=
  match learn [] ls ls' with
  | None => true
  | Some e => match learn e ls ls' with None => true | Some e' => align e' ls ls' end
  end.

Lemma word_paren f g r s : forallb wordc f = true -> forallb wordc g = true ->
  f ++ 40%N :: r = g ++ 40%N :: s -> f = g /\ r = s.
Proof.
  revert g; induction f as [|c f IH]; intros g F G E.
  - destruct g as [|d g]; [injection E; auto|]. injection E as <- _. discriminate G.
  - destruct g as [|d g]; [injection E as -> _; discriminate F|]. injection E as -> E.
    cbn [forallb] in F, G. apply andb_true_iff in F as [_ F]. apply andb_true_iff in G as [_ G].
    destruct (IH g F G E) as [-> ->]. auto.
Qed.

Section Compare.
  Variables a a' : nat -> text.
  Variables u u' : nat -> Prop.      (* the holes in use *)
  Hypothesis ne : forall n, u n -> a n <> [].
  Hypothesis ne' : forall n, u' n -> a' n <> [].
  Hypothesis nm : u namehole -> is_word (a namehole).
  Hypothesis nm' : u' namehole -> is_word (a' namehole).
  Hypothesis ok : forall n, u n -> n <> resthole -> not_call_of_nothing (a n).
  Hypothesis ok' : forall n, u' n -> n <> resthole -> not_call_of_nothing (a' n).
  Definition holds (e : eqs) : Prop := forall n m, In (n, m) e -> a n = a' m.
  Lemma known_in e n m : holds e -> known e n m = true -> a n = a' m.
  Proof.
    intros H K. unfold known in K. apply existsb_exists in K as ([n' m'] & I & E). cbn [fst snd] in E.
    apply andb_true_iff in E as [E1 E2]. apply Nat.eqb_eq in E1 as ->. apply Nat.eqb_eq in E2 as ->. auto.
  Qed.
  Lemma front_sound l : forall l' e, uses_holes u l -> uses_holes u' l' -> holds e -> fill [] a l = fill [] a' l' ->
    exists e1 r r', front e l l' = Some (e1, r, r') /\ holds e1 /\ uses_holes u r /\ uses_holes u' r' /\
      fill [] a r = fill [] a' r' /\ (forall x, fill x a r = fill x a' r' -> fill x a l = fill x a' l').
  Proof.
    induction l as [|p l IH]; intros l' e U U' H E.
    - exists e, [], l'. destruct l'; repeat split; auto.
    - assert (Ul : uses_holes u l) by (intros n I; apply U; now right).
      destruct l' as [|p' l'].
      + exists e, (p :: l), []. destruct p; repeat split; auto.
      + assert (Ul' : uses_holes u' l') by (intros n I; apply U'; now right).
        assert (STOP : forall y, front e (p :: l) (p' :: l') = Some (e, p :: l, p' :: l') -> y = tt ->
          exists e1 r r', front e (p :: l) (p' :: l') = Some (e1, r, r') /\ holds e1 /\ uses_holes u r /\ uses_holes u' r' /\
          fill [] a r = fill [] a' r' /\ (forall x, fill x a r = fill x a' r' -> fill x a (p :: l) = fill x a' (p' :: l'))).
        { intros y F _. exists e, (p :: l), (p' :: l'). repeat split; auto. }
        destruct p as [c| |n], p' as [d| |m]; try (apply (STOP tt); reflexivity).
        * cbn [front]. rewrite !fill_cons in E. cbn [fill1 app] in E. injection E as -> E. rewrite N.eqb_refl.
          destruct (IH l' e Ul Ul' H E) as (e1 & r & r' & F & He & A1 & A2 & A3 & A4).
          exists e1, r, r'. repeat split; auto. intros x X. rewrite !fill_cons. f_equal. auto.
        * cbn [front]. rewrite !fill_cons in E. cbn [fill1 app] in E.
          destruct (IH l' e Ul Ul' H E) as (e1 & r & r' & F & He & A1 & A2 & A3 & A4).
          exists e1, r, r'. repeat split; auto. intros x X. rewrite !fill_cons. f_equal. auto.
        * cbn [front]. destruct (known e n m) eqn:K.
          -- pose proof (known_in _ _ _ H K) as EQ. rewrite !fill_cons in E. cbn [fill1] in E. rewrite EQ in E.
             apply app_inv_head in E.
             destruct (IH l' e Ul Ul' H E) as (e1 & r & r' & F & He & A1 & A2 & A3 & A4).
             exists e1, r, r'. repeat split; auto. intros x X. rewrite !fill_cons. cbn [fill1]. rewrite EQ. f_equal. auto.
          -- destruct (Nat.eqb n namehole && Nat.eqb m namehole && paren l && paren l') eqn:P.
             ++ apply andb_true_iff in P as [P P4]. apply andb_true_iff in P as [P P3]. apply andb_true_iff in P as [P1 P2].
                apply Nat.eqb_eq in P1. apply Nat.eqb_eq in P2. subst n m.
                destruct l as [|[c| |] l]; try discriminate. destruct l' as [|[d| |] l']; try discriminate.
                cbn [paren] in P3, P4. apply N.eqb_eq in P3. apply N.eqb_eq in P4. subst c d.
                assert (W : is_word (a namehole)) by (apply nm, U; now left).
                assert (W' : is_word (a' namehole)) by (apply nm', U'; now left).
                pose proof E as E0. rewrite !fill_cons in E0. cbn [fill1 app] in E0.
                destruct (word_paren _ _ _ _ (proj2 W) (proj2 W') E0) as [EQ E1].
                assert (H1 : holds ((namehole, namehole) :: e)).
                { intros i j [I|I]; [injection I as <- <-; exact EQ|auto]. }
                assert (E2 : fill [] a (Ch 40 :: l) = fill [] a' (Ch 40 :: l')).
                { rewrite !fill_cons. cbn [fill1 app]. now rewrite E1. }
                destruct (IH (Ch 40 :: l') _ Ul Ul' H1 E2) as (e1 & r & r' & F & He & A1 & A2 & A3 & A4).
                exists e1, r, r'. repeat split; auto. intros x X. rewrite (fill_cons x a (Arg namehole)), (fill_cons x a' (Arg namehole)).
                cbn [fill1]. rewrite EQ. f_equal. auto.
             ++ exists e, (Arg n :: l), (Arg m :: l'). repeat split; auto.
  Qed.
  Lemma fill_snoc x b l p : fill x b (rev (p :: l)) = fill x b (rev l) ++ fill1 x b p.
  Proof. cbn [rev]. rewrite fill_app, fill_cons. cbn [fill flat_map]. now rewrite app_nil_r. Qed.
  Lemma back_sound l : forall l' e, uses_holes u l -> uses_holes u' l' -> holds e ->
    fill [] a (rev l) = fill [] a' (rev l') ->
    exists r r', back e l l' = Some (r, r') /\ uses_holes u r /\ uses_holes u' r' /\
      fill [] a (rev r) = fill [] a' (rev r') /\
      (forall x, fill x a (rev r) = fill x a' (rev r') -> fill x a (rev l) = fill x a' (rev l')).
  Proof.
    induction l as [|p l IH]; intros l' e U U' H E.
    - exists [], l'. destruct l'; repeat split; auto.
    - assert (Ul : uses_holes u l) by (intros n I; apply U; now right).
      destruct l' as [|p' l'].
      + exists (p :: l), []. destruct p; repeat split; auto.
      + assert (Ul' : uses_holes u' l') by (intros n I; apply U'; now right).
        destruct p as [c| |n], p' as [d| |m];
          try (eexists _, _; split; [reflexivity|]; repeat split; eauto; fail).
        * cbn [back]. rewrite !fill_snoc in E. cbn [fill1] in E. apply app_inj_tail in E as [E ->]. rewrite N.eqb_refl.
          destruct (IH l' e Ul Ul' H E) as (r & r' & F & A1 & A2 & A3 & A4).
          exists r, r'. repeat split; auto. intros x X. rewrite !fill_snoc. f_equal. auto.
        * cbn [back]. rewrite !fill_snoc in E. cbn [fill1] in E. rewrite !app_nil_r in E.
          destruct (IH l' e Ul Ul' H E) as (r & r' & F & A1 & A2 & A3 & A4).
          exists r, r'. repeat split; auto. intros x X. rewrite !fill_snoc. f_equal. auto.
        * cbn [back]. destruct (known e n m) eqn:K.
          -- pose proof (known_in _ _ _ H K) as EQ. rewrite !fill_snoc in E. cbn [fill1] in E. rewrite EQ in E.
             apply app_inv_tail in E.
             destruct (IH l' e Ul Ul' H E) as (r & r' & F & A1 & A2 & A3 & A4).
             exists r, r'. repeat split; auto. intros x X. rewrite !fill_snoc. cbn [fill1]. rewrite EQ. f_equal. auto.
          -- exists (Arg n :: l), (Arg m :: l'). repeat split; auto.
  Qed.
  Lemma uses_rev v l : uses_holes v l -> uses_holes v (rev l).
  Proof. intros U n I. apply U. now apply in_rev in I. Qed.
  Lemma core_sound l l' e : uses_holes u l -> uses_holes u' l' -> holds e -> fill [] a l = fill [] a' l' ->
    exists e1 r r', core e l l' = Some (e1, r, r') /\ holds e1 /\ uses_holes u r /\ uses_holes u' r' /\
      fill [] a r = fill [] a' r' /\ (forall x, fill x a r = fill x a' r' -> fill x a l = fill x a' l').
  Proof.
    intros U U' H E. destruct (front_sound l l' e U U' H E) as (e1 & r & r' & F & He & A1 & A2 & A3 & A4).
    destruct (back_sound (rev r) (rev r') e1) as (s & s' & B & B1 & B2 & B3 & B4); auto using uses_rev.
    { now rewrite !rev_involutive. }
    exists e1, (rev s), (rev s'). unfold core. rewrite F, B. repeat split; auto using uses_rev.
    intros x X. apply A4. rewrite <- (rev_involutive r), <- (rev_involutive r'). auto.
  Qed.
  Lemma nores_fill b l : fill [] b (nores l) = fill [] b l.
  Proof. induction l as [|p l IH]; [reflexivity|]. destruct p; cbn [nores filter]; fold (nores l); rewrite ?fill_cons, IH; reflexivity. Qed.
  Lemma nores_uses v l : uses_holes v l -> uses_holes v (nores l).
  Proof. intros U n I. apply U. apply filter_In in I. tauto. Qed.
  Lemma front_incl (P : piece -> Prop) : forall l l' e e1 r r', front e l l' = Some (e1, r, r') ->
    (forall p, In p l -> P p) -> (forall p, In p l' -> P p) -> (forall p, In p r -> P p) /\ (forall p, In p r' -> P p).
  Proof.
    induction l as [|p l IH]; intros l' e e1 r r' F H H'.
    - destruct l'; injection F as <- <- <-; auto.
    - assert (Hl : forall q, In q l -> P q) by (intros q I; apply H; now right).
      destruct l' as [|p' l']; [destruct p; injection F as <- <- <-; auto|].
      assert (Hl' : forall q, In q l' -> P q) by (intros q I; apply H'; now right).
      destruct p as [c| |n], p' as [d| |m]; cbn [front] in F; try (injection F as <- <- <-; auto; fail).
      + destruct (N.eqb c d); [|discriminate]. eauto.
      + eauto.
      + destruct (known e n m); [eauto|]. destruct (_ && _); [eauto|]. injection F as <- <- <-; auto.
  Qed.
  Lemma back_incl (P : piece -> Prop) : forall l l' e r r', back e l l' = Some (r, r') ->
    (forall p, In p l -> P p) -> (forall p, In p l' -> P p) -> (forall p, In p r -> P p) /\ (forall p, In p r' -> P p).
  Proof.
    induction l as [|p l IH]; intros l' e r r' F H H'.
    - destruct l'; injection F as <- <-; auto.
    - assert (Hl : forall q, In q l -> P q) by (intros q I; apply H; now right).
      destruct l' as [|p' l']; [destruct p; injection F as <- <-; auto|].
      assert (Hl' : forall q, In q l' -> P q) by (intros q I; apply H'; now right).
      destruct p as [c| |n], p' as [d| |m]; cbn [back] in F; try (injection F as <- <-; auto; fail).
      + destruct (N.eqb c d); [|discriminate]. eauto.
      + eauto.
      + destruct (known e n m); [eauto|]. injection F as <- <-; auto.
  Qed.
  Lemma core_incl (P : piece -> Prop) l l' e e1 r r' : core e l l' = Some (e1, r, r') ->
    (forall p, In p l -> P p) -> (forall p, In p l' -> P p) -> (forall p, In p r -> P p) /\ (forall p, In p r' -> P p).
  Proof.
    unfold core. intros C H H'. destruct (front e l l') as [[[e2 s] s']|] eqn:F; [|discriminate].
    destruct (front_incl P _ _ _ _ _ _ F H H') as [F1 F2].
    destruct (back e2 (rev s) (rev s')) as [[t t']|] eqn:B; [|discriminate]. injection C as <- <- <-.
    destruct (back_incl P _ _ _ _ _ B) as [B1 B2]; [intros p I; apply F1; now apply in_rev|intros p I; apply F2; now apply in_rev|].
    split; intros p I; [apply B1|apply B2]; now apply in_rev.
  Qed.
  Definition notres (p : piece) : Prop := p <> Res.
  Lemma nonempty_fill (b : nat -> text) (v : nat -> Prop) l : (forall n, v n -> b n <> []) -> uses_holes v l -> (forall p, In p l -> notres p) -> l <> [] ->
    fill [] b l <> [].
  Proof.
    intros NE U R L. destruct l as [|[c| |n] l]; [congruence|discriminate| |].
    - exfalso. apply (R Res); [now left|reflexivity].
    - rewrite fill_cons. cbn [fill1]. intros E. apply app_eq_nil in E as [E _]. revert E. apply NE, U. now left.
  Qed.
  Lemma malformed_fill (b : nat -> text) (v : nat -> Prop) l n c : malformed l = true -> uses_holes v l -> (v namehole -> is_word (b namehole)) ->
    not_call_of_nothing c -> fill [] b l = c -> n = tt -> False.
  Proof.
    intros M U W OK E _. destruct l as [|[| |m] [|[c1| |] [|[c2| |] l]]]; try discriminate. cbn [malformed] in M.
    apply andb_true_iff in M as [M M3]. apply andb_true_iff in M as [M1 M2].
    apply Nat.eqb_eq in M1 as ->. apply N.eqb_eq in M2 as ->. apply N.eqb_eq in M3 as ->.
    apply (OK (b namehole) (fill [] b l)); [apply W, U; now left|]. rewrite <- E. reflexivity.
  Qed.
  Lemma fill_longer (b : nat -> text) (v : nat -> Prop) l m : (forall n, v n -> b n <> []) -> uses_holes v l -> (forall p, In p l -> notres p) ->
    In (Arg m) l -> 2 <= length l -> length (b m) < length (fill [] b l).
  Proof.
    intros NE U R I L. apply in_split in I as (l1 & l2 & ->).
    rewrite fill_app, fill_cons, !app_length. cbn [fill1].
    assert (P : forall k, (forall p, In p k -> In p (l1 ++ Arg m :: l2)) -> k <> [] -> 0 < length (fill [] b k)).
    { intros k Hk K. assert (X : fill [] b k <> []).
      { apply (nonempty_fill b v); auto. intros n In_. apply U. auto. }
      destruct (fill [] b k); [congruence|cbn; lia]. }
    rewrite app_length in L. cbn [length] in L. destruct l1 as [|p l1].
    - assert (0 < length (fill [] b l2)); [|lia]. apply P; [intros p Ip; now right|]. destruct l2; [cbn in L; lia|discriminate].
    - assert (0 < length (fill [] b (p :: l1))); [|lia]. apply P; [|discriminate]. intros q Iq. apply in_or_app. now left.
  Qed.
  Lemma longer_false e n l : holds e -> uses_holes u' l -> (forall p, In p l -> notres p) ->
    a n = fill [] a' l -> longer e n l = false.
  Proof.
    intros H U R E. apply not_true_iff_false. intros L. unfold longer in L.
    destruct l as [|p1 [|p2 l]]; try discriminate. apply existsb_exists in L as (p & I & K). destruct p as [| |m]; try discriminate.
    pose proof (fill_longer a' u' _ m ne' U R I) as F. apply known_in in K; auto. rewrite <- E, K in F. cbn [length] in F. lia.
  Qed.
  Lemma shorter_false e l m : holds e -> uses_holes u l -> (forall p, In p l -> notres p) ->
    a' m = fill [] a l -> shorter e l m = false.
  Proof.
    intros H U R E. apply not_true_iff_false. intros L. unfold shorter in L.
    destruct l as [|p1 [|p2 l]]; try discriminate. apply existsb_exists in L as (p & I & K). destruct p as [| |n]; try discriminate.
    pose proof (fill_longer a u _ n ne U R I) as F. apply known_in in K; auto. rewrite <- E, K in F. cbn [length] in F. lia.
  Qed.
  Lemma learn_line_sound e l l' : uses_holes u l -> uses_holes u' l' -> holds e -> fill [] a l = fill [] a' l' ->
    exists e1, learn_line e l l' = Some e1 /\ holds e1.
  Proof.
    intros U U' H E. rewrite <- (nores_fill a l), <- (nores_fill a' l') in E.
    destruct (core_sound _ _ e (nores_uses _ _ U) (nores_uses _ _ U') H E) as (e1 & r & r' & C & He & A1 & A2 & A3 & _).
    assert (NR : forall l p, In p (nores l) -> notres p).
    { intros k p I ->. unfold nores in I. apply filter_In in I as [_ I]. discriminate. }
    destruct (core_incl notres _ _ _ _ _ _ C (NR l) (NR l')) as [R R'].
    unfold learn_line. rewrite C.
    assert (MAL : r' <> [] -> forall n, r = [Arg n] -> malformed r' && negb (Nat.eqb n resthole) = true -> False).
    { intros _ n -> M. apply andb_true_iff in M as [M NE]. apply negb_true_iff, Nat.eqb_neq in NE. apply (malformed_fill a' u' r' tt (a n) M A2 nm' ); auto.
      - apply ok; [apply A1; now left|exact NE].
      - rewrite <- A3. cbn. now rewrite app_nil_r. }
    assert (MAL' : r <> [] -> forall n, r' = [Arg n] -> malformed r && negb (Nat.eqb n resthole) = true -> False).
    { intros _ n -> M. apply andb_true_iff in M as [M NE]. apply negb_true_iff, Nat.eqb_neq in NE. apply (malformed_fill a u r tt (a' n) M A1 nm); auto.
      - apply ok'; [apply A2; now left|exact NE].
      - rewrite A3. cbn. now rewrite app_nil_r. }
    assert (LON : forall n, r = [Arg n] -> longer e1 n r' = false).
    { intros n ->. apply longer_false; auto. rewrite <- A3. cbn. now rewrite app_nil_r. }
    assert (SHO : forall n, r' = [Arg n] -> shorter e1 r n = false).
    { intros n ->. apply shorter_false; auto. rewrite A3. cbn. now rewrite app_nil_r. }
    destruct r as [|p r], r' as [|p' r'].
    - eauto.
    - exfalso. eapply (nonempty_fill a' u'); eauto; discriminate.
    - exfalso. eapply (nonempty_fill a u (p :: r)); eauto; discriminate.
    - assert (R1 : p <> Res) by (apply (R p); now left). assert (R1' : p' <> Res) by (apply (R' p'); now left).
      destruct p as [c| |n]; [|congruence|]; destruct p' as [d| |m]; try congruence; destruct r as [|q r]; destruct r' as [|q' r'];
        try (eexists; split; [reflexivity|exact He]);
        try (rewrite (LON _ eq_refl)); try (rewrite (SHO _ eq_refl)); rewrite ?orb_false_r;
        try (eexists; split; [reflexivity|exact He]).
      + eexists; split; [reflexivity|]. intros i j [I|I]; [|auto]. injection I as <- <-.
        cbn in A3. now rewrite !app_nil_r in A3.
      + destruct (malformed (Arg m :: q' :: r') && negb (Nat.eqb n resthole)) eqn:M; [|eauto]. exfalso. eapply MAL; eauto; discriminate.
      + destruct (malformed (Arg n :: q :: r) && negb (Nat.eqb m resthole)) eqn:M; [|eauto]. exfalso. eapply MAL'; eauto; discriminate.
  Qed.
  Definition all_use (v : nat -> Prop) (ls : list (list piece)) : Prop := forall l, In l ls -> uses_holes v l.
  Lemma learn_sound ls : forall ls' e, all_use u ls -> all_use u' ls' -> holds e ->
    map (fill [] a) ls = map (fill [] a') ls' -> exists e1, learn e ls ls' = Some e1 /\ holds e1.
  Proof.
    induction ls as [|l ls IH]; intros [|l' ls'] e U U' H E; try discriminate E.
    - eexists; split; [reflexivity|exact H].
    - cbn [map] in E. injection E as E1 E2. cbn [learn].
      destruct (learn_line_sound e l l') as (e1 & L & H1); auto; [apply U; now left|apply U'; now left|]. rewrite L.
      apply IH; auto; [intros k I; apply U; now right|intros k I; apply U'; now right].
  Qed.
  Lemma nores_fill_x x y b l : (forall p, In p l -> notres p) -> fill x b l = fill y b l.
  Proof.
    induction l as [|p l IH]; intros H; [reflexivity|]. rewrite !fill_cons. rewrite IH by (intros q I; apply H; now right).
    f_equal. destruct p; try reflexivity. exfalso. apply (H Res); [now left|reflexivity].
  Qed.
  Lemma align_line_sound e l l' x : uses_holes u l -> uses_holes u' l' -> holds e -> fill [] a l = fill [] a' l' ->
    align_line e l l' = true -> fill x a l = fill x a' l'.
  Proof.
    intros U U' H E A. destruct (core_sound l l' e U U' H E) as (e1 & r & r' & C & He & A1 & A2 & A3 & A4).
    unfold align_line in A. rewrite C in A. apply A4. rewrite forallb_app in A. apply andb_true_iff in A as [R R'].
    rewrite (nores_fill_x x [] a r), (nores_fill_x x [] a' r'); auto.
    - intros p I ->. eapply forallb_forall in R'; eauto. discriminate.
    - intros p I ->. eapply forallb_forall in R; eauto. discriminate.
  Qed.
  Lemma align_sound e x ls : forall ls', all_use u ls -> all_use u' ls' -> holds e ->
    map (fill [] a) ls = map (fill [] a') ls' -> align e ls ls' = true -> map (fill x a) ls = map (fill x a') ls'.
  Proof.
    induction ls as [|l ls IH]; intros [|l' ls'] U U' H E A; try discriminate E; [reflexivity|].
    cbn [map] in *. injection E as E1 E2. cbn [align] in A. apply andb_true_iff in A as [A1 A2]. f_equal.
    - eapply align_line_sound; eauto; [apply U; now left|apply U'; now left].
    - apply IH; auto; [intros k I; apply U; now right|intros k I; apply U'; now right].
  Qed.
  Lemma clash_sound ls ls' : all_use u ls -> all_use u' ls' -> clash ls ls' = true ->
    map (fill [] a) ls <> map (fill [] a') ls'.
  Proof.
    intros U U' C E. unfold clash in C. assert (H0 : holds []) by (intros n m []).
    destruct (learn_sound ls ls' [] U U' H0 E) as (e & L & H). rewrite L in C.
    destruct (learn_sound ls ls' e U U' H E) as (e' & L' & _). rewrite L' in C. discriminate.
  Qed.
  Lemma pair_ok_sound ls ls' x : all_use u ls -> all_use u' ls' -> pair_ok ls ls' = true ->
    map (fill [] a) ls = map (fill [] a') ls' -> map (fill x a) ls = map (fill x a') ls'.
  Proof.
    intros U U' P E. unfold pair_ok in P. assert (H0 : holds []) by (intros n m []).
    destruct (learn_sound ls ls' [] U U' H0 E) as (e & L & H). rewrite L in P.
    destruct (learn_sound ls ls' e U U' H E) as (e' & L' & H'). rewrite L' in P.
    eapply align_sound; eauto.
  Qed.
End Compare.
