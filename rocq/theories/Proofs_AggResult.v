(** Proofs about the text search for group keys. *)
From Coq Require Import String Ascii List ZArith NArith Bool Arith Lia.
From Verif Require Import Model_Code Model_Eval Proofs_Code Proofs_Eval Proofs_Den Proofs_Scope Model_AggText Model_AggResult Spec_AggResult Proofs_AggText.
Import ListNotations.

(** *** writing at places *)
Lemma write_app f a b : write f (a ++ b) = write f a ++ write f b.
Proof. apply flat_map_app. Qed.
Lemma write_unicode f t : unicode t -> write f t = t.
Proof.
  induction t as [|c t IH]; intros H; [reflexivity|]. inversion H; subst.
  unfold write in *. cbn [flat_map]. rewrite H2, IH by assumption. reflexivity.
Qed.
Lemma unicode_T s : unicode (T s).
Proof.
  unfold unicode, T. apply Forall_forall. intros c Hc. apply in_map_iff in Hc. destruct Hc as [a [<- _]].
  unfold is_place, beyond. apply N.leb_gt. generalize (N_ascii_bounded a). lia.
Qed.
Lemma write_T f s : write f (T s) = T s.
Proof. apply write_unicode, unicode_T. Qed.
Lemma write_place f i : write f [place i] = f i.
Proof.
  unfold write, place, is_place, number. cbn [flat_map].
  replace (N.leb beyond (beyond + N.of_nat i)) with true by (symmetry; apply N.leb_le; lia).
  replace (beyond + N.of_nat i - beyond)%N with (N.of_nat i) by lia. rewrite Nat2N.id. apply app_nil_r.
Qed.
Lemma write_intersperse f s l : unicode s -> write f (intersperse s l) = intersperse s (map (write f) l).
Proof.
  intros Hs. induction l as [|a l IH]; [reflexivity|]. destruct l as [|b l]; [reflexivity|].
  cbn [intersperse map] in *. rewrite !write_app, IH, (write_unicode f s Hs). reflexivity.
Qed.
Lemma nth_write f l i : nth_t (map (write f) l) i = write f (nth_t l i).
Proof. unfold nth_t. change (@nil N) with (write f []) at 1. apply map_nth. Qed.
Lemma pairs_write f s l : unicode s -> map (write f) (pairs s l) = pairs s (map (write f) l).
Proof.
  intros Hs. revert l. fix IH 1. intros [|a [|b l]]; try reflexivity.
  cbn [pairs map]. rewrite !write_app, IH, (write_unicode f s Hs). reflexivity.
Qed.
Lemma zip_kw_write f ks : Forall unicode ks -> forall l,
  map (write f) (zip_kw ks l) = zip_kw ks (map (write f) l).
Proof.
  induction 1 as [|k ks Hk _ IH]; intros l; [reflexivity|]. destruct l as [|v l]; [reflexivity|].
  cbn [zip_kw map]. rewrite !write_app, IH, write_T, (write_unicode f k Hk). reflexivity.
Qed.
Lemma op_text_write f o l : Forall unicode (op_texts o) -> write f (op_text o l) = op_text o (map (write f) l).
Proof.
  intros H. destruct o; cbn [op_text op_texts] in *;
    rewrite ?write_app, ?write_T, ?nth_write, ?write_intersperse by apply unicode_T;
    try reflexivity.
  - inversion H; subst. rewrite (write_unicode f n) by assumption. reflexivity.
  - rewrite map_app, zip_kw_write by assumption. rewrite <- firstn_map, <- skipn_map.
    destruct l; reflexivity.
  - inversion H; subst. rewrite (write_unicode f o) by assumption. reflexivity.
  - rewrite pairs_write by apply unicode_T. reflexivity.
Qed.

Lemma comp_text_write f k l x it co : unicode x ->
  write f (comp_text k l x it co) =
  comp_text k (map (write f) l) x (write f it) (match co with Some c => Some (write f c) | None => None end).
Proof.
  intros Hx. destruct k, co; cbn [comp_text]; rewrite ?write_app, ?write_T, ?nth_write, (write_unicode f x Hx);
    cbn [write flat_map]; rewrite ?app_nil_r; reflexivity.
Qed.

Lemma place_of_some x i : place_of x = Some i -> x = [place i].
Proof.
  unfold place_of, place, is_place, number. destruct x as [|c [|d r]]; try discriminate.
  destruct (N.leb_spec beyond c); try discriminate. intros [= <-]. rewrite N2Nat.id.
  do 2 f_equal. lia.
Qed.

Section Plug.
  Variable srepr : text -> text.
  Variable gname : nat -> text.
  Variable pnum : list nat -> nat.
  Notation print := (print srepr gname pnum).
  Notation texts := (texts srepr gname pnum).

  Lemma map_plug f l : Forall (fun s => Forall unicode (texts s) -> print (plug f s) = write (fun i => print (f i)) (print s)) l ->
    Forall unicode (flat_map texts l) ->
    map print (map (plug f) l) = map (write (fun i => print (f i))) (map print l).
  Proof.
    induction 1 as [|s l Hs _ IH]; intros H; [reflexivity|]. cbn [flat_map] in H. apply Forall_app in H.
    cbn [map]. rewrite Hs, IH by apply H. reflexivity.
  Qed.
  Lemma print_plug f s : Forall unicode (texts s) -> print (plug f s) = write (fun i => print (f i)) (print s).
  Proof.
    induction s as [x|l|g|o l IH|i l IH|l IH|c t e IHc IHt IHe|a b IHa IHb|n e IHe|n
                   |k l x it co IHl IHit IHco|h l b IHl IHb|h k l ps ls IHl|h l ps ls IHl]
      using px_ind'; intros U; cbn [plug Model_Code.print Spec_AggResult.texts] in *.
    - destruct (place_of x) as [i|] eqn:E.
      + apply place_of_some in E. subst x. symmetry. apply (write_place (fun i => print (f i))).
      + inversion U; subst. symmetry. now apply write_unicode.
    - inversion U; subst. symmetry. now apply write_unicode.
    - inversion U; subst. symmetry. now apply write_unicode.
    - apply Forall_app in U. rewrite (map_plug f l IH (proj2 U)), op_text_write by apply U. reflexivity.
    - rewrite (map_plug f l IH U), !write_app, !write_T, write_intersperse; [reflexivity|].
      destruct i; apply unicode_T.
    - rewrite (map_plug f l IH U), !write_app, !write_T, write_intersperse; [reflexivity|apply unicode_T].
    - apply Forall_app in U. destruct U as [U1 U2]. apply Forall_app in U2. destruct U2 as [U2 U3].
      rewrite !write_app, !write_T, IHc, IHt, IHe by assumption. reflexivity.
    - apply Forall_app in U. destruct U as [U1 U2].
      rewrite !write_app, !write_T, IHa, IHb by assumption. reflexivity.
    - inversion U; subst. rewrite !write_app, !write_T, IHe, (write_unicode _ (label_text pnum n)) by assumption. reflexivity.
    - inversion U; subst. rewrite !write_app, !write_T, (write_unicode _ (label_text pnum n)) by assumption. reflexivity.
    - inversion U as [|? ? Ux U']; subst. apply Forall_app in U'. destruct U' as [U1 U2]. apply Forall_app in U2. destruct U2 as [U2 U3].
      rewrite (map_plug f l IHl U1), IHit by assumption. rewrite comp_text_write by assumption.
      f_equal. destruct co as [c|]; [|reflexivity]. cbn in IHco. now rewrite IHco.
    - inversion U; subst. rewrite (map_plug f l IHl) by assumption.
      rewrite !write_app, !write_T, write_intersperse, (write_unicode _ h) by (apply unicode_T || assumption). reflexivity.
    - inversion U; subst. rewrite (map_plug f l IHl) by assumption.
      rewrite !write_app, !write_T, write_intersperse, (write_unicode _ h) by (apply unicode_T || assumption).
      replace (write (fun i => print (f i)) (kind_text k)) with (kind_text k); [reflexivity|].
      destruct k; symmetry; apply write_T.
    - inversion U; subst. rewrite (map_plug f l IHl) by assumption.
      rewrite !write_app, !write_T, write_intersperse, (write_unicode _ h) by (apply unicode_T || assumption). reflexivity.
  Qed.

  (** the places of an expression are the places in its text *)
  Definition has (i : nat) (t : text) : Prop := In (place i) t.
End Plug.

(** *** one replacement *)
Definition ow_ : text := [111;119;95]%N.
Lemma row_ow : T "row_" = 114%N :: ow_.
Proof. reflexivity. Qed.
Lemma starts_cons a p c t : starts (a :: p) (c :: t) = N.eqb a c && starts p t.
Proof. reflexivity. Qed.
Section Step.
  Variable n : nat.
  Variable code : nat -> text.
  Hypothesis codes : forall i, starts (T "row_") (code i) = true.
  Let tail i := skipn 4 (code i).
  Let mark i := 0%N :: tail i.

  Lemma code_tail i : code i = T "row_" ++ tail i.
  Proof. specialize (codes i). apply starts_spec in codes. destruct codes as [r E]. unfold tail. rewrite E. reflexivity. Qed.

  (** a text that is written at a place: a code, or something in which [row_]
      neither begins nor continues *)
  Definition inert (t : text) : Prop :=
    (exists c r, t = c :: r /\ ~ In c [111;119;95]%N) /\
    forall a b r, t = a ++ b -> b <> [] -> starts (T "row_") (b ++ r) = false.
  Definition fits (f : nat -> text) : Prop := forall i, f i = code i \/ inert (f i).

  Lemma fits_head f i : fits f -> exists c r, f i = c :: r /\ ~ In c [111;119;95]%N.
  Proof.
    intros H. destruct (H i) as [E|[E _]]; [|exact E]. rewrite E, code_tail. exists 114%N, (T "ow_" ++ tail i).
    split; [reflexivity|]. intros [I|[I|[I|[]]]]; discriminate.
  Qed.
  (** the end of [row_] can only be found in the text between places *)
  Lemma rest_found f p t : fits f -> (forall c, In c p -> In c [111;119;95]%N) ->
    starts p (write f t) = true -> starts p (write mark t) = true.
  Proof.
    intros Hf. revert t. induction p as [|a p IH]; intros t Hp S1; [reflexivity|].
    destruct t as [|c t]; [discriminate|]. unfold write in *. cbn [flat_map] in *. destruct (is_place c) eqn:Ec.
    - exfalso. destruct (fits_head f (number c) Hf) as (d & r & E & Hd). rewrite E in S1. cbn [app starts] in S1.
      apply andb_prop in S1. destruct S1 as [S1 _]. apply N.eqb_eq in S1. subst a. apply Hd, Hp. now left.
    - cbn [app starts] in *. apply andb_prop in S1. destruct S1 as [S1 S2]. rewrite S1. cbn [andb].
      apply IH; auto. intros d Hd. apply Hp. now right.
  Qed.
  Lemma row_found f c t : fits f -> starts (T "row_") (c :: write f t) = true -> starts (T "row_") (c :: write mark t) = true.
  Proof.
    intros Hf S1. rewrite row_ow, starts_cons in S1 |- *.
    apply andb_prop in S1. destruct S1 as [S1 S2]. rewrite S1. cbn [andb]. apply (rest_found f); auto.
  Qed.
  Lemma row_found_in f u t : fits f -> u <> [] ->
    starts (T "row_") (u ++ write f t) = true -> starts (T "row_") (u ++ write mark t) = true.
  Proof.
    intros Hf Hu S1.
    destruct u as [|c u]; [contradiction|]. cbn [app] in S1 |- *. rewrite row_ow, starts_cons in S1 |- *. apply andb_prop in S1. destruct S1 as [S1 S2]. rewrite S1. cbn [andb].
    clear Hu S1. assert (G : forall p u, (forall c, In c p -> In c [111;119;95]%N) -> starts p (u ++ write f t) = true -> starts p (u ++ write mark t) = true).
    { induction p as [|a p IH]; intros v Hp S; [reflexivity|]. destruct v as [|d v].
      - now apply (rest_found f).
      - cbn [app starts] in *. apply andb_prop in S. destruct S as [Sa Sb]. rewrite Sa. cbn [andb]. apply IH; auto.
        intros e He. apply Hp. now right. }
    now apply G.
  Qed.

  Definition sole (t : text) : Prop := contains (T "row_") (write mark t) = false.
  Lemma contains_app_r p u t : contains p (u ++ t) = false -> contains p t = false.
  Proof.
    intros H. destruct (contains p t) eqn:E; [|reflexivity]. apply contains_spec in E. destruct E as (a & b & ->).
    rewrite <- H. symmetry. apply contains_spec. exists (u ++ a), b. now rewrite <- app_assoc.
  Qed.
  Lemma contains_starts p t : contains p t = false -> starts p t = false.
  Proof. destruct t; cbn [contains]; intros H; apply orb_false_iff in H; apply H. Qed.
  Lemma sole_cons c t : sole (c :: t) -> sole t.
  Proof. unfold sole, write. cbn [flat_map]. apply contains_app_r. Qed.

  Variable k : nat.
  Variable new : text.
  Lemma not_row_not_code t : starts (T "row_") t = false -> starts (code k) t = false.
  Proof.
    intros H. destruct (starts (code k) t) eqn:E; [|reflexivity]. apply starts_spec in E. destruct E as [r ->].
    rewrite code_tail, <- app_assoc, starts_app in H. discriminate.
  Qed.
  Lemma code_not_nil : code k <> [].
  Proof. rewrite code_tail. discriminate. Qed.
  Lemma skip_over u t : (forall a b, u = a ++ b -> b <> [] -> starts (code k) (b ++ t) = false) ->
    replace (code k) new (u ++ t) = u ++ replace (code k) new t.
  Proof.
    induction u as [|c u IH]; intros H; [reflexivity|]. cbn [app]. rewrite replace_cons; [|apply code_not_nil|].
    - f_equal. apply IH. intros a b E Hb. apply (H (c :: a) b); [now rewrite E|assumption].
    - apply (H [] (c :: u)); [reflexivity|discriminate].
  Qed.

  Lemma differs_write p t f : forall u, differs p (u ++ t) = true -> unicode u -> starts p (u ++ write f t) = false.
  Proof.
    revert t. induction p as [|a p IH]; intros t u D U; [destruct (u ++ t); discriminate|].
    destruct u as [|c u].
    - cbn [app] in *. destruct t as [|c t]; [reflexivity|]. cbn [differs] in D. apply andb_prop in D. destruct D as [D1 D2].
      apply negb_true_iff in D1. unfold write. cbn [flat_map]. rewrite D1. cbn [app starts].
      destruct (N.eqb a c); [|reflexivity]. cbn [negb orb andb] in *. apply (IH t []); auto.
    - inversion U; subst. cbn [app differs starts] in *. apply andb_prop in D. destruct D as [D1 D2].
      destruct (N.eqb a c); [|reflexivity]. cbn [negb orb andb] in *. apply IH; auto.
  Qed.

  Hypothesis codes_unicode : forall i, unicode (code i).
  Hypothesis kn : k < n.

  Definition with_new (f : nat -> text) (i : nat) : text := if Nat.eqb i k then new else f i.

  Lemma replace_step f t : fits f -> f k = code k -> sole t -> told_apart n code t = true ->
    replace (code k) new (write f t) = write (with_new f) t.
  Proof.
    intros Hf Hk. induction t as [|c t IH]; intros So Ta; [reflexivity|].
    pose proof (sole_cons _ _ So) as So'. cbn [told_apart] in Ta. apply andb_prop in Ta. destruct Ta as [Ta Ta'].
    specialize (IH So' Ta'). unfold write in *. cbn [flat_map]. fold (write f t) (write (with_new f) t) in *.
    destruct (is_place c) eqn:Ec.
    - unfold with_new at 1. destruct (Nat.eqb_spec (number c) k) as [Ek|Ek].
      + rewrite Ek, Hk, replace_old by apply code_not_nil. f_equal. exact IH.
      + rewrite skip_over; [f_equal; exact IH|]. intros a b E Hb. destruct (Hf (number c)) as [Hc|[_ Hc]].
        * destruct a as [|d a].
          -- cbn [app] in E. subst b. rewrite Hc. rewrite forallb_forall in Ta. specialize (Ta k).
             rewrite in_seq in Ta. specialize (Ta (conj (Nat.le_0_l k) kn)). apply orb_prop in Ta. destruct Ta as [Ta|Ta].
             ++ apply Nat.eqb_eq in Ta. congruence.
             ++ apply differs_write; auto.
          -- apply not_row_not_code. rewrite Hc, code_tail in E.
             destruct (starts (T "row_") (b ++ write f t)) eqn:S1; [exfalso|reflexivity].
             apply row_found_in in S1; auto.
             change (T "row_") with [114;111;119;95]%N in E.
             destruct a as [|a1 [|a2 [|a3 a]]].
             ++ cbn [app] in E. injection E as _ E. subst b. discriminate.
             ++ cbn [app] in E. injection E as _ _ E. subst b. discriminate.
             ++ cbn [app] in E. injection E as _ _ _ E. subst b. discriminate.
             ++ cbn [app] in E. injection E as _ _ _ _ E. unfold sole, write in So. cbn [flat_map] in So. rewrite Ec in So.
                change (mark (number c)) with (0%N :: tail (number c)) in So. rewrite E in So.
                change ((0%N :: a ++ b) ++ flat_map (fun c => if is_place c then mark (number c) else [c]) t)
                  with (0%N :: (a ++ b) ++ write mark t) in So.
                rewrite <- app_assoc in So.
                apply (contains_app_r _ [0%N]), contains_app_r, contains_starts in So. congruence.
        * apply not_row_not_code. now apply (Hc a b).
    - cbn [app]. rewrite replace_cons; [f_equal; exact IH|apply code_not_nil|].
      apply not_row_not_code. destruct (starts (T "row_") (c :: write f t)) eqn:S1; [exfalso|reflexivity].
      apply row_found in S1; auto. unfold sole, write in So. cbn [flat_map] in So. rewrite Ec in So. cbn [app] in So.
      apply contains_starts in So. fold (write mark t) in So. congruence.
  Qed.
End Step.

(** *** all replacements *)
Fixpoint norow (t : text) : bool :=
  match t with
  | [] => true
  | c :: r => (negb (N.eqb c 114) || match r with d :: _ => negb (N.eqb d 111) | [] => false end) && norow r
  end.
Lemma norow_app a b : norow a = true -> norow b = true -> norow (a ++ b) = true.
Proof.
  induction a as [|c a IH]; intros Ha Hb; [assumption|]. cbn [norow app] in *. apply andb_prop in Ha. destruct Ha as [Ha Ha'].
  rewrite IH by assumption. rewrite andb_true_r. destruct a; [|exact Ha]. cbn [app] in *. rewrite orb_false_r in Ha. now rewrite Ha.
Qed.
Lemma norow_inert t c r : norow t = true -> t = c :: r -> ~ In c [111;119;95]%N -> inert t.
Proof.
  intros H E Hc. split; [eauto|]. clear E Hc. intros a b r0 -> Hb.
  induction a as [|d a IH]; [|cbn [app norow] in H; apply andb_prop in H; now apply IH].
  cbn [app] in H. destruct b as [|d b]; [contradiction|]. cbn [norow] in H. apply andb_prop in H. destruct H as [H _].
  cbn [app]. rewrite row_ow, starts_cons. destruct (N.eqb_spec 114 d) as [<-|]; [|reflexivity].
  cbn [N.eqb Pos.eqb negb orb] in H. destruct b as [|e b]; [discriminate|]. cbn [app]. unfold ow_. rewrite starts_cons.
  rewrite N.eqb_sym. apply negb_true_iff in H. now rewrite H.
Qed.
Lemma digits_norow fuel : forall m, norow (digits fuel m) = true.
Proof.
  assert (G : forall c, (c < 114)%N -> norow [c] = true).
  { intros c Hc. cbn. replace (N.eqb c 114) with false by (symmetry; apply N.eqb_neq; lia). reflexivity. }
  induction fuel as [|fuel IH]; intros m; [reflexivity|]. cbn [digits]. destruct (N.ltb_spec m 10).
  - apply G. lia.
  - apply norow_app; [apply IH|]. apply G. generalize (N.mod_lt m 10). generalize (N.modulo m 10). lia.
Qed.

Section All.
  Variable srepr : text -> text.
  Variable gname : nat -> text.
  Variable pnum : list nat -> nat.
  Notation print := (print srepr gname pnum).

  Lemma signature_inert n i : inert (print (signature_code n i)).
  Proof.
    unfold signature_code. destruct (Nat.ltb 1 n).
    - apply (norow_inert _ 115%N (tl (print (POp OItem [PName signature_name; PLit (LInt (Z.of_nat i))])))); [|reflexivity|].
      + change (print (POp OItem [PName signature_name; PLit (LInt (Z.of_nat i))]))
          with (T "signature_[" ++ zrepr (Z.of_nat i) ++ T "]").
        apply norow_app; [reflexivity|]. apply norow_app; [|reflexivity].
        destruct (Z.of_nat i) eqn:E; [reflexivity|apply digits_norow|lia].
      + intros [I|[I|[I|[]]]]; discriminate.
    - apply (norow_inert _ 115%N (T "ignature_")); try reflexivity. intros [I|[I|[I|[]]]]; discriminate.
  Qed.

  Variable n : nat.
  Variable code : nat -> text.
  Hypothesis codes : forall i, starts (T "row_") (code i) = true.
  Hypothesis codes_unicode : forall i, unicode (code i).
  Notation sign := (fun i => print (signature_code n i)).
  Definition upto (m i : nat) : text := if Nat.ltb i m then sign i else code i.

  Lemma upto_fits m : fits code (upto m).
  Proof. intros i. unfold upto. destruct (Nat.ltb i m); [right; apply signature_inert|now left]. Qed.
  Lemma upto_code i m : m <= i -> upto m i = code i.
  Proof. intros H. unfold upto. destruct (Nat.ltb_spec i m); [lia|reflexivity]. Qed.
  Lemma upto_sign i m : i < m -> upto m i = sign i.
  Proof. intros H. unfold upto. destruct (Nat.ltb_spec i m); [reflexivity|lia]. Qed.

  Lemma write_ext f g t : (forall i, In (place i) t -> f i = g i) -> write f t = write g t.
  Proof.
    induction t as [|c t IH]; intros H; [reflexivity|]. unfold write in *. cbn [flat_map].
    rewrite IH by (intros i Hi; apply H; now right). f_equal. destruct (is_place c) eqn:E; [|reflexivity].
    apply H. left. unfold is_place in E. apply N.leb_le in E. unfold place, number. rewrite N2Nat.id. lia.
  Qed.

  Lemma use_keys_all t : sole code t -> told_apart n code t = true -> forall d m, m + d = n ->
    use_keys srepr gname pnum n m (map code (seq m d)) (write (upto m) t) = write (upto n) t.
  Proof.
    intros So Ta. induction d as [|d IH]; intros m Hm.
    - cbn [seq map use_keys]. now replace n with m by lia.
    - cbn [seq map use_keys].
      assert (E : write (with_new m (sign m) (upto m)) t = write (upto (S m)) t).
      { apply write_ext. intros i _. unfold with_new. destruct (Nat.eqb_spec i m) as [->|Hi].
        - symmetry. apply upto_sign. lia.
        - unfold upto. destruct (Nat.ltb_spec i m), (Nat.ltb_spec i (S m)); try lia; reflexivity. }
      rewrite <- (IH (S m)) by lia. f_equal. rewrite <- E.
      rewrite <- (replace_step n code codes m (sign m) codes_unicode); auto; try lia.
      + destruct (contains (code m) (write (upto m) t)) eqn:C; [reflexivity|]. symmetry. apply replace_none; auto.
        now apply code_not_nil.
      + apply upto_fits.
      + apply upto_code. lia.
  Qed.

  Lemma no_row_left f t : fits code f -> sole code t -> (forall i, In (place i) t -> inert (f i)) ->
    contains (T "row_") (write f t) = false.
  Proof.
    intros Hf. induction t as [|c t IH]; intros So Hi; [reflexivity|].
    specialize (IH (sole_cons _ _ _ So) (fun i H => Hi i (or_intror H))).
    assert (G : forall u, (forall a b, u = a ++ b -> b <> [] -> starts (T "row_") (b ++ write f t) = false) ->
      contains (T "row_") (u ++ write f t) = false).
    { induction u as [|d u IHu]; intros H; [exact IH|]. cbn [app contains]. apply orb_false_iff. split.
      - apply (H [] (d :: u)); [reflexivity|discriminate].
      - apply IHu. intros a b E. apply (H (d :: a) b). now rewrite E. }
    change (write f (c :: t)) with ((if is_place c then f (number c) else [c]) ++ write f t).
    apply G. destruct (is_place c) eqn:Ec.
    - intros a b E Hb. assert (I : inert (f (number c))).
      { apply Hi. left. unfold is_place in Ec. apply N.leb_le in Ec. unfold place, number. rewrite N2Nat.id. lia. }
      destruct I as [_ I]. now apply (I a b).
    - intros a b E Hb. destruct a as [|? a]; [|destruct a; [cbn in E; injection E as _ E; symmetry in E; contradiction|discriminate]].
      cbn [app] in E. subst b. cbn [app].
      destruct (starts (T "row_") (c :: write f t)) eqn:S1; [exfalso|reflexivity].
      apply (row_found code codes) in S1; auto. unfold sole, write in So. cbn [flat_map] in So. rewrite Ec in So. cbn [app] in So.
      apply contains_starts in So. unfold write in S1. congruence.
  Qed.

  Lemma row_left f t i : In (place i) t -> f i = code i -> contains (T "row_") (write f t) = true.
  Proof.
    intros Hi E. apply in_split in Hi. destruct Hi as (u & v & ->). apply contains_spec.
    change (place i :: v) with ([place i] ++ v). rewrite !write_app, write_place, E, (code_tail code codes).
    exists (write f u), (skipn 4 (code i) ++ write f v). now rewrite <- app_assoc.
  Qed.

  Lemma result_item_spec t : sole code t -> told_apart n code t = true ->
    ((exists i, n <= i /\ In (place i) t) ->
       result_item srepr gname pnum (map code (seq 0 n)) (write code t) = Rejected) /\
    ((forall i, In (place i) t -> i < n) ->
       result_item srepr gname pnum (map code (seq 0 n)) (write code t) = Code (write sign t)).
  Proof.
    intros So Ta. unfold result_item. rewrite map_length, seq_length.
    replace (write code t) with (write (upto 0) t) by (apply write_ext; intros; apply upto_code; lia).
    rewrite (use_keys_all t So Ta n 0 eq_refl). change row_name with (T "row_"). split.
    - intros (i & Hi & P). rewrite (row_left _ _ i); auto. now apply upto_code.
    - intros H. rewrite no_row_left; auto.
      + f_equal. apply write_ext. intros i Hi. apply upto_sign. auto.
      + apply upto_fits.
      + intros i Hi. rewrite upto_sign by auto. apply signature_inert.
  Qed.
End All.

(** *** places *)
Lemma plug_ext f g s : (forall i, In i (places s) -> f i = g i) -> plug f s = plug g s.
Proof.
  assert (G : forall l, Forall (fun s => (forall i, In i (places s) -> f i = g i) -> plug f s = plug g s) l ->
    (forall i, In i (flat_map places l) -> f i = g i) -> map (plug f) l = map (plug g) l).
  { intros l Hl H. apply map_ext_in. intros s0 Hs. rewrite Forall_forall in Hl. apply Hl; auto.
    intros i Hi. apply H, in_flat_map. eauto. }
  induction s as [x|l|g0|o l IH|i l IH|l IH|c t e IHc IHt IHe|a b IHa IHb|n e IHe|n
                 |k l x it co IHl IHit IHco|h l b IHl IHb|h k l ps ls IHl|h l ps ls IHl]
    using px_ind'; intros H; cbn [plug places] in *; try reflexivity.
  - destruct (place_of x) as [i|]; [|reflexivity]. apply H. now left.
  - f_equal. auto.
  - f_equal. auto.
  - f_equal. auto.
  - f_equal; [apply IHc|apply IHt|apply IHe]; intros i Hi; apply H; rewrite !in_app_iff; auto.
  - f_equal; [apply IHa|apply IHb]; intros i Hi; apply H; rewrite !in_app_iff; auto.
  - f_equal. auto.
  - f_equal; [apply G; auto; intros i Hi; apply H; rewrite !in_app_iff; auto
             |apply IHit; intros i Hi; apply H; rewrite !in_app_iff; auto|].
    destruct co as [c|]; [|reflexivity]. f_equal. apply IHco. intros i Hi. apply H. rewrite !in_app_iff; auto.
  - f_equal. auto.
  - f_equal. auto.
  - f_equal. auto.
Qed.

Section Whole.
  Variables (wordch : N -> bool) (srepr : text -> text) (gname : nat -> text) (pnum : list nat -> nat)
            (pname : text -> text) (hname : list nat -> text).
  Notation print := (print srepr gname pnum).
  Notation texts := (texts srepr gname pnum).
  Notation gen := (gen wordch srepr gname pnum pname hname).
  Notation output := (output srepr gname pnum).
  Notation result_item := (result_item srepr gname pnum).
  Notation result_code := (result_code wordch srepr gname pnum pname hname).

  Lemma printed_place s i : Forall unicode (texts s) -> In (place i) (print s) -> In i (places s).
  Proof.
    intros U P. destruct (in_dec Nat.eq_dec i (places s)) as [|N]; [assumption|exfalso].
    set (f := fun _ : nat => PName [0%N]). set (g := fun j => if Nat.eqb j i then PName [1%N] else PName [0%N]).
    assert (E : print (plug f s) = print (plug g s)).
    { f_equal. apply plug_ext. intros j Hj. unfold f, g. destruct (Nat.eqb_spec j i); [congruence|reflexivity]. }
    rewrite !print_plug in E by assumption. revert P E. generalize (print s). intros t.
    induction t as [|c t IH]; intros P E; [destruct P|]. unfold write in *. cbn [flat_map] in E.
    destruct (is_place c) eqn:Ec.
    - unfold f at 1, g at 1 in E. cbn [Model_Code.print] in E. destruct (Nat.eqb_spec (number c) i) as [Hn|Hn].
      + cbn [Model_Code.print app] in E. discriminate.
      + cbn [Model_Code.print app] in E. injection E as E. apply IH; auto. destruct P as [P|P]; auto. exfalso. apply Hn. subst c.
        unfold number, place. lia.
    - cbn [app] in E. injection E as E. apply IH; auto. destruct P as [P|P]; auto. subst c. exfalso.
      unfold is_place, place in Ec. apply N.leb_gt in Ec. lia.
  Qed.

  Section Output.
    Variable n : nat.
    Variable code : nat -> px.
    Notation keys := (map (fun i => print (code i)) (seq 0 n)).
    Notation sign := (signature_code n).

    Lemma output_sole s e : output n code s e -> sole (fun i => print (code i)) (print s).
    Proof.
      intros [E U C R A]. unfold sole. rewrite print_plug in R by assumption. exact R.
    Qed.
    Lemma write_code s : Forall unicode (texts s) -> print (plug code s) = write (fun i => print (code i)) (print s).
    Proof. apply print_plug. Qed.

    Lemma item_spec s e : output n code s e ->
      ((exists i, n <= i /\ In (place i) (print s)) -> result_item keys (print e) = Rejected) /\
      ((forall i, In (place i) (print s) -> i < n) -> result_item keys (print e) = Code (print (plug sign s))).
    Proof.
      intros O. pose proof (output_sole s e O) as So. destruct O as [-> U C R A].
      rewrite write_code, (print_plug _ _ _ sign) by assumption.
      destruct (result_item_spec srepr gname pnum n (fun i => print (code i)) (fun i => proj1 (C i)) (fun i => proj2 (C i)) (print s) So A) as [H1 H2].
      split; assumption.
    Qed.

    (** parts of an output are outputs *)
    Lemma differs_prefix p u v : differs p (u ++ v) = true -> differs p u = true.
    Proof.
      revert u. induction p as [|a p IH]; intros u; [destruct (u ++ v); discriminate|]. destruct u as [|c u]; [reflexivity|].
      cbn [app differs]. intros H. apply andb_prop in H. destruct H as [-> H]. destruct (N.eqb a c); [|reflexivity].
      cbn [negb orb andb] in *. now apply IH.
    Qed.
    Lemma told_apart_right m cd u v : told_apart m cd (u ++ v) = true -> told_apart m cd v = true.
    Proof. induction u as [|c u IH]; intros H; [assumption|]. cbn [app told_apart] in H. apply andb_prop in H. now apply IH. Qed.
    Lemma told_apart_left m cd u v : told_apart m cd (u ++ v) = true -> told_apart m cd u = true.
    Proof.
      induction u as [|c u IH]; intros H; [reflexivity|]. cbn [app told_apart] in *. apply andb_prop in H. destruct H as [H H'].
      rewrite IH by assumption. rewrite andb_true_r. destruct (is_place c); [|reflexivity].
      rewrite forallb_forall in *. intros k Hk. specialize (H k Hk). apply orb_prop in H. destruct H as [H|H]; [now rewrite H|].
      rewrite app_assoc in H. apply differs_prefix in H. rewrite H. apply orb_true_r.
    Qed.
    Lemma part_output s s' u v : Forall unicode (texts s) -> Forall unicode (texts s') -> print s = u ++ print s' ++ v ->
      output n code s (plug code s) -> output n code s' (plug code s').
    Proof.
      intros U U' E O. pose proof (output_sole _ _ O) as So. destruct O as [_ _ C R A]. constructor; auto.
      - rewrite print_plug in * by assumption. destruct (contains _ (write _ (print s'))) eqn:D; [|reflexivity].
        apply contains_spec in D. destruct D as (a & b & D). rewrite <- R. symmetry. apply contains_spec.
        rewrite E, !write_app, D. match goal with |- context [write ?m u] => exists (write m u ++ a), (b ++ write m v) end. rewrite <- !app_assoc. reflexivity.
      - rewrite E in A. apply told_apart_right, told_apart_left in A. exact A.
    Qed.

    Lemma in_intersperse sep l (t : text) : In t l -> exists u v, intersperse sep l = u ++ t ++ v.
    Proof.
      induction l as [|a l IH]; intros I; [destruct I|]. destruct I as [->|I].
      - destruct l as [|b l]; [exists [], []; cbn; now rewrite app_nil_r|]. exists [], (sep ++ intersperse sep (b :: l)). reflexivity.
      - destruct (IH I) as (u & v & E). destruct l as [|b l]; [destruct I|]. change (intersperse sep (a :: b :: l)) with (a ++ sep ++ intersperse sep (b :: l)).
        rewrite E. exists (a ++ sep ++ u), v. now rewrite <- !app_assoc.
    Qed.
    Lemma in_pairs sep l (t : text) : Nat.Even (length l) -> In t l -> exists w u v, In w (pairs sep l) /\ w = u ++ t ++ v.
    Proof.
      revert l. fix IH 1. intros [|a [|b l]] Ev I; [destruct I|destruct Ev as [m Em]; cbn in Em; lia|].
      cbn [pairs]. destruct I as [->|[->|I]].
      - exists (t ++ sep ++ b), [], (sep ++ b). split; [now left|reflexivity].
      - exists (a ++ sep ++ t), (a ++ sep), []. split; [now left|]. now rewrite app_nil_r, <- app_assoc.
      - destruct (IH l) as (w & u & v & Iw & E); auto.
        { destruct Ev as [m Em]. cbn in Em. exists (m - 1). lia. }
        exists w, u, v. split; [now right|assumption].
    Qed.

    Definition collection (o : opn) : Prop := match o with ODict | OList | OTuple | OSet => True | _ => False end.
    Lemma in_collection o l (t : text) : collection o -> (o = ODict -> Nat.Even (length l)) -> In t l ->
      exists u v, op_text o l = u ++ t ++ v.
    Proof.
      intros Co Ev I. destruct o; try destruct Co; cbn [op_text].
      1-3: destruct (in_intersperse (T ",") l t I) as (u & v & E); rewrite E;
        rewrite <- !app_assoc, app_assoc; eauto.
      destruct (in_pairs (T ":") l t (Ev eq_refl) I) as (w & u & v & Iw & ->).
      destruct (in_intersperse (T ",") _ _ Iw) as (u' & v' & E). rewrite E. rewrite <- !app_assoc.
      exists (T "{" ++ u' ++ u), (v ++ v' ++ T "}"). now rewrite <- !app_assoc.
    Qed.

    Lemma foreign_dec (t : text) : (exists i, n <= i /\ In (place i) t) \/ (forall i, In (place i) t -> i < n).
    Proof.
      induction t as [|c t IH]; [right; intros i []|]. destruct IH as [(i & Hi & P)|H]; [left; exists i; split; [assumption|now right]|].
      destruct (is_place c) eqn:E.
      - assert (Ec : c = place (number c)).
        { unfold is_place in E. apply N.leb_le in E. unfold place, number. rewrite N2Nat.id. lia. }
        destruct (Nat.le_gt_cases n (number c)) as [L|L].
        + left. exists (number c). split; [assumption|]. left. exact Ec.
        + right. intros i [P|P]; [|auto]. rewrite P in L. unfold number, place in L. lia.
      - right. intros i [P|P]; [|auto]. subst c. unfold is_place, place in E. apply N.leb_gt in E. lia.
    Qed.

    Lemma all_codes_spec ls : Forall (fun s => output n code s (plug code s)) ls ->
      ((exists i s, In s ls /\ n <= i /\ In (place i) (print s)) ->
         all_codes (map (fun e => result_item keys (print e)) (map (plug code) ls)) = inr Rejected) /\
      ((forall s i, In s ls -> In (place i) (print s) -> i < n) ->
         all_codes (map (fun e => result_item keys (print e)) (map (plug code) ls)) = inl (map print (map (plug sign) ls))).
    Proof.
      induction 1 as [|s ls O _ [IH1 IH2]]; split.
      - intros (i & s & [] & _).
      - reflexivity.
      - intros H. cbn [map all_codes]. destruct (foreign_dec (print s)) as [F|F].
        + now rewrite (proj1 (item_spec s _ O) F).
        + rewrite (proj2 (item_spec s _ O) F). rewrite IH1; [reflexivity|].
          destruct H as (i & s' & [<-|I] & Hi & P); [|eauto]. exfalso. specialize (F _ P). lia.
      - intros H. cbn [map all_codes]. rewrite (proj2 (item_spec s _ O)) by (intros; eapply H; eauto; now left).
        rewrite IH2; [reflexivity|]. intros; eapply H; eauto. now right.
    Qed.

    Lemma intersperse_from sep l c : ~ In c sep -> In c (intersperse sep l) -> exists t, In t l /\ In c t.
    Proof.
      intros Hs. induction l as [|a l IH]; intros I; [destruct I|]. destruct l as [|b l].
      - exists a. split; [now left|assumption].
      - change (intersperse sep (a :: b :: l)) with (a ++ sep ++ intersperse sep (b :: l)) in I. rewrite !in_app_iff in I.
        destruct I as [I|[I|I]]; [exists a; split; [now left|assumption]|contradiction|].
        destruct (IH I) as (t & It & Ic). exists t. split; [now right|assumption].
    Qed.
    Lemma pairs_from sep c : ~ In c sep -> forall l w, In w (pairs sep l) -> In c w -> exists t, In t l /\ In c t.
    Proof.
      intros Hs. fix IH 1. intros [|a [|b l]] w I Ic; try destruct I.
      - subst w. rewrite !in_app_iff in Ic. destruct Ic as [Ic|[Ic|Ic]]; [exists a; split; [now left|assumption]|contradiction|].
        exists b. split; [right; now left|assumption].
      - destruct (IH l w H Ic) as (t & It & It'). exists t. split; [right; now right|assumption].
    Qed.
    Lemma place_not_T i x : ~ In (place i) (T x).
    Proof.
      intros I. pose proof (unicode_T x) as U. unfold unicode in U. rewrite Forall_forall in U. specialize (U _ I).
      unfold is_place, place in U. apply N.leb_gt in U. lia.
    Qed.
    Lemma collection_from o l i : collection o -> In (place i) (op_text o l) -> exists t, In t l /\ In (place i) t.
    Proof.
      intros Co I. destruct o; try destruct Co; cbn [op_text] in I; rewrite !in_app_iff in I;
        destruct I as [I|[I|I]]; try (exfalso; revert I; apply place_not_T).
      1-3: now apply intersperse_from in I; [|apply place_not_T].
      apply intersperse_from in I; [|apply place_not_T]. destruct I as (w & Iw & Ic).
      revert Iw Ic. apply pairs_from. apply place_not_T.
    Qed.

    Lemma collection_spec o s l : collection o -> (o = ODict -> Nat.Even (length l)) -> output n code s (POp o l) ->
      let r := match all_codes (map (fun e => result_item keys (print e)) l) with inl ts => Code (op_text o ts) | inr e => e end in
      ((exists i, n <= i /\ In (place i) (print s)) -> r = Rejected) /\
      ((forall i, In (place i) (print s) -> i < n) -> r = Code (print (plug sign s))).
    Proof.
      intros Co Ev O. assert (Es : exists ls, s = POp o ls /\ l = map (plug code) ls).
      { pose proof (out_plug _ _ _ _ _ _ _ O) as E. destruct s; try discriminate E.
        - exfalso. cbn [plug] in E. destruct (place_of x) as [i|]; [|discriminate]. destruct O as [_ _ C _ _].
          specialize (C i). rewrite <- E in C. destruct C as [C _]. destruct o; try destruct Co; discriminate.
        - cbn [plug] in E. injection E as -> ->. eauto. }
      destruct Es as (ls & -> & ->). rewrite map_length in Ev.
      pose proof (out_plug _ _ _ _ _ _ _ O) as _. change (POp o (map (plug code) ls)) with (plug code (POp o ls)) in O.
      assert (U : forall s, In s ls -> Forall unicode (texts s)).
      { intros s I. destruct O as [_ U _ _ _]. cbn [Spec_AggResult.texts] in U. apply Forall_app in U. destruct U as [_ U].
        rewrite Forall_forall in *. intros t It. apply U, in_flat_map. eauto. }
      assert (F : Forall (fun s => output n code s (plug code s)) ls).
      { apply Forall_forall. intros s I.
        destruct (in_collection o (map print ls) (print s) Co) as (u & v & E); [now rewrite map_length|now apply in_map|].
        apply (part_output (POp o ls) s u v); auto. apply O. }
      destruct (all_codes_spec ls F) as [H1 H2]. split.
      - intros (i & Hi & P). cbn [Model_Code.print] in P. rewrite H1; [reflexivity|].
        apply collection_from in P; [|assumption]. destruct P as (t & It & P). apply in_map_iff in It. destruct It as (s & <- & It). eauto.
      - intros H. rewrite H2; [reflexivity|]. intros s i I P. apply H. cbn [Model_Code.print].
        destruct (in_collection o (map print ls) (print s) Co) as (u & v & E); [now rewrite map_length|now apply in_map|].
        rewrite E, !in_app_iff. auto.
    Qed.

    Lemma result_code_spec q c s : plain_output c -> output n code s (gen false q c (PName row_name)) ->
      ((exists i, n <= i /\ In (place i) (print s)) -> result_code keys q c = Rejected) /\
      ((forall i, In (place i) (print s) -> i < n) -> result_code keys q c = Code (print (plug sign s))).
    Proof.
      intros Pl O. assert (D : (exists o l, c = COp o l /\ collection o) \/
        result_code keys q c = result_item keys (print (gen false q c (PName row_name)))).
      { destruct c; try (right; reflexivity); try destruct Pl.
        - destruct o; try (right; reflexivity); left; eexists _, _; split; try reflexivity; exact I.
        - destruct c2; try (right; reflexivity); try destruct Pl. destruct o; try (right; reflexivity); destruct Pl. }
      destruct D as [(o & l & -> & Co)|D]; [|rewrite D; now apply item_spec].
      cbn [Model_Code.gen] in O.
      set (gens := fix gens (q : list nat) (i : nat) (l : list cv) (inp : px) : list px :=
                  match l with [] => [] | c :: r => gen false (i :: q) c inp :: gens q (S i) r inp end) in O.
      assert (L : forall l i, length (gens q i l (PName row_name)) = length l).
      { clear. induction l as [|a l IH]; intros i; [reflexivity|]. cbn. f_equal. apply IH. }
      assert (G : forall l i, gens q i l (PName row_name) =
        (fix g (i : nat) (l : list cv) : list px :=
           match l with [] => [] | c :: r => gen false (i :: q) c (PName row_name) :: g (S i) r end) i l).
      { clear. induction l as [|a l IH]; intros i; [reflexivity|]. cbn. f_equal. apply IH. }
      destruct (collection_spec o s (gens q 0 l (PName row_name)) Co) as [H1 H2]; [|assumption|].
      - intros ->. cbn [plain_output] in Pl. now rewrite L.
      - rewrite G in H1, H2. destruct o; try destruct Co; cbn [Model_AggResult.result_code]; split; assumption.
    Qed.
  End Output.
End Whole.

(** *** what the written expressions mean *)
Section Meaning.
  Context {V W X : Type}.
  Variable pr : prims V W X.

  Lemma mapM_map {A B} (f : B -> @M V W X V) (g : A -> B) l : mapM f (map g l) = mapM (fun a => f (g a)) l.
  Proof. induction l as [|a l IH]; [reflexivity|]. cbn [map mapM]. now rewrite IH. Qed.
  Lemma boolM_map {A B} (f : B -> @M V W X V) (g : A -> B) i l : boolM pr f i (map g l) = boolM pr (fun a => f (g a)) i l.
  Proof.
    induction l as [|a l IH]; [reflexivity|]. destruct l as [|b l]; [reflexivity|].
    change (map g (a :: b :: l)) with (g a :: map g (b :: l)). cbn [boolM] in *. cbn [map] in *. now rewrite IH.
  Qed.
  Lemma chainM_map {A B} (f : B -> @M V W X V) (g : A -> B) l : forall v, meq (chainM pr f v (map g l)) (chainM pr (fun a => f (g a)) v l).
  Proof.
    induction l as [|a l IH]; intros v; [apply meq_refl|]. cbn [map chainM]. apply bind_meq; [apply meq_refl|]. intros w.
    apply bind_meq; [apply meq_refl|]. intros c. destruct l as [|b l]; [apply meq_refl|]. cbn [map] in *.
    apply bind_meq; [apply meq_refl|]. intros []; [apply IH|apply meq_refl].
  Qed.
  Lemma eqsM_map {A B} (f : B -> @M V W X V) (g : A -> B) l : meq (eqsM pr f (map g l)) (eqsM pr (fun a => f (g a)) l).
  Proof. destruct l as [|a l]; [apply meq_refl|]. cbn [map eqsM]. apply bind_meq; [apply meq_refl|]. intros v. apply chainM_map. Qed.

  Variable n : nat.
  Variable key : nat -> V.
  Lemma signature_value E E' i : group_env pr n key E E' -> i < n -> meq (eval pr E (signature_code n i)) (ret (key i)).
  Proof.
    intros [(sv & L & H1 & H2) _ _] Hi. unfold signature_code. destruct (Nat.ltb_spec 1 n) as [Hn|Hn].
    - cbn [eval mapM]. change signature_name with (T "signature_"). rewrite L. intros [w L0].
      unfold Model_Eval.bind, ret, prim. cbn [fst snd]. rewrite H2 by lia. reflexivity.
    - cbn [eval]. change signature_name with (T "signature_"). rewrite L. rewrite H1 by lia.
      replace i with 0 by lia. apply meq_refl.
  Qed.
  Lemma group_env_cons E E' x v : group_env pr n key E E' -> place_of x = None -> x <> T "signature_" ->
    group_env pr n key ((x, v) :: E) ((x, v) :: E').
  Proof.
    intros [(sv & L & H) P R] Hx Hs. constructor.
    - exists sv. split; [|assumption]. cbn [lookup]. destruct (text_eq_dec (T "signature_") x); [congruence|assumption].
    - intros i Hi. cbn [lookup]. destruct (text_eq_dec [place i] x) as [<-|]; [|auto].
      unfold place_of, is_place, place in Hx. replace (N.leb beyond (beyond + N.of_nat i)) with true in Hx; [discriminate|].
      symmetry. apply N.leb_le. lia.
    - intros y Hy. cbn [lookup]. destruct (text_eq_dec y x); auto.
  Qed.

  (** [f i] means [key i], also inside the comprehensions of [s] *)
  Definition stands (f : nat -> px) (vars : list text) (E : list (text * V)) : Prop :=
    forall B, (forall p, In p B -> In (fst p) vars) -> forall i, i < n -> meq (eval pr (B ++ E) (f i)) (ret (key i)).
  Lemma stands_incl f l l' E : incl l' l -> stands f l E -> stands f l' E.
  Proof. intros I H B HB. apply H. intros p Hp. apply I. auto. Qed.
  Lemma stands_cons f l E x v : In x l -> stands f l E -> stands f l ((x, v) :: E).
  Proof.
    intros I H B HB i Hi. change ((x, v) :: E) with ([(x, v)] ++ E). rewrite app_assoc. apply H; [|assumption].
    intros p Hp. apply in_app_or in Hp. destruct Hp as [Hp|[<-|[]]]; auto.
  Qed.
  Lemma lookup_cons_place (E : list (text * V)) x v i : place_of x = None -> lookup ((x, v) :: E) [place i] = lookup E [place i].
  Proof.
    intros Hx. cbn [lookup]. destruct (text_eq_dec [place i] x) as [<-|]; [|reflexivity].
    unfold place_of, is_place, place in Hx. replace (N.leb beyond (beyond + N.of_nat i)) with true in Hx; [discriminate|].
    symmetry. apply N.leb_le. lia.
  Qed.

  Lemma plug_means f s : forall E E' : list (text * V),
    (forall y, place_of y = None -> lookup E' y = lookup E y) ->
    (forall i, i < n -> lookup E' [place i] = Some (key i)) ->
    stands f (loop_vars s) E -> (forall i, In i (places s) -> i < n) ->
    (forall x, In x (loop_vars s) -> place_of x = None) ->
    meq (eval pr E (plug f s)) (eval pr E' s).
  Proof.
    pose (P := fun s => forall E E' : list (text * V), (forall y, place_of y = None -> lookup E' y = lookup E y) ->
      (forall i, i < n -> lookup E' [place i] = Some (key i)) ->
      stands f (loop_vars s) E -> (forall i, In i (places s) -> i < n) ->
      (forall x, In x (loop_vars s) -> place_of x = None) ->
      meq (eval pr E (plug f s)) (eval pr E' s)).
    change (P s).
    assert (HL : forall l, Forall P l -> forall E E' : list (text * V), (forall y, place_of y = None -> lookup E' y = lookup E y) ->
      (forall i, i < n -> lookup E' [place i] = Some (key i)) ->
      stands f (flat_map loop_vars l) E -> (forall i, In i (flat_map places l) -> i < n) ->
      (forall x, In x (flat_map loop_vars l) -> place_of x = None) ->
      Forall (feq (fun s => eval pr E (plug f s)) (eval pr E')) l).
    { intros l Hl E E' HR HK HS Hp Hv. rewrite Forall_forall in *. intros e0 He. apply (Hl _ He); auto.
      - revert HS. apply stands_incl. intros x Hx. apply in_flat_map. eauto.
      - intros i Hi. apply Hp, in_flat_map. eauto.
      - intros x Hx. apply Hv, in_flat_map. eauto. }
    assert (HI : forall s l l' lp, P s -> incl (loop_vars s) l -> incl (places s) lp -> forall E E' : list (text * V),
      (forall y, place_of y = None -> lookup E' y = lookup E y) ->
      (forall i, i < n -> lookup E' [place i] = Some (key i)) ->
      stands f l E -> (forall i, In i lp -> i < n) -> (forall x, In x l -> place_of x = None) -> l' = l ->
      meq (eval pr E (plug f s)) (eval pr E' s)).
    { intros s0 l l' lp H Hl Hp E E' HR HK HS H1 H2 _. apply H; auto. revert HS. now apply stands_incl. }
    induction s as [x|l|g|o l IH|i l IH|l IH|c t e IHc IHt IHe|a b IHa IHb|m e IHe|m
                   |k l x it co IHl IHit IHco|h l b IHl IHb|h k l ps ls IHl|h l ps ls IHl]
      using px_ind'; intros E E' HR HK HS Hp Hv; cbn [plug eval] in *; try apply meq_refl; cbn [places loop_vars] in *.
    - destruct (place_of x) as [i|] eqn:Ex.
      + apply place_of_some in Ex. subst x. assert (Hi : i < n) by (apply Hp; now left).
        rewrite (HK i Hi). apply (HS [] (fun p F => False_ind _ F) i Hi).
      + cbn [eval]. rewrite <- (HR x Ex). apply meq_refl.
    - apply bind_meq; [|intros; apply meq_refl]. rewrite mapM_map. apply mapM_meq; auto.
    - rewrite boolM_map. apply boolM_meq; auto.
    - eapply meq_trans; [apply eqsM_map|]. apply eqsM_meq; auto.
    - apply bind_meq; [|intros v; apply bind_meq; [apply meq_refl|intros []]];
        (eapply HI; [eassumption| | |exact HR|exact HK|exact HS|exact Hp|exact Hv|reflexivity]);
        intros y Hy; rewrite !in_app_iff; auto.
    - apply bind_meq; [|intros v; apply bind_meq; [apply meq_refl|intros _]];
        (eapply HI; [eassumption| | |exact HR|exact HK|exact HS|exact Hp|exact Hv|reflexivity]);
        intros y Hy; rewrite !in_app_iff; auto.
    - apply bind_meq; [now apply IHe|]. intros. apply meq_refl.
    - apply bind_meq.
      { eapply HI; [eassumption| | |exact HR|exact HK|exact HS|exact Hp|exact Hv|reflexivity];
          intros y Hy; [right|]; rewrite !in_app_iff; auto. }
      intros v. apply comprehend_meq. intros item acc.
      assert (Hx : place_of x = None) by (apply Hv; now left).
      assert (HR' : forall y, place_of y = None -> lookup ((x, item) :: E') y = lookup ((x, item) :: E) y).
      { intros y Hy. cbn [lookup]. destruct (text_eq_dec y x); auto. }
      assert (HK' : forall i, i < n -> lookup ((x, item) :: E') [place i] = Some (key i)).
      { intros i Hi. rewrite lookup_cons_place by assumption. auto. }
      pose proof (stands_cons f _ E x item (in_eq _ _) HS) as HS'.
      assert (HB : meq (bind (mapM (eval pr ((x, item) :: E)) (map (plug f) l)) (fun vs => prim (push pr k acc vs)))
                       (bind (mapM (eval pr ((x, item) :: E')) l) (fun vs => prim (push pr k acc vs)))).
      { apply bind_meq; [|intros; apply meq_refl]. rewrite mapM_map. apply mapM_meq, HL; auto.
        - revert HS'. apply stands_incl. intros y Hy. right. rewrite !in_app_iff; auto.
        - intros y Hy. apply Hp. rewrite !in_app_iff; auto.
        - intros y Hy. apply Hv. right. rewrite !in_app_iff; auto. }
      destruct co as [c|]; cbn [whenM]; [|exact HB].
      apply bind_meq; [|intros cv; apply bind_meq; [apply meq_refl|intros []; [exact HB|apply meq_refl]]].
      apply IHco; auto.
      + revert HS'. apply stands_incl. intros y Hy. right. rewrite !in_app_iff; auto.
      + intros y Hy. apply Hp. rewrite !in_app_iff; auto.
      + intros y Hy. apply Hv. right. rewrite !in_app_iff; auto.
    - apply bind_meq; [|intros; apply meq_refl]. rewrite mapM_map. apply mapM_meq, HL; auto.
    - apply bind_meq; [|intros; apply meq_refl]. rewrite mapM_map. apply mapM_meq, HL; auto.
    - apply bind_meq; [|intros; apply meq_refl]. rewrite mapM_map. apply mapM_meq, HL; auto.
  Qed.

  Lemma plug_value s E E' : group_env pr n key E E' -> (forall i, In i (places s) -> i < n) ->
    (forall x, In x (loop_vars s) -> place_of x = None /\ x <> T "signature_") ->
    meq (eval pr E (plug (signature_code n) s)) (eval pr E' s).
  Proof.
    intros HE Hp Hv. apply plug_means; auto.
    - apply (ge_rest _ _ _ _ _ HE).
    - apply (ge_places _ _ _ _ _ HE).
    - intros B HB i Hi. assert (G : exists E1, group_env pr n key (B ++ E) E1).
      { clear i Hi. induction B as [|[x v] B IH]; [eauto|]. destruct IH as [E1 H1]; [intros p Hpp; apply HB; now right|].
        exists ((x, v) :: E1). destruct (Hv x (HB (x, v) (or_introl eq_refl))). now apply group_env_cons. }
      destruct G as [E1 H1]. now apply (signature_value (B ++ E) E1).
    - intros x Hx. now apply Hv.
  Qed.
End Meaning.
