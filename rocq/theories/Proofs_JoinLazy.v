(** The lazy join of Model_JoinLazy.v against Model_Join.join. *)
From Coq Require Import String List ZArith Bool Arith Lia.
From Verif Require Import Model_PyVal Model_Join Model_Labels Model_JoinLazy Spec_JoinLazy.
Import ListNotations.

Lemma find_filter p l ys : filter_rows p l = Ok ys ->
  match ys with
  | [] => find_row p l = Ok (None, [])
  | y :: ys' => exists r, find_row p l = Ok (Some y, r) /\ filter_rows p r = Ok ys'
  end.
Proof.
  revert ys. induction l as [|x l IH]; intros ys; cbn.
  - intros [= <-]. reflexivity.
  - destruct (p x) as [b|e]; cbn; [|discriminate]. destruct (filter_rows p l) as [zs|e] eqn:F; cbn; [|discriminate].
    destruct b; intros [= <-].
    + exists l. auto.
    + specialize (IH zs eq_refl). exact IH.
Qed.
Lemma filter_find_none p l r : find_row p l = Ok (None, r) -> r = [] /\ filter_rows p l = Ok [].
Proof.
  induction l as [|x l IH]; cbn; [intros [= <-]; auto|]. destruct (p x) as [[|]|e]; cbn; try discriminate.
  intros F. destruct (IH F) as [-> E]. rewrite E. auto.
Qed.
Lemma filter_find_some p l y r ys : find_row p l = Ok (Some y, r) -> filter_rows p r = Ok ys -> filter_rows p l = Ok (y :: ys).
Proof.
  induction l as [|x l IH]; cbn; [discriminate|]. destruct (p x) as [[|]|e]; cbn; try discriminate.
  - intros [= -> ->] ->. reflexivity.
  - intros F R. rewrite (IH F R). reflexivity.
Qed.

Lemma index_passing_rows p key l : forall d,
  match filter_rows p l with
  | Ok rows => index_passing p key l d = index_rows key rows d
  | Err _ => exists e, index_passing p key l d = Err e
  end.
Proof.
  induction l as [|y l IH]; intros d; cbn [filter_rows index_passing]; [reflexivity|].
  destruct (p y) as [[|]|e]; cbn [bind]; [| |eauto].
  - destruct (filter_rows p l) as [rows|e]; cbn [bind].
    + cbn [index_rows]. destruct (key y) as [k0|]; cbn [bind]; [|reflexivity]. destruct (need_hash k0) as [k|]; cbn [bind]; [|reflexivity]. apply IH.
    + destruct (key y) as [k0|]; cbn [bind]; [|eauto]. destruct (need_hash k0) as [k|]; cbn [bind]; [|eauto]. apply IH.
  - specialize (IH d). destruct (filter_rows p l) as [rows|e]; cbn [bind]; exact IH.
Qed.

Section Lazy.
  Variable op : string -> list val -> res val.
  Variable h : Model_Join.how.
  Variable cond : option jx.
  Variable inputs : string -> val.
  Notation cs_of := (cs_of h cond).
  Notation how' := (how' h).
  Notation swapped := (swapped h).
  Notation passes := (passes op h cond inputs).
  Notation both_tests := (both_tests op h cond inputs).
  Notation rfilters := (rfilters h cond).
  Notation lfilters := (lfilters h cond).
  Notation next_right := (next_right op h cond inputs).
  Notation right_items := (right_items op h cond inputs).
  Notation next_left := (next_left op h cond inputs).
  Notation outer := (outer op h cond inputs).
  Notation next_pair := (next_pair op h cond inputs).
  Notation pair_of := (pair_of h).
  Notation lf x := (ev_all op (on_row inputs x) lfilters).
  Notation rf y := (ev_all op (on_row inputs y) rfilters).
  Notation lkey x := (ev_key op (on_row inputs x) (left_hash cs_of)).

  (** *** the inner loop *)
  (** all right rows of a left row, and the labels afterwards *)
  Definition all_right (x : robj) (cs : cands) (ls : labels lab) : option (res (list robj) * labels lab) :=
    match cs with
    | Rows l => Some (filter_rows (passes x) l, ls)
    | Shared =>
        match label_at ls right_key with
        | Some (LOnce l) => Some (filter_rows (both_tests x) l, set_label ls right_key (LOnce []))
        | _ => None
        end
    end.
  (** labels that hold the same, as far as the generator reads them *)
  Definition agree (ls ls' : labels lab) : Prop :=
    label_at ls right_key = label_at ls' right_key /\
    (left_hash cs_of <> [] -> label_at ls index_key = label_at ls' index_key).
  Lemma agree_refl ls : agree ls ls. Proof. split; auto. Qed.
  Lemma agree_sym a b : agree a b -> agree b a.
  Proof. intros [A B]. split; [auto|]. intros N. symmetry. auto. Qed.
  Lemma agree_trans a b c : agree a b -> agree b c -> agree a c.
  Proof. intros [A B] [C D]. split; [congruence|]. intros N. rewrite B, D; auto. Qed.
  Lemma agree_set ls ls' k v : agree ls ls' -> agree (set_label ls k v) (set_label ls' k v).
  Proof. intros [A B]. split; cbn; [|intros N]; destruct (String.eqb k _); auto. Qed.
  Lemma agree_set2 ls k v w : agree (set_label (set_label ls k v) k w) (set_label ls k w).
  Proof. split; cbn; [|intros N]; destruct (String.eqb k _); auto. Qed.
  Lemma label_set ls k v : label_at (set_label ls k v) k = Some v.
  Proof. cbn. rewrite String.eqb_refl. reflexivity. Qed.
  Lemma right_index : String.eqb right_key index_key = false. Proof. reflexivity. Qed.
  Lemma label_set_right ls v : label_at (set_label ls right_key v) index_key = label_at ls index_key.
  Proof. reflexivity. Qed.
  Lemma label_set_index ls v : label_at (set_label ls index_key v) right_key = label_at ls right_key.
  Proof. reflexivity. Qed.

  Lemma next_right_all x cs ls ys ls' : all_right x cs ls = Some (Ok ys, ls') ->
    match ys with
    | [] => exists ls1, next_right x cs ls = (ls1, Ok None) /\ agree ls1 ls'
    | y :: ys' => exists ls1 cs1 ls2, next_right x cs ls = (ls1, Ok (Some (y, cs1))) /\
        all_right x cs1 ls1 = Some (Ok ys', ls2) /\ agree ls2 ls'
    end.
  Proof.
    destruct cs as [l|]; cbn [all_right Model_JoinLazy.next_right].
    - intros [= F ->]. pose proof (find_filter _ _ _ F) as G. destruct ys as [|y ys].
      + rewrite G. cbn. exists ls'. split; [reflexivity|apply agree_refl].
      + destruct G as (r & -> & R). cbn. exists ls', (Rows r), ls'. split; [reflexivity|]. cbn. rewrite R. split; [reflexivity|apply agree_refl].
    - destruct (label_at ls right_key) as [[| l | | | ]|] eqn:L; try discriminate. intros [= F <-].
      pose proof (find_filter _ _ _ F) as G. destruct ys as [|y ys].
      + rewrite G. cbn [fst snd]. eexists. split; [reflexivity|apply agree_refl].
      + destruct G as (r & -> & R). cbn [fst snd]. eexists _, Shared, _. split; [reflexivity|].
        cbn [all_right]. rewrite label_set, R. split; [reflexivity|]. apply agree_set2.
  Qed.

  (** *** everything depends on what the labels hold only *)
  Lemma next_right_agree x cs ls ls' : agree ls ls' ->
    agree (fst (next_right x cs ls)) (fst (next_right x cs ls')) /\ snd (next_right x cs ls) = snd (next_right x cs ls').
  Proof.
    intros A. unfold Model_JoinLazy.next_right. destruct cs as [l|]; cbn; auto. rewrite (proj1 A).
    destruct (label_at ls' right_key) as [[| l | | | ]|]; cbn; auto.
    destruct (find_row (both_tests x) l) as [f|e]; cbn; auto. split; auto. apply agree_set, A.
  Qed.
  Lemma next_left_agree u ls ls' : agree ls ls' -> next_left u ls = next_left u ls'.
  Proof.
    intros A. induction u as [|[x|e] u IH]; cbn; auto. destruct (lf x) as [[|]|]; auto.
    unfold Model_JoinLazy.right_items. destruct A as [A B]. rewrite A. destruct (left_hash cs_of) as [|k ks] eqn:LH; [reflexivity|].
    rewrite B by (try rewrite LH; discriminate). reflexivity.
  Qed.
  Lemma finish_agree ids ls ls' : agree ls ls' -> finish h ids ls = finish h ids ls'.
  Proof. intros A. unfold finish. rewrite (proj1 A). reflexivity. Qed.
  Lemma outer_agree n u ids ls ls' : agree ls ls' ->
    agree (fst (outer n u ids ls)) (fst (outer n u ids ls')) /\ snd (outer n u ids ls) = snd (outer n u ids ls').
  Proof.
    revert u ls ls'. induction n as [|n IH]; intros u ls ls' A; cbn [Model_JoinLazy.outer]; rewrite (next_left_agree u ls ls' A);
      destruct (next_left u ls') as [x cs r| |e]; cbn [fst snd]; auto.
    all: try (split; [exact A|apply finish_agree, A]).
    all: pose proof (next_right_agree x cs ls ls' A) as B; destruct (next_right x cs ls) as [a ra], (next_right x cs ls') as [b rb];
      cbn [fst snd] in B; destruct B as [B ->]; destruct rb as [[[y cs']|]|e]; cbn [fst snd]; auto.
    all: destruct how'; cbn [fst snd]; auto.
  Qed.
  Lemma next_pair_agree s ls ls' : agree ls ls' ->
    agree (fst (next_pair s ls)) (fst (next_pair s ls')) /\ snd (next_pair s ls) = snd (next_pair s ls').
  Proof.
    intros A. destruct s as [u ids|u f i cs ids|r ids]; cbn [Model_JoinLazy.next_pair].
    - apply outer_agree, A.
    - pose proof (next_right_agree f cs ls ls' A) as B. destruct (next_right f cs ls) as [a ra], (next_right f cs ls') as [b rb].
      cbn [fst snd] in B. destruct B as [B ->]. destruct rb as [[[y cs']|]|e]; cbn [fst snd]; auto. apply outer_agree, B.
    - cbn. auto.
  Qed.

  (** *** enough fuel *)
  Lemma next_left_shorter u ls x cs r : next_left u ls = LRow x cs r -> length r < length u.
  Proof.
    induction u as [|[y|e] u IH]; cbn; try discriminate. destruct (lf y) as [[|]|]; try discriminate.
    - destruct (right_items y ls); try discriminate. intros [= _ _ <-]. lia.
    - intros E. specialize (IH E). lia.
  Qed.
  Lemma outer_fuel n n' u ids ls : length u <= n -> length u <= n' -> outer n u ids ls = outer n' u ids ls.
  Proof.
    revert n' u ls. induction n as [|n IH]; intros n' u ls L L'.
    - destruct u; [|cbn in L; lia]. destruct n'; reflexivity.
    - destruct n' as [|n'].
      + destruct u; [|cbn in L'; lia]. reflexivity.
      + cbn [Model_JoinLazy.outer]. destruct (next_left u ls) as [x cs r| |e] eqn:E; auto.
        apply next_left_shorter in E. destruct (next_right x cs ls) as [a [[[y cs']|]|e]]; auto.
        destruct how'; auto. apply IH; lia.
  Qed.

  (** *** sequences of next() *)
  (** [ps] are yielded one after the other, every state on the way satisfying [Q] *)
  Inductive takes (Q : gstate -> Prop) : gstate -> labels lab -> list (robj * robj) -> gstate -> labels lab -> Prop :=
  | t_none s ls ls' : agree ls ls' -> takes Q s ls [] s ls'
  | t_one s ls p s1 ls1 ps s' ls' :
      next_pair s ls = (ls1, GYield (LPair p) s1) -> Q s1 -> takes Q s1 ls1 ps s' ls' -> takes Q s ls (p :: ps) s' ls'.
  Lemma takes_agree Q s ls ls0 ps s' ls' : agree ls ls0 -> takes Q s ls ps s' ls' -> takes Q s ls0 ps s' ls'.
  Proof.
    intros A T. revert ls0 A. induction T as [s ls ls' B|s ls p s1 ls1 ps s' ls' N HQ T IH]; intros ls0 A.
    - constructor. eapply agree_trans; [apply agree_sym, A|exact B].
    - pose proof (next_pair_agree s ls ls0 A) as [C D]. rewrite N in C, D. cbn [fst snd] in C, D.
      destruct (next_pair s ls0) as [ls2 o] eqn:N0. cbn [fst snd] in C, D. subst o. eapply t_one; eauto.
  Qed.
  Lemma takes_app Q s ls ps s1 ls1 qs s2 ls2 : takes Q s ls ps s1 ls1 -> takes Q s1 ls1 qs s2 ls2 -> takes Q s ls (ps ++ qs) s2 ls2.
  Proof.
    intros T. revert qs s2 ls2. induction T as [s ls ls' B|s ls p s1 ls1 ps s' ls' N HQ T IH]; intros qs s2 ls2 U; cbn.
    - eapply takes_agree; [|exact U]. apply agree_sym, B.
    - eapply t_one; eauto.
  Qed.
  (** the first steps are the same *)
  Lemma takes_step Q s ls s0 ls0 ps s' ls' :
    agree (fst (next_pair s ls)) (fst (next_pair s0 ls0)) -> snd (next_pair s ls) = snd (next_pair s0 ls0) ->
    ps <> [] -> takes Q s0 ls0 ps s' ls' -> takes Q s ls ps s' ls'.
  Proof.
    intros A B NE T. destruct T as [s0 ls0 ls' C|s0 ls0 p s1 ls1 ps s' ls' N HQ T]; [contradiction|].
    rewrite N in A, B. cbn [fst snd] in A, B. destruct (next_pair s ls) as [ls2 o] eqn:N2. cbn [fst snd] in A, B. subst o.
    eapply t_one; [exact N2|exact HQ|]. eapply takes_agree; [|exact T]. apply agree_sym, A.
  Qed.

  Lemma agree_sym_next s ls ls' : agree ls ls' -> agree (fst (next_pair s ls)) (fst (next_pair s ls')).
  Proof. intros A. apply (next_pair_agree s ls ls' A). Qed.

  (** *** the left rows of a list *)
  (** the labels hold what [Model_Join.matches] reads *)
  Definition holds_source (src : source) (ls : labels lab) : Prop :=
    match src with
    | Buckets d => left_hash cs_of <> [] /\ label_at ls index_key = Some (LIndex d)
    | Again l => left_hash cs_of = [] /\ label_at ls right_key = Some (LAgain l)
    | Once r => left_hash cs_of = [] /\ exists l, label_at ls right_key = Some (LOnce l) /\ r = filter_rows (fun y => rf y) l
    end.
  Lemma holds_agree src ls ls' : agree ls ls' -> holds_source src ls -> holds_source src ls'.
  Proof. intros [A B]. destruct src; cbn; rewrite <- ?A; auto. intros [NE L]. rewrite <- (B NE). auto. Qed.
  Lemma filter_both x l rs ys : filter_rows (fun y => rf y) l = Ok rs -> filter_rows (passes x) rs = Ok ys ->
    filter_rows (both_tests x) l = Ok ys.
  Proof.
    revert rs ys. induction l as [|y l IH]; intros rs ys; cbn.
    - intros [= <-]. cbn. auto.
    - unfold Model_JoinLazy.both_tests at 1. destruct (rf y) as [b|e]; cbn; [|discriminate].
      destruct (filter_rows (fun y => rf y) l) as [rs'|e] eqn:F; cbn; [|discriminate]. destruct b; intros [= <-]; cbn.
      + destruct (passes x y) as [b|e]; cbn; [|discriminate]. destruct (filter_rows (passes x) rs') as [ys'|e] eqn:G; cbn; [|discriminate].
        intros [= <-]. rewrite (IH _ _ eq_refl G). reflexivity.
      + intros G. rewrite (IH _ _ eq_refl G). reflexivity.
  Qed.
  Lemma both_filter x l ys : filter_rows (both_tests x) l = Ok ys ->
    exists rs, filter_rows (fun y => rf y) l = Ok rs /\ filter_rows (passes x) rs = Ok ys.
  Proof.
    revert ys. induction l as [|y l IH]; intros ys; cbn.
    - intros [= <-]. exists []. auto.
    - unfold Model_JoinLazy.both_tests at 1. destruct (rf y) as [[|]|e]; cbn; try discriminate.
      + destruct (passes x y) as [b|e] eqn:P; cbn; [|discriminate]. destruct (filter_rows (both_tests x) l) as [ys'|e]; cbn; [|discriminate].
        intros [= <-]. destruct (IH _ eq_refl) as (rs & -> & G). cbn. eexists. split; [reflexivity|]. cbn. rewrite P, G. reflexivity.
      + destruct (filter_rows (both_tests x) l) as [ys'|e]; cbn; [|discriminate]. intros [= <-].
        destruct (IH _ eq_refl) as (rs & -> & G). cbn. eexists. split; [reflexivity|]. exact G.
  Qed.

  (** a right collection that can be read again stays *)
  Definition keeps (ls ls' : labels lab) : Prop :=
    forall rows, label_at ls right_key = Some (LAgain rows) -> label_at ls' right_key = Some (LAgain rows).
  (** [take] and [right_items] *)
  Lemma take_right x src ls rows src' ys : holds_source src ls -> take (fun x => lkey x) src x = Ok (rows, src') ->
    filter_rows (passes x) rows = Ok ys ->
    exists cs ls1, right_items x ls = Ok cs /\ all_right x cs ls = Some (Ok ys, ls1) /\ holds_source src' ls1 /\ keeps ls ls1.
  Proof.
    intros H T F. destruct src as [d|l|r]; cbn in H, T.
    - destruct H as [NE L]. unfold Model_JoinLazy.right_items. destruct (left_hash cs_of) as [|k ks] eqn:LH; [contradiction|].
      destruct (ev_key op (on_row inputs x) (k :: ks)) as [kv|e]; cbn in T |- *; [|discriminate]. rewrite L.
      destruct (need_hash kv) as [k'|e]; cbn in T |- *; [|discriminate]. injection T as <- <-.
      eexists _, ls. split; [reflexivity|]. cbn. rewrite F. rewrite LH. split; [reflexivity|]. split; [split; [discriminate|exact L]|]. intros rows E. exact E.
    - destruct H as [E L]. injection T as <- <-. unfold Model_JoinLazy.right_items. rewrite E, L.
      eexists _, ls. split; [reflexivity|]. cbn. rewrite F. split; [reflexivity|]. split; [split; assumption|]. intros rows0 E0. exact E0.
    - destruct H as (E & l & L & ->). destruct (filter_rows (fun y => rf y) l) as [rs|e] eqn:G; cbn in T; [|discriminate].
      injection T as <- <-. unfold Model_JoinLazy.right_items. rewrite E, L. eexists _, _. split; [reflexivity|].
      cbn [all_right]. rewrite L, (filter_both x l rs ys G F). split; [reflexivity|]. cbn. split; [split; [auto|]; exists []; auto|]. intros rows E1. rewrite L in E1. discriminate.
  Qed.

  (** the pairs of a left row *)
  Definition row_pairs (x : robj) (ys : list robj) : list (robj * robj) :=
    match how', ys with
    | Inner, _ => map (pair_of x) ys
    | _, [] => [pair_of x none_obj]
    | _, _ => map (pair_of x) ys
    end.
  Definition lead (m : list (robj * list robj)) : list (robj * robj) := flat_map (fun xm => row_pairs (fst xm) (snd xm)) m.

  Definition leading (s : gstate) : Prop := match s with GTail _ _ => False | _ => True end.
  Definition ids_of (s : gstate) : list nat := match s with GOuter _ i | GInner _ _ _ _ i | GTail _ i => i end.
  (** when the right rows of the current left row are used up, the next left row is read *)
  Definition goes_on (s : gstate) (ls : labels lab) (u : list (res robj)) (ids : list nat) (ls' : labels lab) : Prop :=
    agree (fst (next_pair s ls)) (fst (next_pair (GOuter u ids) ls')) /\ snd (next_pair s ls) = snd (next_pair (GOuter u ids) ls').

  (** [unread] is not touched while the right rows of one left row are yielded *)
  Lemma inner_takes (Q : gstate -> Prop) u x cs ids ls ys ls' :
    (forall cs ids, Q (GInner u x x cs ids)) -> all_right x cs ls = Some (Ok ys, ls') ->
    exists s1 ls1, takes Q (GInner u x x cs ids) ls (map (pair_of x) ys) s1 ls1 /\ leading s1 /\
      goes_on s1 ls1 u (rev (map (fun p => rid (snd p)) (map (pair_of x) ys)) ++ ids) ls'.
  Proof.
    intros HQ. revert cs ids ls ls'. induction ys as [|y ys IH]; intros cs ids ls ls' A.
    - pose proof (next_right_all x cs ls [] ls' A) as (ls1 & N & G). exists (GInner u x x cs ids), ls.
      split; [constructor; apply agree_refl|]. split; [exact Logic.I|]. unfold goes_on. cbn [Model_JoinLazy.next_pair map rev app]. rewrite N.
      apply outer_agree, G.
    - pose proof (next_right_all x cs ls (y :: ys) ls' A) as (ls1 & cs1 & ls2 & N & A1 & G).
      destruct (IH cs1 (rid (snd (pair_of x y)) :: ids) ls1 ls2 A1) as (s1 & ls3 & T & LD & GO).
      exists s1, ls3. split; [|split; [exact LD|]].
      + cbn [map]. eapply t_one; [|apply HQ|exact T]. cbn [Model_JoinLazy.next_pair]. rewrite N. unfold give. destruct how'; reflexivity.
      + cbn [map rev]. rewrite <- app_assoc. cbn [app]. destruct GO as [GO1 GO2]. unfold goes_on in *.
        pose proof (next_pair_agree (GOuter u (rev (map (fun p => rid (snd p)) (map (pair_of x) ys)) ++ rid (snd (pair_of x y)) :: ids)) ls2 ls' G) as [B1 B2].
        split; [eapply agree_trans; eauto|congruence].
  Qed.

  (** reading a left row *)
  Lemma outer_row u x r ids ls cs ys ls1 : next_left u ls = LRow x cs r -> all_right x cs ls = Some (Ok ys, ls1) ->
    match ys with
    | y :: ys' => exists ls2 cs2 ls3, next_pair (GOuter u ids) ls = (ls2, GYield (LPair (pair_of x y)) (GInner r x x cs2 (rid (snd (pair_of x y)) :: ids))) /\
        all_right x cs2 ls2 = Some (Ok ys', ls3) /\ agree ls3 ls1
    | [] =>
        match how' with
        | Inner => goes_on (GOuter u ids) ls r ids ls1
        | _ => exists ls2, next_pair (GOuter u ids) ls = (ls2, GYield (LPair (pair_of x none_obj)) (GOuter r (rid (snd (pair_of x none_obj)) :: ids))) /\ agree ls2 ls1
        end
    end.
  Proof.
    intros N A. pose proof (next_left_shorter _ _ _ _ _ N) as SH. pose proof (next_right_all x cs ls ys ls1 A) as R.
    destruct ys as [|y ys].
    - destruct R as (ls2 & R & G). destruct how' eqn:HW.
      1: { unfold goes_on. cbn [Model_JoinLazy.next_pair]. destruct (length u) as [|n] eqn:LU; [lia|]. cbn [Model_JoinLazy.outer]. rewrite N, R, HW.
           rewrite (outer_fuel n (length r)) by lia. apply outer_agree, G. }
      all: cbn [Model_JoinLazy.next_pair]; destruct (length u) as [|n] eqn:LU; [lia|]; cbn [Model_JoinLazy.outer]; rewrite N, R, HW; exists ls2; split; [reflexivity|exact G].
    - destruct R as (ls2 & cs2 & ls3 & R & A2 & G). exists ls2, cs2, ls3. split; [|split; assumption].
      cbn [Model_JoinLazy.next_pair]. destruct (length u) as [|n] eqn:LU; [lia|]. cbn [Model_JoinLazy.outer]. rewrite N, R. reflexivity.
  Qed.
  Lemma goes_on_takes Q s ls u ids ls' ps s1 ls1 :
    goes_on s ls u ids ls' -> ps <> [] -> takes Q (GOuter u ids) ls' ps s1 ls1 -> takes Q s ls ps s1 ls1.
  Proof. intros [A B] NE T. eapply takes_step; eauto. Qed.
  Lemma goes_on_trans s ls u ids ls' u2 ids2 ls2 :
    goes_on s ls u ids ls' -> goes_on (GOuter u ids) ls' u2 ids2 ls2 -> goes_on s ls u2 ids2 ls2.
  Proof. intros [A B] [C D]. split; [eapply agree_trans; eauto|congruence]. Qed.
  Lemma goes_on_refl u ids ls : goes_on (GOuter u ids) ls u ids ls.
  Proof. split; [apply agree_refl|reflexivity]. Qed.
  Lemma goes_on_agree s ls u ids ls' ls'' : goes_on s ls u ids ls' -> agree ls' ls'' -> goes_on s ls u ids ls''.
  Proof.
    intros [A B] G. pose proof (next_pair_agree (GOuter u ids) ls' ls'' G) as [C D].
    split; [eapply agree_trans; eauto|congruence].
  Qed.

  Definition seen (ps : list (robj * robj)) (ids : list nat) : list nat := rev (map (fun p => rid (snd p)) ps) ++ ids.
  Lemma seen_app ps qs ids : seen (ps ++ qs) ids = seen qs (seen ps ids).
  Proof. unfold seen. rewrite map_app, rev_app_distr, app_assoc. reflexivity. Qed.

  (** the left rows [l] are read, [more] is not *)
  Lemma left_takes (more : list (res robj)) l l' m src ids ls :
    filter_rows (fun x => lf x) l = Ok l' ->
    matches (fun x => lkey x) passes src l' = Ok m -> holds_source src ls ->
    exists s1 ls1 ls2,
      takes (fun s => leading s /\ exists rest, unread s = map Ok rest ++ more) (GOuter (map Ok l ++ more) ids) ls (lead m) s1 ls1 /\
      leading s1 /\ goes_on s1 ls1 more (seen (lead m) ids) ls2 /\ keeps ls ls2.
  Proof.
    intros F M. revert l' m src ids ls F M. induction l as [|x l IH]; intros l' m src ids ls F M H.
    - cbn in F. injection F as <-. cbn in M. injection M as <-. exists (GOuter more ids), ls, ls.
      split; [constructor; apply agree_refl|]. split; [exact Logic.I|]. split; [apply goes_on_refl|intros r E; exact E].
    - cbn [filter_rows] in F. destruct (lf x) as [b|e] eqn:LF; cbn [bind] in F; [|discriminate].
      destruct (filter_rows (fun x => lf x) l) as [l1|e] eqn:F1; cbn [bind] in F; [|discriminate]. destruct b; injection F as <-.
      + cbn [matches] in M. destruct (take (fun x => lkey x) src x) as [[rows src1]|e] eqn:TK; cbn [bind fst snd] in M; [|discriminate].
        destruct (filter_rows (passes x) rows) as [ys|e] eqn:FR; cbn [bind] in M; [|discriminate].
        destruct (matches (fun x => lkey x) passes src1 l1) as [m1|e] eqn:M1; cbn [bind] in M; [|discriminate]. injection M as <-.
        destruct (take_right x src ls rows src1 ys H TK FR) as (cs & ls1 & RI & AR & H1 & K1).
        assert (N : next_left (map Ok (x :: l) ++ more) ls = LRow x cs (map Ok l ++ more)) by (cbn; rewrite LF, RI; reflexivity).
        pose proof (outer_row _ x (map Ok l ++ more) ids ls cs ys ls1 N AR) as R.
        cbn [lead flat_map fst snd]. fold (lead m1).
        set (Q := fun s => leading s /\ exists rest, unread s = map Ok rest ++ more).
        assert (STEP : exists s2 ls2, takes Q (GOuter (map Ok (x :: l) ++ more) ids) ls (row_pairs x ys) s2 ls2 /\ leading s2 /\
                         goes_on s2 ls2 (map Ok l ++ more) (seen (row_pairs x ys) ids) ls1).
        { unfold row_pairs. destruct ys as [|y ys].
          - assert (D : match how' with Inner => map (pair_of x) [] | _ => [pair_of x none_obj] end = match how' with Inner => [] | _ => [pair_of x none_obj] end) by (destruct how'; reflexivity).
            rewrite D. clear D. destruct how' eqn:HW.
            1: { eexists _, ls. split; [constructor; apply agree_refl|]. split; [exact Logic.I|]. exact R. }
            all: destruct R as (ls2 & NP & G); eexists _, _; split; [eapply t_one; [exact NP|split; [exact Logic.I|exists l; reflexivity]|constructor; apply agree_refl]|];
              split; [exact Logic.I|]; cbn; eapply goes_on_agree; [apply goes_on_refl|exact G].
          - destruct R as (ls2 & cs2 & ls3 & NP & A2 & G).
            destruct (inner_takes Q (map Ok l ++ more) x cs2 (rid (snd (pair_of x y)) :: ids) ls2 ys ls3) as (s2 & ls4 & T & LD & GO); auto.
            { intros. split; [exact Logic.I|exists l; reflexivity]. }
            assert (E : match how' with Inner => map (pair_of x) (y :: ys) | _ => map (pair_of x) (y :: ys) end = map (pair_of x) (y :: ys)) by (destruct how'; reflexivity).
            rewrite E. exists s2, ls4. split; [|split; [exact LD|]].
            + cbn [map]. eapply t_one; [exact NP|split; [exact Logic.I|exists l; reflexivity]|exact T].
            + eapply goes_on_agree; [|exact G]. unfold seen. cbn [map rev]. rewrite <- app_assoc. exact GO. }
        destruct STEP as (s2 & ls2 & T & LD & GO).
        destruct (IH l1 m1 src1 (seen (row_pairs x ys) ids) ls1 eq_refl M1 H1) as (s3 & ls3 & ls4 & T3 & LD3 & GO3 & K3).
        rewrite seen_app. destruct (lead m1) as [|p ps] eqn:LM.
        * exists s2, ls2, ls4. rewrite app_nil_r. split; [exact T|]. split; [exact LD|]. split; [|intros r E; auto].
          eapply goes_on_trans; [exact GO|]. inversion T3; subst.
          eapply goes_on_trans; [|exact GO3]. split; [apply agree_sym_next; assumption|]. 
          pose proof (next_pair_agree (GOuter (map Ok l ++ more) (seen (row_pairs x ys) ids)) _ _ H0) as [_ C]. exact C.
        * exists s3, ls3, ls4. split; [|split; [exact LD3|split; [exact GO3|intros r E; auto]]]. eapply takes_app; [exact T|]. eapply goes_on_takes; [exact GO|discriminate|exact T3].
      + assert (SAME : forall n, length l + length more <= n -> outer (S n) (map Ok (x :: l) ++ more) ids ls = outer n (map Ok l ++ more) ids ls).
        { intros n Hn. rewrite (outer_fuel n (S n) (map Ok l ++ more)) by (rewrite app_length, map_length; lia).
          cbn [map app]. assert (E : next_left (Ok x :: map Ok l ++ more) ls = next_left (map Ok l ++ more) ls) by (cbn; rewrite LF; reflexivity).
          cbn [Model_JoinLazy.outer]. rewrite E. reflexivity. }
        assert (GO : goes_on (GOuter (map Ok (x :: l) ++ more) ids) ls (map Ok l ++ more) ids ls).
        { unfold goes_on. cbn [Model_JoinLazy.next_pair].
          assert (L1 : length (map Ok (x :: l) ++ more) = S (length (map Ok l ++ more))) by reflexivity.
          rewrite L1, SAME by (rewrite app_length, map_length; lia). split; [apply agree_refl|reflexivity]. }
        destruct (IH l1 m src ids ls eq_refl M H) as (s3 & ls3 & ls4 & T3 & LD3 & GO3 & K3).
        destruct (lead m) as [|p ps] eqn:LM.
        * exists (GOuter (map Ok (x :: l) ++ more) ids), ls, ls4. split; [constructor; apply agree_refl|]. split; [exact Logic.I|]. split; [|intros r E; auto].
          eapply goes_on_trans; [exact GO|]. inversion T3; subst.
          eapply goes_on_trans; [|exact GO3]. split; [apply agree_sym_next; assumption|].
          pose proof (next_pair_agree (GOuter (map Ok l ++ more) ids) _ _ H0) as [_ C]. exact C.
        * exists s3, ls3, ls4. split; [|split; [exact LD3|split; [exact GO3|intros r E; auto]]]. eapply goes_on_takes; [exact GO|discriminate|exact T3].
  Qed.

  (** *** until StopIteration *)
  Inductive drains : gstate -> labels lab -> list (robj * robj) -> Prop :=
  | dr_stop s ls : snd (next_pair s ls) = GStop -> drains s ls []
  | dr_yield s ls ls1 p s1 ps : next_pair s ls = (ls1, GYield (LPair p) s1) -> drains s1 ls1 ps -> drains s ls (p :: ps).
  Lemma drains_same s ls s0 ls0 ps :
    agree (fst (next_pair s ls)) (fst (next_pair s0 ls0)) -> snd (next_pair s ls) = snd (next_pair s0 ls0) ->
    drains s ls ps -> drains s0 ls0 ps.
  Proof.
    intros A B D. revert s0 ls0 A B. induction D as [s ls E|s ls ls1 p s1 ps E D IH]; intros s0 ls0 A B.
    - constructor. congruence.
    - rewrite E in A, B. cbn [fst snd] in A, B. destruct (next_pair s0 ls0) as [ls2 o] eqn:N. cbn [fst snd] in A, B. subst o.
      eapply dr_yield; [exact N|]. destruct (next_pair_agree s1 ls1 ls2 A) as [C F]. apply IH; assumption.
  Qed.
  Lemma drains_on s ls u ids ls' ps : goes_on s ls u ids ls' -> drains s ls ps <-> drains (GOuter u ids) ls' ps.
  Proof.
    intros [A B]. split; apply drains_same; auto. apply agree_sym, A.
  Qed.
  Lemma drains_agree s ls ls' ps : agree ls ls' -> drains s ls ps -> drains s ls' ps.
  Proof. intros A. destruct (next_pair_agree s ls ls' A) as [C F]. apply drains_same; auto. Qed.
  Lemma takes_drains Q s ls ps s1 ls1 qs : takes Q s ls ps s1 ls1 -> drains s1 ls1 qs -> drains s ls (ps ++ qs).
  Proof.
    intros T. induction T as [s ls ls' B|s ls p s1 ls1 ps s' ls' N HQ T IH]; intros D; cbn.
    - eapply drains_agree; [|exact D]. apply agree_sym, B.
    - eapply dr_yield; eauto.
  Qed.

  Lemma all_right_next x cs ls : 
    match next_right x cs ls with
    | (_, Err _) => True
    | (ls1, Ok None) => exists ls', all_right x cs ls = Some (Ok [], ls') /\ agree ls1 ls'
    | (ls1, Ok (Some (y, cs1))) => forall ys ls2, all_right x cs1 ls1 = Some (Ok ys, ls2) ->
        exists ls', all_right x cs ls = Some (Ok (y :: ys), ls') /\ agree ls2 ls'
    end.
  Proof.
    destruct cs as [l|]; cbn [all_right Model_JoinLazy.next_right].
    - destruct (find_row (passes x) l) as [[[y|] r]|e] eqn:F; cbn; auto.
      + intros ys ls2 [= G ->]. rewrite (filter_find_some _ _ _ _ _ F G). eexists. split; [reflexivity|apply agree_refl].
      + destruct (filter_find_none _ _ _ F) as [_ ->]. eexists. split; [reflexivity|apply agree_refl].
    - destruct (label_at ls right_key) as [[| l | | | ]|] eqn:L; auto.
      destruct (find_row (both_tests x) l) as [[[y|] r]|e] eqn:F; cbn [fst snd]; auto.
      + intros ys ls2. cbn [all_right]. rewrite label_set. intros [= G <-]. rewrite (filter_find_some _ _ _ _ _ F G).
        eexists. split; [reflexivity|]. apply agree_set2.
      + destruct (filter_find_none _ _ _ F) as [-> ->]. eexists. split; [reflexivity|apply agree_refl].
  Qed.
  Lemma inner_drains u x cs ids ls ps : drains (GInner u x x cs ids) ls ps ->
    exists ys ls' qs, all_right x cs ls = Some (Ok ys, ls') /\ ps = map (pair_of x) ys ++ qs /\
      drains (GOuter u (seen (map (pair_of x) ys) ids)) ls' qs.
  Proof.
    revert cs ids ls. induction ps as [|p ps IH]; intros cs ids ls D.
    - inversion D as [s ls0 E|]; subst. cbn [Model_JoinLazy.next_pair] in E. pose proof (all_right_next x cs ls) as A.
      destruct (next_right x cs ls) as [ls1 [[[y cs1]|]|e]] eqn:N; cbn [snd] in E; try discriminate.
      destruct A as (ls' & A & G). exists [], ls', []. split; [exact A|]. split; [reflexivity|]. constructor.
      change (seen (map (pair_of x) []) ids) with ids. cbn [Model_JoinLazy.next_pair]. destruct (outer_agree (length u) u ids ls1 ls' G) as [_ <-]. exact E.
    - pose proof (all_right_next x cs ls) as A. destruct (next_right x cs ls) as [ls1 [[[y cs1]|]|e]] eqn:N.
      + inversion D as [|s ls0 ls2 p0 s1 ps0 E D1]; subst. cbn [Model_JoinLazy.next_pair] in E. rewrite N in E.
        assert (E' : ls1 = ls2 /\ p = pair_of x y /\ s1 = GInner u x x cs1 (rid (snd (pair_of x y)) :: ids)).
        { unfold give in E. destruct how'; injection E as <- <- <-; auto. }
        destruct E' as (-> & -> & ->). destruct (IH _ _ _ D1) as (ys & ls' & qs & A1 & -> & D2).
        destruct (A ys ls' A1) as (ls3 & A2 & G). exists (y :: ys), ls3, qs. split; [exact A2|]. split; [reflexivity|].
        eapply drains_agree; [exact G|]. unfold seen in *. cbn [map rev]. rewrite <- app_assoc. exact D2.
      + destruct A as (ls' & A & G). exists [], ls', (p :: ps). split; [exact A|]. split; [reflexivity|].
        cbn [map seen rev app]. eapply (drains_on (GInner u x x cs ids) ls u ids ls' (p :: ps)); [|exact D].
        unfold goes_on. cbn [Model_JoinLazy.next_pair]. rewrite N. apply outer_agree, G.
      + inversion D as [|s ls0 ls2 p0 s1 ps0 E D1]; subst. cbn [Model_JoinLazy.next_pair] in E. rewrite N in E. discriminate.
  Qed.

  Lemma take_items x src ls cs : holds_source src ls -> right_items x ls = Ok cs ->
    forall ys ls1, all_right x cs ls = Some (Ok ys, ls1) ->
    exists rows src', take (fun x => lkey x) src x = Ok (rows, src') /\ filter_rows (passes x) rows = Ok ys /\ holds_source src' ls1.
  Proof.
    intros H R ys ls1 A. unfold Model_JoinLazy.right_items in R. destruct src as [d|l|r]; cbn in H.
    - destruct H as [NE L]. destruct (left_hash cs_of) as [|k ks] eqn:LH; [contradiction|].
      cbn [take]. destruct (ev_key op (on_row inputs x) (k :: ks)) as [kv|e]; cbn in R |- *; [|discriminate]. rewrite L in R.
      destruct (need_hash kv) as [k'|e]; cbn in R |- *; [|discriminate]. injection R as <-. cbn in A. injection A as A <-.
      eexists _, _. split; [reflexivity|]. split; [exact A|]. cbn. rewrite LH. auto.
    - destruct H as [E L]. rewrite E, L in R. injection R as <-. cbn in A. injection A as A <-. cbn. eexists _, _. split; [reflexivity|]. split; [exact A|split; assumption].
    - destruct H as (E & l & L & ->). rewrite E, L in R. injection R as <-. cbn [all_right] in A. rewrite L in A. injection A as A <-.
      destruct (both_filter x l ys A) as (rs & F & G). cbn. rewrite F. cbn. eexists _, _. split; [reflexivity|]. split; [exact G|].
      cbn. split; [exact E|]. exists []. auto.
  Qed.
  Lemma next_left_cons x u ls : next_left (Ok x :: u) ls =
    match lf x with
    | Err e => LFail e
    | Ok false => next_left u ls
    | Ok true => match right_items x ls with Ok cs => LRow x cs u | Err e => LFail e end
    end.
  Proof. reflexivity. Qed.
  Lemma skip_row x u ids ls : lf x = Ok false -> goes_on (GOuter (Ok x :: u) ids) ls u ids ls.
  Proof.
    intros LF. unfold goes_on. cbn [Model_JoinLazy.next_pair length].
    rewrite (outer_fuel (length u) (S (length u)) u) by lia.
    assert (E : outer (S (length u)) (Ok x :: u) ids ls = outer (S (length u)) u ids ls).
    { cbn [Model_JoinLazy.outer]. rewrite next_left_cons, LF. reflexivity. }
    rewrite E. split; [apply agree_refl|reflexivity].
  Qed.
  Lemma fails u ids ls e : next_left u ls = LFail e -> snd (next_pair (GOuter u ids) ls) = GRaise e.
  Proof. intros E. cbn [Model_JoinLazy.next_pair]. destruct (length u); cbn [Model_JoinLazy.outer]; rewrite E; reflexivity. Qed.

  Lemma left_drains l src ids ls ps : holds_source src ls -> drains (GOuter (map Ok l) ids) ls ps ->
    exists l' m qs ls', filter_rows (fun x => lf x) l = Ok l' /\ matches (fun x => lkey x) passes src l' = Ok m /\
      ps = lead m ++ qs /\ drains (GOuter [] (seen (lead m) ids)) ls' qs /\ keeps ls ls'.
  Proof.
    revert src ids ls ps. induction l as [|x l IH]; intros src ids ls ps H D.
    - exists [], [], ps, ls. repeat split; auto. intros r E. exact E.
    - cbn [filter_rows]. destruct (lf x) as [[|]|e] eqn:LF; cbn [bind].
      + destruct (right_items x ls) as [cs|e] eqn:RI.
        2: { assert (N : next_left (map Ok (x :: l)) ls = LFail e) by (cbn [map]; rewrite next_left_cons, LF, RI; reflexivity).
             pose proof (fails _ ids _ _ N) as F. inversion D as [s ls0 E|s ls0 ls2 p0 s1 ps0 E D1]; subst; [congruence|]. rewrite E in F. discriminate. }
        assert (N : next_left (map Ok (x :: l)) ls = LRow x cs (map Ok l)) by (cbn [map]; rewrite next_left_cons, LF, RI; reflexivity).
        assert (KE : keeps ls ls) by (intros r E; exact E).
        assert (ROW : exists ys ls1 qs, all_right x cs ls = Some (Ok ys, ls1) /\ ps = row_pairs x ys ++ qs /\
                        drains (GOuter (map Ok l) (seen (row_pairs x ys) ids)) ls1 qs).
        { pose proof (all_right_next x cs ls) as A. destruct (next_right x cs ls) as [ls1 [[[y cs1]|]|e]] eqn:NR.
          - assert (NP : next_pair (GOuter (map Ok (x :: l)) ids) ls = (ls1, GYield (LPair (pair_of x y)) (GInner (map Ok l) x x cs1 (rid (snd (pair_of x y)) :: ids)))).
            { cbn [Model_JoinLazy.next_pair map length]. cbn [Model_JoinLazy.outer]. cbn [map] in N. rewrite N, NR. reflexivity. }
            inversion D as [s ls0 E|s ls0 ls2 p0 s1 ps0 E D1]; subst; [rewrite NP in E; discriminate|]. rewrite NP in E. injection E as <- <- <-.
            destruct (inner_drains _ _ _ _ _ _ D1) as (ys & ls' & qs & A1 & -> & D2). destruct (A _ _ A1) as (ls3 & A2 & G).
            assert (RP : row_pairs x (y :: ys) = map (pair_of x) (y :: ys)) by (unfold row_pairs; destruct how'; reflexivity).
            exists (y :: ys), ls3, qs. rewrite RP. split; [exact A2|]. split; [reflexivity|]. eapply drains_agree; [exact G|].
            unfold seen in *. cbn [map rev]. rewrite <- app_assoc. exact D2.
          - destruct A as (ls' & A & G). exists [], ls'. pose proof (outer_row _ x (map Ok l) ids ls cs [] ls' N A) as R. cbn match in R.
            unfold row_pairs. destruct how' eqn:HW.
            + exists ps. split; [exact A|]. split; [reflexivity|]. apply (drains_on _ _ _ _ _ ps R). exact D.
            + destruct R as (ls2 & NP & G2). inversion D as [s ls0 E|s ls0 ls3 p0 s1 ps0 E D1]; subst; [rewrite NP in E; discriminate|]. rewrite NP in E. injection E as <- <- <-.
              exists ps0. split; [exact A|]. split; [reflexivity|]. eapply drains_agree; [exact G2|exact D1].
            + destruct R as (ls2 & NP & G2). inversion D as [s ls0 E|s ls0 ls3 p0 s1 ps0 E D1]; subst; [rewrite NP in E; discriminate|]. rewrite NP in E. injection E as <- <- <-.
              exists ps0. split; [exact A|]. split; [reflexivity|]. eapply drains_agree; [exact G2|exact D1].
            + destruct R as (ls2 & NP & G2). inversion D as [s ls0 E|s ls0 ls3 p0 s1 ps0 E D1]; subst; [rewrite NP in E; discriminate|]. rewrite NP in E. injection E as <- <- <-.
              exists ps0. split; [exact A|]. split; [reflexivity|]. eapply drains_agree; [exact G2|exact D1].
          - assert (NP : next_pair (GOuter (map Ok (x :: l)) ids) ls = (ls1, GRaise e)).
            { cbn [Model_JoinLazy.next_pair map length]. cbn [Model_JoinLazy.outer]. cbn [map] in N. rewrite N, NR. reflexivity. }
            inversion D as [s ls0 E|s ls0 ls2 p0 s1 ps0 E D1]; subst; rewrite NP in E; discriminate. }
        destruct ROW as (ys & ls1 & qs & AR & -> & D1). destruct (take_items x src ls cs H RI ys ls1 AR) as (rows & src' & TK & FR & H1).
        destruct (IH src' _ ls1 qs H1 D1) as (l' & m & qs' & ls' & F & M & -> & D2 & K).
        exists (x :: l'), ((x, ys) :: m), qs', ls'. rewrite F. cbn [bind]. split; [reflexivity|]. split.
        * cbn [matches]. rewrite TK. cbn [bind fst snd]. rewrite FR. cbn [bind]. rewrite M. reflexivity.
        * split; [cbn [lead flat_map fst snd]; rewrite <- app_assoc; reflexivity|]. split.
          -- cbn [lead flat_map fst snd]. rewrite seen_app. exact D2.
          -- intros r E. apply K. destruct cs as [rs|]; cbn in AR; [injection AR as _ <-; exact E|]. rewrite E in AR. discriminate.
      + apply (drains_on _ _ _ _ _ ps (skip_row x (map Ok l) ids ls LF)) in D. destruct (IH src _ ls ps H D) as (l' & m & qs' & ls' & F & M & -> & D2 & K).
        exists l', m, qs', ls'. rewrite F. cbn [bind]. auto.
      + assert (N : next_left (map Ok (x :: l)) ls = LFail e) by (cbn [map]; rewrite next_left_cons, LF; reflexivity).
        pose proof (fails _ ids _ _ N) as F. inversion D as [s ls0 E|s ls0 ls2 p0 s1 ps0 E D1]; subst; [congruence|]. rewrite E in F. discriminate.
  Qed.

  (** the end: nothing, or the right rows that were not yielded *)
  Definition ending (ids : list nat) (rows : list robj) : list (robj * robj) :=
    match how' with
    | Outer => map (fun y => (none_obj, y)) (filter (fun y => negb (existsb (Nat.eqb (rid y)) ids)) rows)
    | _ => []
    end.
  Lemma tail_drains rest ids s ls ps : snd (next_pair s ls) = tail rest ids ->
    drains s ls ps <-> ps = map (fun y => (none_obj, y)) (filter (fun y => negb (existsb (Nat.eqb (rid y)) ids)) rest).
  Proof.
    revert s ls ps. induction rest as [|y rest IH]; intros s ls ps E; cbn [tail filter] in E |- *.
    - split; intros D; [|subst; constructor; exact E]. inversion D; subst; auto. rewrite H in E. discriminate.
    - destruct (existsb (Nat.eqb (rid y)) ids) eqn:X; cbn [negb]; [apply IH, E|]. cbn [map]. 
      destruct (next_pair s ls) as [ls1 o] eqn:N. cbn [snd] in E. subst o. split.
      + intros D. inversion D as [s0 ls0 E|s0 ls0 ls2 p0 s1 ps0 E D1]; subst; rewrite N in E; [discriminate|]. injection E as <- <- <-.
        f_equal. apply (IH (GTail rest ids) ls1 ps0 eq_refl), D1.
      + intros ->. eapply dr_yield; [exact N|]. apply (IH (GTail rest ids) ls1 _ eq_refl). reflexivity.
  Qed.
  Lemma end_drains ids ls ps rows : (how' = Outer -> label_at ls right_key = Some (LAgain rows)) ->
    drains (GOuter [] ids) ls ps <-> ps = ending ids rows.
  Proof.
    intros L. unfold ending. assert (E : next_pair (GOuter [] ids) ls = (ls, finish h ids ls)) by reflexivity.
    destruct how' eqn:HW; try (split; [intros D; inversion D; subst; auto; rewrite E in H; unfold finish in H; rewrite HW in H; discriminate|intros ->; constructor; rewrite E; cbn; unfold finish; rewrite HW; reflexivity]).
    apply tail_drains. rewrite E. cbn [snd]. unfold finish. rewrite HW, (L eq_refl). reflexivity.
  Qed.

  (** *** the call *)
  Lemma existsb_rev {A} (f : A -> bool) l : existsb f (rev l) = existsb f l.
  Proof.
    induction l as [|x l IH]; cbn; auto. rewrite existsb_app, IH. cbn. rewrite orb_false_r. apply orb_comm.
  Qed.
  Lemma lead_inner m : h = Inner -> lead m = inner_pairs m.
  Proof.
    intros E. unfold lead, inner_pairs, row_pairs, Model_JoinLazy.pair_of, Model_JoinLazy.swapped, Model_JoinLazy.how'. rewrite E. reflexivity.
  Qed.
  Lemma lead_left m : h = Left \/ h = Outer -> lead m = left_pairs m.
  Proof.
    intros E. unfold lead, left_pairs, row_pairs, Model_JoinLazy.pair_of, Model_JoinLazy.swapped, Model_JoinLazy.how'.
    assert (F : forall (f g : robj * list robj -> list (robj * robj)), (forall a, f a = g a) -> flat_map f m = flat_map g m) by (intros f g X; apply flat_map_ext; exact X).
    destruct E as [-> | ->]; apply F; intros [x [|y ys]]; reflexivity.
  Qed.
  Lemma lead_right m : h = Right -> lead m = map swap_pair (left_pairs m).
  Proof.
    intros E. unfold lead, left_pairs, row_pairs, Model_JoinLazy.pair_of, Model_JoinLazy.swapped, Model_JoinLazy.how'. rewrite E.
    induction m as [|[x ys] m IH]; cbn; auto. rewrite map_app, IH. f_equal. destruct ys as [|y ys]; cbn; [reflexivity|].
    f_equal. rewrite map_map. reflexivity.
  Qed.
  Lemma call_join kl kr left right more ls : 
    let x := call_of h kl kr left right inputs more in
    let J := join op inputs h cond kl kr left right in
    let R := indexed h left right in
    match jcall_out op h cond x ls with
    | (_, CRaise _) => exists e, J = Err e
    | (_, CValue v) => v = LEmpty /\ J = Ok []
    | (ls1, CGenerator s) => s = (x, GOuter (map Ok (driving h left right) ++ more) []) /\
        (exists src, holds_source src ls1 /\
           J = (do l' <- filter_rows (fun x => lf x) (driving h left right); do m <- matches (fun x => lkey x) passes src l';
                Ok (lead m ++ ending (seen (lead m) []) R))) /\
        (how' = Outer -> label_at ls1 right_key = Some (LAgain R))
    end.
  Proof.
    intros x J R. unfold jcall_out. cbn [c_inputs call_of x].
    assert (OUT : forall m, match how' with Inner => Ok (inner_pairs m) | Outer => Ok (add_right_part (left_pairs m) R)
                            | _ => Ok (if swapped then map swap_pair (left_pairs m) else left_pairs m) end
                       = Ok (lead m ++ ending (seen (lead m) []) R)).
    { intros m. unfold ending. unfold Model_JoinLazy.how', Model_JoinLazy.swapped. destruct h eqn:HH.
      - rewrite <- lead_inner by exact HH. rewrite app_nil_r. reflexivity.
      - rewrite <- lead_left by (left; exact HH). rewrite app_nil_r. reflexivity.
      - rewrite <- lead_right by exact HH. rewrite app_nil_r. reflexivity.
      - rewrite <- lead_left by (right; exact HH). unfold add_right_part. f_equal. f_equal. f_equal. apply filter_ext. intros y.
        unfold seen. rewrite app_nil_r, existsb_rev. reflexivity. }
    assert (BIND : forall src, (do l' <- filter_rows (fun x => lf x) (driving h left right);
      do m <- matches (fun x => lkey x) passes src l';
      match how' with Inner => Ok (inner_pairs m) | Outer => Ok (add_right_part (left_pairs m) R)
      | _ => Ok (if swapped then map swap_pair (left_pairs m) else left_pairs m) end)
      = (do l' <- filter_rows (fun x => lf x) (driving h left right); do m <- matches (fun x => lkey x) passes src l';
         Ok (lead m ++ ending (seen (lead m) []) R))).
    { intros src. destruct (filter_rows (fun x => lf x) (driving h left right)) as [l'|e]; cbn [bind]; auto.
      destruct (matches (fun x => lkey x) passes src l') as [m|e]; cbn [bind]; auto. }
    assert (EJ : J = do go <- ev_all op (on_nothing inputs) (pre cs_of);
      if negb go then Ok [] else
      do src <- match left_hash cs_of with
                | [] => Ok (if match how', (is_iterator match h with Right => kl | _ => kr end), rfilters with Outer, _, _ => true | _, false, [] => true | _, _, _ => false end
                            then Again R else Once (filter_rows (fun y => rf y) R))
                | _ => do rows <- filter_rows (fun y => rf y) R; do d <- index_rows (fun y => ev_key op (on_row inputs y) (right_hash cs_of)) rows []; Ok (Buckets d)
                end;
      do l' <- filter_rows (fun x => lf x) (driving h left right);
      do m <- matches (fun x => lkey x) passes src l';
      match how' with Inner => Ok (inner_pairs m) | Outer => Ok (add_right_part (left_pairs m) R)
      | _ => Ok (if swapped then map swap_pair (left_pairs m) else left_pairs m) end).
    { unfold J, join. unfold Model_JoinLazy.how', Model_JoinLazy.swapped, R, indexed, driving.
      destruct h eqn:HH; reflexivity || (destruct kl; reflexivity) || (destruct kr; reflexivity). }
    destruct (ev_all op (on_nothing inputs) (pre cs_of)) as [[|]|e]; cbn [bind negb] in EJ.
    2: { split; [reflexivity|exact EJ]. }
    2: { exists e. exact EJ. }
    cbn [c_right c_left c_once call_of x]. fold R.
    destruct (left_hash cs_of) as [|k0 ks] eqn:LH.
    - split; [reflexivity|]. split.
      + eexists. split; [|rewrite EJ; cbn [bind]; apply BIND].
        match goal with |- context[if ?b then Again R else _] => destruct b end; cbn; rewrite LH; auto.
        split; auto. exists R. auto.
      + intros ->. reflexivity.
    - pose proof (index_passing_rows (fun y => rf y) (fun y => ev_key op (on_row inputs y) (right_hash cs_of)) R []) as IP.
      destruct (filter_rows (fun y => rf y) R) as [rows|e]; cbn [bind] in EJ |- *; [rewrite IP|destruct IP as [e' ->]; exists e; exact EJ].
      destruct (index_rows (fun y => ev_key op (on_row inputs y) (right_hash cs_of)) rows []) as [d|e]; cbn [bind] in EJ |- *; [|exists e; exact EJ].
      split; [reflexivity|]. split.
      + exists (Buckets d). split; [cbn; rewrite LH; split; [discriminate|reflexivity]|]. rewrite EJ. apply BIND.
      + intros E. rewrite label_set_index, E. reflexivity.
  Qed.
End Lazy.
