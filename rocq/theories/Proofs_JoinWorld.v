(** The generators of a join in a history of calls (Model_Labels.v). *)
From Coq Require Import String List ZArith Bool Arith Lia.
From Verif Require Import Model_PyVal Model_Join Model_Labels Model_JoinLazy Spec_JoinLazy Proofs_JoinLazy.
Import ListNotations.

Lemma nth_set_nth {S : Type} i (g : wrapped S) l : i < length l -> nth_error (set_nth i g l) i = Some g.
Proof. revert i. induction l as [|x l IH]; intros [|i] L; cbn in *; try lia; auto. apply IH. lia. Qed.

Lemma last_indep {A} (l : list A) a b : l <> [] -> last l a = last l b.
Proof. induction l as [|x [|y l] IH]; intros N; [contradiction|reflexivity|]. apply IH. discriminate. Qed.

Section World.
  Variable op : string -> list val -> res val.
  Variable h : Model_Join.how.
  Variable cond : option jx.
  Notation call := (jcall_out op h cond).
  Notation resume := (jresume op h cond).
  Notation step := (step call resume jclose).
  Notation run := (run call resume jclose).
  Notation agree := (agree h cond).
  Notation world := (world lab (jcall * gstate)).

  (** the generator number [i] is at [s], between two pairs *)
  Definition at_state (w : world) (i : nat) (x : jcall) (s : gstate) : Prop :=
    nth_error (gens w) i = Some (Unstarted (x, s)) \/ nth_error (gens w) i = Some (Suspended (x, s)).
  Lemma at_state_lt w i x s : at_state w i x s -> i < length (gens w).
  Proof. intros [E | E]; apply nth_error_Some; rewrite E; discriminate. Qed.
  Lemma step_next w i x s : at_state w i x s ->
    step w (Next i) =
    match next_pair op h cond (c_inputs x) s (store w) with
    | (l, GYield v s') => (mkW l (set_nth i (Suspended (x, s')) (gens w)), OYield v)
    | (l, GStop) => (mkW [] (set_nth i Finished (gens w)), OStop)
    | (l, GRaise e) => (mkW [] (set_nth i Finished (gens w)), ORaise e)
    end.
  Proof.
    intros A. assert (E : step w (Next i) = resume_wrapped resume HNext i (x, s) w) by (destruct A as [A | A]; cbn [Model_Labels.step]; rewrite A; reflexivity).
    rewrite E. unfold resume_wrapped, jresume. cbn [fst snd]. destruct (next_pair op h cond (c_inputs x) s (store w)) as [l [v s'| |e]]; reflexivity.
  Qed.

  (** what [n] times next() gives *)
  Fixpoint nexts (inputs : string -> val) (n : nat) (s : gstate) (ls : labels lab) : list (out lab exc) :=
    match n with
    | O => []
    | S n =>
        match next_pair op h cond inputs s ls with
        | (ls', GYield v s') => OYield v :: nexts inputs n s' ls'
        | (_, GStop) => OStop :: repeat OStop n
        | (_, GRaise e) => ORaise e :: repeat OStop n
        end
    end.
  Lemma run_finished w i n : nth_error (gens w) i = Some Finished -> run w (repeat (Next i) n) = (w, repeat OStop n).
  Proof.
    intros E. induction n as [|n IH]; cbn [repeat Model_Labels.run]; auto. cbn [Model_Labels.step]. rewrite E, IH. reflexivity.
  Qed.
  Lemma run_nexts n w i x s : at_state w i x s -> snd (run w (repeat (Next i) n)) = nexts (c_inputs x) n s (store w).
  Proof.
    revert w s. induction n as [|n IH]; intros w s A; cbn [repeat Model_Labels.run nexts]; auto.
    rewrite (step_next w i x s A). pose proof (at_state_lt _ _ _ _ A) as LT.
    destruct (next_pair op h cond (c_inputs x) s (store w)) as [l [v s'| |e]].
    - set (w1 := mkW l (set_nth i (Suspended (x, s')) (gens w))).
      assert (A1 : at_state w1 i x s') by (right; apply nth_set_nth, LT). specialize (IH w1 s' A1).
      destruct (run w1 (repeat (Next i) n)) as [w2 xs]. cbn [snd] in *. rewrite IH. reflexivity.
    - rewrite run_finished by (apply nth_set_nth, LT). reflexivity.
    - rewrite run_finished by (apply nth_set_nth, LT). reflexivity.
  Qed.
  Lemma nexts_agree inputs n s ls ls' : agree ls ls' -> nexts inputs n s ls = nexts inputs n s ls'.
  Proof.
    revert s ls ls'. induction n as [|n IH]; intros s ls ls' A; cbn; auto.
    destruct (next_pair_agree op h cond inputs s ls ls' A) as [B C].
    destruct (next_pair op h cond inputs s ls) as [l [v s'| |e]], (next_pair op h cond inputs s ls') as [l' o]; cbn [fst snd] in B, C; subst o; auto.
    f_equal. apply IH, B.
  Qed.
  Lemma nexts_drains inputs n s ls ps :
    drains op h cond inputs s ls ps -> nexts inputs (length ps + n) s ls = yields ps ++ repeat OStop n.
  Proof.
    intros D. induction D as [s ls E|s ls ls1 p s1 ps E D IH].
    - cbn. destruct n as [|n]; cbn; auto. destruct (next_pair op h cond inputs s ls) as [l o]. cbn in E. subst o. reflexivity.
    - cbn. rewrite E, IH. reflexivity.
  Qed.
  Lemma drains_nexts inputs n s ls ps :
    nexts inputs n s ls = yields ps ++ [OStop] -> drains op h cond inputs s ls ps.
  Proof.
    revert n s ls. induction ps as [|p ps IH]; intros [|n] s ls; cbn [nexts yields map app]; try discriminate.
    - destruct (next_pair op h cond inputs s ls) as [l [v s'| |e]] eqn:N; try discriminate. intros _. constructor. rewrite N. reflexivity.
    - destruct (next_pair op h cond inputs s ls) as [l [v s'| |e]] eqn:N; try discriminate. intros [= -> E]. 
      eapply dr_yield; [exact N|]. eapply IH, E.
  Qed.
  Lemma run_takes inputs Q s ls ps s' ls' : takes op h cond inputs Q s ls ps s' ls' ->
    forall w i x, at_state w i x s -> agree (store w) ls -> inputs = c_inputs x ->
    snd (run w (repeat (Next i) (length ps))) = yields ps /\
    at_state (fst (run w (repeat (Next i) (length ps)))) i x s' /\
    (ps <> [] -> nth_error (gens (fst (run w (repeat (Next i) (length ps))))) i = Some (Suspended (x, s'))).
  Proof.
    intros T. induction T as [s ls ls' B|s ls p s1 ls1 ps s' ls' N HQ T IH]; intros w i x A G ->.
    - cbn. split; [reflexivity|]. split; [exact A|contradiction].
    - cbn [length repeat Model_Labels.run]. rewrite (step_next w i x s A).
      assert (G' : agree ls (store w)) by (apply agree_sym, G).
      destruct (next_pair_agree op h cond (c_inputs x) s ls (store w) G') as [C D]. rewrite N in C, D. cbn [fst snd] in C, D.
      destruct (next_pair op h cond (c_inputs x) s (store w)) as [l o]. cbn [fst snd] in C, D. subst o.
      set (w1 := mkW l (set_nth i (Suspended (x, s1)) (gens w))).
      assert (A1 : nth_error (gens w1) i = Some (Suspended (x, s1))) by (apply nth_set_nth; eapply at_state_lt; eassumption).
      destruct (IH w1 i x (or_intror A1) (agree_sym h cond _ _ C) eq_refl) as (X & Y & Z).
      destruct (run w1 (repeat (Next i) (length ps))) as [w2 xs] eqn:RW. cbn [fst snd] in *. rewrite X. split; [reflexivity|]. split; [exact Y|].
      intros _. destruct ps as [|q ps]; [|apply Z; discriminate]. cbn in RW. injection RW as <- <-.
      inversion T; subst. exact A1.
  Qed.

  (** the keys the generator of a call reads are set by the call *)
  Lemma call_agree x ls ls' :
    match call x ls, call x ls' with
    | (a, CGenerator s), (b, CGenerator s') => s = s' /\ agree a b
    | (_, CValue v), (_, CValue v') => v = v'
    | (_, CRaise e), (_, CRaise e') => e = e'
    | _, _ => False
    end.
  Proof.
    unfold jcall_out. destruct (ev_all op (on_nothing (c_inputs x)) (pre (cs_of h cond))) as [[|]|e]; auto.
    destruct (left_hash (cs_of h cond)) as [|k ks] eqn:LH.
    - split; [reflexivity|]. split; [reflexivity|]. rewrite LH. contradiction.
    - match goal with |- context[match ?t with Ok _ => _ | Err _ => _ end] => destruct t as [d|e] end; auto.
      split; [reflexivity|]. split; reflexivity.
  Qed.

  (** *** which left row the last pair comes from *)
  Definition at_row (u0 : list (res robj)) (s : gstate) (p : robj * robj) : Prop :=
    exists read row, u0 = read ++ Ok row :: unread s /\ driving_part h p = row /\
      match s with GInner _ f i _ _ => f = row /\ i = row | _ => True end.
  Lemma part_pair x y : driving_part h (pair_of h x y) = x.
  Proof. unfold driving_part, pair_of, swapped. destruct h; reflexivity. Qed.
  Lemma next_left_reads inputs u ls x cs r : next_left op h cond inputs u ls = LRow x cs r -> exists read, u = read ++ Ok x :: r.
  Proof.
    induction u as [|[y|e] u IH]; cbn; try discriminate. destruct (ev_all op (on_row inputs y) (lfilters h cond)) as [[|]|]; try discriminate.
    - destruct (right_items op h cond inputs y ls); try discriminate. intros [= -> _ ->]. exists []. reflexivity.
    - intros E. destruct (IH E) as [read ->]. exists (Ok y :: read). reflexivity.
  Qed.
  Lemma tail_not_leading rest ids v s : tail rest ids = GYield v s -> ~ leading s.
  Proof. induction rest as [|y rest IH]; cbn; [discriminate|]. destruct existsb; auto. intros [= _ <-] L. exact L. Qed.
  Lemma outer_reads inputs n u ids ls ls1 p s1 :
    outer op h cond inputs n u ids ls = (ls1, GYield (LPair p) s1) -> leading s1 -> at_row u s1 p.
  Proof.
    revert u ls. induction n as [|n IH]; intros u ls E LD; cbn [outer] in E;
      (destruct (next_left op h cond inputs u ls) as [x cs r| |e] eqn:N; [|unfold finish in E; destruct (how' h); try discriminate;
        destruct (label_at ls right_key) as [[| | | | ]|]; try discriminate; injection E as _ E; apply tail_not_leading in E; contradiction|discriminate]);
      destruct (next_left_reads _ _ _ _ _ _ N) as [read ->];
      (destruct (next_right op h cond inputs x cs ls) as [ls2 [[[y cs']|]|e]]; [|destruct (how' h) eqn:HW|discriminate]).
    all: try (injection E as <- <- <-; exists read, x; cbn [unread]; repeat split; apply part_pair).
    - discriminate.
    - destruct (IH _ _ E LD) as (read' & row & -> & P & Q). exists (read ++ Ok x :: read'), row. rewrite <- app_assoc. auto.
  Qed.
  Lemma step_reads inputs u0 s p ls ls1 p1 s1 : at_row u0 s p -> leading s ->
    next_pair op h cond inputs s ls = (ls1, GYield (LPair p1) s1) -> leading s1 -> at_row u0 s1 p1.
  Proof.
    intros (read & row & -> & P & Q) LD N LD1. destruct s as [u ids|u f i cs ids|r ids]; [| |contradiction]; cbn [next_pair unread] in *.
    - destruct (outer_reads _ _ _ _ _ _ _ _ N LD1) as (read' & row' & -> & P' & Q').
      exists (read ++ Ok row :: read'), row'. rewrite <- app_assoc. auto.
    - destruct (next_right op h cond inputs f cs ls) as [ls2 [[[y cs']|]|e]].
      + destruct Q as [-> ->]. destruct (how' h); injection N as <- <- <-; exists read, row; cbn; rewrite ?part_pair; auto.
      + destruct (outer_reads _ _ _ _ _ _ _ _ N LD1) as (read' & row' & -> & P' & Q').
        exists (read ++ Ok row :: read'), row'. rewrite <- app_assoc. auto.
      + discriminate.
  Qed.
  Lemma takes_reads inputs (Q : gstate -> Prop) u0 ids ls ps s1 ls1 : (forall s, Q s -> leading s) ->
    takes op h cond inputs Q (GOuter u0 ids) ls ps s1 ls1 ->
    match ps with [] => True | p0 :: _ => at_row u0 s1 (last ps p0) /\ Q s1 end.
  Proof.
    intros LD T. inversion T as [|s ls0 p s2 ls2 ps0 s' ls' N HQ T1]; subst; auto.
    assert (A : at_row u0 s2 p) by (cbn [next_pair] in N; eapply outer_reads; eauto).
    clear N T ls ids. revert p A. induction T1 as [s ls ls' B|s ls q s3 ls3 ps s' ls' N HQ' T IH]; intros p A; [split; [exact A|exact HQ]|].
    specialize (IH HQ' q (step_reads _ _ _ _ _ _ _ _ A (LD _ HQ) N (LD _ HQ'))). destruct IH as [IH HQ2]. split; [|exact HQ2].
    destruct ps as [|q' ps]; [exact IH|]. cbn [last] in IH |- *. destruct ps; [exact IH|].
    erewrite last_indep; [exact IH|discriminate].
  Qed.
  Lemma takes_firstn inputs Q k s ls ps s1 ls1 : takes op h cond inputs Q s ls ps s1 ls1 ->
    exists s2 ls2, takes op h cond inputs Q s ls (firstn k ps) s2 ls2.
  Proof.
    intros T. revert k. induction T as [s ls ls' B|s ls p s1 ls1 ps s' ls' N HQ T IH]; intros k.
    - exists s, ls. rewrite firstn_nil. constructor. apply agree_refl.
    - destruct k as [|k]; [exists s, ls; constructor; apply agree_refl|]. destruct (IH k) as (s2 & ls2 & T2). exists s2, ls2. cbn. eapply t_one; eauto.
  Qed.
End World.
