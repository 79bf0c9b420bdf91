(** C56: the generator a join returns. *)
From Coq Require Import String List ZArith Bool Arith Lia.
From Verif Require Import Model_PyVal Model_Join Model_Labels Model_JoinLazy Spec_Join Spec_JoinLazy Proofs_JoinLazy Proofs_JoinWorld Props_Join.
Import ListNotations.

Section C56.
  Variable op : string -> list val -> res val.
  Variable h : Model_Join.how.
  Variable cond : option jx.
  Notation run := (run (jcall_out op h cond) (jresume op h cond) jclose).
  Notation step := (step (jcall_out op h cond) (jresume op h cond) jclose).
  Notation outs ops := (snd (run world0 ops)).

  (** a call gives a generator, an empty list or raises *)
  Lemma first_call kl kr left right inputs more w :
    let x := call_of h kl kr left right inputs more in
    let J := join op inputs h cond kl kr left right in
    match step w (Call x) with
    | (_, ORaise _) => exists e, J = Err e
    | (_, OValue v) => v = LEmpty /\ J = Ok []
    | (w', OGenerator) => gens w' = gens w ++ [Unstarted (x, GOuter (map Ok (driving h left right) ++ more) [])] /\
        (exists src, holds_source op h cond inputs src (store w') /\
           J = (do l' <- filter_rows (fun x => ev_all op (on_row inputs x) (lfilters h cond)) (driving h left right);
                do m <- matches (fun x => ev_key op (on_row inputs x) (left_hash (cs_of h cond))) (passes op h cond inputs) src l';
                Ok (lead h m ++ ending h (seen (lead h m) []) (indexed h left right)))) /\
        (how' h = Outer -> label_at (store w') right_key = Some (LAgain (indexed h left right)))
    | _ => False
    end.
  Proof.
    intros x J. pose proof (call_join op h cond inputs kl kr left right more (store w)) as C. fold x J in C. cbn zeta in C.
    cbn [Model_Labels.step]. destruct (jcall_out op h cond x (store w)) as [ls1 [v|s|e]]; cbn [gens store]; auto.
    destruct C as (-> & S & L). auto.
  Qed.

  (** Taking all pairs gives what [Model_Join.join] says (the C38-C42 results are about
      it), no more and no less; [n] further calls of next() give StopIteration. *)
  Theorem C56_all_pairs :
    forall kl kr left right inputs out n,
    let x := call_of h kl kr left right inputs [] in
    join op inputs h cond kl kr left right = Ok out ->
    outs [Call x] = [OGenerator] /\ outs (Call x :: repeat (Next 0) (length out + n)) = OGenerator :: yields out ++ repeat OStop n \/
    (out = [] /\ outs [Call x] = [OValue LEmpty]).
  Proof.
    intros kl kr left right inputs out n x J. pose proof (first_call kl kr left right inputs [] world0) as C. fold x in C. cbn zeta in C.
    cbn [Model_Labels.run]. destruct (step world0 (Call x)) as [w [v| |e| v| |]]; try contradiction.
    - right. destruct C as [-> C]. rewrite C in J. injection J as <-. auto.
    - left. split; [reflexivity|]. destruct C as (G & (src & H & E) & L). rewrite E in J.
      destruct (filter_rows _ (driving h left right)) as [l'|e] eqn:F; cbn [bind] in J; [|discriminate].
      destruct (matches _ _ src l') as [m|e] eqn:M; cbn [bind] in J; [|discriminate]. injection J as <-.
      destruct (left_takes op h cond inputs [] _ _ _ _ [] _ F M H) as (s1 & ls1 & ls2 & T & LD & GO & K).
      assert (D : drains op h cond inputs (GOuter (map Ok (driving h left right) ++ []) []) (store w) (lead h m ++ ending h (seen (lead h m) []) (indexed h left right))).
      { eapply takes_drains; [exact T|]. apply (drains_on _ _ _ _ _ _ _ _ _ _ GO). apply end_drains with (rows := indexed h left right); [|reflexivity].
        intros O. apply K, L, O. }
      assert (A : at_state w 0 x (GOuter (map Ok (driving h left right) ++ []) [])) by (left; rewrite G; reflexivity).
      pose proof (run_nexts op h cond (length (lead h m ++ ending h (seen (lead h m) []) (indexed h left right)) + n) w 0 x _ A) as R.
      cbn [c_inputs call_of x] in R. rewrite (nexts_drains op h cond inputs n _ _ _ D) in R.
      destruct (run w (repeat (Next 0) _)) as [w2 xs]. cbn [snd] in *. rewrite R. reflexivity.
    - destruct C as [e' C]. congruence.
  Qed.

  (** ... and the other way round. *)
  Theorem C56_nothing_else :
    forall kl kr left right inputs out n,
    let x := call_of h kl kr left right inputs [] in
    outs (Call x :: repeat (Next 0) n) = OGenerator :: yields out ++ [OStop] ->
    join op inputs h cond kl kr left right = Ok out.
  Proof.
    intros kl kr left right inputs out n x. pose proof (first_call kl kr left right inputs [] world0) as C. fold x in C. cbn zeta in C.
    cbn [Model_Labels.run]. destruct (step world0 (Call x)) as [w [v| |e| v| |]]; try contradiction.
    - destruct (run w (repeat (Next 0) n)). discriminate.
    - destruct C as (G & (src & H & E) & L).
      assert (A : at_state w 0 x (GOuter (map Ok (driving h left right) ++ []) [])) by (left; rewrite G; reflexivity).
      pose proof (run_nexts op h cond n w 0 x _ A) as R. destruct (run w (repeat (Next 0) n)) as [w2 xs]. cbn [snd] in *. intros [= O].
      rewrite R in O. apply drains_nexts in O. cbn [c_inputs call_of x] in O. rewrite app_nil_r in O.
      destruct (left_drains op h cond inputs _ src _ _ _ H O) as (l' & m & qs & ls' & F & M & -> & D & K).
      apply (end_drains op h cond inputs _ ls' qs (indexed h left right)) in D; [|intros W; apply K, L, W]. rewrite E, F. cbn [bind]. rewrite M. cbn [bind]. rewrite D. reflexivity.
    - destruct (run w (repeat (Next 0) n)). discriminate.
  Qed.

  (** The first [k] pairs need nothing of the left side (with how="right": of the right
      one) but the rows up to the one the [k]-th pair is made of: whatever follows, rows on
      which the condition fails, an exception, is not read.  (With how="outer" as long
      as the pairs have a left row.) *)
  Theorem C56_lazy :
    forall kl kr left right inputs out k p more,
    join op inputs h cond kl kr left right = Ok out ->
    nth_error out k = Some p ->
    (h = Outer -> Forall (fun p => rid (fst p) <> 0) (firstn (S k) out)) ->
    let x := call_of h kl kr left right inputs more in
    outs (Call x :: repeat (Next 0) (S k)) = OGenerator :: yields (firstn (S k) out) /\
    exists s read rest,
      nth_error (gens (fst (run world0 (Call x :: repeat (Next 0) (S k))))) 0 = Some (Suspended (x, s)) /\
      driving h left right = read ++ driving_part h p :: rest /\ unread s = map Ok rest ++ more.
  Proof.
    intros kl kr left right inputs out k p more J NK NN x. pose proof (first_call kl kr left right inputs more world0) as C. fold x in C. cbn zeta in C.
    cbn [Model_Labels.run]. destruct (step world0 (Call x)) as [w [v| |e| v| |]]; try contradiction.
    1: { destruct C as [-> C]. rewrite C in J. injection J as <-. destruct k; discriminate. }
    2: { destruct C as [e' C]. congruence. }
    destruct C as (G & (src & H & E) & L). rewrite E in J.
    destruct (filter_rows _ (driving h left right)) as [l'|e] eqn:F; cbn [bind] in J; [|discriminate].
    destruct (matches _ _ src l') as [m|e] eqn:M; cbn [bind] in J; [|discriminate]. injection J as J.
    destruct (left_takes op h cond inputs more _ _ _ _ [] _ F M H) as (s1 & ls1 & ls2 & T & LD & GO & K).
    assert (LT : k < length (lead h m)).
    { destruct (Nat.lt_ge_cases k (length (lead h m))) as [|GE]; auto. exfalso.
      pose proof NK as NK0. rewrite <- J in NK. rewrite nth_error_app2 in NK by lia. unfold ending in NK. destruct (how' h) eqn:HW; try (destruct (k - length (lead h m)); discriminate).
      assert (HO : h = Outer) by (unfold how' in HW; destruct h; auto; discriminate).
      specialize (NN HO). apply nth_error_In in NK as IN. apply in_map_iff in IN. destruct IN as (y & <- & _).
      rewrite Forall_forall in NN. apply (NN (none_obj, y)); [|reflexivity].
      apply (nth_error_In (firstn (S k) out) k).
      assert (LO : k < length out) by (apply nth_error_Some; rewrite NK0; discriminate).
      rewrite <- (firstn_skipn (S k) out) in NK0. rewrite nth_error_app1 in NK0; [exact NK0|]. rewrite firstn_length. lia. }
    assert (FN : firstn (S k) out = firstn (S k) (lead h m)).
    { rewrite <- J. rewrite firstn_app. replace (S k - length (lead h m)) with 0 by lia. rewrite firstn_O, app_nil_r. reflexivity. }
    rewrite FN. destruct (takes_firstn op h cond inputs _ (S k) _ _ _ _ _ T) as (s2 & ls3 & T2).
    assert (LEN : length (firstn (S k) (lead h m)) = S k) by (rewrite firstn_length; lia).
    assert (A : at_state w 0 x (GOuter (map Ok (driving h left right) ++ more) [])) by (left; rewrite G; reflexivity).
    destruct (run_takes op h cond inputs _ _ _ _ _ _ T2 w 0 x A (agree_refl _ _ _) eq_refl) as (O & _ & S2). rewrite LEN in O, S2.
    assert (NE : firstn (S k) (lead h m) <> []) by (intros Z; rewrite Z in LEN; discriminate). specialize (S2 NE).
    pose proof (takes_reads op h cond inputs _ _ _ _ _ _ _ (fun s X => proj1 X) T2) as RD.
    destruct (firstn (S k) (lead h m)) as [|p0 ps] eqn:FS; [contradiction|].
    destruct RD as [(read & row & U & P & _) (_ & rest & UR)].
    change (repeat (Next 0) (S k)) with (@Next jcall exc 0 :: repeat (Next 0) k) in *.
    destruct (run w (Next 0 :: repeat (Next 0) k)) as [w2 xs]. cbn [fst snd] in *. rewrite O. split; [reflexivity|].
    assert (LP : last (p0 :: ps) p0 = p).
    { rewrite <- FS, <- FN in *. clear - NK. revert p0 out NK. induction k as [|k IH]; intros p0 [|q out] NK; try discriminate.
      - injection NK as ->. reflexivity.
      - cbn in NK. specialize (IH p0 out NK). cbn [firstn]. destruct out as [|q' out]; [destruct k; discriminate|]. exact IH. }
    rewrite LP in P. subst row. rewrite UR in U.
    assert (X : map Ok (driving h left right) = read ++ Ok (driving_part h p) :: map Ok rest).
    { apply (app_inv_tail more). rewrite U, <- app_assoc. reflexivity. }
    assert (Y : exists read', driving h left right = read' ++ driving_part h p :: rest).
    { clear - X. revert read X. generalize (driving_part h p). intros q. induction (driving h left right) as [|a l IH]; intros [|b read] X; cbn in X; try discriminate.
      - injection X as -> X. exists []. cbn. f_equal. clear - X. revert rest X. induction l as [|z l IH]; intros [|z' rest] X; try discriminate; auto. injection X as -> X. f_equal; auto.
      - injection X as <- X. destruct (IH _ X) as [r' ->]. exists (a :: r'). reflexivity. }
    destruct Y as [read' Y]. exists s2, read', rest. auto.
  Qed.

  (** Whatever was done with the converter before: if after a call only its own generator
      is used, it gives what it would give if this were the only call. *)
  Theorem C56_after_other_calls :
    forall ops x n,
    let w := fst (run world0 ops) in
    let i := length (gens w) in
    snd (step w (Call x)) = snd (step world0 (Call x)) /\
    (snd (step world0 (Call x)) = OGenerator ->
     snd (run w (Call x :: repeat (Next i) n)) = outs (Call x :: repeat (Next 0) n)).
  Proof.
    intros ops x n w i. generalize dependent w. intros w i. cbn [Model_Labels.run]. cbn [Model_Labels.step].
    pose proof (call_agree op h cond x (store w) (store (world0 (V:=lab) (S:=jcall * gstate)))) as C.
    destruct (jcall_out op h cond x (store w)) as [a [v|s|e]], (jcall_out op h cond x (store world0)) as [b [v'|s'|e']]; try contradiction; cbn [snd].
    - subst v'. split; [reflexivity|discriminate].
    - destruct C as [<- AG]. destruct s as [x0 s0]. split; [reflexivity|]. intros _.
      assert (A : at_state (mkW a (gens w ++ [Unstarted (x0, s0)])) i x0 s0) by (left; cbn [gens]; unfold i; rewrite nth_error_app2, Nat.sub_diag by lia; reflexivity).
      assert (B : at_state (mkW b (gens (world0 (V:=lab)) ++ [Unstarted (x0, s0)])) 0 x0 s0) by (left; reflexivity).
      pose proof (run_nexts op h cond n _ i x0 s0 A) as RA. pose proof (run_nexts op h cond n _ 0 x0 s0 B) as RB. cbn [store] in RA, RB.
      rewrite (nexts_agree op h cond _ n s0 a b AG), <- RB in RA.
      destruct (run (mkW a (gens w ++ [Unstarted (x0, s0)])) (repeat (Next i) n)) as [w1 xs], (run (mkW b (gens world0 ++ [Unstarted (x0, s0)])) (repeat (Next 0) n)) as [w2 ys].
      cbn [snd] in *. rewrite RA. reflexivity.
    - subst e'. split; [reflexivity|discriminate].
  Qed.
End C56.

(** With the results on inner and left joins: the first pairs of the specification. *)
Corollary C56_first_pairs_inner :
  forall op cond kl kr left right inputs k p more,
  proper cond -> rescans cond kr only_right left -> evaluable op inputs cond left right ->
  nth_error (spec_inner op inputs cond left right) k = Some p ->
  let x := call_of Inner kl kr left right inputs more in
  snd (run (jcall_out op Inner cond) (jresume op Inner cond) jclose world0 (Call x :: repeat (Next 0) (S k))) =
  OGenerator :: yields (firstn (S k) (spec_inner op inputs cond left right)).
Proof.
  intros op cond kl kr left right inputs k p more PR RS EV NK x.
  destruct (C38_join_succeeds op inputs Inner cond kl kr left right) as [out J]; auto; try discriminate.
  pose proof (C38_inner_join_partial op inputs cond kl kr left right out PR RS J) as E. rewrite <- E in NK |- *.
  apply (C56_lazy op Inner cond kl kr left right inputs out k p more J NK). discriminate.
Qed.
Corollary C56_first_pairs_left :
  forall op cond kl kr left right inputs k p more,
  proper cond -> rescans cond kr only_right left -> evaluable op inputs cond left right -> input_parts_hold op inputs cond ->
  nth_error (spec_left op inputs cond left right) k = Some p ->
  let x := call_of Left kl kr left right inputs more in
  snd (run (jcall_out op Left cond) (jresume op Left cond) jclose world0 (Call x :: repeat (Next 0) (S k))) =
  OGenerator :: yields (firstn (S k) (spec_left op inputs cond left right)).
Proof.
  intros op cond kl kr left right inputs k p more PR RS EV IP NK x.
  destruct (C38_join_succeeds op inputs Left cond kl kr left right) as [out J]; auto; try discriminate.
  pose proof (C39_left_join_partial op inputs cond kl kr left right out PR RS IP J) as E. rewrite <- E in NK |- *.
  apply (C56_lazy op Left cond kl kr left right inputs out k p more J NK). discriminate.
Qed.

(** *** examples *)
Definition z_row (i : nat) (k : Z) : robj := mkObj i (VTuple [VInt k; VInt (Z.of_nat i)]).
Definition on_first : jx := JEq [JItem JLeft (JConst (VInt 0)); JItem JRight (JConst (VInt 0))].
Definition z_left := [z_row 1 5; z_row 2 6; z_row 3 5]%Z.
Definition z_right := [z_row 11 5; z_row 12 7; z_row 13 5]%Z.
Notation z_outs h ops := (snd (run (jcall_out op0 h (Some on_first)) (jresume op0 h (Some on_first)) jclose world0 ops)).
Notation z_call h more := (call_of h Reiterable Reiterable z_left z_right inputs0 more).
(** Two pairs of an outer join whose left iterator fails at the fourth row; all of them. *)
Example C56_lazy_case :
  join op0 inputs0 Outer (Some on_first) Reiterable Reiterable z_left z_right =
    Ok [(z_row 1 5, z_row 11 5); (z_row 1 5, z_row 13 5); (z_row 2 6, none_obj); (z_row 3 5, z_row 11 5); (z_row 3 5, z_row 13 5); (none_obj, z_row 12 7)]%Z /\
  z_outs Outer (Call (z_call Outer [Err ValueError]) :: repeat (Next 0) 7) =
    OGenerator :: yields [(z_row 1 5, z_row 11 5); (z_row 1 5, z_row 13 5); (z_row 2 6, none_obj); (z_row 3 5, z_row 11 5); (z_row 3 5, z_row 13 5)]%Z
    ++ [ORaise ValueError; OStop] /\
  z_outs Outer (Call (z_call Outer []) :: repeat (Next 0) 7) =
    OGenerator :: yields [(z_row 1 5, z_row 11 5); (z_row 1 5, z_row 13 5); (z_row 2 6, none_obj); (z_row 3 5, z_row 11 5); (z_row 3 5, z_row 13 5); (none_obj, z_row 12 7)]%Z
    ++ [OStop].
Proof. vm_compute. auto. Qed.
(** A first generator left unfinished does not matter for a later call. *)
Example C56_after_case :
  z_outs Inner [Call (z_call Inner []); Next 0; Call (call_of Inner Reiterable Reiterable z_right z_left inputs0 []); Next 1; Next 1] =
  [OGenerator; OYield (LPair (z_row 1 5, z_row 11 5)); OGenerator; OYield (LPair (z_row 11 5, z_row 1 5)); OYield (LPair (z_row 11 5, z_row 3 5))]%Z.
Proof. vm_compute. reflexivity. Qed.

(** Two generators of one join that are used at the same time: the right rows of the
    second call are joined to the left rows of the first; when the second ends, the first
    raises KeyError. *)
Theorem C56_overlapping_joins_refuted :
  exists cond left right right' p p',
  proper (Some cond) /\
  let f ops := snd (run (jcall_out op0 Inner (Some cond)) (jresume op0 Inner (Some cond)) jclose world0 ops) in
  let x := call_of Inner Reiterable Reiterable left right inputs0 [] in
  let y := call_of Inner Reiterable Reiterable left right' inputs0 [] in
  f [Call x; Next 0] = [OGenerator; OYield (LPair p)] /\
  f [Call x; Call y; Next 0] = [OGenerator; OGenerator; OYield (LPair p')] /\
  In (snd p) right /\ ~ In (snd p') right /\ In (snd p') right' /\
  f [Call x; Call y; Next 1; Next 1; Next 0] = [OGenerator; OGenerator; OYield (LPair p'); OStop; ORaise KeyError].
Proof.
  exists on_first, [z_row 1 5]%Z, [z_row 11 5]%Z, [z_row 21 5]%Z, (z_row 1 5, z_row 11 5)%Z, (z_row 1 5, z_row 21 5)%Z.
  split; [split; reflexivity|]. cbv zeta.
  split; [vm_compute; reflexivity|]. split; [vm_compute; reflexivity|]. split; [left; reflexivity|]. split; [|split; [left; reflexivity|vm_compute; reflexivity]].
  intros [E|[]]. discriminate E.
Qed.

Print Assumptions C56_all_pairs.
Print Assumptions C56_nothing_else.
Print Assumptions C56_lazy.
Print Assumptions C56_after_other_calls.
Print Assumptions C56_first_pairs_inner.
Print Assumptions C56_first_pairs_left.
Print Assumptions C56_overlapping_joins_refuted.
