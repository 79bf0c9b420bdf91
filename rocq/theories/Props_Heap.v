(** C11, C12, C48: pipelines of reusable conversion objects. *)
From Coq Require Import String List ZArith Bool Lia Arith.
From Verif Require Import Model_Heap Spec_Heap Proofs_Heap.
Import ListNotations.
Local Open Scope Z_scope.

Section C11.
  Context {P Label : Type}.
  Variable caching : nat -> list (Label * nat) -> P.
  Notation pipe := (pipe Label caching).

  (** Stages contributed by one operand: all its stages, or - if it is wrapped
      with labels - the single labelling stage. *)
  Definition contributes (h : heap P) (wrapped : option (list (Label * nat))) (stages got : list P) : Prop :=
    match wrapped with
    | None => got = stages
    | Some ls => exists inner, got = [caching inner ls]
    end.

  Lemma pipe_exact m (h : heap P) a b la lb li lo :
    pipeline h a la -> pipeline h b lb ->
    let lb' := match lo with None => Z.of_nat (length lb) | Some _ => 1 end in
    if (Z.of_nat (length la) <=? m) && (Z.of_nat (length lb) <=? m) && (lb' <=? m - 1)
    then exists h' r ra rb, pipe m h a b li lo = Done h' r /\ preserved h h' /\
           contributes h li la ra /\ contributes h lo lb rb /\ pipeline h' r (rb ++ ra)
    else exists h', pipe m h a b li lo = ConversionException h' /\ preserved h h'.
  Proof.
    intros Ha Hb lb'.
    assert (pres : forall h2 : heap P, agree (length h) h h2 -> preserved h h2).
    { intros h2 A i o Hi. rewrite (agree_get _ _ _ _ A); auto. apply nth_error_Some. congruence. }
    unfold Model_Heap.pipe.
    pose proof (clone_ok m h a la Ha) as Ca.
    destruct (Z.of_nat (length la) <=? m) eqn:Ea; cbn [andb].
    2:{ destruct Ca as (h1 & -> & A1). eauto. }
    destruct Ca as (h1 & -> & A1 & Ch1 & _).
    (* the left operand, possibly wrapped *)
    set (W1 := match li with None => (h1, length h) | Some ls => wrap_labels Label caching h1 (length h) ls end).
    assert (HW1 : exists h2 s2 ra, W1 = (h2, s2) /\ agree (length h1) h1 h2 /\
       contributes h li la ra /\
       chain_in (fun j => (j < length h2)%nat) h2 s2 ra).
    { unfold W1. destruct li as [ls|].
      - unfold wrap_labels. eexists _, _, [caching (length h) ls]. split; [reflexivity|]. split; [apply agree_app; auto|].
        split; [simpl; eauto|].
        match goal with |- chain_in _ (_ ++ [?o]) _ _ => change (caching (length h) ls) with (payload o) end.
        constructor; [rewrite app_length; simpl; lia| |reflexivity].
        rewrite nth_error_app2, Nat.sub_diag by lia. reflexivity.
      - eexists _, _, la. split; [reflexivity|]. split; [apply agree_refl|]. split; [reflexivity|].
        eapply chain_in_mono; [|exact Ch1]. simpl; intros; lia. }
    destruct HW1 as (h2 & s2 & ra & EW & A2 & Cra & Ch2). rewrite EW. clear W1 EW.
    assert (A2' : agree (length h) h h2).
    { eapply agree_trans; [exact A1|]. eapply agree_le; [|exact A2]. apply (agree_length _ _ _ A1). }
    assert (Hb2 : pipeline h2 b lb).
    { eapply pipeline_agree; [|apply pipeline_chain_in; exact Hb]. intros j Hj. apply (agree_get _ _ _ _ A2'); auto. }
    pose proof (clone_ok m h2 b lb Hb2) as Cb.
    destruct (Z.of_nat (length lb) <=? m) eqn:Eb; cbn [andb].
    2:{ destruct Cb as (h3 & -> & A3). exists h3. split; auto. apply pres. eapply agree_trans; [exact A2'|].
        eapply agree_le; [|exact A3]. apply (agree_length _ _ _ A2'). }
    destruct Cb as (h3 & -> & A3 & Ch3 & _).
    set (W2 := match lo with None => (h3, length h2) | Some ls => wrap_labels Label caching h3 (length h2) ls end).
    assert (HW2 : exists h4 n2 rb, W2 = (h4, n2) /\ agree (length h2) h2 h4 /\
       contributes h lo lb rb /\ Z.of_nat (length rb) = lb' /\
       chain_in (fun j => (length h2 <= j)%nat) h4 n2 rb).
    { unfold W2. pose proof (agree_length _ _ _ A3) as L3. destruct lo as [ls|].
      - unfold wrap_labels. eexists _, _, [caching (length h2) ls]. split; [reflexivity|].
        split; [eapply agree_trans; [exact A3|apply agree_app; lia]|].
        split; [simpl; eauto|]. split; [reflexivity|].
        match goal with |- chain_in _ (_ ++ [?o]) _ _ => change (caching (length h2) ls) with (payload o) end.
        constructor; [lia| |reflexivity].
        rewrite nth_error_app2, Nat.sub_diag by lia. reflexivity.
      - eexists _, _, lb. split; [reflexivity|]. split; [auto|]. split; [reflexivity|]. split; [reflexivity|].
        eapply chain_in_mono; [|exact Ch3]. simpl; intros; lia. }
    destruct HW2 as (h4 & n2 & rb & EW & A4 & Crb & Lrb & Ch4). rewrite EW. clear W2 EW.
    unfold set_predefined_input.
    pose proof (set_input_loop_ok (length h2) s2 rb (Z.to_nat (m - 1)) h4 n2 Ch4) as K.
    assert (Cmp : (length rb <=? Z.to_nat (m - 1))%nat = (lb' <=? m - 1)).
    { rewrite <- Lrb. pose proof (pipeline_len_pos _ _ _ (chain_in_pipeline _ _ _ _ Ch4)).
      destruct (Z.leb_spec (Z.of_nat (length rb)) (m - 1)); [apply Nat.leb_le|apply Nat.leb_gt]; lia. }
    rewrite Cmp in K.
    assert (Fin : forall h5 : heap P, (forall j, (j < length h2)%nat -> nth_error h5 j = nth_error h4 j) -> preserved h h5).
    { intros h5 S i o Hi. assert (i < length h)%nat by (apply nth_error_Some; congruence).
      pose proof (agree_length _ _ _ A2').
      rewrite S by lia. rewrite (agree_get _ _ _ _ A4) by lia. rewrite (agree_get _ _ _ _ A2'); auto. }
    destruct (lb' <=? m - 1).
    - destruct K as (h5 & q & -> & Kq & Lk & Same & Ch & _).
      exists h5, n2, ra, rb. repeat split; auto.
      apply Ch. eapply pipeline_agree; [|exact Ch2].
      intros j Hj. rewrite Same by auto. apply (agree_get _ _ _ _ A4); auto.
    - destruct K as (h5 & -> & Same). eauto.
  Qed.

  (** C11.  Whatever the heap, whatever two pipelines (possibly the same
      one twice, or one sharing stages with the other): piping leaves every
      existing object as it was - also when it fails - and on success gives a pipeline made of
      the stages of [b] on top of those of [a]; with label_input (label_output)
      the left (right) operand becomes one labelling stage. *)
  Theorem C11_pipe_reuses_operands m (h : heap P) a b la lb li lo h' :
    pipeline h a la -> pipeline h b lb ->
    (forall r, pipe m h a b li lo = Done h' r ->
       preserved h h' /\
       exists ra rb, contributes h li la ra /\ contributes h lo lb rb /\ pipeline h' r (rb ++ ra)) /\
    (pipe m h a b li lo = ConversionException h' -> preserved h h') /\
    pipe m h a b li lo <> Dangling.
  Proof.
    intros Ha Hb. pose proof (pipe_exact m h a b la lb li lo Ha Hb) as K. cbv zeta in K.
    match type of K with if ?c then _ else _ => destruct c end.
    - destruct K as (h1 & r1 & ra & rb & E & Pr & C1 & C2 & Pl). rewrite E. split; [|split; congruence].
      intros r Er. injection Er as <- <-. eauto 10.
    - destruct K as (h1 & E & Pr). rewrite E. split; [congruence|split; [|congruence]].
      intros Er. injection Er as <-. auto.
  Qed.

  (** C12.  For every limit (also 0 or negative) pipe without labels fails exactly when the left
      pipeline has more than max_pipe_length stages or the right one has at
      least max_pipe_length; otherwise it succeeds.  (Labelled operands:
      [pipe_exact] above.) *)
  Theorem C12_pipe_length_limit m (h : heap P) a b la lb :
    pipeline h a la -> pipeline h b lb ->
    ((exists h', pipe m h a b None None = ConversionException h') <->
     Z.of_nat (length la) > m \/ Z.of_nat (length lb) >= m) /\
    ((exists h' r, pipe m h a b None None = Done h' r) <->
     Z.of_nat (length la) <= m /\ Z.of_nat (length lb) < m).
  Proof.
    intros Ha Hb. pose proof (pipe_exact m h a b la lb None None Ha Hb) as K. cbv zeta in K.
    destruct (Z.leb_spec (Z.of_nat (length la)) m); cbn [andb] in K;
    [destruct (Z.leb_spec (Z.of_nat (length lb)) m); cbn [andb] in K;
     [destruct (Z.leb_spec (Z.of_nat (length lb)) (m - 1)); cbn [andb] in K|]|].
    - destruct K as (h1 & r1 & ra & rb & E & _). rewrite E.
      split; split; [intros [? ?]; discriminate|lia|intros _; lia|eauto].
    - destruct K as (h1 & E & _). rewrite E. split; split; eauto; try lia. intros (? & ? & ?); discriminate.
    - destruct K as (h1 & E & _). rewrite E. split; split; eauto; try lia. intros (? & ? & ?); discriminate.
    - destruct K as (h1 & E & _). rewrite E. split; split; eauto; try lia. intros (? & ? & ?); discriminate.
  Qed.

  (** So the limit is not a limit on the length of the result. *)
  Theorem C12_result_exceeds_limit_refuted :
    forall (p : P), exists (h : heap P) a b h' r l,
      pipe 3 h a b None None = Done h' r /\ pipeline h' r l /\ Z.of_nat (length l) = 5.
  Proof.
    intros p.
    set (h := [mkObj None [] p; mkObj (Some 0%nat) [] p; mkObj (Some 1%nat) [] p]).
    assert (Ha : pipeline h 2 [p; p; p]).
    { change p with (payload (mkObj (Some 1%nat) [] p)) at 1.
      eapply more_stages; [reflexivity..|].
      change p with (payload (mkObj (Some 0%nat) [] p)) at 1.
      eapply more_stages; [reflexivity..|].
      change p with (payload (mkObj (@None nat) [] p)) at 1.
      eapply one_stage; reflexivity. }
    assert (Hb : pipeline h 1 [p; p]).
    { change p with (payload (mkObj (Some 0%nat) [] p)) at 1.
      eapply more_stages; [reflexivity..|].
      change p with (payload (mkObj (@None nat) [] p)) at 1.
      eapply one_stage; reflexivity. }
    destruct (C12_pipe_length_limit 3 h 2 1 _ _ Ha Hb) as [_ [_ S]].
    destruct S as (h' & r & E); [simpl; lia|].
    destruct (proj1 (C11_pipe_reuses_operands 3 h 2 1 _ _ None None h' Ha Hb) r E) as (_ & ra & rb & -> & -> & Pl).
    exists h, 2%nat, 1%nat, h', r. eauto.
  Qed.
End C11.

Section C48.
  Context {P : Type}.
  Variable gen : heap P -> nat -> bool -> string -> option string.
  Variable pipe_name : string -> string.
  Notation gen_converter := (gen_converter gen pipe_name).

  (** C48, successful compilations: nothing changes, so compiling again (or
      after any other operation that keeps the objects) gives the same code.
      Failed ones: the only change is that one stage has lost its input link. *)
  Theorem C48_compiling_leaves_reusable_partial (h : heap P) (i : nat) :
    match gen_converter h i with
    | Code h' lines => h' = h /\ gen_converter h' i = Code h lines
    | GenError h' => length h' = length h /\
        exists k, List.In k (stages (length h) h i) /\
          (forall j, j <> k -> nth_error h' j = nth_error h j) /\
          (forall o, nth_error h k = Some o -> nth_error h' k = Some (set_pred None o))
    end.
  Proof.
    unfold Model_Heap.gen_converter.
    pose proof (gen_stages_spec gen pipe_name (rev (stages (length h) h i)) h
                  (Nat.eqb (length (stages (length h) h i)) 1) "data_" []) as K.
    destruct (gen_stages _ _ _ _ _ _ _) as [h' ls|h'] eqn:E.
    - subst h'. auto.
    - destruct K as (k & Hk & ->). rewrite <- in_rev in Hk.
      split; [apply length_update|]. exists k. split; auto. split.
      + intros j Hj. apply nth_update_ne. auto.
      + intros o Ho. apply nth_update_eq; auto.
  Qed.
End C48.

(** C48 is false for failing compilations.  A pipeline of two stages whose
    second stage (payload 9) cannot generate code (base.py:563-572: the
    exception leaves the loop before the link is restored).  After the failed
    attempt the object is a one-stage pipeline: its input is gone. *)
Definition demo_gen (h : heap nat) (i : nat) (_ : bool) (input : string) : option string :=
  match nth_error h i with
  | Some o => if Nat.eqb (payload o) 9 then None else Some (input ++ "+1")%string
  | None => None
  end.
Theorem C48_failed_compilation_refuted :
  exists (h : heap nat) (i : nat) h',
    gen_converter demo_gen (fun s => s) h i = GenError h' /\
    pipeline h i [9%nat; 1%nat] /\ pipeline h' i [9%nat].
Proof.
  exists [mkObj None [] 1%nat; mkObj (Some 0%nat) [0%nat] 9%nat], 1%nat.
  eexists. split; [vm_compute; reflexivity|]. split.
  - change 9%nat with (payload (mkObj (Some 0%nat) [0%nat] 9%nat)).
    eapply more_stages; [reflexivity..|].
    change 1%nat with (payload (mkObj None [] 1%nat)). eapply one_stage; reflexivity.
  - change 9%nat with (payload (mkObj None [0%nat] 9%nat)). eapply one_stage; reflexivity.
Qed.

(** Concrete cases: a two-stage pipeline piped into itself (limit 100), and
    compiled. *)
Definition two : heap nat := [mkObj None [] 5%nat; mkObj (Some 0%nat) [0%nat] 6%nat].
Example C11_hypotheses_met :
  pipeline two 1 [6%nat; 5%nat] /\
  exists h', Model_Heap.pipe unit (fun _ _ => 0%nat) 100 two 1 1 None None = Done h' 4%nat /\
             map payload h' = [5; 6; 6; 5; 6; 5]%nat /\ map pred h' = [None; Some 0; Some 3; None; Some 5; Some 2]%nat.
Proof.
  split.
  - change 6%nat with (payload (mkObj (Some 0%nat) [0%nat] 6%nat)).
    eapply more_stages; [reflexivity..|].
    change 5%nat with (payload (mkObj None [] 5%nat)). eapply one_stage; reflexivity.
  - eexists. split; vm_compute; auto.
Qed.
Example C48_example :
  gen_converter demo_gen (fun s => s) two 1 = Code two ["data_+1"; "data_+1"]%string.
Proof. vm_compute. reflexivity. Qed.

Print Assumptions C11_pipe_reuses_operands.
Print Assumptions C12_pipe_length_limit.
Print Assumptions C12_result_exceeds_limit_refuted.
Print Assumptions C48_compiling_leaves_reusable_partial.
Print Assumptions C48_failed_compilation_refuted.
