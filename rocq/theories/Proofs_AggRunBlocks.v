(** The blocks of the model of the loops are those of the program. *)
From Coq Require Import String Ascii List NArith ZArith Bool Arith Lia Permutation.
From Verif Require Import Model_PyVal Model_Reducers Model_Aggregate Model_Code Model_AggText Spec_Syntax Spec_FuncText Spec_AggProgram Spec_FuncRun
  Spec_AggRun Proofs_FuncRun Proofs_RedRun Proofs_Steady Proofs_AggRun Proofs_AggRunFn.
From Verif Require Spec_Stmt Spec_Loop Proofs_Stmt Proofs_Aggregate.
Import ListNotations.

Lemma index_seq {Row} (its : list (Model_Aggregate.item Row)) : forall p next seen vars ms,
  index_items its p next seen = (vars, ms) -> map m_var ms = seq next (length ms).
Proof.
  induction its as [|it its IH]; intros p next seen vars ms E; cbn [index_items] in E.
  - injection E as <- <-. reflexivity.
  - destruct (find _ seen) as [[h v]|].
    + destruct (index_items its (S p) next seen) as [vs ms'] eqn:E'. injection E as <- <-. eapply IH; eauto.
    + destruct (index_items its (S p) (S next) (seen ++ [(Model_Aggregate.hash it, next)])) as [vs ms'] eqn:E'. injection E as <- <-.
      cbn. f_equal. eapply IH; eauto.
Qed.
Lemma index_item {Row} (its : list (Model_Aggregate.item Row)) : forall p next seen vars ms,
  index_items its p next seen = (vars, ms) -> forall m, In m ms -> exists q, m_bit m = p + q /\ nth_error its q = Some (m_item m).
Proof.
  induction its as [|it its IH]; intros p next seen vars ms E m I; cbn [index_items] in E.
  - injection E as <- <-. destruct I.
  - destruct (find _ seen) as [[h v]|].
    + destruct (index_items its (S p) next seen) as [vs ms'] eqn:E'. injection E as <- <-.
      destruct (IH _ _ _ _ _ E' m I) as (q & B & N). exists (S q). split; [lia|exact N].
    + destruct (index_items its (S p) (S next) (seen ++ [(Model_Aggregate.hash it, next)])) as [vs ms'] eqn:E'. injection E as <- <-. destruct I as [<-|I].
      * exists 0. cbn [m_bit m_item nth_error]. split; [lia|reflexivity].
      * destruct (IH _ _ _ _ _ E' m I) as (q & B & N). exists (S q). split; [lia|exact N].
Qed.
Lemma block_cond {Row} (ms : list (@member Row)) b m : In b (build ms) -> In m (members b) -> ccode (m_item m) = bcond b.
Proof.
  destruct (Proofs_Aggregate.sorted_fold ms (mkSorted [] [] [] []) []) as (_ & H1 & H2 & H3 & H4).
  { repeat split; simpl; auto; contradiction. }
  intros Hb Hm. unfold build, Model_Aggregate.reduce_blocks in Hb. rewrite !in_app_iff in Hb. destruct Hb as [Hb|[Hb|[Hb|Hb]]].
  - apply in_flat_map in Hb as (kl & Hkl & Hb). apply in_map_iff in Hb as (x & <- & Hx). destruct Hm as [<-|[]]. now apply (H1 kl).
  - apply in_flat_map in Hb as (kl & Hkl & Hb). destruct (snd kl) as [|x r] eqn:Es; [destruct Hb|].
    destruct Hb as [<-|[]]. cbn [bcond]. apply (H2 kl Hkl). rewrite Es. exact Hm.
  - destruct (Model_Aggregate.uncond_plain _) as [|x r]; [destruct Hb|]. destruct Hb as [<-|[]]. now apply H3.
  - apply in_map_iff in Hb as (x & <- & Hx). destruct Hm as [<-|[]]. now apply H4.
Qed.

Section Blocks.
  Variable globals : text -> option rv.
  Variable call : text -> list val -> res val.
  Variable classes : text -> option (list text).
  Variable outside : ast -> (ast -> option val) -> res val.
  Hypothesis OUT : forall a g g', (forall u, In u (uses a) -> g u = g' u) -> outside a g = outside a g'.
  Variable none_name : text.
  Hypothesis GV : forall x, x <> none_name -> match globals x with None | Some (RVal _) => True | _ => False end.
  Variable params : list text.
  Variable args : list val.
  Variable sem : string -> val -> res bool.
  Variable its : list (Model_Aggregate.item val).
  Variable reds : nat -> ared.
  Variable vars : list (Model_Aggregate.item val * nat).
  Variable ms : list (@member val).
  Hypothesis IX : index_items its 0 0 [] = (vars, ms).
  Hypothesis DE : forall p it, nth_error its p = Some it -> denotes globals call outside params args sem it (reds p) /\ usable none_name params (reds p).
  Notation value := (value globals call outside params args).
  Notation constant := (constant globals call outside params args).

  Definition count : nat := length ms.
  Definition red_at (j : nat) : ared := match nth_error ms j with Some m => reds (m_bit m) | None => reds 0 end.
  Lemma member_var j m : nth_error ms j = Some m -> m_var m = j.
  Proof.
    intros H. pose proof (index_seq its 0 0 [] vars ms IX) as S. apply (f_equal (fun l => nth_error l j)) in S.
    rewrite nth_error_map, H in S. cbn in S.
    assert (L : j < length ms) by (apply nth_error_Some; congruence).
    assert (Q : forall n a i, i < n -> nth_error (seq a n) i = Some (a + i)).
    { induction n as [|n IH]; intros a [|i] Hi; cbn; try lia; [f_equal; lia|]. rewrite IH by lia. f_equal. lia. }
    rewrite Q in S by exact L. injection S as S. exact S.
  Qed.
  Lemma member_at m : In m ms -> m_var m < count /\ red_at (m_var m) = reds (m_bit m).
  Proof.
    intros I. apply In_nth_error in I as (j & H). rewrite (member_var j m H). unfold red_at. rewrite H. split; [|reflexivity].
    apply nth_error_Some. congruence.
  Qed.
  Lemma red_member j : j < count -> exists m, In m ms /\ m_var m = j /\ red_at j = reds (m_bit m).
  Proof.
    intros H. unfold red_at. destruct (nth_error ms j) as [m|] eqn:E.
    - exists m. split; [eapply nth_error_In; eauto|]. split; [now apply member_var|reflexivity].
    - apply nth_error_None in E. unfold count in H. lia.
  Qed.
  Lemma member_denotes m : In m ms -> denotes globals call outside params args sem (m_item m) (reds (m_bit m)) /\ usable none_name params (reds (m_bit m)).
  Proof.
    intros I. destruct (index_item its 0 0 [] vars ms IX m I) as (q & B & N). cbn in B. rewrite B. now apply DE.
  Qed.

  Variable pl : nat -> place.
  Variable s0 : state.
  Variable row : val.
  Hypothesis OP : own_places (touched count pl).
  Hypothesis BA : base params args s0.
  Hypothesis RI : row_in s0 (Some row).
  Notation steady := (Proofs_RedRun.steady globals call classes outside).
  Lemma row_steady a : plain_names none_name true a -> steady a (value a row) (touched count pl) s0.
  Proof. intros P. exact (expr_steady globals call classes outside OUT none_name GV params args a (Some row) s0 _ P BA RI OP). Qed.
  Definition parts_for (r : ared) : rparts :=
    mkParts (value (p_expr r) row) (map (fun a => value a row) (p_extras r)) (option_map constant (p_initial r)).
  Lemma parts_for_ok r : usable none_name params r -> parts_ok globals call classes outside count pl s0 r (parts_for r).
  Proof.
    intros U. constructor; cbn [parts_for v_expr v_extras v_initial].
    - apply row_steady, U.
    - pose proof (us_extras _ _ _ U) as H. induction H as [|a l Ha _ IH]; cbn; constructor; auto. now apply row_steady.
    - pose proof (us_initial _ _ _ U) as H. destruct (p_initial r) as [z|]; cbn; [|exact I]. split.
      + eapply const_steady; eauto.
      + eapply const_item; eauto.
    - pose proof (us_op _ _ _ U) as H. destruct (p_op r); auto.
    - pose proof (us_op _ _ _ U) as H. destruct (p_op r) as [|f]; auto. destruct H as (H1 & H2 & H3). intros s F. apply is_global_view.
      rewrite (base_frame params args (touched count pl) s0 s OP BA F) by auto. now apply given_out.
  Qed.
  Lemma parts_for_means it r : denotes globals call outside params args sem it r -> means call (obj it) row r (parts_for r).
  Proof.
    intros D. constructor; cbn [parts_for v_expr v_extras v_initial].
    - apply D.
    - apply D.
    - pose proof (de_extras _ _ _ _ _ _ _ _ D) as H. induction H as [|f a l la Hf _ IH]; cbn; [reflexivity|]. now rewrite Hf, IH.
    - pose proof (de_initial _ _ _ _ _ _ _ _ D) as H. destruct (initial (obj it)), (p_initial r); cbn; try contradiction; [now subst|reflexivity].
  Qed.
  Lemma members_ok m : In m ms -> member_ok globals call classes outside count reds red_at pl s0 row m.
  Proof.
    intros I. destruct (member_at m I) as [J RA]. destruct (member_denotes m I) as [D U]. split; [exact J|]. split; [exact RA|]. split.
    - exists (parts_for (reds (m_bit m))). split; [now apply parts_for_ok|now apply parts_for_means].
    - intros E t. exists (value (extra_of (reds (m_bit m))) row). intros IE F.
      assert (P : plain_names none_name true (extra_of (reds (m_bit m)))).
      { unfold extra_of. pose proof (us_extras _ _ _ U) as H. destruct H as [|a l Ha _]; cbn [nth]; [intros x []|exact Ha]. }
      pose proof (row_steady _ P) as S. intros t' F'. apply S. eapply frame_trans; [exact F|]. eapply frame_more; eauto.
  Qed.
  Lemma all_blocks_ok : Forall (block_ok globals call classes outside count reds red_at pl s0 row sem) (build ms).
  Proof.
    apply Forall_forall. intros b B.
    assert (IM : forall m, In m (members b) -> In m ms).
    { intros m H. apply (Permutation_in _ (Proofs_Aggregate.build_perm ms)). apply in_flat_map. eauto. }
    split.
    - assert (H : In (bhead b) (members b)) by now left. destruct (member_denotes _ (IM _ H)) as [D U].
      pose proof (block_cond ms b _ B H) as C. unfold cond_ok, test. pose proof (de_cond _ _ _ _ _ _ _ _ D) as DC. rewrite C in DC.
      pose proof (us_cond _ _ _ U) as UC. destruct (bcond b) as [t|], (p_cond (reds (m_bit (bhead b)))) as [c|]; try contradiction; [|reflexivity].
      exists (value c row). split; [now apply row_steady|apply DC].
    - apply Forall_forall. intros m H. now apply members_ok, IM.
  Qed.
End Blocks.
