(** What an aggregation gives for a group. *)
From Coq Require Import String Ascii List NArith ZArith Bool Arith Lia.
From Verif Require Import Spec_Tree.
From Verif Require Import Model_PyVal Model_Reducers Model_Aggregate Model_Code Model_AggText Model_AggFinish Spec_Syntax Spec_FuncText Spec_AggProgram
  Spec_FuncRun Spec_AggRun Spec_AggFinish Spec_AggModule
  Proofs_FuncRun Proofs_RedRun Proofs_Steady Proofs_AggRun Proofs_AggRunFn Proofs_AggRunBlocks Proofs_AggRunGroup Proofs_AggRunTotal Proofs_AggFinish Proofs_AggOutput.
From Verif Require Spec_Stmt Spec_Loop Proofs_Aggregate.
Import ListNotations.

(** *** the variables of the reduces *)
Lemma vars_member {Row} (its : list (Model_Aggregate.item Row)) vars ms p it v :
  index_items its 0 0 [] = (vars, ms) -> nth_error vars p = Some (it, v) ->
  nth_error its p = Some it /\ exists m, In m ms /\ m_var m = v /\ hash (m_item m) = hash it.
Proof.
  intros E H. pose proof (Proofs_Aggregate.index_spec its 0 0 []) as S. rewrite E in S. destruct S as (A & _ & _ & _ & B). split.
  - rewrite <- A, nth_error_map, H. reflexivity.
  - destruct (B it v (nth_error_In _ _ H)) as [M|(h & F)]; [exact M|discriminate F].
Qed.
Lemma results_at {Row} (vars : list (Model_Aggregate.item Row * nat)) st : forall xs p it v,
  results vars st = Ok xs -> nth_error vars p = Some (it, v) ->
  exists x, nth_error xs p = Some x /\ finish (obj it) (st v) = Ok x.
Proof.
  induction vars as [|[it0 v0] vars IH]; intros xs p it v R H; [destruct p; discriminate H|]. cbn [results] in R.
  destruct (finish (obj it0) (st v0)) as [x|e] eqn:F; [|discriminate R]. cbn [bind] in R.
  destruct (results vars st) as [xs'|e]; [|discriminate R]. injection R as <-. destruct p as [|p].
  - injection H as -> ->. exists x. now split.
  - exact (IH xs' p it v eq_refl H).
Qed.
Lemma results_length {Row} (vars : list (Model_Aggregate.item Row * nat)) st : forall xs, results vars st = Ok xs -> length xs = length vars.
Proof.
  induction vars as [|[it0 v0] vars IH]; intros xs R; cbn [results] in R; [injection R as <-; reflexivity|].
  destruct (finish (obj it0) (st v0)) as [x|e] eqn:F; [|discriminate R]. cbn [bind] in R.
  destruct (results vars st) as [xs'|e]; [|discriminate R]. injection R as <-. cbn. f_equal. now apply IH.
Qed.

(** the variable of the reduce at a position, and its expressions in the output *)
Definition var_at {Row} (vars : list (Model_Aggregate.item Row * nat)) (p : nat) : nat :=
  match nth_error vars p with Some (_, v) => v | None => 0 end.
Lemma AName_inj x y : AName x = AName y -> x = y. Proof. congruence. Qed.
Lemma AAttr_inj a b x y : AAttr a x = AAttr b y -> x = y. Proof. congruence. Qed.
Section Trees.
  Context {Row : Type}.
  Variable mode : bool.
  Variable reds : nat -> ared.
  Variable defaults : nat -> option ast.
  Variable vars : list (Model_Aggregate.item Row * nat).
  Definition column_tree (c : column) : ast :=
    match c with
    | Key i => key_tree i
    | Red p => reduce_tree (p_op (reds p)) (slot mode (var_at vars p)) (defaults p)
    end.
  Variable tree : px -> ast.
  Fixpoint output_tree (o : output) : ast :=
    match o with
    | Place c => column_tree c
    | Fixed e => tree e
    | Made s l => maker_tree s (map output_tree l)
    end.
End Trees.

Section Row.
  Variable globals : text -> option rv.
  Variable call : text -> list val -> res val.
  Variable outside : ast -> (ast -> option val) -> res val.
  Hypothesis OUT : forall a g g', (forall u, In u (uses a) -> g u = g' u) -> outside a g = outside a g'.
  Variables none_name : text.
  Hypothesis GV : forall x, x <> none_name -> match globals x with None | Some (RVal _) => True | _ => False end.
  Hypothesis PF : python_ok call outside.
  Variable params : list text.
  Variable args : list val.
  Hypothesis PP : forall x, In x (map T ["len"; "list"; "dict"]%string) -> ~ In x params.
  Variable mode : bool.
  Variable sem : string -> val -> res bool.
  Variable its : list (Model_Aggregate.item val).
  Variable reds : nat -> ared.
  Variable defaults : nat -> option ast.
  Variable vars : list (Model_Aggregate.item val * nat).
  Variable ms : list (@member val).
  Hypothesis IX : index_items its 0 0 [] = (vars, ms).
  Hypothesis DE : forall p it, nth_error its p = Some it -> denotes globals call outside params args sem it (reds p) /\ usable none_name params (reds p).
  (** the default= of the reduces *)
  Definition defaults_denote : Prop := forall p it, nth_error its p = Some it ->
    match default (obj it), defaults p with
    | Some x, Some a => x = constant globals call outside params args a /\ plain_names none_name false a
    | None, None => True
    | _, _ => False
    end.
  Hypothesis DD : defaults_denote.
  (** reduces with one code make the same missing keys *)
  Definition same_code_same_keys : Prop := forall p q it it', nth_error its p = Some it -> nth_error its q = Some it' ->
    hash it = hash it' -> missing_for (p_op (reds p)) = missing_for (p_op (reds q)).
  Hypothesis SK : same_code_same_keys.
  Notation n := (count ms).
  Notation red_at := (red_at reds ms).
  Notation ev := (Spec_FuncRun.ev globals call outside).
  Notation column_tree := (column_tree mode reds defaults vars).
  Variable read : px -> bool.
  Variable tree : px -> ast.
  Notation output_tree := (output_tree mode reds defaults vars tree).
  Notation column_ok := (column_ok mode (length its)).
  Notation output_ok := (output_ok read tree none_name params mode (length its)).

  Lemma in_uses a l u : In u (flat_map uses l) -> (forall b, In b l -> In u (uses b) -> In u (uses a)) -> In u (uses a).
  Proof. intros I H. apply in_flat_map in I as (b & Ib & Iu). now apply (H b). Qed.
  Definition python_result : list text := map T ["len"; "list"; "dict"; "k_"; "v_"; "k_, v_"]%string.
  Lemma python_result_ok x : x <> none_name -> In x python_result ->
    ~ own x /\ x <> none_name /\ x <> T "defaultdict" /\ x <> T "iter" /\ x <> T "row_".
  Proof.
    intros N I. split; [|split; [exact N|]].
    - intros [O|(j & O)].
      + unfold python_result in I. cbn [map In] in I. repeat (destruct I as [<-|I]; [cbn [function_names map In] in O; repeat (destruct O as [O|O]; [vm_compute in O; discriminate O|]); contradiction|]). contradiction.
      + unfold python_result in I. cbn [map In] in I. 
        repeat (destruct I as [<-|I]; [unfold agg_var in O; vm_compute in O; discriminate O|]). contradiction.
    - unfold python_result in I. cbn [map In] in I. repeat split; intros ->; repeat (destruct I as [I|I]; [vm_compute in I; discriminate I|]); contradiction.
  Qed.
  Definition name_ok (x : text) : Prop :=
    (~ own x /\ x <> none_name /\ x <> T "defaultdict" /\ x <> T "iter" /\ x <> T "row_") \/
    x = T "_none" \/ (if mode then exists j, x = agg_var true j else x = T "agg_data_" \/ x = T "signature_").
  Hypothesis NP : ~ In none_name python_result.
  Lemma slot_uses j x : In (AName x) (uses (slot mode j)) -> name_ok x.
  Proof.
    unfold slot, name_ok. destruct mode; cbn [uses]; intros I.
    - destruct I as [I|[]]. apply AName_inj in I. subst. right. right. eauto.
    - destruct I as [X|[[= <-]|[]]]; [discriminate X|]. right. right. now left.
  Qed.
  Lemma call_ok x : In x python_result -> name_ok x.
  Proof. intros I. left. apply python_result_ok; [|exact I]. intros ->. contradiction. Qed.
  Lemma post_uses o j x : In (AName x) (uses (post_tree o (slot mode j))) -> name_ok x.
  Proof.
    assert (K : forall m, In (AName x) (uses (AAttr (slot mode j) m)) -> name_ok x).
    { intros m. destruct mode eqn:M; unfold slot; cbn [uses]; intros I.
      - apply (slot_uses j). rewrite M. cbn. destruct I as [X|I]; [discriminate X|exact I].
      - apply (slot_uses j). rewrite M. exact I. }
    destruct o as [b|g]; [destruct b|]; cbn [post_tree]; try apply slot_uses.
    all: unfold either, both, per_key, name; cbn [uses flat_map snd fst]; rewrite ?app_nil_r, ?in_app_iff; cbn [In]; rewrite ?in_app_iff; intros I;
      repeat match goal with
      | H : _ \/ _ |- _ => destruct H as [H|H]
      | H : False |- _ => contradiction
      | H : In _ [] |- _ => destruct H
      | H : In _ (_ :: _) |- _ => destruct H as [H|H]
      | H : In _ (_ ++ _) |- _ => apply in_app_iff in H
      | H : AAttr _ _ = AName _ |- _ => discriminate H
      | H : AName _ = AName _ |- _ => apply AName_inj in H; subst; apply call_ok; unfold python_result; cbn [map In]; tauto
      end; eauto using slot_uses.
    all: now apply (K (T "items")).
  Qed.
  Lemma slot_inj i j : slot mode i = slot mode j -> i = j.
  Proof.
    unfold slot. destruct mode; intros H; [apply AName_inj in H; now apply agg_var_inj|]. apply attribute_inj. exact (AAttr_inj _ _ _ _ H).
  Qed.
  Lemma slot_indexed j : indexed (slot mode j) = []. Proof. unfold slot. destruct mode; reflexivity. Qed.
  Lemma key_maker_slot u : In u (key_makers reds ms mode) -> exists m, In m ms /\ u = slot mode (m_var m) /\ missing_for (p_op (reds (m_bit m))) <> None.
  Proof.
    unfold key_makers. intros I. apply in_flat_map in I as (m & Im & I). unfold makes_keys in I. exists m. split; [exact Im|].
    unfold missing_for. destruct (p_op (reds (m_bit m))) as [b|]; [|destruct I]. destruct (Spec_Loop.missing_of b); [|destruct I].
    destruct I as [<-|[]]. split; [reflexivity|discriminate].
  Qed.
  Lemma member_vars m m' : In m ms -> In m' ms -> m_var m = m_var m' -> m = m'.
  Proof.
    intros I I' E. apply In_nth_error in I as (j & H). apply In_nth_error in I' as (j' & H').
    rewrite (member_var its vars ms IX j m H), (member_var its vars ms IX j' m' H') in E. subst. congruence.
  Qed.
  Lemma fixed_slot p : p < length its -> missing_for (p_op (reds p)) = None -> ~ In (slot mode (var_at vars p)) (key_makers reds ms mode).
  Proof.
    intros L MN K. destruct (key_maker_slot _ K) as (m & Im & E & MK). apply slot_inj in E.
    assert (LV : p < length vars).
    { pose proof (Proofs_Aggregate.index_spec its 0 0 []) as S. rewrite IX in S. destruct S as (A & _). rewrite <- A in L. now rewrite map_length in L. }
    apply nth_error_Some in LV. destruct (nth_error vars p) as [[it v]|] eqn:H; [|contradiction]. unfold var_at in E. rewrite H in E.
    destruct (vars_member its vars ms p it v IX H) as (NI & m' & Im' & Vm & Hm). assert (m' = m) as -> by (apply member_vars; congruence).
    destruct (index_item its 0 0 [] vars ms IX m Im) as (q & Eq & Nq). cbn in Eq. subst q.
    apply MK. rewrite <- MN. symmetry. apply (SK p (m_bit m) it (m_item m) NI Nq). congruence.
  Qed.
  Lemma post_indexed p u : p < length its -> In u (indexed (post_tree (p_op (reds p)) (slot mode (var_at vars p)))) ->
    ~ In u (key_makers reds ms mode).
  Proof.
    intros L I K. assert (U : u = slot mode (var_at vars p) /\ missing_for (p_op (reds p)) = None).
    { destruct (p_op (reds p)) as [b|g]; [destruct b|]; cbn [post_tree] in I; unfold either, both, per_key, name in I; cbn [indexed flat_map] in I;
        rewrite ?slot_indexed in I; cbn in I; rewrite ?slot_indexed in I; cbn in I; try contradiction; destruct I as [<-|[]]; split; reflexivity. }
    destruct U as [-> MN]. exact (fixed_slot p L MN K).
  Qed.
  Lemma slot_there j : exists t l, variable (slot mode j) t = Some l.
  Proof.
    unfold slot. destruct mode.
    - exists (mkState [(agg_var true j, 0)] [] 0 []), 0. cbn [variable names]. unfold assoc. cbn [Spec_Stmt.assoc]. now rewrite same_text_refl.
    - exists (mkState [(T "agg_data_", 0)] [(0, attribute j, 0)] 1 [OInst 0]), 0. unfold name. cbn [variable names attrs].
      change (assoc [(T "agg_data_", 0)] (T "agg_data_")) with (Some 0). cbn [obj_at objects nth attr_at].
      change (T "v" ++ ndec (N.of_nat j)) with (attribute j). now rewrite same_text_refl.
  Qed.
  Lemma own_slot u a : plain_names none_name false a -> In u (indexed a) -> ~ In u (key_makers reds ms mode).
  Proof.
    intros P I K. destruct (key_maker_slot _ K) as (m & _ & -> & _). destruct (indexed_uses a _ I) as [N|U].
    - destruct (slot_there (m_var m)) as (t & l & E). rewrite N in E. discriminate E.
    - destruct (uses_shape a _ U) as (x & X & S). destruct (P x X) as (O & _). apply O. unfold slot in S. destruct mode.
      + destruct S as [S|[y S]]; [apply AName_inj in S; subst; right; eauto|discriminate S].
      + destruct S as [S|[y [= <- _]]]; [discriminate S|]. listed.
  Qed.
  Lemma column_uses c x : column_ok c -> In (AName x) (uses (column_tree c)) -> name_ok x.
  Proof.
    intros OK I. destruct c as [i|p]; cbn [Proofs_AggRows.column_tree Spec_AggFinish.column_ok] in *.
    + assert (X : AName x = name "signature_") by (destruct i; cbn in I; tauto || (destruct I as [I|[]]; now symmetry)).
      injection X as ->. right. right. rewrite OK. now right.
    + rename OK into L. unfold reduce_tree in I. destruct (defaults p) as [d|] eqn:D; [|now apply post_uses in I].
      unfold cmp in I. cbn [uses flat_map snd] in I. rewrite !in_app_iff in I. destruct I as [[I|I]|[I|I]].
      * now apply slot_uses in I.
      * destruct I as [[I|[]]|[]]. injection I as <-. right. now left.
      * destruct (nth_error its p) as [it|] eqn:N; [|apply nth_error_None in N; lia]. pose proof (DD p it N) as DP. rewrite D in DP.
        destruct (default (obj it)); [|contradiction]. destruct DP as [_ P]. destruct (P x I) as (O1 & O2 & O3 & O4 & O5). left. repeat split; auto.
        intros E. discriminate (O5 E).
      * now apply post_uses in I.
  Qed.
  Lemma column_indexed c u : column_ok c -> In u (indexed (column_tree c)) -> ~ In u (key_makers reds ms mode).
  Proof.
    intros OK I. destruct c as [i|p]; cbn [Proofs_AggRows.column_tree Spec_AggFinish.column_ok] in *.
    + destruct i as [i|]; cbn in I; [|contradiction]. destruct I as [<-|[]]. intros K. destruct (key_maker_slot _ K) as (m & _ & E & _). unfold slot in E.
      rewrite OK in E. discriminate E.
    + rename OK into L. unfold reduce_tree in I. destruct (defaults p) as [d|] eqn:D; [|now apply (post_indexed p)].
      unfold cmp in I. cbn [indexed flat_map snd] in I. rewrite slot_indexed in I. cbn [app] in I. rewrite !in_app_iff in I. destruct I as [I|[I|I]].
      * cbn in I. tauto.
      * destruct (nth_error its p) as [it|] eqn:N; [|apply nth_error_None in N; lia]. pose proof (DD p it N) as DP. rewrite D in DP.
        destruct (default (obj it)); [|contradiction]. destruct DP as [_ P]. now apply (own_slot u d).
      * now apply (post_indexed p).
  Qed.
  Lemma in_twos_in {A} (l : list A) : forall p, In p (in_twos l) -> In (fst p) l /\ In (snd p) l.
  Proof.
    induction l as [|a|a b l IH] using Proofs_Tree.two_ind; intros p I; cbn [in_twos In] in I; try contradiction.
    destruct I as [<-|I]; cbn [In fst snd]; [tauto|]. apply IH in I. tauto.
  Qed.
  Lemma maker_uses mk l x : In (AName x) (uses (maker_tree mk l)) ->
    (exists a, In a l /\ In (AName x) (uses a)) \/ mk = SCall x.
  Proof.
    assert (N : forall i, In (AName x) (uses (nth_a l i)) -> exists a, In a l /\ In (AName x) (uses a)).
    { intros i I. exists (nth_a l i). split; [|exact I]. unfold nth_a in *. destruct (Nat.lt_ge_cases i (length l)) as [L|L]; [now apply nth_In|].
      rewrite nth_overflow in I by exact L. destruct I. }
    destruct mk; cbn [maker_tree uses flat_map]; rewrite ?app_nil_r; intros I; try (apply in_flat_map in I; now left).
    - left. apply in_flat_map in I as (p & Ip & I). apply in_twos_in in Ip as [I1 I2]. apply in_app_iff in I as [I|I]; eauto.
    - destruct I as [I|I]; [right; f_equal; congruence|]. left. apply in_flat_map in I as (a & Ia & I). eauto.
    - left. cbn [op_tree] in I. destruct (compares o); cbn [uses flat_map snd] in I; rewrite ?app_nil_r in I; apply in_app_iff in I as [I|I]; eauto.
    - left. eauto.
    - left. eauto.
    - left. apply in_app_iff in I as [I|I]; eauto.
    - left. rewrite !in_app_iff in I. destruct I as [I|[I|I]]; eauto.
  Qed.
  Lemma maker_indexed mk l u : In u (indexed (maker_tree mk l)) -> (exists a, In a l /\ In u (indexed a)) \/ mk = SItem /\ u = nth_a l 0.
  Proof.
    assert (N : forall i, In u (indexed (nth_a l i)) -> exists a, In a l /\ In u (indexed a)).
    { intros i I. exists (nth_a l i). split; [|exact I]. unfold nth_a in *. destruct (Nat.lt_ge_cases i (length l)) as [L|L]; [now apply nth_In|].
      rewrite nth_overflow in I by exact L. destruct I. }
    destruct mk; cbn [maker_tree indexed flat_map]; rewrite ?app_nil_r; intros I; try (apply in_flat_map in I; now left).
    - left. apply in_flat_map in I as (p & Ip & I). apply in_twos_in in Ip as [I1 I2]. apply in_app_iff in I as [I|I]; eauto.
    - left. cbn [op_tree] in I. destruct (compares o); cbn [indexed flat_map snd] in I; rewrite ?app_nil_r in I; apply in_app_iff in I as [I|I]; eauto.
    - left. eauto.
    - left. eauto.
    - destruct I as [<-|I]; [right; now split|]. left. apply in_app_iff in I as [I|I]; eauto.
    - left. rewrite !in_app_iff in I. destruct I as [I|[I|I]]; eauto.
  Qed.
  (** an output is no variable that adds the keys it is asked for *)
  Lemma post_var p j : post_tree (p_op (reds p)) (slot mode (var_at vars p)) = slot mode j ->
    missing_for (p_op (reds p)) = None.
  Proof.
    intros E. destruct (p_op (reds p)) as [b|g]; [|reflexivity].
    destruct b; try reflexivity; cbn [post_tree] in E; unfold slot, name in E; destruct mode; discriminate E.
  Qed.
  Lemma output_keys o : output_ok o -> ~ In (output_tree o) (key_makers reds ms mode).
  Proof.
    intros OK K. destruct (key_maker_slot _ K) as (m & Im & E & _). destruct OK as [c C|e R P|mk l MK _]; cbn [Proofs_AggRows.output_tree] in *.
    - destruct c as [i|p]; cbn [Proofs_AggRows.column_tree Spec_AggFinish.column_ok] in *.
      + unfold slot in E. rewrite C in E. destruct i; discriminate E.
      + rename C into L. unfold reduce_tree in *. destruct (defaults p).
        * unfold slot, name in E. destruct mode; discriminate E.
        * apply (fixed_slot p L (post_var p _ E)). pose proof (post_var p _ E) as MN.
          replace (post_tree (p_op (reds p)) (slot mode (var_at vars p))) with (slot mode (var_at vars p)) in K; [exact K|].
          destruct (p_op (reds p)) as [b|g]; [|reflexivity]. destruct b; try reflexivity; cbn [post_tree] in E; unfold slot, name in E; destruct mode; discriminate E.
    - assert (U : exists x, own x /\ In (AName x) (uses (slot mode (m_var m)))).
      { unfold slot, name. destruct mode; cbn [uses].
        - exists (agg_var true (m_var m)). split; [right; eauto|now left].
        - exists (T "agg_data_"). split; [left; cbn [function_names map In]; tauto|right; now left]. }
      destruct U as (x & O & U). rewrite <- E in U. destruct (P x U) as (N & _). contradiction.
    - unfold slot, name in E. destruct mk, mode; cbn [maker_tree op_tree] in E; try discriminate E; destruct (compares o); discriminate E.
  Qed.
  Lemma output_names o : output_ok o -> result_names none_name mode (key_makers reds ms mode) (output_tree o).
  Proof.
    induction 1 as [c OK|e R P|mk l OK OKS IH]; cbn [Proofs_AggRows.output_tree].
    - split; [intros x; now apply column_uses|intros u; now apply column_indexed].
    - split; [|intros u; now apply own_slot]. intros x I. left. destruct (P x I) as (O1 & O2 & O3 & O4 & O5). repeat split; auto.
      intros E. discriminate (O5 E).
    - split.
      + intros x I. apply maker_uses in I as [(a & Ia & I)| ->].
        * apply in_map_iff in Ia as (o & <- & Io). now apply (IH o Io).
        * left. cbn in OK. tauto.
      + intros u I. apply maker_indexed in I as [(a & Ia & I)|[-> ->]].
        * apply in_map_iff in Ia as (o & <- & Io). now apply (IH o Io).
        * cbn [Spec_AggFinish.maker_ok] in OK. destruct OK as [L _]. destruct l as [|o l]; [discriminate L|]. apply output_keys. apply OKS. now left.
  Qed.

  Variable s : state.
  Variable k : option val.
  Variable st : Model_Aggregate.state.
  Hypothesis B : base params args s.
  Hypothesis NO : view s (PN (T "_none")) = Some OSent.
  Hypothesis AT : forall j, j < n -> seen s (slot mode j) = Some (obj_for (miss red_at j) (st j)).
  Hypothesis KEY : match k with Some key => view s (PN (T "signature_")) = Some (OVal key None) | None => True end.

  Lemma names_free x : In x (map T ["len"; "list"; "dict"]%string) -> view s (PN x) = None.
  Proof.
    intros I. rewrite B; [apply given_out; now apply PP| |].
    - intros [O|(j & O)].
      + cbn [map In] in I. repeat (destruct I as [<-|I]; [cbn [function_names map In] in O; repeat (destruct O as [O|O]; [vm_compute in O; discriminate O|]); contradiction|]). contradiction.
      + cbn [map In] in I. symmetry in O. destruct I as [<-|I]; [unfold agg_var in O; vm_compute in O; discriminate O|]. revert O. apply agg_var_ne. cbn [map In]. tauto.
    - intros ->. cbn [map In] in I. repeat (destruct I as [I|I]; [vm_compute in I; discriminate I|]). contradiction.
  Qed.
  Lemma const_value a : plain_names none_name false a -> ev a s = do v <- constant globals call outside params args a; Ok (RVal v, s).
  Proof.
    intros P. destruct (expr_agree none_name params args a None s P B I) as [PL A].
    apply (two_steady globals call (fun _ => None) outside OUT a (given params args) s); auto.
    - eapply names_values; eauto.
    - intros x U. destruct (P x U) as (_ & _ & N1 & N2 & _). auto.
  Qed.
  Lemma slot_var j : is_var (slot mode j). Proof. destruct mode; exact I. Qed.
  Lemma reduce_column p it v xs y : nth_error vars p = Some (it, v) ->
    results vars st = Ok xs -> nth_error xs p = Some (Some y) -> ev (column_tree (Red p)) s = Ok (RVal y, s).
  Proof.
    intros H R X. destruct (vars_member its vars ms p it v IX H) as (NI & m & Im & Vm & Hm).
    destruct (results_at vars st xs p it v R H) as (x & X' & F). rewrite X in X'. injection X' as <-.
    destruct (DE p it NI) as [D _]. cbn [Proofs_AggRows.column_tree]. unfold var_at. rewrite H.
    destruct (member_at its reds vars ms IX m Im) as [LT RA]. rewrite Vm in LT, RA.
    destruct (index_item its 0 0 [] vars ms IX m Im) as (q & Eq & Nq). cbn in Eq. subst q.
    apply (reduce_value globals call outside PF s names_free NO (slot mode v) (slot_var v) (obj it) (p_op (reds p)) (defaults p) (st v) y); auto.
    - pose proof (de_red _ _ _ _ _ _ _ _ D) as DR. destruct (red (obj it)), (p_op (reds p)); try contradiction; auto.
    - pose proof (DD p it NI) as DP. destruct (default (obj it)) as [x|], (defaults p) as [a|]; try contradiction; auto.
      destruct DP as [-> P]. now apply const_value.
    - rewrite AT by exact LT. unfold miss. rewrite RA. rewrite (SK p (m_bit m) it (m_item m) NI Nq (eq_sym Hm)).
      destruct (st v); reflexivity.
  Qed.
  Hypothesis KM : mode = false -> k <> None.
  Lemma vars_len : length vars = length its.
  Proof.
    pose proof (Proofs_Aggregate.index_spec its 0 0 []) as S. rewrite IX in S. destruct S as (A & _). rewrite <- A. now rewrite map_length.
  Qed.
  Lemma column_run c xs y : column_ok c -> results vars st = Ok xs ->
    column_value (match k with Some key => key | None => VNone end) xs c = Some y -> ev (column_tree c) s = Ok (RVal y, s).
  Proof.
    intros OK R C. destruct c as [i|p]; cbn [Spec_AggFinish.column_ok] in OK.
    - specialize (KM OK). destruct k as [key|]; [|contradiction]. cbn [Proofs_AggRows.column_tree].
      assert (E : ev (name "signature_") s = Ok (RVal key, s)).
      { rewrite (ev_var globals call outside s (name "signature_") (OVal key None) I); [reflexivity|]. exact KEY. }
      destruct i as [i|]; cbn [key_tree column_value] in *; [|injection C as <-; exact E].
      destruct key; try discriminate C. cbn [Spec_FuncRun.ev]. change (Spec_FuncRun.ev globals call outside (name "signature_") s) with (ev (name "signature_") s).
      rewrite E. cbn [bind fst snd needs]. unfold Spec_FuncRun.item, view in *. cbn [loc_of] in KEY. unfold name. cbn [variable].
      destruct (assoc (names s) (T "signature_")) as [a|]; [|discriminate KEY]. cbn [option_map] in KEY. injection KEY as ->.
      cbn [py_getitem as_int]. unfold nth_item. destruct (Z.ltb_spec (Z.of_N (N.of_nat i)) 0) as [L|L]; [lia|].
      destruct (Z.ltb_spec (Z.of_N (N.of_nat i)) 0) as [L'|_]; [lia|].
      replace (Z.to_nat (Z.of_N (N.of_nat i))) with i by lia. rewrite C. reflexivity.
    - rename OK into L. cbn [column_value] in C. destruct (nth_error vars p) as [[it v]|] eqn:H.
      + eapply reduce_column; eauto. destruct (nth_error xs p); [now rewrite C|discriminate C].
      + apply nth_error_None in H. rewrite vars_len in H. lia.
  Qed.
  Notation fixed := (fun e => success (constant globals call outside params args (tree e))).
  Notation called := (fun f l => success (call f l)).
  Lemma call_free f : ~ own f -> f <> T "row_" -> ~ In f params -> is_global f s = true.
  Proof.
    intros O R I. assert (V : view s (PN f) = None) by (rewrite B by assumption; now apply given_out).
    unfold is_global. unfold view in V. cbn [loc_of] in V. destruct (assoc (names s) f); [discriminate V|reflexivity].
  Qed.
  Lemma output_fixed o : output_ok o -> fixed_at s (output_tree o).
  Proof.
    intros OK. destruct OK as [c C|e R P|mk l MK _]; cbn [Proofs_AggRows.output_tree].
    - destruct c as [i|p]; cbn [Proofs_AggRows.column_tree Spec_AggFinish.column_ok] in *.
      + destruct i; [exact I|]. specialize (KM C). destruct k as [key|]; [|contradiction]. cbn [key_tree]. unfold fixed_at.
        change (seen s (name "signature_")) with (view s (PN (T "signature_"))). now rewrite KEY.
      + rename C into L. unfold reduce_tree. destruct (defaults p); [exact I|].
        destruct (missing_for (p_op (reds p))) eqn:MN.
        * destruct (p_op (reds p)) as [b|g]; [|discriminate MN]. destruct b; try discriminate MN; exact I.
        * assert (F : fixed_at s (slot mode (var_at vars p))).
          { assert (LV : p < length vars) by (rewrite vars_len; exact L). apply nth_error_Some in LV.
            destruct (nth_error vars p) as [[it v]|] eqn:H; [|contradiction].
            destruct (vars_member its vars ms p it v IX H) as (NI & m & Im & Vm & Hm).
            destruct (member_at its reds vars ms IX m Im) as [LT RA]. rewrite Vm in LT, RA.
            destruct (index_item its 0 0 [] vars ms IX m Im) as (q & Eq & Nq). cbn in Eq. subst q.
            unfold var_at. rewrite H. unfold fixed_at. rewrite AT by exact LT. unfold miss. rewrite RA.
            change (match p_op (reds (m_bit m)) with ABuiltin b => Spec_Loop.missing_of b | AFunc _ => None end) with (missing_for (p_op (reds (m_bit m)))). rewrite <- (SK p (m_bit m) it (m_item m) NI Nq (eq_sym Hm)), MN. destruct (st v); exact I. }
          destruct (p_op (reds p)) as [b|g]; [|exact F]. destruct b; try exact F; exact I.
    - destruct (expr_agree none_name params args (tree e) None s P B I) as [PL A].
      unfold fixed_at. destruct (seen s (tree e)) as [o|] eqn:E; [|exact I].
      assert (U : In (tree e) (uses (tree e))).
      { unfold seen in E. destruct (tree e); try discriminate E; [now left|]. cbn [uses]. destruct a; try discriminate E. now left. }
      specialize (PL _ U). pose proof (proj1 A _ U) as SA. unfold plain_at in PL. unfold same_at in SA. rewrite E in SA.
      destruct (seen _ (tree e)) as [o'|]; [|contradiction]. destruct o' as [|? [?|]| | | |], o as [|? [?|]| | | |]; try exact I; try contradiction.
      destruct SA as [_ SA]. discriminate SA.
    - destruct mk; try exact I. cbn [maker_tree op_tree]. destruct (compares o); exact I.
  Qed.
  Lemma output_gives o xs : output_ok o -> results vars st = Ok xs -> forall w,
    output_value fixed called (match k with Some key => key | None => VNone end) xs o = Some w ->
    gives globals call outside s (output_tree o) w.
  Proof.
    intros OK R. induction OK as [c C|e _ P|mk l MK OKS IH]; intros w V; cbn [output_value Proofs_AggRows.output_tree] in *.
    - exact (column_run c xs w C R V).
    - unfold gives. rewrite const_value by exact P. destruct (constant globals call outside params args (tree e)); [|discriminate V].
      injection V as <-. reflexivity.
    - assert (G : match mk with SBool _ | SIf => False | _ => True end ->
        match all_some (map (output_value fixed called (match k with Some key => key | None => VNone end) xs) l) with Some vs => Spec_AggFinish.made called mk vs | None => None end = Some w ->
        gives globals call outside s (maker_tree mk (map output_tree l)) w).
      { clear V. intros NL V. destruct (all_some _) as [vs|] eqn:A; [|discriminate V].
        apply (maker_gives globals call outside s mk (map output_tree l) vs w); [| |clear V MK NL|exact V].
        - destruct mk; try exact I; cbn in MK; [apply call_free; tauto|apply MK].
        - destruct mk; try exact I. destruct l as [|o l]; [exact I|]. cbn [map]. apply output_fixed, OKS. now left.
        - clear OKS. revert vs A. induction l as [|o l IHl]; intros vs A; cbn [map all_some] in *; [injection A as <-; constructor|].
          destruct (output_value _ _ _ _ o) as [v|] eqn:V; [|discriminate A]. destruct (all_some _) as [vs'|]; [|discriminate A]. injection A as <-.
          constructor; [apply IH; [now left|exact V]|]. apply IHl; auto. intros o' I'. apply IH. now right. }
      destruct mk; try (apply G; [exact I|exact V]); clear G.
      + clear MK OKS. unfold gives. cbn [maker_tree]. rewrite ev_bool. revert w V. induction l as [|o l IHl]; intros w V; [discriminate V|].
        cbn [map]. destruct l as [|o' l].
        * cbn [map chain]. apply IH; [now left|exact V].
        * change (map output_tree (o' :: l)) with (output_tree o' :: map output_tree l).
          change (chain globals call outside isor (output_tree o :: output_tree o' :: map output_tree l) s)
            with (do p <- ev (output_tree o) s; if Bool.eqb (is_true (fst p)) isor then Ok p
                  else chain globals call outside isor (map output_tree (o' :: l)) (snd p)).
          destruct (output_value _ _ _ _ o) as [x|] eqn:X; [|discriminate V].
          pose proof (IH o (or_introl eq_refl) x X) as G. unfold gives in G. rewrite G. cbn [bind fst snd is_true].
          destruct (Bool.eqb (truthy x) isor); [injection V as <-; reflexivity|]. apply IHl; [|exact V]. intros o2 I2. apply IH. now right.
      + cbn [Spec_AggFinish.maker_ok] in MK. destruct l as [|c [|t [|f [|]]]]; try discriminate MK.
        cbn [map maker_tree]. unfold nth_a. cbn [nth]. unfold gives. cbn [Spec_FuncRun.ev].
        destruct (output_value _ _ _ _ c) as [x|] eqn:X; [|discriminate V].
        pose proof (IH c (or_introl eq_refl) x X) as G. unfold gives in G. rewrite G. cbn [bind fst snd is_true].
        destruct (truthy x); apply IH; auto; [right; now left|right; right; now left].
  Qed.
  Lemma row_value o xs w : output_ok o -> results vars st = Ok xs ->
    output_value fixed called (match k with Some key => key | None => VNone end) xs o = Some w ->
    value_in globals call outside (output_tree o) s = Ok w.
  Proof. intros OK R V. unfold Spec_AggRun.value_in. pose proof (output_gives o xs OK R w V) as G. unfold gives in G. rewrite G. reflexivity. Qed.
End Row.
