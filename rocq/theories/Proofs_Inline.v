(** Templates: str.format, tokens, and the tree. *)
From Coq Require Import String Ascii List NArith ZArith Bool Arith Lia.
From Verif Require Import Model_Code Model_Inline Spec_Frag Spec_Syntax Spec_Tree Spec_Inline Proofs_Syntax Proofs_Grammar Proofs_Lex
  Proofs_Code Proofs_Tree Proofs_Plug.
Import ListNotations.
Ltac ands := repeat match goal with H : _ && _ = true |- _ => apply andb_true_iff in H as [? ?] end.

(** *** str.format *)
Section Fmt.
  Variable args : list text.
  Variable kws : list (text * text).
  Notation format := (format args kws).

  Lemma om_cons c (o : option text) t : option_map (cons c) (option_map (app t) o) = option_map (app (c :: t)) o.
  Proof. destruct o; reflexivity. Qed.
  Lemma om_nil (o : option text) : option_map (app []) o = o.
  Proof. destruct o; reflexivity. Qed.
  Lemma format_doubled m t rest : format m Outside (doubled t ++ rest) = option_map (app t) (format m Outside rest).
  Proof.
    induction t as [|c t IH]; [symmetry; apply om_nil|]. unfold doubled in *. cbn [flat_map].
    destruct (brace c) eqn:B.
    - cbn [app Model_Inline.format]. unfold brace in B. destruct (N.eqb_spec c 123) as [->|N1].
      + cbn [N.eqb Pos.eqb]. rewrite IH. apply om_cons.
      + cbn [orb] in B. rewrite B. rewrite IH. apply om_cons.
    - cbn [app Model_Inline.format]. unfold brace in B. apply orb_false_iff in B as [-> ->]. rewrite IH. apply om_cons.
  Qed.
  Definition in_field (f : text) : bool := forallb (fun c => negb (N.eqb c 125 || special c)) f.
  Lemma format_inside m f rest : forall acc, in_field f = true ->
    format m (Inside acc) (f ++ T "}" ++ rest) =
    match field_value args kws m (acc ++ f) with
    | Some (v, m') => option_map (app v) (format m' Outside rest)
    | None => None
    end.
  Proof.
    induction f as [|c f IH]; intros acc H.
    - rewrite app_nil_r. reflexivity.
    - cbn [in_field forallb] in H. ands. apply negb_true_iff, orb_false_iff in H as [H1 H2].
      cbn [app Model_Inline.format]. rewrite H1, H2, IH by assumption. now rewrite <- app_assoc.
  Qed.
  Lemma format_field m f rest : in_field f = true -> 
    format m Outside (T "{" ++ f ++ T "}" ++ rest) =
    match field_value args kws m f with
    | Some (v, m') => option_map (app v) (format m' Outside rest)
    | None => None
    end.
  Proof.
    intros H. change (T "{") with [123%N]. cbn [app Model_Inline.format N.eqb Pos.eqb].
    destruct f as [|c f]; [reflexivity|].
    cbn [in_field forallb] in H. ands. apply negb_true_iff, orb_false_iff in H as [H1 H2].
    cbn [app Model_Inline.format]. unfold special in H2 at 1. cbn [existsb] in H2.
    assert (C : N.eqb c 123 = false).
    { destruct (N.eqb c 123); [|reflexivity]. cbn in H2. rewrite !orb_true_r in H2. discriminate. }
    rewrite C, H1. assert (S2 : special c = false) by exact H2. rewrite S2.
    rewrite format_inside by assumption. reflexivity.
  Qed.
  Lemma ident_char c : is_ident c = true -> negb (N.eqb c 125 || special c) = true.
  Proof.
    intros H. apply negb_true_iff. unfold special. cbn [existsb].
    repeat match goal with |- context [N.eqb c ?k] => destruct (N.eqb_spec c k) as [->|]; [discriminate H|] end. reflexivity.
  Qed.
  Lemma ident_field k : ident k = true -> in_field k = true /\ forallb decimal k = false /\ k <> [].
  Proof.
    unfold ident. intros H. ands. destruct k as [|c k]; [discriminate|]. ands.
    assert (I : is_ident c = true) by (unfold is_ident; now rewrite H).
    repeat split; [| |discriminate].
    - cbn [in_field forallb]. rewrite ident_char by exact I. cbn [andb].
      apply forallb_forall. intros d D. apply ident_char. rewrite forallb_forall in H1. auto.
    - cbn [forallb]. destruct (decimal c) eqn:D; [|reflexivity]. exfalso. unfold is_alpha in H. unfold decimal in D. ands.
      apply N.leb_le in H2, H3. rewrite !orb_true_iff, !andb_true_iff, !N.leb_le, N.eqb_eq in H. lia.
  Qed.
  Lemma digits_field f n : 0 < f -> (N.log2 n < N.of_nat f)%N -> forall acc,
    in_field (digits f n) = true /\ forallb decimal (digits f n) = true /\ digits f n <> [] /\
    fold_left (fun k c => 10 * k + (c - 48))%N (digits f n) acc =
      (acc * 10 ^ N.of_nat (length (digits f n)) + n)%N.
  Proof.
    revert n; induction f as [|f IH]; intros n F L acc; [lia|]. cbn [digits].
    assert (D : forall d, (d < 10)%N -> is_ident (48 + d) = true /\ decimal (48 + d) = true).
    { intros d Hd. unfold is_ident, is_digit, decimal. split; [apply orb_true_iff; right|]; apply andb_true_iff; rewrite !N.leb_le; lia. }
    destruct (n <? 10)%N eqn:E.
    - apply N.ltb_lt in E. destruct (D n E) as [D1 D2]. cbn [in_field forallb fold_left length]. rewrite ident_char, D2 by exact D1.
      repeat split; [discriminate|]. change (N.of_nat 1) with 1%N. rewrite N.pow_1_r. lia.
    - apply N.ltb_ge in E.
      assert (L10 : (N.log2 (n / 10) < N.of_nat f)%N).
      { assert (N.log2 (n / 10) < N.log2 n)%N; [|lia].
        apply N.lt_le_trans with (N.log2 (2 * (n / 10)))%N.
        - rewrite N.log2_double; [lia|]. apply N.div_str_pos. lia.
        - apply N.log2_le_mono. pose proof (N.mul_div_le n 10 ltac:(lia)). lia. }
      assert (F0 : 0 < f). { destruct f; [cbn in L10; lia|lia]. }
      destruct (IH (n / 10)%N F0 L10 acc) as (A & B & C & V).
      destruct (D (n mod 10)%N (N.mod_lt n 10 ltac:(discriminate))) as [D1 D2].
      unfold in_field in *. rewrite !forallb_app, A, B. cbn [forallb]. rewrite ident_char, D2 by exact D1.
      repeat split; [destruct (digits f (n / 10)); discriminate|].
      rewrite fold_left_app, V. cbn [fold_left]. rewrite app_length. cbn [length].
      replace (N.of_nat (length (digits f (n / 10)) + 1)) with (N.succ (N.of_nat (length (digits f (n / 10))))) by lia.
      rewrite N.pow_succ_r'. pose proof (N.div_mod n 10 ltac:(discriminate)) as DM.
      clear -DM. set (z := (10 ^ N.of_nat (length (digits f (n / 10))))%N). replace (acc * (10 * z))%N with (10 * (acc * z))%N by (rewrite !N.mul_assoc; f_equal; apply N.mul_comm).
      generalize (acc * z)%N. intros y. clearbody z. generalize dependent (n mod 10)%N. generalize (n / 10)%N. intros a b DM. lia.
  Qed.
  Lemma ndec_field n : in_field (ndec n) = true /\ forallb decimal (ndec n) = true /\ ndec n <> [] /\ number (ndec n) = N.to_nat n.
  Proof.
    destruct (digits_field (S (N.to_nat (N.log2 n))) n ltac:(lia) ltac:(lia) 0%N) as (A & B & C & D).
    repeat split; auto. unfold number, ndec. rewrite D. f_equal.
  Qed.
  Lemma keyword_lookup k : keyword_value k kws = lookup k kws.
  Proof. induction kws as [|[k' v] l IH]; [reflexivity|]. cbn. destruct (teqb k k'); auto. Qed.

  Definition counts (numbered : bool) (ps : list piece) (m : numbering) : Prop :=
    if numbered then match m with Automatic _ => False | _ => True end
    else match m with Undecided => in_order 0 ps = true | Automatic n => in_order n ps = true | Manual => False end.
  Lemma format_pieces numbered val : forall ps m,
    counts numbered ps m ->
    forallb (fun p => match p with Hole (Key k) => ident k | _ => true end) ps = true ->
    (forall s, In s (holes ps) -> argument args kws s = Some (val s)) ->
    format m Outside (written numbered ps) = Some (fill val ps).
  Proof.
    induction ps as [|p ps IH]; intros m C W A; [reflexivity|].
    cbn [forallb] in W. ands. unfold written, fill. cbn [flat_map]. fold (written numbered ps). fold (fill val ps).
    destruct p as [t|[i|k]].
    - rewrite format_doubled, (IH m); auto; destruct numbered, m; exact C.
    - assert (Ai : nth_error args i = Some (val (Pos i))) by (apply (A (Pos i)); now left).
      assert (A' : forall s, In s (holes ps) -> argument args kws s = Some (val s)) by (intros s S; apply A; now right).
      rewrite <- !app_assoc. destruct numbered.
      + destruct (ndec_field (N.of_nat i)) as (F & D & NE & V).
        rewrite format_field by exact F. unfold field_value. destruct (ndec (N.of_nat i)) as [|c r] eqn:E; [contradiction|].
        rewrite D, V, Nat2N.id, Ai. destruct m; try contradiction; rewrite (IH Manual); auto; exact I.
      + rewrite format_field by reflexivity. cbn [field_value].
        destruct m; cbn [counts in_order] in C; try contradiction; ands; apply Nat.eqb_eq in H1; subst i;
          rewrite Ai, IH; auto.
    - assert (Ak : lookup k kws = Some (val (Key k))) by (apply (A (Key k)); now left).
      assert (A' : forall s, In s (holes ps) -> argument args kws s = Some (val s)) by (intros s S; apply A; now right).
      destruct (ident_field k H) as (F & D & NE).
      rewrite <- !app_assoc, format_field by exact F. unfold field_value. destruct k as [|c k]; [contradiction|].
      rewrite D, keyword_lookup, Ak. rewrite (IH m); auto; destruct numbered, m; exact C.
  Qed.
  Lemma format_missing numbered : forall ps m,
    counts numbered ps m ->
    forallb (fun p => match p with Hole (Key k) => ident k | _ => true end) ps = true ->
    (exists s, In s (holes ps) /\ argument args kws s = None) ->
    format m Outside (written numbered ps) = None.
  Proof.
    induction ps as [|p ps IH]; intros m C W (s & S & A); [destruct S|].
    cbn [forallb] in W. ands. unfold written. cbn [flat_map]. fold (written numbered ps).
    destruct p as [t|[i|k]].
    - rewrite format_doubled, (IH m); auto. exists s. now split.
    - rewrite <- !app_assoc. cbn [holes flat_map app In] in S. fold (holes ps) in S. destruct numbered.
      + destruct (ndec_field (N.of_nat i)) as (F & D & NE & V).
        rewrite format_field by exact F. unfold field_value. destruct (ndec (N.of_nat i)) as [|c r] eqn:E; [contradiction|].
        rewrite D, V, Nat2N.id. destruct (nth_error args i) as [v|] eqn:Ai; [|destruct m; reflexivity].
        destruct S as [<-|S]; [unfold argument in A; congruence|].
        destruct m; try contradiction; (rewrite (IH Manual); [reflexivity|exact I|assumption|exists s; now split]).
      + rewrite format_field by reflexivity. cbn [field_value].
        destruct m as [|n|]; cbn [counts in_order] in C; try contradiction; ands; apply Nat.eqb_eq in H1; subst i;
          (destruct (nth_error args _) as [v|] eqn:Ai; [|reflexivity]);
          (destruct S as [<-|S]; [unfold argument in A; congruence|]); (rewrite IH; [reflexivity|assumption|assumption|exists s; now split]).
    - rewrite <- !app_assoc. cbn [holes flat_map app In] in S. fold (holes ps) in S.
      destruct (ident_field k H) as (F & D & NE).
      rewrite format_field by exact F. unfold field_value. destruct k as [|c k]; [contradiction|].
      rewrite D, keyword_lookup. destruct (lookup (c :: k) kws) as [v|] eqn:Ak; [|reflexivity].
      destruct S as [<-|S]; [unfold argument in A; congruence|].
      rewrite (IH m); auto. exists s. now split.
  Qed.
  Lemma format_written numbered val ps :
    well_written numbered ps = true -> (forall s, In s (holes ps) -> argument args kws s = Some (val s)) ->
    str_format (written numbered ps) args kws = Some (fill val ps).
  Proof.
    intros W A. unfold well_written in W. ands. apply format_pieces; auto. destruct numbered; [exact I|exact H].
  Qed.
End Fmt.

(** *** tokens *)
Local Open Scope N_scope.
Lemma lex_split s t : forall ts, lex s t = Some ts ->
  exists l s' f, run s t = Some (l, s') /\ flush s' = Some f /\ ts = (l ++ f)%list.
Proof.
  revert s; induction t as [|c t IH]; intros s ts H; cbn [lex run] in *.
  - exists [], s, ts. auto.
  - destruct (step s c) as [[l s']|]; [|discriminate]. destruct (lex s' t) as [u|] eqn:E; [|discriminate].
    injection H as <-. destruct (IH _ _ E) as (l2 & s2 & f & R & F & ->). rewrite R.
    exists (l ++ l2)%list, s2, f. repeat split; auto. now rewrite app_assoc.
Qed.

(** the state tells the last character *)
Definition last_is (s : lstate) (c : N) : Prop :=
  match s with
  | InName _ => is_ident c = true
  | InNum _ _ => is_digit c = true
  | InOp o => o = c /\ op_char c = true
  | InOp2 o p => p = c /\ op_char c = true
  | EmptyStr q => is_quote c = true /\ is_quote q = true
  | InStr q _ | Esc q _ | Hex q _ _ _ => is_quote q = true
  | Start => True
  end.
Lemma first_last c l s : first c = Some (l, s) -> last_is s c.
Proof.
  unfold first. destruct (c =? 32); [injection 1 as _ <-; exact I|].
  destruct (is_alpha c) eqn:A; [injection 1 as _ <-; cbn; unfold is_ident; now rewrite A|].
  destruct (is_digit c) eqn:D; [injection 1 as _ <-; exact D|].
  destruct (is_quote c) eqn:Q; [injection 1 as _ <-; exact Q|].
  destruct (bracket c); [injection 1 as _ <-; exact I|].
  destruct (op_char c) eqn:O; [injection 1 as _ <-; split; auto|discriminate].
Qed.
Lemma emit_last t c l s : emit t c = Some (l, s) -> last_is s c.
Proof.
  unfold emit. destruct t; [|discriminate]. destruct (first c) as [[l' s']|] eqn:E; [|discriminate].
  injection 1 as _ <-. exact (first_last _ _ _ E).
Qed.
Lemma pair_op o c : op_pair o c = true -> op_char c = true.
Proof.
  unfold op_pair. intros H. apply existsb_exists in H as (x & I & E). apply andb_true_iff in E as [_ E].
  apply N.eqb_eq in E as ->. cbn [In] in I.
  repeat (destruct I as [<-|I]; [reflexivity|]). destruct I.
Qed.
Lemma step_last s c l s' d : last_is s d -> step s c = Some (l, s') -> last_is s' c.
Proof.
  intros B H. destruct s; cbn [step last_is] in *.
  - exact (first_last _ _ _ H).
  - destruct (is_ident c) eqn:E; [injection H as _ <-; exact E|]. destruct (is_quote c); [discriminate|]. exact (emit_last _ _ _ _ H).
  - destruct (is_digit c) eqn:E.
    + destruct zero; [discriminate|]. injection H as _ <-. exact E.
    + destruct (is_alpha c || (c =? 46)); [discriminate|]. exact (emit_last _ _ _ _ H).
  - destruct (op_pair c0 c) eqn:E; [injection H as _ <-; split; [reflexivity|]; exact (pair_op _ _ E)|].
    destruct ((c0 =? 46) && is_digit c); [discriminate|]. exact (emit_last _ _ _ _ H).
  - destruct (op_triple c0 d0 c); [discriminate|]. exact (emit_last _ _ _ _ H).
  - destruct (c =? q) eqn:E.
    + apply N.eqb_eq in E as ->. destruct acc; injection H as _ <-; [split; exact B|exact I].
    + destruct (c =? 92); [injection H as _ <-; exact B|].
      destruct ((c =? 10) || (c =? 13) || (c =? 0) || surrogate c); [discriminate|]. injection H as _ <-. exact B.
  - unfold escape in H.
    repeat match type of H with (if ?b then _ else _) = _ => destruct b; [injection H as _ <-; exact B|] end. discriminate.
  - destruct (hex_value c); [|discriminate]. destruct k as [|[|k]]; [discriminate| |].
    + destruct (16 * v + n <=? 1114111); [|discriminate]. injection H as _ <-. exact B.
    + injection H as _ <-. exact B.
  - destruct (c =? q); [discriminate|]. exact (emit_last _ _ _ _ H).
Qed.
Lemma run_last t : forall s c l s' d, last_is s d -> run s (t ++ [c]) = Some (l, s') -> last_is s' c.
Proof.
  induction t as [|b t IH]; intros s c l s' d B H; cbn [app run] in H.
  - destruct (step s c) as [[l1 s1]|] eqn:E; [|discriminate]. injection H as _ <-. exact (step_last _ _ _ _ _ B E).
  - destruct (step s b) as [[l1 s1]|] eqn:E; [|discriminate].
    destruct (run s1 (t ++ [c])) as [[l2 s2]|] eqn:R; [|discriminate]. injection H as _ <-.
    apply (IH _ _ _ _ _ (step_last _ _ _ _ _ B E) R).
Qed.
Lemma last_char_app t c : last_char t = Some c -> exists t', t = (t' ++ [c])%list.
Proof.
  induction t as [|b t IH]; [discriminate|]. destruct t as [|d t].
  - injection 1 as <-. exists []. reflexivity.
  - intros H. destruct (IH H) as [t' E]. exists (b :: t'). cbn [app]. now rewrite E.
Qed.

(** the second character of an operator *)
Definition second (c : N) : bool := existsb (N.eqb c) [61; 62; 46; 60; 47; 42].
Lemma pair_second o c : second c = false -> op_pair o c = false.
Proof.
  intros H. destruct (op_pair o c) eqn:E; [|reflexivity]. exfalso.
  unfold op_pair in E. apply existsb_exists in E as (x & I & E). apply andb_true_iff in E as [_ E].
  apply N.eqb_eq in E as ->. cbn [In] in I. repeat (destruct I as [<-|I]; [discriminate H|]). destruct I.
Qed.
Lemma triple_second o p c : second c = false -> op_triple o p c = false.
Proof.
  intros H. unfold op_triple. destruct (c =? 61) eqn:E1; [apply N.eqb_eq in E1 as ->; discriminate H|].
  destruct (c =? 46) eqn:E2; [apply N.eqb_eq in E2 as ->; discriminate H|]. reflexivity.
Qed.
Lemma flush_emit s f c rest : flush s = Some f -> step s c = match f with [] => first c | t :: _ => emit (Some t) c end ->
  lex s (c :: rest) = prepend f (lex Start (c :: rest)).
Proof.
  intros F E. cbn [lex]. rewrite E. assert (G : f = [] \/ exists t, f = [t]).
  { destruct s; cbn [flush] in F; try discriminate; try (injection F as <-; eauto);
    [destruct (op_token c0)|destruct (op2_token c0 d)]; try discriminate; injection F as <-; eauto. }
  cbn [step]. destruct G as [-> | [t ->]]; [now rewrite prepend_nil|].
  unfold emit. destruct (first c) as [[l s']|]; [|reflexivity]. now rewrite prepend_app.
Qed.
(** text made of whole tokens, then a hole *)
Lemma raw_then t ts c d rest :
  tokenize t = Some ts -> last_char t = Some c -> may_precede c = true -> second d = false ->
  lex Start (t ++ d :: rest) = prepend ts (lex Start (d :: rest)).
Proof.
  intros K L M S. destruct (lex_split _ _ _ K) as (l & s & f & R & F & ->).
  destruct (last_char_app _ _ L) as [t' ->]. pose proof (run_last t' Start c l s 0 I R) as Q.
  rewrite (lex_run _ _ _ _ _ R). rewrite <- prepend_app. f_equal.
  unfold may_precede in M. apply negb_true_iff, orb_false_iff in M as [M M3]. apply orb_false_iff in M as [M1 M2].
  apply flush_emit; [exact F|]. destruct s; cbn [last_is flush step] in *; try discriminate.
  - injection F as <-. reflexivity.
  - congruence.
  - unfold is_ident in M1. rewrite Q, orb_true_r in M1. discriminate.
  - destruct Q as [-> _]. rewrite pair_second by exact S. rewrite M3. cbn [andb].
    destruct (op_token c); [|discriminate]. injection F as <-. reflexivity.
  - rewrite triple_second by exact S. destruct (op2_token c0 d0); [|discriminate]. injection F as <-. reflexivity.
  - destruct Q. congruence.
Qed.
(** ... or the closing parenthesis *)
Lemma lex_close t ts rest : lex Start t = Some ts -> lex Start (t ++ T ")" ++ rest) = prepend (ts ++ [RPar]) (lex Start rest).
Proof.
  intros K. destruct (lex_split _ _ _ K) as (l & s' & f & R & F & ->).
  assert (Q : exists c, last_is s' c).
  { destruct t as [|c t _] using rev_ind; [injection R as _ <-; exists 0; exact I|].
    exists c. exact (run_last t Start c l s' 0 I R). }
  rewrite (lex_run _ _ _ _ _ R). rewrite <- app_assoc, <- (prepend_app l). f_equal.
  change (T ")" ++ rest) with (41 :: rest). rewrite (flush_emit _ f); [|exact F|].
  - rewrite <- prepend_app. reflexivity.
  - destruct s'; cbn [flush step] in *; try discriminate; try (injection F as <-; reflexivity).
    + rewrite pair_second by reflexivity. rewrite andb_false_r. destruct (op_token c); [|discriminate]. injection F as <-. reflexivity.
    + rewrite triple_second by reflexivity. destruct (op2_token c d); [|discriminate]. injection F as <-. reflexivity.
    + injection F as <-. destruct (41 =? q) eqn:E; [|reflexivity].
      apply N.eqb_eq in E as <-. destruct Q as (c & _ & Q). discriminate Q.
Qed.

(** what an argument contributes *)
Definition follows (int : bool) (rest : text) : Prop :=
  match rest with [] => True | c :: _ => may_follow int c = true end.
Definition lex_ok (w : text) (ts : list token) (int : bool) : Prop :=
  (forall rest, follows int rest -> lex Start (w ++ rest) = prepend ts (lex Start rest)) /\
  exists c r, w = c :: r /\ second c = false.
Lemma alpha_second c : is_ident c = true -> second c = false.
Proof.
  intros H. unfold second. cbn [existsb].
  repeat match goal with |- context [N.eqb c ?k] => destruct (N.eqb_spec c k) as [->|]; [discriminate H|] end. reflexivity.
Qed.
(** from the text alone to the text in its place *)
Lemma lex_ok_of w ts int l s f :
  run Start w = Some (l, s) -> flush s = Some f -> ts = (l ++ f)%list ->
  match s with Start | InName _ => True | EmptyStr q => is_quote q = true | InNum _ _ => int = true | _ => False end ->
  (exists c r, w = c :: r /\ second c = false) -> lex_ok w ts int.
Proof.
  intros R F -> C H. split; [|exact H]. intros rest A.
  rewrite (lex_run _ _ _ _ _ R), <- prepend_app. f_equal.
  destruct rest as [|c rest]; [cbn [lex]; rewrite F; cbn; now rewrite app_nil_r|].
  cbn [follows] in A. unfold may_follow in A. apply negb_true_iff, orb_false_iff in A as [A A3]. apply orb_false_iff in A as [A1 A2].
  apply flush_emit; [exact F|]. destruct s; cbn [flush step] in *; try contradiction; injection F as <-.
  - reflexivity.
  - now rewrite A1, A2.
  - subst int. cbn [andb] in A3. unfold is_ident in A1. apply orb_false_iff in A1 as [B1 B2]. rewrite B1, B2, A3. reflexivity.
  - destruct (c =? q) eqn:E; [|reflexivity]. apply N.eqb_eq in E as ->. congruence.
Qed.
Lemma lex_ok_name x int : ident x = true -> lex_ok x [TName x] int.
Proof.
  intros H. destruct (ident_token x H) as [W E].
  apply (lex_ok_of _ _ _ [] (InName x) [TName x]); [now apply run_word|cbn [flush]; now rewrite E|reflexivity|exact I|].
  unfold wordy in W. destruct x as [|c x]; [discriminate|]. exists c, x. split; [reflexivity|]. apply alpha_second.
  apply andb_true_iff in W as [W _]. unfold is_ident. now rewrite W.
Qed.
Lemma lex_ok_int w ts int : lex_ok w ts false -> lex_ok w ts int.
Proof.
  intros [H K]. split; [|exact K]. intros rest A. apply H. destruct rest as [|c rest]; [exact I|].
  cbn [follows] in *. unfold may_follow in *. apply negb_true_iff in A. apply negb_true_iff.
  apply orb_false_iff in A as [A _]. rewrite A. reflexivity.
Qed.

Section Fill.
  Variable int : slot -> bool.
  Variable f : slot -> text.
  Variable toks : slot -> list token.
  Variable clear : text -> bool.
  Definition raw_tokens (t : text) : list token := match tokenize t with Some ts => ts | None => [] end.
  Definition ptoks (ps : list piece) : list token :=
    flat_map (fun p => match p with Raw t => raw_tokens t | Hole s => toks s end) ps.
  Notation good ps := (forall s, In s (holes ps) -> lex_ok (f s) (toks s) (int s)).

  Lemma next_follows s ps : good ps -> forall prev, apart int prev (Some s) ps = true -> follows (int s) (fill f ps).
  Proof.
    intros _. induction ps as [|p ps IH]; intros prev A; [exact I|]. cbn [apart] in A. destruct p as [[|c t]|s'].
    - unfold fill. cbn [flat_map app]. now apply (IH prev).
    - apply andb_true_iff in A as [A _]. apply andb_true_iff in A as [_ A]. exact A.
    - discriminate A.
  Qed.
  Lemma after_raw t ts c ps : tokenize t = Some ts -> last_char t = Some c -> good ps -> apart int (Some c) None ps = true ->
    lex Start (t ++ fill f ps) = prepend ts (lex Start (fill f ps)).
  Proof.
    intros K L. induction ps as [|p ps IH]; intros G A.
    - unfold fill. cbn [flat_map lex flush]. rewrite app_nil_r. unfold tokenize in K. rewrite K. cbn. now rewrite app_nil_r.
    - cbn [apart] in A. destruct p as [[|b u]|s].
      + unfold fill in *. cbn [flat_map app]. apply IH; auto.
      + discriminate A.
      + apply andb_true_iff in A as [A _]. cbn [andb] in A.
        destruct (G s ltac:(now left)) as [_ (d & r & E & S)].
        unfold fill. cbn [flat_map]. fold (fill f ps). rewrite E. cbn [app]. apply (raw_then t ts c d (r ++ fill f ps)); auto.
  Qed.
  Lemma fill_lex ps : forall prev ah, good ps -> raw_ok clear ps = true -> apart int prev ah ps = true ->
    lex Start (fill f ps) = Some (ptoks ps).
  Proof.
    induction ps as [|p ps IH]; intros prev ah G R A; [reflexivity|].
    cbn [raw_ok forallb] in R. apply andb_true_iff in R as [R1 R2]. cbn [apart] in A.
    assert (G' : good ps). { intros s S. apply G. unfold holes. cbn [flat_map]. apply in_or_app. now right. }
    unfold fill, ptoks. cbn [flat_map]. fold (fill f ps). fold (ptoks ps). destruct p as [t|s].
    - unfold raw_tokens. destruct (tokenize t) as [ts|] eqn:K; [|discriminate]. destruct t as [|c t].
      + injection K as <-. cbn [app]. apply (IH prev ah); auto.
      + apply andb_true_iff in A as [_ A]. destruct (last_char (c :: t)) as [d|] eqn:L.
        * rewrite (after_raw _ ts d ps K L G' A). rewrite (IH (Some d) None); auto.
        * clear -L. exfalso. revert c L. induction t as [|b t IHt]; intros c L; [discriminate|]. exact (IHt b L).
    - apply andb_true_iff in A as [_ A]. destruct (G s ltac:(now left)) as [Lx _].
      rewrite Lx by (eapply next_follows; eauto). rewrite (IH None (Some s)); auto.
  Qed.
End Fill.
