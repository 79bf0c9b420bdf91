(** Proofs about the tokenizer of Spec_Syntax: names, numbers, string literals. *)
From Coq Require Import String Ascii List NArith ZArith Bool Arith Lia.
From Verif Require Import Model_Code Spec_Syntax.
Import ListNotations.
Local Open Scope N_scope.

Lemma prepend_nil o : prepend [] o = o. Proof. destruct o; reflexivity. Qed.
Lemma prepend_app a b o : prepend a (prepend b o) = prepend (a ++ b) o.
Proof. destruct o; cbn; [rewrite app_assoc|]; reflexivity. Qed.

(** the state after a text *)
Fixpoint run (s : lstate) (t : text) : option (list token * lstate) :=
  match t with
  | [] => Some ([], s)
  | c :: r => match step s c with
              | Some (l, s') => match run s' r with
                                | Some (l', s'') => Some (l ++ l', s'')
                                | None => None
                                end
              | None => None
              end
  end.
Lemma lex_run s t rest l s' : run s t = Some (l, s') -> lex s (t ++ rest) = prepend l (lex s' rest).
Proof.
  revert s l; induction t as [|c t IH]; intros s l; cbn [run app lex].
  - injection 1 as <- <-. now rewrite prepend_nil.
  - destruct (step s c) as [[l1 s1]|]; [|discriminate].
    destruct (run s1 t) as [[l2 s2]|] eqn:E; [|discriminate].
    injection 1 as <- <-. rewrite (IH _ _ E). apply prepend_app.
Qed.
Lemma run_app s t u l s' l2 s2 :
  run s t = Some (l, s') -> run s' u = Some (l2, s2) -> run s (t ++ u) = Some (l ++ l2, s2).
Proof.
  revert s l; induction t as [|c t IH]; intros s l; cbn [run app].
  - injection 1 as <- <-. auto.
  - destruct (step s c) as [[l1 s1]|]; [|discriminate].
    destruct (run s1 t) as [[l3 s3]|] eqn:E; [|discriminate].
    injection 1 as <- <-. intros U. rewrite (IH _ _ E U). now rewrite app_assoc.
Qed.

(** *** what comes after an expression *)
Definition sep (dot : bool) (c : N) : bool :=
  existsb (N.eqb c) [32; 41; 44; 93; 125; 58; 91; 40] || dot && (c =? 46).
Definition after (dot : bool) (rest : text) : Prop :=
  match rest with [] => True | c :: _ => sep dot c = true end.
Lemma after_false dot rest : after false rest -> after dot rest.
Proof.
  destruct rest as [|c r]; auto. cbn [after]. unfold sep. intros H.
  rewrite andb_false_l, orb_false_r in H. rewrite H. reflexivity.
Qed.
Lemma sep_cases dot c : sep dot c = true ->
  c = 32 \/ c = 41 \/ c = 44 \/ c = 93 \/ c = 125 \/ c = 58 \/ c = 91 \/ c = 40 \/ (dot = true /\ c = 46).
Proof.
  unfold sep. intros H. apply orb_true_iff in H as [H|H].
  - apply existsb_exists in H as (x & I & E). apply N.eqb_eq in E as ->.
    cbn [In] in I. repeat (destruct I as [<-|I]; [auto 12|]). destruct I.
  - apply andb_true_iff in H as [-> H]. apply N.eqb_eq in H as ->. auto 12.
Qed.
Ltac sepc H := apply sep_cases in H;
  destruct H as [->|[->|[->|[->|[->|[->|[->|[->|[? ->]]]]]]]]].

Lemma lex_pending dot s t rest :
  (forall c, sep dot c = true -> step s c = emit (Some t) c) ->
  flush s = Some [t] -> after dot rest -> lex s rest = prepend [t] (lex Start rest).
Proof.
  intros H F A. destruct rest as [|c r]; cbn [lex].
  - rewrite F. reflexivity.
  - rewrite H by exact A. cbn [step]. unfold emit. destruct (first c) as [[l s']|]; [|reflexivity].
    rewrite prepend_app. reflexivity.
Qed.

(** *** names *)
Lemma alpha_start c : is_alpha c = true -> first c = Some ([], InName [c]).
Proof.
  intros H. unfold first. rewrite H.
  destruct (c =? 32) eqn:E; [|reflexivity]. apply N.eqb_eq in E as ->. discriminate H.
Qed.
Lemma run_ident acc r : forallb is_ident r = true -> run (InName acc) r = Some ([], InName (acc ++ r)).
Proof.
  revert acc; induction r as [|c r IH]; intros acc H; cbn [run forallb] in *.
  - now rewrite app_nil_r.
  - apply andb_true_iff in H as [H1 H2]. cbn [step]. rewrite H1, IH by exact H2.
    rewrite <- app_assoc. reflexivity.
Qed.
Definition wordy (x : text) : bool :=
  match x with c :: r => is_alpha c && forallb is_ident r | [] => false end.
Lemma run_word x : wordy x = true -> run Start x = Some ([], InName x).
Proof.
  destruct x as [|c r]; [discriminate|]. cbn [wordy]. intros H. apply andb_true_iff in H as [H1 H2].
  cbn [run step]. rewrite alpha_start by exact H1. rewrite run_ident by exact H2. reflexivity.
Qed.
Lemma lex_word x rest dot :
  wordy x = true -> after dot rest -> lex Start (x ++ rest) = prepend [word_token x] (lex Start rest).
Proof.
  intros W A. rewrite (lex_run _ _ _ _ _ (run_word x W)), prepend_nil.
  apply (lex_pending dot); [|reflexivity|exact A].
  intros c S. cbn [step]. sepc S; reflexivity.
Qed.
Lemma find_keyword x :
  keyword x = false -> find (fun k => teqb x (fst k)) syntax_keywords = None /\
  existsb (teqb x) constants = false /\ existsb (teqb x) other_keywords = false.
Proof.
  unfold keyword. intros H. apply orb_false_iff in H as [H H3]. apply orb_false_iff in H as [H1 H2].
  repeat split; auto.
  generalize dependent syntax_keywords. intros l H.
  induction l as [|k l IH]; [reflexivity|]. cbn [existsb find] in *.
  apply orb_false_iff in H as [-> H]. auto.
Qed.
Lemma ident_token x : ident x = true -> wordy x = true /\ word_token x = TName x.
Proof.
  unfold ident. intros H. apply andb_true_iff in H as [H1 H2]. split; [exact H1|].
  apply negb_true_iff in H2. destruct (find_keyword x H2) as (A & B & C).
  unfold word_token. rewrite A, B, C. reflexivity.
Qed.
Lemma lex_ident x rest dot :
  ident x = true -> after dot rest -> lex Start (x ++ rest) = prepend [TName x] (lex Start rest).
Proof.
  intros I A. destruct (ident_token x I) as [W E]. rewrite <- E. exact (lex_word x rest dot W A).
Qed.

(** *** numbers *)
Lemma digit_start d : d < 10 -> first (48 + d) = Some ([], InNum d (d =? 0)).
Proof.
  intros H. assert (D : d = 0 \/ d = 1 \/ d = 2 \/ d = 3 \/ d = 4 \/ d = 5 \/ d = 6 \/ d = 7 \/ d = 8 \/ d = 9) by lia.
  destruct D as [->|[->|[->|[->|[->|[->|[->|[->|[->| ->]]]]]]]]]; reflexivity.
Qed.
Lemma digit_is d : d < 10 -> is_digit (48 + d) = true.
Proof. intros H. unfold is_digit. apply andb_true_iff; split; apply N.leb_le; lia. Qed.
Lemma run_digits f n :
  0 < n -> N.log2 n < N.of_nat f -> run Start (digits f n) = Some ([], InNum n false).
Proof.
  revert n; induction f as [|f IH]; intros n P L; [lia|]. cbn [digits].
  destruct (n <? 10) eqn:E.
  - apply N.ltb_lt in E. cbn [run step]. rewrite digit_start by exact E.
    cbn [run]. destruct (n =? 0) eqn:Z; [apply N.eqb_eq in Z; lia|]. reflexivity.
  - apply N.ltb_ge in E.
    assert (M : n mod 10 < 10) by (apply N.mod_lt; lia).
    assert (D : n = 10 * (n / 10) + n mod 10) by (apply N.div_mod'; lia).
    assert (P' : 0 < n / 10) by (apply N.div_str_pos; lia).
    assert (L' : N.log2 (n / 10) < N.of_nat f).
    { assert (N.log2 (n / 10) < N.log2 n); [|lia].
      apply N.lt_le_trans with (N.log2 (2 * (n / 10))).
      - rewrite N.log2_double by exact P'. lia.
      - apply N.log2_le_mono. generalize dependent (n / 10); generalize dependent (n mod 10). intros; lia. }
    apply (run_app _ _ _ [] (InNum (n / 10) false) [] _ (IH _ P' L')).
    cbn [run step]. rewrite digit_is by exact M.
    assert (Q : 10 * (n / 10) + (48 + n mod 10 - 48) = n)
      by (clear IH L L'; revert D; generalize (n / 10) (n mod 10); intros; lia).
    rewrite Q. reflexivity.
Qed.
Lemma run_ndec n : run Start (ndec n) = Some ([], InNum n (n =? 0)).
Proof.
  destruct (N.eq_dec n 0) as [->|H]; [reflexivity|].
  unfold ndec. rewrite run_digits; [|lia|lia].
  apply N.eqb_neq in H. rewrite H. reflexivity.
Qed.
Lemma num_pending n z c : sep false c = true -> step (InNum n z) c = emit (Some (TNum n)) c.
Proof. intros S. cbn [step]. sepc S; try reflexivity. discriminate. Qed.
Lemma lex_ndec n rest : after false rest -> lex Start (ndec n ++ rest) = prepend [TNum n] (lex Start rest).
Proof.
  intros A. rewrite (lex_run _ _ _ _ _ (run_ndec n)), prepend_nil.
  apply (lex_pending false); [|reflexivity|exact A]. intros c. apply num_pending.
Qed.

(** *** a pending operator *)
Lemma lex_op o t c rest :
  op_pair o c = false -> (o =? 46) && is_digit c = false -> op_token o = Some t ->
  lex (InOp o) (c :: rest) = prepend [t] (lex Start (c :: rest)).
Proof.
  intros H D O. cbn [lex step]. rewrite H, D, O. unfold emit.
  destruct (first c) as [[l s']|]; [|reflexivity]. now rewrite prepend_app.
Qed.

(** first characters of expressions *)
Definition opener (c : N) : bool := negb (existsb (N.eqb c) [61; 62; 46]).
Lemma op_pair_opener o c : In o [61; 45; 58] -> opener c = true -> op_pair o c = false.
Proof.
  unfold opener, op_pair. cbn [existsb fst snd]. intros I H. apply negb_true_iff in H.
  cbn [existsb] in H. rewrite !orb_false_iff in H. destruct H as (H1 & H2 & H3 & _).
  rewrite ?H1, ?H2, ?H3, ?andb_false_r.
  destruct I as [<-|[<-|[<-|[]]]]; reflexivity.
Qed.

(** *** string literals *)
Definition plain_in (q c : N) : bool :=
  negb ((c =? q) || (c =? 92) || (c =? 10) || (c =? 13) || (c =? 0) || surrogate c).
Lemma step_plain q acc c : plain_in q c = true -> step (InStr q acc) c = Some ([], InStr q (acc ++ [c])).
Proof.
  unfold plain_in. intros H. apply negb_true_iff in H. rewrite !orb_false_iff in H.
  destruct H as (((((H1 & H2) & H3) & H4) & H5) & H6).
  cbn [step]. rewrite H1, H2, H3, H4, H5, H6. reflexivity.
Qed.
Lemma run_plain q acc s : forallb (plain_in q) s = true -> run (InStr q acc) s = Some ([], InStr q (acc ++ s)).
Proof.
  revert acc; induction s as [|c s IH]; intros acc H; cbn [run forallb] in *.
  - now rewrite app_nil_r.
  - apply andb_true_iff in H as [H1 H2]. rewrite step_plain by exact H1. rewrite IH by exact H2.
    rewrite <- app_assoc. reflexivity.
Qed.

(** hexadecimal digits *)
Lemma hex_round d : d < 16 -> hex_value (hex_digit d) = Some d.
Proof.
  intros H.
  assert (D : d = 0 \/ d = 1 \/ d = 2 \/ d = 3 \/ d = 4 \/ d = 5 \/ d = 6 \/ d = 7 \/ d = 8 \/ d = 9 \/
              d = 10 \/ d = 11 \/ d = 12 \/ d = 13 \/ d = 14 \/ d = 15) by lia.
  destruct D as [->|[->|[->|[->|[->|[->|[->|[->|[->|[->|[->|[->|[->|[->|[->| ->]]]]]]]]]]]]]]]; reflexivity.
Qed.
Lemma run_hex j q acc n k :
  (0 < k)%nat -> (0 < j)%nat -> 
  forall v, run (Hex q acc (j + k) v) (hex_text j n) = Some ([], Hex q acc k (v * 16 ^ N.of_nat j + n mod 16 ^ N.of_nat j)).
Proof.
  intros K J v. revert n k K. induction j as [|j IH]; intros n k K; [lia|]. cbn [hex_text].
  assert (M : n mod 16 < 16) by (apply N.mod_lt; lia).
  destruct j as [|j].
  - cbn [hex_text app run step]. rewrite hex_round by exact M.
    destruct k as [|k]; [lia|]. cbn [Nat.add]. change (16 ^ N.of_nat 1) with 16.
    f_equal. f_equal. f_equal. lia.
  - assert (R : run (Hex q acc (S j + S k) v) (hex_text (S j) (n / 16)) =
                Some ([], Hex q acc (S k) (v * 16 ^ N.of_nat (S j) + (n / 16) mod 16 ^ N.of_nat (S j)))).
    { apply IH; lia. }
    replace (S (S j) + k)%nat with (S j + S k)%nat by lia.
    apply (run_app _ _ _ [] _ [] _ R). cbn [run step]. rewrite hex_round by exact M.
    destruct k as [|k]; [lia|]. f_equal. f_equal. f_equal.
    rewrite (Nat2N.inj_succ (S j)), N.pow_succ_r'.
    rewrite (N.mod_mul_r n 16) by (try apply N.pow_nonzero; lia). ring.
Qed.
Lemma run_hex_all j q acc n :
  n < 16 ^ N.of_nat (S j) -> n <= 1114111 ->
  run (Hex q acc (S j) 0) (hex_text (S j) n) = Some ([], InStr q (acc ++ [n])).
Proof.
  intros L U. cbn [hex_text].
  assert (M : n mod 16 < 16) by (apply N.mod_lt; lia).
  assert (D : n = 16 * (n / 16) + n mod 16) by (apply N.div_mod'; lia).
  assert (Last : forall v, v = n / 16 -> run (Hex q acc 1 v) [hex_digit (n mod 16)] = Some ([], InStr q (acc ++ [n]))).
  { intros v ->. cbn [run step]. rewrite hex_round by exact M. rewrite <- D.
    apply N.leb_le in U. rewrite U. reflexivity. }
  destruct j as [|j].
  - cbn [hex_text app]. apply Last. symmetry. apply N.div_small. exact L.
  - assert (R : run (Hex q acc (S j + 1) 0) (hex_text (S j) (n / 16)) =
                Some ([], Hex q acc 1 (0 * 16 ^ N.of_nat (S j) + (n / 16) mod 16 ^ N.of_nat (S j)))).
    { apply run_hex; lia. }
    replace (S (S j)) with (S j + 1)%nat by lia.
    apply (run_app _ _ _ [] _ [] _ R). apply Last.
    rewrite N.mul_0_l, N.add_0_l. apply N.mod_small.
    apply N.div_lt_upper_bound; [lia|].
    rewrite (Nat2N.inj_succ (S j)), N.pow_succ_r' in L. exact L.
Qed.

Lemma run_repr_char printable q acc c :
  printable_ok printable -> In q [34; 39] -> c <= 1114111 ->
  run (InStr q acc) (repr_char printable q c) = Some ([], InStr q (acc ++ [c])).
Proof.
  intros PO Q U. unfold repr_char.
  assert (Qb : (92 =? q) = false) by (destruct Q as [<-|[<-|[]]]; reflexivity).
  assert (B : step (InStr q acc) 92 = Some ([], Esc q acc)) by (cbn [step]; rewrite Qb; reflexivity).
  destruct ((c =? q) || (c =? 92)) eqn:E1.
  { cbn [run]. rewrite B. cbn [step]. unfold escape.
    assert (E : (c =? 92) || is_quote c = true).
    { unfold is_quote. apply orb_true_iff in E1 as [E1|E1].
      - apply N.eqb_eq in E1 as ->. destruct Q as [<-|[<-|[]]]; reflexivity.
      - rewrite E1. reflexivity. }
    rewrite E. reflexivity. }
  apply orb_false_iff in E1 as [Eq Eb].
  destruct (c =? 9) eqn:E2.
  { apply N.eqb_eq in E2 as ->. cbn [run]. rewrite B. reflexivity. }
  destruct (c =? 10) eqn:E3.
  { apply N.eqb_eq in E3 as ->. cbn [run]. rewrite B. reflexivity. }
  destruct (c =? 13) eqn:E4.
  { apply N.eqb_eq in E4 as ->. cbn [run]. rewrite B. reflexivity. }
  assert (X : forall e k, In (e, k) [(120, 1%nat); (117, 3%nat); (85, 7%nat)] -> c < 16 ^ N.of_nat (S k) ->
              run (InStr q acc) ([92; e] ++ hex_text (S k) c) = Some ([], InStr q (acc ++ [c]))).
  { intros e k I L.
    apply (run_app _ _ _ [] (Hex q acc (S k) 0) [] _).
    - cbn [run]. rewrite B. destruct I as [I|[I|[I|[]]]]; injection I as <- <-; reflexivity.
    - apply run_hex_all; assumption. }
  assert (Pl : forall b, surrogate c = false -> c <> 0 -> b = [c] -> run (InStr q acc) b = Some ([], InStr q (acc ++ [c]))).
  { intros b S0 N0 ->. cbn [run]. rewrite step_plain; [reflexivity|].
    unfold plain_in. rewrite Eq, Eb, E3, E4, S0. apply N.eqb_neq in N0. rewrite N0. reflexivity. }
  destruct ((c <? 32) || (c =? 127)) eqn:E5.
  { apply (X 120 1%nat); [cbn; auto|]. apply orb_true_iff in E5 as [E5|E5].
    - apply N.ltb_lt in E5. cbn. lia.
    - apply N.eqb_eq in E5. cbn. lia. }
  apply orb_false_iff in E5 as [E5 E5'].
  apply N.ltb_ge in E5.
  destruct (c <? 127) eqn:E6.
  { apply N.ltb_lt in E6. apply Pl; [|lia|reflexivity].
    unfold surrogate. apply andb_false_iff. left. apply N.leb_gt. lia. }
  destruct (printable c) eqn:E7.
  { apply Pl; [|lia|reflexivity]. destruct (surrogate c) eqn:E; [|reflexivity].
    rewrite (PO c E) in E7. discriminate. }
  destruct (c <? 256) eqn:E8.
  { apply N.ltb_lt in E8. apply (X 120 1%nat); [cbn; auto|cbn; lia]. }
  destruct (c <? 65536) eqn:E9.
  { apply N.ltb_lt in E9. apply (X 117 3%nat); [cbn; auto|cbn; lia]. }
  apply (X 85 7%nat); [cbn; auto|cbn; lia].
Qed.
Lemma run_repr_body printable q acc s :
  printable_ok printable -> In q [34; 39] -> is_str s = true ->
  run (InStr q acc) (flat_map (repr_char printable q) s) = Some ([], InStr q (acc ++ s)).
Proof.
  intros PO Q. revert acc; induction s as [|c s IH]; intros acc H; cbn [flat_map].
  - now rewrite app_nil_r.
  - unfold is_str in H. cbn [forallb] in H. apply andb_true_iff in H as [H1 H2]. apply N.leb_le in H1.
    apply (run_app _ _ _ [] _ [] _ (run_repr_char printable q acc c PO Q H1)).
    rewrite IH by exact H2. rewrite <- app_assoc. reflexivity.
Qed.
Lemma quote_in s : In (if existsb (N.eqb 39) s && negb (existsb (N.eqb 34) s) then 34 else 39) [34; 39].
Proof. destruct (_ && _); cbn; auto. Qed.
Lemma quote_start q : In q [34; 39] -> first q = Some ([], InStr q []).
Proof. intros [<-|[<-|[]]]; reflexivity. Qed.
Lemma lex_quoted q body s rest dot :
  In q [34; 39] -> run (InStr q []) body = Some ([], InStr q s) -> after dot rest ->
  lex Start ([q] ++ body ++ [q] ++ rest) = prepend [TStr s] (lex Start rest).
Proof.
  intros Q R A. cbn [app lex step]. rewrite quote_start by exact Q. rewrite prepend_nil.
  rewrite (lex_run _ _ _ _ _ R), prepend_nil. cbn [lex step]. rewrite N.eqb_refl.
  destruct s as [|c s]; [|reflexivity]. rewrite prepend_nil.
  apply (lex_pending dot); [|reflexivity|exact A].
  intros c S. cbn [step]. destruct Q as [<-|[<-|[]]]; sepc S; reflexivity.
Qed.
Lemma lex_repr printable s rest dot :
  printable_ok printable -> is_str s = true -> after dot rest ->
  lex Start (py_repr printable s ++ rest) = prepend [TStr s] (lex Start rest).
Proof.
  intros PO S A. unfold py_repr. rewrite <- !app_assoc. apply (lex_quoted _ _ _ _ dot).
  - apply quote_in.
  - rewrite run_repr_body; [reflexivity|exact PO|apply quote_in|exact S].
  - exact A.
Qed.
