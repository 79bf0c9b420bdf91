(** Equal hashes come from equal blocks. *)
From Coq Require Import String List ZArith NArith Bool Arith Lia.
From Verif Require Import Model_Reducers Model_Code Model_AggText Spec_AggText Proofs_AggText Proofs_AggHash.
Import ListNotations.

(** *** all pairs of kinds *)
Definition admitted (k : kind) : bool := match k with KStmts ini b => negb ini || builtin_uncond b | KFunc => true end.
Definition kinds : list (bool * kind) :=
  filter (fun ck => admitted (snd ck))
    (flat_map (fun c => (c, KFunc) :: flat_map (fun i => map (fun b => (c, KStmts i b)) all_builtins) [true; false]) [true; false]).
Lemma kinds_all c k : admitted k = true -> In (c, k) kinds.
Proof.
  intros A. unfold kinds. apply filter_In. split; [|exact A]. apply in_flat_map. exists c. split; [destruct c; cbn; auto|].
  destruct k as [i b|]; [right|now left]. apply in_flat_map. exists i. split; [destruct i; cbn; auto|].
  apply (in_map (fun b => (c, KStmts i b))). apply all_builtins_all.
Qed.
Definition drop1 (l : list piece) : list piece := filter (fun p => match p with Ch c => negb (N.eqb c 49) | _ => true end) l.
Definition has1 (ls : list (list piece)) : bool :=
  existsb (existsb (fun p => match p with Ch c => N.eqb c 49 | _ => false end)) ls.
Definition blocks (chk : option (list piece)) : list (list (list piece)) := map (fun ck => t_block chk (fst ck) (snd ck)) kinds.
Definition pairs_ok (chk : option (list piece)) : bool :=
  let bs := blocks chk in forallb (fun b => forallb (pair_ok b) bs) bs.
Definition ones_ok (chk : option (list piece)) : bool :=
  let bs := blocks chk in
  forallb (fun b => if has1 b then forallb (fun b' => clash (map drop1 b) b') bs else true) bs.
Lemma pairs_group : pairs_ok None = true.
Proof. vm_cast_no_check (eq_refl true). Qed.
Lemma pairs_aggregate : pairs_ok (Some []) = true.
Proof. vm_cast_no_check (eq_refl true). Qed.
Lemma ones_aggregate : ones_ok (Some []) = true.
Proof. vm_cast_no_check (eq_refl true). Qed.
Lemma pair_of chk c k c' k' : pairs_ok chk = true -> admitted k = true -> admitted k' = true ->
  pair_ok (t_block chk c k) (t_block chk c' k') = true.
Proof.
  intros H A A'. unfold pairs_ok, blocks in H. cbv zeta in H. rewrite forallb_forall in H.
  specialize (H (t_block chk c k) (in_map (fun ck => t_block chk (fst ck) (snd ck)) _ (c, k) (kinds_all c k A))).
  rewrite forallb_forall in H. exact (H _ (in_map (fun ck => t_block chk (fst ck) (snd ck)) _ (c', k') (kinds_all c' k' A'))).
Qed.
Lemma ones_of chk c k c' k' : ones_ok chk = true -> admitted k = true -> admitted k' = true ->
  has1 (t_block chk c k) = true -> clash (map drop1 (t_block chk c k)) (t_block chk c' k') = true.
Proof.
  intros H A A' O. unfold ones_ok, blocks in H. cbv zeta in H. rewrite forallb_forall in H.
  specialize (H (t_block chk c k) (in_map (fun ck => t_block chk (fst ck) (snd ck)) _ (c, k) (kinds_all c k A))).
  cbv beta in H. rewrite O in H. rewrite forallb_forall in H.
  exact (H _ (in_map (fun ck => t_block chk (fst ck) (snd ck)) _ (c', k') (kinds_all c' k' A'))).
Qed.

(** *** the two erasures *)
Definition sepd (c : N) : bool := negb (N.leb 48 c && N.leb c 57).
(** the flag's place becomes the place to erase *)
Definition stage2 (l : list piece) : list piece := map (fun p => match p with Arg 7 => Res | p => p end) (nores l).
Definition badd (w : text) : bool := negb (teqb w [] || teqb w (T "0") || teqb w (T "1")).
Lemma segs_all c k :
  segs_ok sep1 (contains (T "agg_data_")) [] (joined (t_block None c k)) = true /\
  segs_ok sep1 (contains (T "agg_data_")) [] (joined (t_block (Some [Arg 7]) c k)) = true /\
  segs_ok sepd badd [] (stage2 (joined (t_block (Some [Arg 7]) c k))) = true.
Proof. destruct c, k as [[] []|]; vm_compute; auto. Qed.
Lemma seg_one c k : segs_ok sep1 (contains (T "agg_data_")) [] (joined (t_block (Some [Ch 49]) c k)) = true.
Proof. destruct c, k as [[] []|]; vm_compute; auto. Qed.
Lemma stage2_erased c k : nores (stage2 (joined (t_block (Some [Arg 7]) c k))) = nores (joined (t_block (Some []) c k)).
Proof. destruct c, k as [[] []|]; vm_compute; reflexivity. Qed.
Lemma one_erased c k : map drop1 (t_block (Some [Ch 49]) c k) = map drop1 (t_block (Some []) c k).
Proof. destruct c, k as [[] []|]; vm_compute; reflexivity. Qed.
Lemma one_within c k : within (allowed false c k) (t_block (Some [Ch 49]) c k) = true.
Proof. destruct c, k as [[] []|]; vm_compute; reflexivity. Qed.
Lemma drop1_joined ls : drop1 (joined ls) = joined (map drop1 ls).
Proof.
  induction ls as [|l ls IH]; [reflexivity|]. destruct ls as [|l' ls]; [reflexivity|].
  change (joined (l :: l' :: ls)) with (l ++ Ch 10 :: joined (l' :: ls)).
  change (joined (map drop1 (l :: l' :: ls))) with (drop1 l ++ Ch 10 :: joined (map drop1 (l' :: ls))).
  unfold drop1 at 1. rewrite filter_app. cbn [filter]. change (negb (N.eqb 10 49)) with true. cbv iota.
  unfold drop1 in IH at 1. now rewrite IH.
Qed.
Lemma drop1_id ls : has1 ls = false -> map drop1 ls = ls.
Proof.
  unfold has1. induction ls as [|l ls IH]; intros H; [reflexivity|]. cbn [existsb] in H. apply orb_false_iff in H as [H1 H2].
  cbn [map]. rewrite (IH H2). f_equal. clear - H1. induction l as [|p l IH]; [reflexivity|].
  cbn [existsb] in H1. apply orb_false_iff in H1 as [A B]. cbn [drop1 filter]. destruct p as [c| |n]; cbn [drop1 filter];
    [rewrite A; cbn [negb]|..]; f_equal; exact (IH B).
Qed.
Lemma uses_joined (v : nat -> Prop) ls : all_use v ls -> uses_holes v (joined ls).
Proof.
  induction ls as [|l ls IH]; intros U; [intros n []|]. destruct ls as [|l' ls]; [apply U; now left|].
  change (joined (l :: l' :: ls)) with (l ++ Ch 10 :: joined (l' :: ls)). intros n I. apply in_app_or in I as [I|[I|I]].
  - now apply (U l (or_introl eq_refl)).
  - discriminate I.
  - apply IH; auto. intros l1 J. apply U. now right.
Qed.
Lemma filter_flat {A B} (f : B -> bool) (g : A -> list B) l : filter f (flat_map g l) = flat_map (fun x => filter f (g x)) l.
Proof. induction l as [|x l IH]; [reflexivity|]. cbn [flat_map]. now rewrite filter_app, IH. Qed.
Lemma contains_char c t : contains [c] t = false -> filter (fun d => negb (N.eqb d c)) t = t.
Proof.
  intros H. rewrite <- replace_char. apply replace_none; [discriminate|exact H].
Qed.
Lemma drop_fill (a : nat -> text) (v : nat -> Prop) l : (forall n, v n -> contains [49%N] (a n) = false) -> uses_holes v l ->
  filter (fun d => negb (N.eqb d 49)) (fill [] a l) = fill [] a (drop1 l).
Proof.
  intros F. induction l as [|p l IH]; intros U; [reflexivity|].
  assert (U' : uses_holes v l) by (intros n I; apply U; now right).
  rewrite fill_cons, filter_app, (IH U'). cbn [drop1 filter]. destruct p as [c| |n].
  - cbn [fill1 filter]. destruct (N.eqb c 49); reflexivity.
  - reflexivity.
  - rewrite fill_cons. cbn [fill1]. f_equal. apply contains_char, F, U. now left.
Qed.

(** *** the variable and the flag *)
Lemma teqb_eq_ a b : teqb a b = true <-> a = b.
Proof.
  unfold teqb. destruct (text_eq_dec a b); split; congruence.
Qed.
Lemma contains_none old t c : In c old -> ~ In c t -> contains old t = false.
Proof.
  intros I N. apply not_true_iff_false. intros H. apply contains_spec in H as (u & r & ->). apply N.
  apply in_or_app. right. apply in_or_app. now left.
Qed.
Lemma var_not_flag m i j : contains (agg_var m i) (ndec j) = false.
Proof.
  apply (contains_none _ _ 97%N).
  - destruct (var_head m i) as (r & ->). now left.
  - intros I. apply ndec_digits in I. lia.
Qed.
Lemma var_chars m i : ~ In 40%N (agg_var m i) /\ ~ In 41%N (agg_var m i) /\ ~ In 44%N (agg_var m i).
Proof. repeat split; apply sep1_var; reflexivity. Qed.
Definition flag_of (i : nat) : text := ndec (N.shiftl 1 (N.of_nat i)).
Lemma flag_chars i c : sepd c = true -> ~ In c (flag_of i).
Proof.
  unfold sepd. intros S I. apply ndec_digits in I. apply negb_true_iff in S. apply andb_false_iff in S as [S|S]; apply N.leb_gt in S; lia.
Qed.
Lemma flag_big i : 0 < i -> (1 < N.shiftl 1 (N.of_nat i))%N.
Proof.
  intros L. rewrite N.shiftl_1_l. replace 1%N with (2 ^ 0)%N at 1 by reflexivity. apply N.pow_lt_mono_r; lia.
Qed.
Lemma contains_single old c : old <> [] -> contains old [c] = true -> old = [c].
Proof.
  intros NE H. apply contains_spec in H as (u & r & E). destruct u as [|d u].
  - destruct old as [|d old]; [congruence|]. injection E as <- E. symmetry in E. apply app_eq_nil in E as [-> _]. reflexivity.
  - injection E as _ E. symmetry in E. apply app_eq_nil in E as [_ E]. apply app_eq_nil in E as [E _]. congruence.
Qed.
Lemma flag_bad i w : 0 < i -> badd w = false -> contains (flag_of i) w = false.
Proof.
  intros L B. unfold badd in B. apply negb_false_iff in B. rewrite !orb_true_iff in B.
  pose proof (flag_big i L) as G. pose proof (ndec_not_nil (N.shiftl 1 (N.of_nat i))) as NE. fold (flag_of i) in NE.
  assert (S : forall c, (48 <= c <= 49)%N -> contains (flag_of i) [c] = false).
  { intros c Hc. apply not_true_iff_false. intros C. apply contains_single in C; [|exact NE]. apply ndec_single in C. lia. }
  destruct B as [[B|B]|B]; apply teqb_eq_ in B; subst w.
  - destruct (flag_of i); [congruence|reflexivity].
  - apply (S 48%N); lia.
  - apply (S 49%N); lia.
Qed.

(** *** the hash *)
Lemma flag_text q i x : chk_text q (flag_of i) (Some [Arg 7]) x = Some (flag_of i).
Proof. unfold chk_text. cbn [option_map fill flat_map fill1 code_of]. now rewrite app_nil_r. Qed.
Lemma wf_op q : well_formed q -> match r_op q with Inline _ => False | _ => True end.
Proof. intros [_ W]. destruct (r_op q); [exact I|exact I|exact W]. Qed.

Lemma group_hash i q : well_formed q -> free_of (agg_var false i) q ->
  hash_at false i q = intersperse nl (map (fill [] (code_of q [])) (t_block None (cond_of q) (kind_of q))).
Proof.
  intros W F. unfold hash_at, code_hash, agg_flag, to_code.
  pose proof (block_fill q [] (wf_op q W) (agg_var false i) None) as B. cbn [chk_text option_map] in B. rewrite B, <- !joined_fill.
  destruct (var_chars false i) as (N1 & N2 & N3).
  apply (fill_replace sep1 (agg_var false i) (contains (T "agg_data_")) (var_ne _ _) (sep1_var _ _) (var_bad _ _) (code_of q [])
    (fun n => allowed false (cond_of q) (kind_of q) n = true)).
  - intros n A. apply (holes_free q [] W _ false); auto using var_ne; discriminate.
  - apply segs_all.
  - apply uses_joined, within_use. apply block_within.
Qed.
Lemma stage2_fill x b l : fill x b (stage2 l) = fill [] (fun n => if Nat.eqb n 7 then x else b n) l.
Proof.
  induction l as [|p l IH]; [reflexivity|]. rewrite fill_cons, <- IH. destruct p as [c| |n]; try reflexivity.
  unfold stage2. cbn [nores filter map]. fold (nores l). fold (stage2 l). rewrite fill_cons. f_equal.
  do 8 (destruct n as [|n]; [reflexivity|]). reflexivity.
Qed.
Lemma fill_ext x b b' l : (forall n, In (Arg n) l -> b n = b' n) -> fill x b l = fill x b' l.
Proof.
  induction l as [|p l IH]; intros H; [reflexivity|]. rewrite !fill_cons, IH by (intros n I; apply H; now right). f_equal.
  destruct p; try reflexivity. apply H. now left.
Qed.
Lemma agg_hash_pos i q : 0 < i -> well_formed q -> free_of (agg_var true i) q -> free_of (flag_of i) q ->
  hash_at true i q = intersperse nl (map (fill [] (code_of q [])) (t_block (Some []) (cond_of q) (kind_of q))).
Proof.
  intros L W F F2. unfold hash_at, code_hash, agg_flag, to_code. fold (flag_of i).
  pose proof (block_fill q (flag_of i) (wf_op q W) (agg_var true i) (Some [Arg 7])) as B. rewrite flag_text in B. rewrite B, <- !joined_fill.
  set (a := code_of q (flag_of i)). set (J := joined (t_block (Some [Arg 7]) (cond_of q) (kind_of q))).
  assert (UJ : uses_holes (fun n => allowed true (cond_of q) (kind_of q) n = true) J) by (apply uses_joined, within_use, block_within).
  destruct (var_chars true i) as (N1 & N2 & N3).
  rewrite (fill_replace sep1 (agg_var true i) (contains (T "agg_data_")) (var_ne _ _) (sep1_var _ _) (var_bad _ _) a
    (fun n => allowed true (cond_of q) (kind_of q) n = true)); [| |apply segs_all|exact UJ].
  2:{ intros n A. apply (holes_free q (flag_of i) W _ true); auto using var_ne. intros _. apply var_not_flag. }
  replace (fill [] a J) with (fill (flag_of i) (code_of q []) (stage2 J)).
  2:{ rewrite stage2_fill. apply fill_ext. intros n I. destruct (Nat.eqb_spec n 7) as [->|NE]; [reflexivity|].
      unfold a. do 8 (destruct n as [|n]; [try reflexivity; congruence|]). reflexivity. }
  assert (US : uses_holes (fun n => allowed false (cond_of q) (kind_of q) n = true) (stage2 J)).
  { intros n I. unfold stage2 in I. apply in_map_iff in I as (p & E & I). apply filter_In in I as [I _].
    destruct p as [c| |m]; try discriminate. assert (m <> 7) by (intros ->; discriminate E).
    assert (m = n) as ->. { do 8 (destruct m as [|m]; [try (injection E; auto); congruence|]). injection E; auto. }
    specialize (UJ n I). cbv beta in UJ. unfold allowed in *. destruct (kind_of q); do 8 (destruct n as [|n]; [exact UJ || congruence|]); exact UJ. }
  rewrite (fill_replace sepd (flag_of i) badd (ndec_not_nil _) (flag_chars i) (fun w => flag_bad i w L) (code_of q [])
    (fun n => allowed false (cond_of q) (kind_of q) n = true)); [| |apply segs_all|exact US].
  - rewrite <- (nores_fill _ (stage2 J)). unfold J. rewrite stage2_erased. now rewrite nores_fill.
  - intros n A. apply (holes_free q [] W _ false); auto using ndec_not_nil; try (apply flag_chars; reflexivity).
    + apply ndec_not_nil.
    + discriminate.
Qed.
Lemma agg_hash_zero q : well_formed q -> free_of (agg_var true 0) q -> free_of (flag_of 0) q ->
  hash_at true 0 q = intersperse nl (map (fill [] (code_of q [])) (map drop1 (t_block (Some []) (cond_of q) (kind_of q)))).
Proof.
  intros W F F2. unfold hash_at, code_hash, agg_flag, to_code. fold (flag_of 0).
  assert (E1 : flag_of 0 = [49%N]) by reflexivity. rewrite E1 in *.
  pose proof (block_fill q [] (wf_op q W) (agg_var true 0) (Some [Ch 49])) as B. cbn [chk_text option_map fill flat_map fill1 app] in B. rewrite B, <- !joined_fill.
  destruct (var_chars true 0) as (N1 & N2 & N3).
  assert (UJ : uses_holes (fun n => allowed false (cond_of q) (kind_of q) n = true) (joined (t_block (Some [Ch 49]) (cond_of q) (kind_of q))))
    by (apply uses_joined, within_use, one_within).
  rewrite (fill_replace sep1 (agg_var true 0) (contains (T "agg_data_")) (var_ne _ _) (sep1_var _ _) (var_bad _ _) (code_of q [])
    (fun n => allowed false (cond_of q) (kind_of q) n = true)); [| |apply seg_one|exact UJ].
  2:{ intros n A. apply (holes_free q [] W _ false); auto using var_ne; discriminate. }
  rewrite replace_char, (drop_fill _ (fun n => allowed false (cond_of q) (kind_of q) n = true)); [|  |exact UJ].
  2:{ intros n A. apply (holes_free q [] W _ false); auto; try discriminate; intros [I|[]]; discriminate I. }
  rewrite drop1_joined, one_erased. reflexivity.
Qed.

(** *** the block from its lines *)
Lemma indent_inj n l : forall l', indent n l = indent n l' -> l = l'.
Proof.
  induction l as [|t l IH]; intros [|t' l'] E; try discriminate E; [reflexivity|]. cbn [indent map] in E. injection E as E1 E2.
  apply app_inv_head in E1 as ->. f_equal. now apply IH.
Qed.
Lemma indent_cut n l : 0 < n -> forall l' r r', indent n l ++ [] :: r = indent n l' ++ [] :: r' -> l = l' /\ r = r'.
Proof.
  intros P. assert (NN : forall t : text, repeat 32%N (4 * n) ++ t <> []) by (intros t; destruct n; [lia|discriminate]).
  induction l as [|t l IH]; intros [|t' l'] r r' E.
  - injection E; auto.
  - exfalso. cbn [indent map app] in E. injection E as E _. now apply (NN t').
  - exfalso. cbn [indent map app] in E. injection E as E _. now apply (NN t).
  - cbn [indent map app] in E. injection E as E1 E2. apply app_inv_head in E1 as ->. destruct (IH _ _ _ E2) as [-> ->]. auto.
Qed.
Lemma lines_same_block q q' chk : (forall x, block_lines q x chk = block_lines q' x chk) -> same_block q q'.
Proof.
  intros H.
  assert (MIX : forall c, ~ (forall x, repeat 32%N 8 ++ T "if " ++ c ++ T ":" = repeat 32%N 8 ++ T "if " ++ x ++ T " is _none:")).
  { intros c E. pose proof (E []) as E0. rewrite (E (T "a")) in E0. vm_compute in E0. discriminate E0. }
  assert (TAIL : forall n x a b, checksum_lines n x chk ++ indent (n - 1) [T "else:"] ++ indent n a ++ [[]] =
                                 checksum_lines n x chk ++ indent (n - 1) [T "else:"] ++ indent n b ++ [[]] -> a = b).
  { intros n x a b E. apply app_inv_head in E. apply app_inv_head in E. apply app_inv_tail in E. now apply indent_inj in E. }
  assert (CK : forall n x, exists r, checksum_lines n x chk = [] :: r) by (intros n x; destruct chk; eexists; reflexivity).
  assert (MAIN : forall n x i i' w w', 0 < n ->
    indent n i ++ checksum_lines n x chk ++ indent (n - 1) [T "else:"] ++ indent n w ++ [[]] =
    indent n i' ++ checksum_lines n x chk ++ indent (n - 1) [T "else:"] ++ indent n w' ++ [[]] -> i = i' /\ w = w').
  { intros n x i i' w w' P E. pose proof (TAIL n x w w') as TL. destruct (CK n x) as (r & R). rewrite R in *. cbn [app] in E.
    apply indent_cut in E as [-> E]; [|exact P]. split; [reflexivity|]. apply TL. cbn [app]. now rewrite E. }
  unfold same_block. unfold block_lines in H. destruct (r_cond q) as [c|], (r_cond q') as [c'|].
  - assert (c = c') as ->.
    { pose proof (f_equal (fun l => nth 1 l []) (H [])) as E. cbn [nth app indent map] in E.
      apply app_inv_head in E. apply app_inv_head in E. now apply app_inv_tail in E. }
    split; [reflexivity|]. intros x. specialize (H x). apply app_inv_head in H. apply app_inv_head in H. apply app_inv_head in H.
    exact (MAIN 4 x _ _ _ _ ltac:(lia) H).
  - exfalso. apply (MIX c). intros x. pose proof (f_equal (fun l => nth 1 l []) (H x)) as E. cbn [nth app indent map] in E. first [exact E|exact (eq_sym E)].
  - exfalso. apply (MIX c'). intros x. pose proof (f_equal (fun l => nth 1 l []) (H x)) as E. cbn [nth app indent map] in E. first [exact E|exact (eq_sym E)].
  - split; [reflexivity|]. intros x. specialize (H x). apply app_inv_head in H. apply app_inv_head in H.
    exact (MAIN 3 x _ _ _ _ ltac:(lia) H).
Qed.

(** *** sharing *)
Lemma plain_admitted q : well_formed q -> plain_initial q -> admitted (kind_of q) = true.
Proof.
  intros [_ W] P. unfold plain_initial in P. unfold admitted, kind_of. destruct (r_op q) as [b|f|s]; [|reflexivity|destruct W].
  destruct P as [P|P]; [rewrite P; apply orb_true_r|now rewrite P].
Qed.
Lemma no_newline c k : forallb (forallb (fun p => match p with Ch c => negb (N.eqb c 10) | _ => true end)) (t_block None c k) = true /\
  forallb (forallb (fun p => match p with Ch c => negb (N.eqb c 10) | _ => true end)) (t_block (Some []) c k) = true.
Proof. destruct c, k as [[] []|]; vm_compute; auto. Qed.
Lemma block_ne chk c k : t_block chk c k <> [].
Proof. destruct c; discriminate. Qed.
Lemma drop1_within f ls : within f ls = true -> within f (map drop1 ls) = true.
Proof.
  unfold within. intros H. rewrite forallb_forall in *. intros l I. apply in_map_iff in I as (l0 & <- & I).
  specialize (H l0 I). rewrite forallb_forall in *. intros p J. apply filter_In in J as [J _]. auto.
Qed.
Lemma drop1_newline ls : forallb (forallb (fun p => match p with Ch c => negb (N.eqb c 10) | _ => true end)) ls = true ->
  forallb (forallb (fun p => match p with Ch c => negb (N.eqb c 10) | _ => true end)) (map drop1 ls) = true.
Proof.
  intros H. rewrite forallb_forall in *. intros l I. apply in_map_iff in I as (l0 & <- & I).
  specialize (H l0 I). rewrite forallb_forall in *. intros p J. apply filter_In in J as [J _]. auto.
Qed.
Lemma fill_clean q ls : within (allowed false (cond_of q) (kind_of q)) ls = true ->
  forallb (forallb (fun p => match p with Ch c => negb (N.eqb c 10) | _ => true end)) ls = true ->
  well_formed q -> forall u, In u (map (fill [] (code_of q [])) ls) -> ~ In 10%N u.
Proof.
  intros WI NL W u I. apply in_map_iff in I as (l & <- & I). intros J. unfold fill in J. apply in_flat_map in J as (p & Ip & J).
  destruct p as [c| |n]; cbn [fill1] in J.
  - destruct J as [->|[]]. rewrite forallb_forall in NL. specialize (NL l I). rewrite forallb_forall in NL. specialize (NL _ Ip). discriminate.
  - destruct J.
  - revert J. apply (holes_line q [] W false); [discriminate|]. exact (within_use _ _ WI l I n Ip).
Qed.

Lemma same_lines q q' (chk : option (list piece)) :
  (chk = None \/ chk = Some []) ->
  well_formed q -> well_formed q' ->
  pair_ok (t_block chk (cond_of q) (kind_of q)) (t_block chk (cond_of q') (kind_of q')) = true ->
  map (fill [] (code_of q [])) (t_block chk (cond_of q) (kind_of q)) =
  map (fill [] (code_of q' [])) (t_block chk (cond_of q') (kind_of q')) -> same_block q q'.
Proof.
  intros C W W' P E. apply (lines_same_block q q' (option_map (fun _ => []) chk)). intros x.
  assert (CT : forall q0, chk_text q0 [] chk x = option_map (fun _ => []) chk) by (intros q0; destruct C as [->| ->]; reflexivity).
  rewrite <- (CT q) at 1. rewrite <- (CT q'). rewrite !block_fill by (now apply wf_op).
  assert (WI : forall c k, within (allowed false c k) (t_block chk c k) = true) by (intros c k; destruct C as [->| ->]; apply block_within).
  apply (pair_ok_sound (code_of q []) (code_of q' []) (fun n => allowed false (cond_of q) (kind_of q) n = true)
    (fun n => allowed false (cond_of q') (kind_of q') n = true)); auto using within_use.
  - intros n A. apply (holes_ne q [] W false); auto; discriminate.
  - intros n A. apply (holes_ne q' [] W' false); auto; discriminate.
  - now apply holes_name.
  - now apply holes_name.
  - intros n A NR. now apply holes_called.
  - intros n A NR. now apply holes_called.
Qed.
Theorem share_group i j q q' : well_formed q -> well_formed q' -> plain_initial q -> plain_initial q' ->
  free_of (agg_var false i) q -> free_of (agg_var false j) q' ->
  hash_at false i q = hash_at false j q' -> same_block q q'.
Proof.
  intros W W' P P' F F' E. rewrite !group_hash in E by auto.
  apply (same_lines q q' None); auto.
  - apply pair_of; [exact pairs_group|now apply plain_admitted|now apply plain_admitted].
  - apply lines_inj in E; auto.
    + intros N. apply map_eq_nil in N. now apply block_ne in N.
    + intros N. apply map_eq_nil in N. now apply block_ne in N.
    + apply fill_clean; auto; [apply block_within|apply no_newline].
    + apply fill_clean; auto; [apply block_within|apply no_newline].
Qed.
Theorem share_aggregate i j q q' : i < j -> well_formed q -> well_formed q' -> plain_initial q -> plain_initial q' ->
  free_of (agg_var true i) q -> free_of (agg_var true j) q' -> free_of (flag_of i) q -> free_of (flag_of j) q' ->
  hash_at true i q = hash_at true j q' -> same_block q q'.
Proof.
  intros L W W' P P' F F' G G' E. rewrite (agg_hash_pos j) in E by (auto; lia).
  assert (NE : forall q c k, map (fill [] (code_of q [])) (t_block (Some []) c k) <> [])
    by (intros q0 c k N; apply map_eq_nil in N; now apply block_ne in N).
  assert (NE1 : forall q c k, map (fill [] (code_of q [])) (map drop1 (t_block (Some []) c k)) <> [])
    by (intros q0 c k N; apply map_eq_nil in N; apply map_eq_nil in N; now apply block_ne in N).
  assert (D : map (fill [] (code_of q [])) (t_block (Some []) (cond_of q) (kind_of q)) =
              map (fill [] (code_of q' [])) (t_block (Some []) (cond_of q') (kind_of q'))).
  { destruct i as [|i].
    - rewrite agg_hash_zero in E by auto. apply lines_inj in E; auto.
      2:{ apply fill_clean; auto; [apply drop1_within, block_within|apply drop1_newline, no_newline]. }
      2:{ apply fill_clean; auto; [apply block_within|apply no_newline]. }
      destruct (has1 (t_block (Some []) (cond_of q) (kind_of q))) eqn:O.
      + exfalso. revert E.
        apply (clash_sound (code_of q []) (code_of q' []) (fun n => allowed false (cond_of q) (kind_of q) n = true)
          (fun n => allowed false (cond_of q') (kind_of q') n = true)).
        * intros n A. apply (holes_ne q [] W false); auto; discriminate.
        * intros n A. apply (holes_ne q' [] W' false); auto; discriminate.
        * now apply holes_name.
        * now apply holes_name.
        * intros n A NR. now apply holes_called.
        * intros n A NR. now apply holes_called.
        * apply within_use, drop1_within, block_within.
        * apply within_use, block_within.
        * apply ones_of; auto using ones_aggregate, plain_admitted.
      + now rewrite drop1_id in E.
    - rewrite agg_hash_pos in E by (auto; lia). apply lines_inj in E; auto.
      + apply fill_clean; auto; [apply block_within|apply no_newline].
      + apply fill_clean; auto; [apply block_within|apply no_newline]. }
  apply (same_lines q q' (Some [])); auto. apply pair_of; [exact pairs_aggregate|now apply plain_admitted|now apply plain_admitted].
Qed.

(** *** renaming *)
Lemma segs_init k : forallb (segs_ok sep1 (contains (T "agg_data_")) []) (t_init k) = true /\
                    forallb (segs_ok sep1 (contains (T "agg_data_")) []) (t_two k) = true.
Proof. destruct k as [[] []|]; vm_compute; auto. Qed.
Lemma part_within c k : within (allowed false c k) (t_init k) = true /\ within (allowed false c k) (t_two k) = true.
Proof. destruct c, k as [[] []|]; vm_compute; auto. Qed.
Lemma rename_lines m i q new ls : well_formed q -> free_of (agg_var m i) q ->
  forallb (segs_ok sep1 (contains (T "agg_data_")) []) ls = true -> within (allowed false (cond_of q) (kind_of q)) ls = true ->
  renamed (agg_var m i) new (map (fill (agg_var m i) (code_of q [])) ls) = map (fill new (code_of q [])) ls.
Proof.
  intros W F SG WI. unfold renamed. rewrite map_map. apply map_ext_in. intros l I.
  destruct (var_chars m i) as (N1 & N2 & N3). rewrite forallb_forall in SG.
  apply (fill_replace sep1 (agg_var m i) (contains (T "agg_data_")) (var_ne _ _) (sep1_var _ _) (var_bad _ _) (code_of q [])
    (fun n => allowed false (cond_of q) (kind_of q) n = true)).
  - intros n A. apply (holes_free q [] W _ false); auto using var_ne; discriminate.
  - now apply SG.
  - intros n J. exact (within_use _ _ WI l I n J).
Qed.
Lemma rename_block m i q new : well_formed q -> free_of (agg_var m i) q ->
  renamed (agg_var m i) new (reduce_initial q (agg_var m i)) = reduce_initial q new /\
  renamed (agg_var m i) new (reduce_two q (agg_var m i)) = reduce_two q new.
Proof.
  intros W F. rewrite !(init_fill q [] (wf_op q W)), !(two_fill q [] (wf_op q W)).
  split; (apply rename_lines; auto; [apply segs_init|apply part_within]).
Qed.
