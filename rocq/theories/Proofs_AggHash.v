(** The blocks of built-in reducers and callables as filled templates. *)
From Coq Require Import String List ZArith NArith Bool Arith Lia.
From Verif Require Import Model_Reducers Model_Code Model_AggText Spec_AggText Proofs_AggText.
Import ListNotations.

Definition all_builtins : list builtin :=
  [Sum; SumOrNone; Max; Min; Count; CountDistinct; First; Last; MaxRow; MinRow; Array; ArrayDistinct; Dict; DictArray;
   DictArrayDistinct; DictSum; DictSumOrNone; DictMax; DictMin; DictCount; DictCountDistinct; DictFirst; DictLast].
Lemma all_builtins_all b : In b all_builtins.
Proof. destruct b; cbn; tauto. Qed.
Inductive kind := KStmts (ini : bool) (b : builtin) | KFunc.
Definition ren (f : nat -> piece) (l : list piece) : list piece := map (fun p => match p with Arg n => f n | _ => p end) l.
Definition lit (s : string) : list piece := map Ch (T s).
Definition nth_piece (l : list piece) (n : nat) : piece := nth n l (Arg 8).
Definition t_init (k : kind) : list (list piece) :=
  match k with
  | KStmts false b => map (ren (nth_piece [Arg 2; Arg 3])) (initial_from_first b)
  | KStmts true b => map (ren (nth_piece [Arg 1; Arg 2; Arg 3])) (reduce_statements b)
  | KFunc => [Res :: lit " = " ++ [Arg 5]]
  end.
Definition t_two (k : kind) : list (list piece) :=
  match k with
  | KStmts _ b => map (ren (nth_piece [Res; Arg 2; Arg 3])) (reduce_statements b)
  | KFunc => [Res :: lit " = " ++ [Arg 4] ++ lit "(" ++ [Res] ++ lit "," ++ [Arg 6] ++ lit ")"]
  end.
Definition ind (n : nat) (ls : list (list piece)) : list (list piece) := map (fun l => map Ch (repeat 32%N (4 * n)) ++ l) ls.
Definition t_check (n : nat) (chk : option (list piece)) : list (list piece) :=
  match chk with
  | None => [[]]
  | Some flag => [[]] ++ ind n [lit "if " ++ [Res] ++ lit " is not _none:"; lit "    checksum_ |= " ++ flag;
                                lit "    if checksum_ == expected_checksum_:"; lit "        break"] ++ [[]]
  end.
Definition t_block (chk : option (list piece)) (cond : bool) (k : kind) : list (list piece) :=
  if cond then
    [[]] ++ ind 2 [lit "if " ++ [Arg 0] ++ lit ":"] ++ ind 3 [lit "if " ++ [Res] ++ lit " is _none:"] ++
    ind 4 (t_init k) ++ t_check 4 chk ++ ind 3 [lit "else:"] ++ ind 4 (t_two k) ++ [[]]
  else
    [[]] ++ ind 2 [lit "if " ++ [Res] ++ lit " is _none:"] ++
    ind 3 (t_init k) ++ t_check 3 chk ++ ind 2 [lit "else:"] ++ ind 3 (t_two k) ++ [[]].

(** *** a reduce as a kind and its codes *)
Definition kind_of (q : rcode) : kind :=
  match r_op q with
  | Stmts b => KStmts (match r_initial q with Some _ => true | None => false end) b
  | _ => KFunc
  end.
Definition cond_of (q : rcode) : bool := match r_cond q with Some _ => true | None => false end.
Definition init_text (q : rcode) : text :=
  match r_initial q with
  | None => match r_extras q with
            | [] => r_expr q
            | l => T "(" ++ intersperse (T ",") (r_expr q :: l) ++ T ",)"
            end
  | Some i => applied q (i :: r_expr q :: r_extras q)
  end.
Definition code_of (q : rcode) (flag : text) (n : nat) : text :=
  match n with
  | 0 => match r_cond q with Some c => c | None => [] end
  | 1 => match r_initial q with Some i => i | None => [] end
  | 2 => r_expr q
  | 3 => nth 0 (r_extras q) []
  | 4 => match r_op q with Func f => f | _ => [] end
  | 5 => init_text q
  | 6 => intersperse (T ",") (r_expr q :: r_extras q)
  | 7 => flag
  | _ => []
  end.

Lemma fill_lit x a s : fill x a (lit s) = T s.
Proof. unfold lit. induction (T s) as [|c t IH]; [reflexivity|]. cbn [map]. rewrite fill_cons, IH. reflexivity. Qed.
Lemma fill_chars x a t : fill x a (map Ch t) = t.
Proof. induction t as [|c t IH]; [reflexivity|]. cbn [map]. rewrite fill_cons, IH. reflexivity. Qed.
Lemma fill_ren x a b f l : (forall n, In (Arg n) l -> b n = fill1 x a (f n)) -> fill x b l = fill x a (ren f l).
Proof.
  induction l as [|p l IH]; intros H; [reflexivity|]. cbn [ren map]. rewrite !fill_cons. fold (ren f l).
  rewrite <- IH by (intros n I; apply H; now right). f_equal. destruct p; try reflexivity. cbn [fill1]. apply H. now left.
Qed.
Lemma indent_fill n x a ls : indent n (map (fill x a) ls) = map (fill x a) (ind n ls).
Proof.
  unfold indent, ind. rewrite !map_map. apply map_ext. intros l. now rewrite fill_app, fill_chars.
Qed.
Lemma map_fill_eq x a b f ls : (forall l, In l ls -> forall n, In (Arg n) l -> b n = fill1 x a (f n)) ->
  map (fill x b) ls = map (fill x a) (map (ren f) ls).
Proof. intros H. rewrite map_map. apply map_ext_in. intros l I. apply fill_ren. exact (H l I). Qed.

(** holes of the statements *)
Definition arity_ok (ls : list (list piece)) (k : nat) : bool :=
  forallb (fun l => forallb (fun p => match p with Arg n => Nat.ltb n k | _ => true end) l) ls.
Lemma arity_init b : arity_ok (initial_from_first b) 2 = true.
Proof. destruct b; vm_compute; reflexivity. Qed.
Lemma arity_two b : arity_ok (reduce_statements b) 3 = true.
Proof. destruct b; vm_compute; reflexivity. Qed.
Lemma arity_in ls k : arity_ok ls k = true -> forall l, In l ls -> forall n, In (Arg n) l -> n < k.
Proof.
  unfold arity_ok. intros H l I n J. rewrite forallb_forall in H. specialize (H l I). rewrite forallb_forall in H.
  specialize (H _ J). cbn in H. now apply Nat.ltb_lt in H.
Qed.

Section Fill.
  Variable q : rcode.
  Variable flag : text.
  Notation a := (code_of q flag).
  Hypothesis op_ok : match r_op q with Inline _ => False | _ => True end.

  Lemma init_fill x : reduce_initial q x = map (fill x a) (t_init (kind_of q)).
  Proof.
    unfold reduce_initial, t_init, kind_of. destruct (r_op q) as [b|f|s] eqn:O; [| |destruct op_ok].
    - destruct (r_initial q) as [i|] eqn:I.
      + apply map_fill_eq. intros l Hl n Hn. pose proof (arity_in _ _ (arity_two b) l Hl n Hn) as L.
        destruct n as [|[|[|n]]]; [| | |lia]; cbn [at_pos nth nth_piece fill1 code_of]; rewrite ?I; try reflexivity.
      + apply map_fill_eq. intros l Hl n Hn. pose proof (arity_in _ _ (arity_init b) l Hl n Hn) as L.
        destruct n as [|[|n]]; [| |lia]; cbn [at_pos nth nth_piece fill1 code_of]; try reflexivity.
    - cbn [map]. rewrite fill_cons, fill_app, fill_lit. cbn [fill1 fill flat_map code_of]. rewrite app_nil_r.
      unfold init_text. destruct (r_initial q); reflexivity.
  Qed.
  Lemma two_fill x : reduce_two q x = map (fill x a) (t_two (kind_of q)).
  Proof.
    unfold reduce_two, t_two, kind_of. destruct (r_op q) as [b|f|s] eqn:O; [| |destruct op_ok].
    - apply map_fill_eq. intros l Hl n Hn. pose proof (arity_in _ _ (arity_two b) l Hl n Hn) as L.
      destruct n as [|[|[|n]]]; [| | |lia]; cbn [at_pos nth nth_piece fill1 code_of]; try reflexivity.
    - cbn [map]. rewrite fill_cons, !fill_app, !fill_lit. cbn [fill1 fill flat_map]. rewrite !app_nil_r.
      unfold applied. rewrite O. cbn [code_of]. rewrite O.
      rewrite (intersperse_cons (T ",") x (r_expr q :: r_extras q)) by discriminate.
      f_equal. f_equal. f_equal. rewrite <- !app_assoc. reflexivity.
  Qed.
  Definition chk_text (chk : option (list piece)) (x : text) : option text := option_map (fill x a) chk.
  Lemma check_fill n x chk : checksum_lines n x (chk_text chk x) = map (fill x a) (t_check n chk).
  Proof.
    unfold checksum_lines, t_check, chk_text. destruct chk as [fl|]; [|reflexivity]. cbn [option_map].
    rewrite !map_app. rewrite <- indent_fill. cbn [map]. rewrite !fill_app, !fill_lit. cbn [fill flat_map fill1 app].
    rewrite app_nil_r. reflexivity.
  Qed.
  Lemma block_fill x chk : block_lines q x (chk_text chk x) = map (fill x a) (t_block chk (cond_of q) (kind_of q)).
  Proof.
    unfold block_lines, t_block, cond_of. destruct (r_cond q) as [c|] eqn:C.
    - rewrite !map_app, <- !indent_fill, <- check_fill, <- init_fill, <- two_fill. cbn [map].
      rewrite !fill_app, !fill_lit. cbn [fill flat_map fill1 app code_of]. rewrite C, !app_nil_r. reflexivity.
    - rewrite !map_app, <- !indent_fill, <- check_fill, <- init_fill, <- two_fill. cbn [map].
      rewrite !fill_app, !fill_lit. cbn [fill flat_map fill1 app]. rewrite !app_nil_r. reflexivity.
  Qed.
End Fill.

(** *** one text from many lines *)
Fixpoint joined (ls : list (list piece)) : list piece :=
  match ls with [] => [] | [l] => l | l :: r => l ++ Ch 10 :: joined r end.
Lemma joined_fill x a ls : fill x a (joined ls) = intersperse nl (map (fill x a) ls).
Proof.
  induction ls as [|l ls IH]; [reflexivity|]. destruct ls as [|l' ls]; [reflexivity|].
  change (joined (l :: l' :: ls)) with (l ++ Ch 10 :: joined (l' :: ls)). rewrite fill_app, fill_cons, IH. reflexivity.
Qed.

(** *** characters *)
Lemma digits_are f n : forallb (fun c => N.leb 48 c && N.leb c 57) (digits f n) = true.
Proof.
  revert n; induction f as [|f IH]; intros n; [reflexivity|]. cbn [digits]. destruct (N.ltb n 10) eqn:E.
  - apply N.ltb_lt in E. cbn [forallb]. rewrite andb_true_r. apply andb_true_iff. split; apply N.leb_le; lia.
  - rewrite forallb_app, IH. cbn [forallb andb]. rewrite andb_true_r.
    assert (B : (n mod 10 < 10)%N) by (apply N.mod_lt; lia). revert B. generalize (n mod 10)%N. intros d B.
    apply andb_true_iff. split; apply N.leb_le; lia.
Qed.
Lemma ndec_digits n c : In c (ndec n) -> (48 <= c <= 57)%N.
Proof.
  intros I. pose proof (digits_are (S (N.to_nat (N.log2 n))) n) as D. rewrite forallb_forall in D.
  specialize (D c I). apply andb_true_iff in D as [D1 D2]. apply N.leb_le in D1. apply N.leb_le in D2. lia.
Qed.
Lemma ndec_not_nil n : ndec n <> [].
Proof.
  unfold ndec. cbn [digits]. destruct (N.ltb n 10); [discriminate|]. intros E. apply app_eq_nil in E as [_ E]. discriminate.
Qed.
Lemma ndec_single n c : ndec n = [c] -> (c = 48 + n)%N.
Proof.
  unfold ndec. cbn [digits]. destruct (N.ltb n 10) eqn:E; [intros H; now injection H|]. apply N.ltb_ge in E.
  destruct (N.to_nat (N.log2 n)) eqn:L.
  - exfalso. assert (N.log2 n = 0)%N by lia. assert (0 < N.log2 n)%N by (apply N.log2_pos; lia). lia.
  - intros H. exfalso. cbn [digits] in H. destruct (N.ltb (n / 10) 10); [discriminate|].
    rewrite <- app_assoc in H. destruct (digits n0 (n / 10 / 10)) as [|d [|e l]]; discriminate.
Qed.

Definition sep1 (c : N) : bool := negb (wordc c || N.eqb c 46).
Lemma wordc_digit c : (48 <= c <= 57)%N -> wordc c = true.
Proof. intros H. unfold wordc. replace (N.leb 48 c && N.leb c 57) with true; [reflexivity|]. symmetry. apply andb_true_iff. split; apply N.leb_le; lia. Qed.
Lemma sep1_var m i c : sep1 c = true -> ~ In c (agg_var m i).
Proof.
  intros S I. unfold sep1 in S. apply negb_true_iff in S.
  assert (P : wordc c || N.eqb c 46 = true); [|congruence].
  unfold agg_var in I. destruct m; apply in_app_or in I as [I|I].
  - revert I. apply (Forall_forall (fun c => wordc c || N.eqb c 46 = true)). repeat constructor.
  - apply in_app_or in I as [I|I]; [apply ndec_digits in I; now rewrite (wordc_digit _ I)|]. destruct I as [<-|[]]. reflexivity.
  - revert I. apply (Forall_forall (fun c => wordc c || N.eqb c 46 = true)). repeat constructor.
  - apply ndec_digits in I. now rewrite (wordc_digit _ I).
Qed.
Lemma var_ne m i : agg_var m i <> [].
Proof. destruct m; discriminate. Qed.
Lemma var_head m i : exists r, agg_var m i = T "agg_data_" ++ r.
Proof. destruct m; eexists; reflexivity. Qed.
Lemma var_bad m i w : contains (T "agg_data_") w = false -> contains (agg_var m i) w = false.
Proof.
  intros H. apply not_true_iff_false. intros C. apply not_true_iff_false in H. apply H.
  apply contains_spec in C as (u & r & ->). destruct (var_head m i) as (h & ->). apply contains_spec.
  exists u, (h ++ r). now rewrite <- !app_assoc.
Qed.

Lemma contains_sep old u c v : old <> [] -> ~ In c old -> contains old (u ++ c :: v) = contains old u || contains old v.
Proof.
  intros NE N. induction u as [|d u IH]; cbn [app].
  - cbn [contains]. replace (starts old (c :: v)) with (starts old []).
    + destruct old; [congruence|]. reflexivity.
    + symmetry. apply (starts_sep old [] c v N).
  - cbn [contains]. rewrite IH. change (d :: u ++ c :: v) with ((d :: u) ++ c :: v). rewrite starts_sep by auto.
    now rewrite orb_assoc.
Qed.
Lemma contains_list old l : old <> [] -> ~ In 44%N old -> (forall t, In t l -> contains old t = false) ->
  contains old (intersperse (T ",") l) = false.
Proof.
  intros NE N. induction l as [|t l IH]; intros H.
  - cbn. destruct old; [congruence|reflexivity].
  - destruct l as [|t' l]; [apply H; now left|].
    rewrite intersperse_cons by discriminate. change (T "," ++ intersperse (T ",") (t' :: l)) with (44%N :: intersperse (T ",") (t' :: l)).
    rewrite contains_sep by auto. rewrite (H t) by now left. rewrite IH; [reflexivity|]. intros u I. apply H. now right.
Qed.
Lemma contains_one old c u : old <> [] -> ~ In c old -> contains old (c :: u) = contains old u.
Proof.
  intros NE N. change (c :: u) with ([] ++ c :: u). rewrite contains_sep by auto.
  destruct old; [congruence|reflexivity].
Qed.

(** *** the holes of a reduce *)
Definition needs (b : builtin) : bool :=
  match b with
  | Sum | SumOrNone | Max | Min | Count | CountDistinct | First | Last | Array | ArrayDistinct | DictCount => false
  | _ => true
  end.
Definition allowed (chk cond : bool) (k : kind) (n : nat) : bool :=
  match k, n with
  | _, 0 => cond
  | KStmts ini _, 1 => ini
  | KStmts _ _, 2 => true
  | KStmts _ b, 3 => needs b
  | KFunc, 4 | KFunc, 5 | KFunc, 6 => true
  | _, 7 => chk
  | _, _ => false
  end.
Definition within (f : nat -> bool) (ls : list (list piece)) : bool :=
  forallb (fun l => forallb (fun p => match p with Arg n => f n | _ => true end) l) ls.
Lemma within_use f ls : within f ls = true -> all_use (fun n => f n = true) ls.
Proof.
  intros H l I n J. unfold within in H. rewrite forallb_forall in H. specialize (H l I). rewrite forallb_forall in H.
  exact (H _ J).
Qed.
Lemma block_within cond k :
  within (allowed false cond k) (t_block None cond k) = true /\
  within (allowed false cond k) (t_block (Some []) cond k) = true /\
  within (allowed true cond k) (t_block (Some [Arg 7]) cond k) = true.
Proof. destruct cond, k as [[] []|]; vm_compute; auto. Qed.

Section Codes.
  Variable q : rcode.
  Variable flag : text.
  Notation a := (code_of q flag).
  Hypothesis W : well_formed q.

  Lemma part_expr : In (r_expr q) (parts q). Proof. now left. Qed.
  Lemma part_extra t : In t (r_extras q) -> In t (parts q).
  Proof. intros I. right. apply in_or_app. now left. Qed.
  Lemma part_cond c : r_cond q = Some c -> In c (parts q).
  Proof. intros E. unfold parts. rewrite E. right. apply in_or_app. right. now left. Qed.
  Lemma part_initial c : r_initial q = Some c -> In c (parts q).
  Proof. intros E. unfold parts. rewrite E. right. apply in_or_app. right. apply in_or_app. right. now left. Qed.
  Lemma part_list t : In t (r_expr q :: r_extras q) -> In t (parts q).
  Proof. intros [<-|I]; [apply part_expr|now apply part_extra]. Qed.

  Lemma extra_in b : r_op q = Stmts b -> needs b = true -> In (nth 0 (r_extras q) []) (r_extras q).
  Proof.
    intros O NB. destruct W as [_ W2]. rewrite O in W2. destruct W2 as [W2|W2].
    - destruct (r_extras q); [congruence|now left].
    - exfalso. destruct b; cbn in NB, W2; try discriminate NB; repeat destruct W2 as [W2|W2]; try discriminate W2; destruct W2.
  Qed.
  (** each hole is one of the codes, or built from them *)
  Lemma hole_cases (P : text -> Prop) chk :
    (forall t, In t (parts q) -> P t) ->
    (forall f, r_op q = Func f -> P f /\ P (init_text q) /\ P (intersperse (T ",") (r_expr q :: r_extras q))) ->
    (chk = true -> P flag) ->
    forall n, allowed chk (cond_of q) (kind_of q) n = true -> P (a n).
  Proof.
    intros H1 H2 H3 n A. unfold allowed, cond_of, kind_of in A. destruct W as [_ W2].
    destruct n as [|[|[|[|[|[|[|[|n]]]]]]]]; cbn [code_of].
    - destruct (r_cond q) eqn:C; [apply H1; now apply part_cond|]. destruct (r_op q); discriminate A.
    - destruct (r_op q) eqn:O; try discriminate A; destruct (r_initial q) eqn:I; try discriminate A; apply H1; now apply part_initial.
    - apply H1, part_expr.
    - destruct (r_op q) eqn:O; try discriminate A. apply H1, part_extra. now apply (extra_in b).
    - destruct (r_op q) eqn:O; try discriminate A; [|destruct W2]. now apply (H2 f).
    - destruct (r_op q) eqn:O; try discriminate A; [|destruct W2]. now apply (H2 f).
    - destruct (r_op q) eqn:O; try discriminate A; [|destruct W2]. now apply (H2 f).
    - apply H3. destruct (r_op q); exact A.
    - destruct (r_op q); discriminate A.
  Qed.
  Lemma rest_ne l : l <> [] -> (forall t, In t l -> t <> []) -> intersperse (T ",") l <> [].
  Proof.
    intros NE H. destruct l as [|t [|t' l]]; [congruence|apply H; now left|].
    rewrite intersperse_cons by discriminate. intros E. apply app_eq_nil in E as [_ E]. discriminate.
  Qed.
  Lemma rest_no c l : c <> 44%N -> (forall t, In t l -> ~ In c t) -> ~ In c (intersperse (T ",") l).
  Proof.
    intros NC. induction l as [|t l IH]; intros H; [intros []|]. destruct l as [|t' l]; [apply H; now left|].
    rewrite intersperse_cons by discriminate. intros I. apply in_app_or in I as [I|I]; [revert I; apply H; now left|].
    destruct I as [I|I]; [exact (NC (eq_sym I))|]. revert I. apply IH. intros u J. apply H. now right.
  Qed.

  Lemma holes_ne chk n : (chk = true -> flag <> []) -> allowed chk (cond_of q) (kind_of q) n = true -> a n <> [].
  Proof.
    intros F A. destruct W as [W1 W2]. revert n A. apply (hole_cases (fun t => t <> [])); auto.
    - intros t I. apply (W1 t I).
    - intros f O. rewrite O in W2. split; [apply W2|]. split.
      + unfold init_text, applied. rewrite O. destruct (r_initial q); [|destruct (r_extras q); [apply W1, part_expr|discriminate]].
        intros E. apply app_eq_nil in E as [_ E]. discriminate.
      + apply rest_ne; [discriminate|]. intros t I. apply W1. now apply part_list.
  Qed.
  Lemma holes_line chk n : (chk = true -> ~ In 10%N flag) -> allowed chk (cond_of q) (kind_of q) n = true -> ~ In 10%N (a n).
  Proof.
    intros F A. destruct W as [W1 W2]. revert n A. apply (hole_cases (fun t => ~ In 10%N t)); auto.
    - intros t I. apply (W1 t I).
    - intros f O. rewrite O in W2. assert (NF : ~ In 10%N f).
      { destruct W2 as [_ W2]. intros I. rewrite forallb_forall in W2. specialize (W2 _ I). discriminate. }
      assert (NP : forall t, In t (parts q) -> ~ In 10%N t) by (intros t I; apply (W1 t I)).
      split; [exact NF|]. split.
      + unfold init_text, applied. rewrite O. destruct (r_initial q) as [i|] eqn:EI.
        * intros I. rewrite !in_app_iff in I. destruct I as [I|[I|[I|I]]]; [now apply NF|destruct I as [I|[]]; discriminate I| |destruct I as [I|[]]; discriminate I].
          revert I. apply rest_no; [discriminate|].
          intros t [<-|I]; [apply NP; now apply part_initial|apply NP; now apply part_list].
        * destruct (r_extras q) eqn:EX; [apply NP, part_expr|].
          intros I. rewrite !in_app_iff in I. destruct I as [I|[I|I]]; [destruct I as [I|[]]; discriminate I| |destruct I as [I|[I|[]]]; discriminate I].
          revert I. apply rest_no; [discriminate|].
          intros u I. apply NP, part_list. now rewrite EX.
      + apply rest_no; [discriminate|]. intros t I. apply NP. now apply part_list.
  Qed.
  Lemma holes_called n : allowed false (cond_of q) (kind_of q) n = true -> n <> resthole -> not_call_of_nothing (a n).
  Proof.
    intros A NR. destruct W as [W1 W2]. unfold allowed, cond_of, kind_of in A.
    assert (NP : forall t, In t (parts q) -> not_call_of_nothing t) by (intros t I; apply (W1 t I)).
    assert (WF : forall f, forallb wordc f = true -> forall g s, is_word g -> f <> g ++ 40%N :: s).
    { intros f F g s _ ->. rewrite forallb_app in F. apply andb_true_iff in F as [_ F]. discriminate F. }
    destruct n as [|[|[|[|[|[|[|[|n]]]]]]]]; cbn [code_of].
    - destruct (r_cond q) eqn:C; [apply NP; now apply part_cond|]. destruct (r_op q); discriminate A.
    - destruct (r_op q) eqn:O; try discriminate A; destruct (r_initial q) eqn:I; try discriminate A; apply NP; now apply part_initial.
    - apply NP, part_expr.
    - destruct (r_op q) eqn:O; try discriminate A. apply NP, part_extra. now apply (extra_in b).
    - destruct (r_op q) eqn:O; try discriminate A; [|destruct W2]. intros g r G. apply WF; auto. apply W2.
    - destruct (r_op q) as [|f|] eqn:O; try discriminate A; [|destruct W2]. unfold init_text, applied. rewrite O.
      destruct (r_initial q) as [i|] eqn:EI.
      + intros g r G E. change (T "(" ++ intersperse (T ",") (i :: r_expr q :: r_extras q) ++ T ")")
          with (40%N :: intersperse (T ",") (i :: r_expr q :: r_extras q) ++ T ")") in E.
        apply word_paren in E as [_ E]; [|apply W2|apply G].
        rewrite intersperse_cons in E by discriminate.
        pose proof (W1 i (part_initial _ EI)) as Wi. destruct i as [|c i]; [now apply (not_empty _ Wi)|].
        injection E as -> _. now apply (no_leading_comma _ Wi i).
      + destruct (r_extras q) eqn:EX; [apply NP, part_expr|]. intros g r G E. destruct g as [|c g]; [now apply (proj1 G)|].
        injection E as <- _. destruct G as [_ G]. discriminate G.
    - now exfalso.
    - destruct (r_op q); discriminate A.
    - destruct (r_op q); discriminate A.
  Qed.
  Lemma holes_name : allowed false (cond_of q) (kind_of q) namehole = true -> is_word (a namehole).
  Proof.
    intros A. destruct W as [_ W2]. unfold allowed, kind_of in A. cbn [namehole code_of] in *. destruct (r_op q); try discriminate A; [exact W2|destruct W2].
  Qed.
  Lemma holes_free old chk n : old <> [] -> ~ In 40%N old -> ~ In 41%N old -> ~ In 44%N old -> free_of old q ->
    (chk = true -> contains old flag = false) ->
    allowed chk (cond_of q) (kind_of q) n = true -> contains old (a n) = false.
  Proof.
    intros NE N1 N2 N3 [F1 F2] FF A. destruct W as [W1 W2]. revert n A. apply (hole_cases (fun t => contains old t = false)); auto.
    intros f O. rewrite O in F2. split; [exact F2|].
    assert (L : contains old (intersperse (T ",") (r_expr q :: r_extras q)) = false).
    { apply contains_list; auto. intros t I. apply F1. now apply part_list. }
    split; [|exact L].
    unfold init_text, applied. rewrite O. destruct (r_initial q) as [i|] eqn:EI.
    - change (f ++ T "(" ++ intersperse (T ",") (i :: r_expr q :: r_extras q) ++ T ")")
        with (f ++ 40%N :: (intersperse (T ",") (i :: r_expr q :: r_extras q) ++ 41%N :: [])).
      rewrite !contains_sep by auto. rewrite F2. rewrite contains_list; auto.
      + destruct old; [congruence|reflexivity].
      + intros t [<-|I]; [apply F1; now apply part_initial|apply F1; now apply part_list].
    - destruct (r_extras q) eqn:EX; [apply F1, part_expr|].
      change (T "(" ++ intersperse (T ",") (r_expr q :: t :: l) ++ T ",)")
        with (40%N :: (intersperse (T ",") (r_expr q :: t :: l) ++ 44%N :: 41%N :: [])).
      rewrite contains_one by auto. rewrite contains_sep by auto. rewrite L. rewrite contains_one by auto.
      destruct old; [congruence|reflexivity].
  Qed.
End Codes.
