(** Facts about the code generator and the text it produces. *)
From Coq Require Import String Ascii List ZArith NArith Bool Arith Lia.
From Verif Require Import Model_Code Spec_Frag.
Import ListNotations.

Lemma in_insert x y l : In x (tinsert y l) <-> x = y \/ In x l.
Proof.
  induction l as [|z l IH]; simpl; [intuition|]. destruct (tleb y z); simpl; rewrite ?IH; intuition.
Qed.
Lemma in_sort x l : In x (sort_names l) <-> In x l.
Proof. induction l as [|y l IH]; simpl; [tauto|]. rewrite in_insert, IH. intuition. Qed.
Lemma in_params c y : In y (params_of c) <-> In y (args_of c).
Proof. unfold params_of. rewrite in_sort. apply nodup_In. Qed.

(** Induction over conversions. *)
Section CvInd.
  Variable P : cv -> Prop.
  Definition optP (o : option cv) : Prop := match o with Some c => P c | None => True end.
  Hypothesis H_this : P CThis.
  Hypothesis H_lit : forall l, P (CLit l).
  Hypothesis H_glob : forall g, P (CGlob g).
  Hypothesis H_arg : forall x, P (CArg x).
  Hypothesis H_label : forall n, P (CLabel n).
  Hypothesis H_op : forall o l, Forall P l -> P (COp o l).
  Hypothesis H_attr : forall a n, P a -> P n -> P (CAttr a n).
  Hypothesis H_bool : forall i l, Forall P l -> P (CBool i l).
  Hypothesis H_eqs : forall l, Forall P l -> P (CEqs l).
  Hypothesis H_if : forall nc c t f, optP c -> optP t -> optP f -> P (CIf nc c t f).
  Hypothesis H_default : forall a s idx d, optP s -> Forall P idx -> P d -> P (CDefault a s idx d).
  Hypothesis H_comp : forall k elts co, Forall P elts -> optP co -> P (CComp k elts co).
  Hypothesis H_items : forall k lines,
      Forall (fun l => optP (fst l) /\ P (snd l)) lines -> P (CItems k lines).
  Hypothesis H_cache : forall n c ls, P c -> Forall (fun l => P (snd l)) ls -> P (CCache n c ls).
  Hypothesis H_pipe : forall a b, P a -> P b -> P (CPipe a b).
  Hypothesis H_tap : forall o ms, P o -> Forall (fun m => Forall P (snd m)) ms -> P (CTap o ms).

  Fixpoint cv_ind' (c : cv) : P c :=
    let fl := fix fl (l : list cv) : Forall P l :=
      match l with [] => Forall_nil _ | c :: r => Forall_cons _ (cv_ind' c) (fl r) end in
    let fo (o : option cv) : optP o :=
      match o with Some c => cv_ind' c | None => I end in
    match c with
    | CThis => H_this
    | CLit l => H_lit l
    | CGlob g => H_glob g
    | CArg x => H_arg x
    | CLabel n => H_label n
    | COp o l => H_op o l (fl l)
    | CAttr a n => H_attr a n (cv_ind' a) (cv_ind' n)
    | CBool i l => H_bool i l (fl l)
    | CEqs l => H_eqs l (fl l)
    | CIf nc c t f => H_if nc c t f (fo c) (fo t) (fo f)
    | CDefault a s idx d => H_default a s idx d (fo s) (fl idx) (cv_ind' d)
    | CComp k elts co => H_comp k elts co (fl elts) (fo co)
    | CItems k lines =>
        H_items k lines
          ((fix go ls : Forall (fun l => optP (fst l) /\ P (snd l)) ls :=
              match ls with
              | [] => Forall_nil _
              | (co, c) :: r => Forall_cons (co, c) (conj (fo co) (cv_ind' c)) (go r)
              end) lines)
    | CCache n c ls =>
        H_cache n c ls (cv_ind' c)
          ((fix go ls : Forall (fun l => P (snd l)) ls :=
              match ls with
              | [] => Forall_nil _
              | (l, c) :: r => Forall_cons (l, c) (cv_ind' c) (go r)
              end) ls)
    | CPipe a b => H_pipe a b (cv_ind' a) (cv_ind' b)
    | CTap o ms =>
        H_tap o ms (cv_ind' o)
          ((fix go ms : Forall (fun m => Forall P (snd m)) ms :=
              match ms with
              | [] => Forall_nil _
              | (k, l) :: r => Forall_cons (k, l) (fl l) (go r)
              end) ms)
    end.
End CvInd.

(** Substrings *)
Definition Sub (a b : text) : Prop := exists x y, b = x ++ a ++ y.

Lemma Sub_refl a : Sub a a.
Proof. exists [], []. now rewrite app_nil_r. Qed.
Lemma Sub_trans a b c : Sub a b -> Sub b c -> Sub a c.
Proof.
  intros (x & y & ->) (x' & y' & ->). exists (x' ++ x), (y ++ y').
  now rewrite !app_assoc.
Qed.
Lemma Sub_l a b c : Sub a b -> Sub a (b ++ c).
Proof. intros (x & y & ->). exists x, (y ++ c). now rewrite !app_assoc. Qed.
Lemma Sub_r a b c : Sub a c -> Sub a (b ++ c).
Proof. intros (x & y & ->). exists (b ++ x), y. now rewrite !app_assoc. Qed.
Lemma Sub_cons a b c : Sub a c -> Sub a (b :: c).
Proof. apply (Sub_r a [b] c). Qed.
Lemma Sub_in a b c : Sub a b -> In c a -> In c b.
Proof. intros (x & y & ->) H. rewrite !in_app_iff. auto. Qed.

Lemma starts_spec p s : starts p s = true <-> exists y, s = p ++ y.
Proof.
  revert s; induction p as [|a p IH]; intros s; cbn.
  - split; eauto.
  - destruct s as [|b s]; [split; [discriminate|intros (y & H); discriminate]|].
    rewrite andb_true_iff, N.eqb_eq, IH. split.
    + intros [-> (y & ->)]. now exists y.
    + intros (y & H). inversion H; subst. eauto.
Qed.
Lemma contains_Sub n h : contains n h = true <-> Sub n h.
Proof.
  induction h as [|c h IH]; cbn.
  - rewrite orb_false_r, starts_spec. split.
    + intros (y & H). exists [], y. auto.
    + intros (x & y & H). destruct x; [eauto|discriminate].
  - rewrite orb_true_iff, starts_spec, IH. split.
    + intros [(y & H)|H]; [exists [], y; auto|now apply Sub_cons].
    + intros (x & y & H). destruct x as [|b x]; [left; eauto|].
      right. cbn in H. inversion H; subst. now exists x, y.
Qed.

Lemma Sub_intersperse sep t l : In t l -> Sub t (intersperse sep l).
Proof.
  induction l as [|a l IH]; [intros []|]. intros [->|H].
  - destruct l; cbn; [apply Sub_refl|apply Sub_l, Sub_refl].
  - destruct l as [|b l]; [destruct H|]. cbn [intersperse].
    apply Sub_r, Sub_r. exact (IH H).
Qed.
Lemma Sub_zip_kw t ks vs : length vs <= length ks -> In t vs ->
  exists u, In u (zip_kw ks vs) /\ Sub t u.
Proof.
  revert ks; induction vs as [|v vs IH]; intros ks Hl; [intros []|].
  destruct ks as [|k ks]; cbn in Hl; [lia|]. intros [->|H].
  - exists (k ++ T "=" ++ t). split; [now left|]. apply Sub_r, Sub_r, Sub_refl.
  - destruct (IH ks ltac:(lia) H) as (u & Hu & Hs). exists u. split; [now right|auto].
Qed.
Lemma Sub_pairs sep t l : Nat.even (length l) = true -> In t l ->
  exists u, In u (pairs sep l) /\ Sub t u.
Proof.
  remember (length l) as n eqn:Hn. revert l Hn.
  induction n as [n IH] using (well_founded_induction lt_wf); intros l Hn He Hi.
  destruct l as [|a [|b l]]; [destruct Hi|cbn in Hn; subst; discriminate|].
  cbn in Hn. destruct Hi as [->|[->|Hi]].
  - exists (t ++ sep ++ b). split; [now left|apply Sub_l, Sub_refl].
  - exists (a ++ sep ++ t). split; [now left|apply Sub_r, Sub_r, Sub_refl].
  - destruct (IH (length l) ltac:(lia) l eq_refl) as (u & Hu & Hs); [subst n; exact He|exact Hi|].
    exists u. split; [now right|exact Hs].
Qed.

Ltac sub_solve := solve [repeat (first [apply Sub_refl | apply Sub_l; sub_solve | apply Sub_r; sub_solve])].

Lemma op_text_sub o l t : wf_op o (length l) = true -> In t l -> Sub t (op_text o l).
Proof.
  intros Hw Hi.
  assert (E1 : length l = 1 -> l = [t]).
  { destruct l as [|a [|? ?]]; try discriminate. destruct Hi as [->|[]]. reflexivity. }
  assert (E2 : length l = 2 -> Sub t (nth_t l 0) \/ Sub t (nth_t l 1)).
  { destruct l as [|a [|b [|? ?]]]; try discriminate. intros _.
    destruct Hi as [->|[->|[]]]; unfold nth_t; cbn; auto using Sub_refl. }
  assert (E3 : length l = 3 -> Sub t (nth_t l 0) \/ Sub t (nth_t l 1) \/ Sub t (nth_t l 2)).
  { destruct l as [|a [|b [|c [|? ?]]]]; try discriminate. intros _.
    destruct Hi as [->|[->|[->|[]]]]; unfold nth_t; cbn; auto using Sub_refl. }
  destruct o; cbn [wf_op] in Hw; cbn [op_text];
    try (apply Nat.eqb_eq in Hw).
  - destruct (E2 Hw) as [H|H]; eauto using Sub_l, Sub_r.
  - rewrite (E1 Hw). unfold nth_t; cbn [nth]. apply Sub_l, Sub_refl.
  - destruct (E2 Hw) as [H|H]; eauto 6 using Sub_l, Sub_r.
  - destruct l as [|f l]; [destruct Hi|]. cbn [length] in Hw. destruct Hi as [->|Hi].
    + unfold nth_t; cbn [nth]. apply Sub_l, Sub_refl.
    + apply Sub_r, Sub_r, Sub_l. cbn [tl].
      assert (Hin : exists u, In u (firstn npos l ++ zip_kw kws (skipn npos l)) /\ Sub t u).
      { rewrite <- (firstn_skipn npos l) in Hi. apply in_app_iff in Hi. destruct Hi as [Hi|Hi].
        - exists t. split; [apply in_or_app; now left|apply Sub_refl].
        - destruct (Sub_zip_kw t kws (skipn npos l)) as (u & Hu & Hs); auto.
          + rewrite skipn_length. lia.
          + exists u. split; [apply in_or_app; now right|auto]. }
      destruct Hin as (u & Hu & Hs). eapply Sub_trans; [exact Hs|]. now apply Sub_intersperse.
  - destruct (E2 Hw) as [H|H]; eauto 8 using Sub_l, Sub_r.
  - rewrite (E1 Hw). unfold nth_t; cbn [nth]. eauto using Sub_l, Sub_r, Sub_refl.
  - rewrite (E1 Hw). unfold nth_t; cbn [nth]. eauto using Sub_l, Sub_r, Sub_refl.
  - destruct (E3 Hw) as [H|[H|H]]; eauto 9 using Sub_l, Sub_r.
  - apply Sub_r, Sub_l, Sub_intersperse, Hi.
  - apply Sub_r, Sub_l, Sub_intersperse, Hi.
  - apply Sub_r, Sub_l, Sub_intersperse, Hi.
  - destruct (Sub_pairs (T ":") t l Hw Hi) as (u & Hu & Hs). apply Sub_r, Sub_l.
    eapply Sub_trans; [exact Hs|]. now apply Sub_intersperse.
  - destruct (E3 Hw) as [H|[H|H]]; eauto 9 using Sub_l, Sub_r.
  - destruct (E3 Hw) as [H|[H|H]]; eauto 9 using Sub_l, Sub_r.
  - destruct (E3 Hw) as [H|[H|H]]; eauto 9 using Sub_l, Sub_r.
Qed.

Section TextFacts.
  Variable wordch : N -> bool.
  Variable srepr : text -> text.
  Variable gname : nat -> text.
  Variable pnum : list nat -> nat.
  Variable pname : text -> text.
  Variable hname : list nat -> text.

  (** [\w] on ASCII, and what is known about names. *)
  Hypothesis wordch_ascii : forall c, (c < 128)%N ->
    wordch c = (ascii_alpha c || (N.leb 48 c && N.leb c 57) || N.eqb c 95).

  Notation print := (print srepr gname pnum).
  Notation simple := (simple wordch).
  Notation attach := (attach wordch srepr gname pnum).
  Notation gen := (gen wordch srepr gname pnum pname hname).

  Definition okc (c : N) : bool := wordch c || N.eqb c 34 || N.eqb c 39.
  Definition complex (e : px) : Prop := simple (print e) = false.

  Lemma bad_char c t : In c t -> okc c = false -> forallb okc t = false.
  Proof.
    intros H Hc. destruct (forallb okc t) eqn:E; auto.
    rewrite forallb_forall in E. rewrite (E c H) in Hc. discriminate.
  Qed.
  Lemma forallb_false_in t : forallb okc t = false -> exists c, In c t /\ okc c = false.
  Proof.
    induction t as [|c t IH]; cbn; [discriminate|].
    destruct (okc c) eqn:E; cbn; [intros H; destruct (IH H) as (d & Hd & Hk); eauto|eauto].
  Qed.
  Lemma strip_sub t : Sub (strip_parens t) t.
  Proof.
    unfold strip_parens. destruct t as [|c r]; [apply Sub_refl|].
    destruct (N.eqb c 40 && N.eqb (last (c :: r) 0%N) 41); [|apply Sub_refl].
    destruct r as [|d r]; [cbn; apply Sub_cons; apply Sub_refl|].
    apply Sub_cons. exists [], [last (d :: r) 0%N]. cbn [app].
    apply app_removelast_last. discriminate.
  Qed.
  Lemma complex_bad t : simple t = false -> exists c, In c t /\ okc c = false.
  Proof.
    intros H. apply forallb_false_in in H. destruct H as (c & Hc & Hk).
    exists c. split; auto. eapply Sub_in; [apply strip_sub|exact Hc].
  Qed.

  (** text that is complex whatever surrounds its bad character *)
  Lemma simple_paren m : (exists c, In c m /\ okc c = false) -> simple (T "(" ++ m ++ T ")") = false.
  Proof.
    intros (c & Hc & Hk). unfold Model_Code.simple, strip_parens.
    change (T "(") with [40%N]. change (T ")") with [41%N]. cbn [app].
    assert (HL : last (40%N :: m ++ [41%N]) 0%N = 41%N)
      by (change (40%N :: m ++ [41%N]) with ((40%N :: m) ++ [41%N]); apply last_last).
    rewrite HL, removelast_last. eapply bad_char; eauto.
  Qed.
  Lemma simple_call f m : (f <> [] \/ exists c, In c m /\ okc c = false) ->
    simple (f ++ T "(" ++ m ++ T ")") = false.
  Proof.
    intros H.
    assert (H40 : okc 40 = false) by (unfold okc; rewrite wordch_ascii by reflexivity; reflexivity).
    destruct f as [|c f].
    - destruct H as [H|H]; [congruence|]. now apply simple_paren.
    - unfold Model_Code.simple, strip_parens. cbn [app].
      destruct (N.eqb c 40 && N.eqb (last (c :: f ++ T "(" ++ m ++ T ")") 0%N) 41) eqn:E.
      + assert (HR : removelast (f ++ T "(" ++ m ++ T ")") = f ++ T "(" ++ m).
        { rewrite app_assoc, app_assoc. change (T ")") with [41%N]. rewrite removelast_last.
          now rewrite <- app_assoc. }
        rewrite HR. apply bad_char with 40%N; auto. apply in_app_iff. right. now left.
      + apply bad_char with 40%N; auto. right. apply in_app_iff. right. now left.
  Qed.
  Lemma simple_char t c : In c t -> okc c = false -> c <> 40%N -> c <> 41%N -> simple t = false.
  Proof.
    intros Hi Hk H0 H1. unfold Model_Code.simple, strip_parens. destruct t as [|d r]; [destruct Hi|].
    destruct (N.eqb d 40 && N.eqb (last (d :: r) 0%N) 41) eqn:E; [|eapply bad_char; eauto].
    apply andb_true_iff in E. destruct E as [E1 E2]. apply N.eqb_eq in E1, E2. subst d.
    destruct Hi as [Hi|Hi]; [congruence|].
    destruct r as [|d r]; [destruct Hi|].
    assert (HL : last (40%N :: d :: r) 0%N = last (d :: r) 0%N) by reflexivity.
    rewrite HL in E2.
    rewrite (app_removelast_last 0%N (l := d :: r)) in Hi by discriminate.
    apply in_app_iff in Hi. destruct Hi as [Hi|[Hi|[]]]; [eapply bad_char; eauto|congruence].
  Qed.
  Lemma okc_ascii c : (c < 128)%N ->
    okc c = (ascii_alpha c || (N.leb 48 c && N.leb c 57) || N.eqb c 95 || N.eqb c 34 || N.eqb c 39).
  Proof. intros H. unfold okc. now rewrite wordch_ascii. Qed.

  Ltac badc n := apply simple_char with (c := n);
     [| rewrite okc_ascii; reflexivity | discriminate | discriminate ].
  Ltac inchar := repeat (rewrite in_app_iff); cbn; tauto.

  Lemma attach_cases a r : attach a r = r \/ attach a r = PAttach a r.
  Proof. unfold Model_Code.attach. destruct (_ && _); auto. Qed.
  Lemma attach_sub a r : complex a -> Sub (print a) (print (attach a r)).
  Proof.
    intros Hc. unfold Model_Code.attach. unfold complex in Hc. rewrite Hc. cbn [negb andb].
    destruct (contains (print a) (print r)) eqn:E; cbn [negb].
    - now apply contains_Sub.
    - cbn [Model_Code.print]. apply Sub_r, Sub_l, Sub_refl.
  Qed.
  Lemma attach_id a r : Sub (print a) (print r) -> attach a r = r.
  Proof.
    intros H. unfold Model_Code.attach. apply contains_Sub in H. rewrite H.
    now rewrite andb_false_r.
  Qed.
  Lemma attach_simple a r : simple (print a) = true -> attach a r = r.
  Proof. intros H. unfold Model_Code.attach. now rewrite H. Qed.

  (** [gens], the local list recursion of [gen] *)
  Definition gens := fix gens (q : list nat) (i : nat) (l : list cv) (inp : px) : list px :=
    match l with [] => [] | c :: r => gen false (i :: q) c inp :: gens q (S i) r inp end.
  Lemma gens_length q i l inp : length (gens q i l inp) = length l.
  Proof. revert i; induction l; intros; cbn; auto. Qed.
  Lemma gens_in q i l inp c : In c l -> exists j, In (gen false (j :: q) c inp) (gens q i l inp).
  Proof.
    revert i; induction l as [|d l IH]; intros i; [intros []|]. intros [->|H].
    - exists i. now left.
    - destruct (IH (S i) H) as (j & Hj). exists j. now right.
  Qed.

  Definition fin (fed : bool) (inp r : px) : px := if fed then attach inp r else r.
  Lemma fin_cases fed inp r : fin fed inp r = r \/ fin fed inp r = PAttach inp r.
  Proof. destruct fed; cbn; auto using attach_cases. Qed.

  Lemma gen_COp fed q o l inp : gen fed q (COp o l) inp = fin fed inp (POp o (gens q 0 l inp)).
  Proof. reflexivity. Qed.
  Lemma gen_CBool fed q o l inp : gen fed q (CBool o l) inp = fin fed inp (PBool o (gens q 0 l inp)).
  Proof. reflexivity. Qed.
  Lemma gen_CEqs fed q l inp : gen fed q (CEqs l) inp = fin fed inp (PEqs (gens q 0 l inp)).
  Proof. reflexivity. Qed.
  Lemma gen_CAttr fed q a n inp :
    gen fed q (CAttr a n) inp =
    fin fed inp (attr_code (gen false (0 :: q) a inp) (gen false (1 :: q) n inp)).
  Proof. reflexivity. Qed.
  Lemma gen_CPipe fed q a b inp :
    gen fed q (CPipe a b) inp =
    attach (gen fed (0 :: q) a inp) (gen false (1 :: q) b (gen fed (0 :: q) a inp)).
  Proof. reflexivity. Qed.
  Lemma gen_CComp fed q k elts co inp :
    gen fed q (CComp k elts co) inp =
    fin fed inp (PComp k (gens q 1 elts (PName (pname (print inp)))) (pname (print inp)) inp
      (match co with Some c => Some (gen false (0 :: q) c (PName (pname (print inp)))) | None => None end)).
  Proof. reflexivity. Qed.

  Definition gen_labels (q : list nat) (n : lname) := fix go i (ls : list (lname * cv)) :=
    match ls with
    | [] => [PGet n]
    | (l, lc) :: r => PAdd l (gen false (i :: q) lc (PGet n)) :: go (S i) r
    end.
  Lemma gen_CCache fed q n c ls inp :
    gen fed q (CCache n c ls) inp =
    fin fed inp (PBool true (PAdd n (gen false (0 :: q) c inp) :: gen_labels q n 1 ls)).
  Proof. reflexivity. Qed.

  Definition gen_lines (q : list nat) := fix go i (ls : list (option cv * cv)) :=
    match ls with
    | [] => []
    | (co, v) :: r =>
        (match co with Some c => Some (gen false (0 :: i :: q) c (PName (T "data_"))) | None => None end,
         gen false (1 :: i :: q) v (PName (T "data_"))) :: go (S i) r
    end.
  Lemma gen_CItems fed q k lines inp :
    gen fed q (CItems k lines) inp =
    fin fed inp (PItems (hname q) k (inp :: map PName (params_of (CItems k lines)))
                   (params_of (CItems k lines)) (gen_lines q 0 lines)).
  Proof. reflexivity. Qed.

  Definition gen_stmts (q : list nat) := fix go i (ms : list (mkind * list cv)) :=
    match ms with
    | [] => []
    | (k, l) :: r => (k, gens (i :: q) 0 l (PName (T "data_"))) :: go (S i) r
    end.
  Lemma gen_CTap fed q o ms inp :
    gen fed q (CTap o ms) inp =
    fin fed inp (PTap (hname q) (gen false (0 :: q) o inp :: map PName (params_of (CTap o ms)))
                   (params_of (CTap o ms)) (gen_stmts q 1 ms)).
  Proof. reflexivity. Qed.

  Definition if_cond_input (nc : bool) (q : list nat) (inp : px) : px :=
    if simple (print inp) || nc then inp else PBool true [PAdd (P q) inp; PGet (P q)].
  Definition if_branch_input (nc : bool) (q : list nat) (inp : px) : px :=
    if simple (print inp) || nc then inp else PGet (P q).
  Definition fed_opt (q : list nat) (o : option cv) (inp : px) : px :=
    match o with None => inp | Some c => gen true q c inp end.
  Lemma gen_CIf fed q nc co t f inp :
    gen fed q (CIf nc co t f) inp =
    fin fed inp (PIf (fed_opt (0 :: q) co (if_cond_input nc q inp))
                     (fed_opt (1 :: q) t (if_branch_input nc q inp))
                     (fed_opt (2 :: q) f (if_branch_input nc q inp))).
  Proof. reflexivity. Qed.

  Definition over_self (self : option cv) : bool :=
    match self with None | Some CThis => false | Some _ => true end.
  Definition self_code (q : list nat) (self : option cv) (inp : px) : px :=
    match self with Some s => gen false (0 :: q) s inp | None => inp end.
  Definition path_code (at_ : bool) (idx : list px) (start : px) : px :=
    fold_left (fun a i => if at_ then attr_code a i else POp OItem [a; i]) idx start.
  Lemma gen_CDefault fed q at_ self idx d inp :
    gen fed q (CDefault at_ self idx d) inp =
    fin fed inp (PDefault (hname q)
      ((if over_self self then [self_code q self inp; inp] else [inp]) ++ [gen false (1 :: q) d inp])
      (path_code at_ (gens q 2 idx (PName (T "obj_")))
         (PName (if over_self self then T "self_" else T "obj_")))).
  Proof. reflexivity. Qed.

  Lemma fin_sub fed inp r t : Sub t (print r) -> Sub t (print (fin fed inp r)).
  Proof.
    intros H. destruct (fin_cases fed inp r) as [-> | ->]; auto.
    cbn [Model_Code.print]. apply Sub_r, Sub_r, Sub_r, Sub_l, H.
  Qed.
  Lemma complex_PAttach a b : complex (PAttach a b).
  Proof.
    unfold complex. cbn [Model_Code.print]. badc 32%N. inchar.
  Qed.
  Lemma fin_complex fed inp r : complex r -> complex (fin fed inp r).
  Proof. destruct (fin_cases fed inp r) as [-> | ->]; auto using complex_PAttach. Qed.
  Lemma attach_complex a r : complex r -> complex (attach a r).
  Proof. destruct (attach_cases a r) as [-> | ->]; auto using complex_PAttach. Qed.

  Lemma attr_code_cases a n :
    (exists s, n = PLit (LStr s) /\ attr_code a n = POp (OAttr s) [a]) \/
    attr_code a n = POp OGetattr [a; n].
  Proof.
    unfold attr_code. destruct n as [x|l|g|o l|i l|l|c t f|a' b|m e|m|k es x it co|f as_ b|f k as_ ps ls|f as_ ps ss]; auto. destruct l; auto. destruct (valid_attr s); [left|]; eauto.
  Qed.
  Lemma attr_code_sub1 a n : Sub (print a) (print (attr_code a n)).
  Proof.
    destruct (attr_code_cases a n) as [(s & -> & ->) | ->]; cbn [Model_Code.print map op_text];
      unfold nth_t; cbn [nth]; [apply Sub_l, Sub_refl|apply Sub_r, Sub_l, Sub_refl].
  Qed.
  Lemma attr_code_complex a n : complex (attr_code a n).
  Proof.
    unfold complex.
    destruct (attr_code_cases a n) as [(s & -> & ->) | ->]; cbn [Model_Code.print map op_text];
      unfold nth_t; cbn [nth].
    - badc 46%N. inchar.
    - badc 44%N. inchar.
  Qed.

  Lemma ic_complex q nc inp : complex inp -> complex (if_cond_input nc q inp).
  Proof.
    intros H. unfold if_cond_input. unfold complex in H. rewrite H. cbn [orb].
    destruct nc; auto. unfold complex. cbn [Model_Code.print map intersperse]. badc 32%N. inchar.
  Qed.
  Lemma ic_sub q nc inp : complex inp -> Sub (print inp) (print (if_cond_input nc q inp)).
  Proof.
    intros H. unfold if_cond_input. unfold complex in H. rewrite H. cbn [orb].
    destruct nc; [apply Sub_refl|]. cbn [Model_Code.print map intersperse].
    apply Sub_r, Sub_l, Sub_l, Sub_r, Sub_r, Sub_r, Sub_l, Sub_refl.
  Qed.

  Lemma okc_bad c : (c < 128)%N ->
    (ascii_alpha c || (N.leb 48 c && N.leb c 57) || N.eqb c 95 || N.eqb c 34 || N.eqb c 39) = false ->
    okc c = false.
  Proof. intros H E. now rewrite okc_ascii. Qed.

  Lemma complex_op o l : wf_op o (length l) = true ->
    (forall np kws, o = OCall np kws -> nth_t (map print l) 0 <> [] \/
        exists c, In c (intersperse (T ",") (firstn np (tl (map print l)) ++
                         zip_kw kws (skipn np (tl (map print l))))) /\ okc c = false) ->
    complex (POp o l).
  Proof.
    intros Hw Hcall. unfold complex. cbn [Model_Code.print]. destruct o; cbn [op_text].
    - badc 91%N. inchar.
    - badc 46%N. inchar.
    - badc 44%N. inchar.
    - apply simple_call. eauto.
    - badc 32%N. inchar.
    - badc 32%N. inchar.
    - badc 45%N. inchar.
    - badc 44%N. inchar.
    - badc 44%N. inchar.
    - badc 91%N. inchar.
    - badc 123%N. inchar.
    - badc 123%N. inchar.
    - badc 44%N. inchar.
    - badc 44%N. inchar.
    - badc 44%N. inchar.
  Qed.
  Lemma complex_comp k elts x it co : complex (PComp k elts x it co).
  Proof.
    unfold complex. cbn [Model_Code.print]. destruct k; cbn [comp_text]; badc 32%N; inchar.
  Qed.
  Lemma complex_if c t f : complex (PIf c t f).
  Proof. unfold complex. cbn [Model_Code.print]. badc 32%N. inchar. Qed.
  Lemma complex_sep_bool isor a b l : complex (PBool isor (a :: b :: l)).
  Proof.
    unfold complex. cbn [Model_Code.print map intersperse].
    badc 32%N. destruct isor; inchar.
  Qed.
  Lemma complex_sep_eqs a b l : complex (PEqs (a :: b :: l)).
  Proof. unfold complex. cbn [Model_Code.print map intersperse]. badc 32%N. inchar. Qed.
  Lemma complex_items f k args ps ls : complex (PItems f k args ps ls).
  Proof.
    unfold complex. cbn [Model_Code.print].
    change (T "))") with (T ")" ++ T ")"). 
    replace (kind_text k ++ T "(" ++ f ++ T "(" ++ intersperse (T ",") (map print args) ++ T ")" ++ T ")")
      with (kind_text k ++ T "(" ++ (f ++ T "(" ++ intersperse (T ",") (map print args) ++ T ")") ++ T ")")
      by (now rewrite <- !app_assoc).
    apply simple_call. left. destruct k; discriminate.
  Qed.

  (** a conversion that mentions its input has complex code when the input has *)
  Lemma bad_of_complex e t : complex e -> Sub (print e) t -> exists c, In c t /\ okc c = false.
  Proof.
    intros Hc Hs. destruct (complex_bad _ Hc) as (c & Hi & Hk). exists c. split; auto.
    eapply Sub_in; eauto.
  Qed.
  Lemma complex_nonempty e : complex e -> print e <> [].
  Proof. unfold complex. intros H E. rewrite E in H. discriminate. Qed.

  Lemma nopipe_fed c q e : nopipe c = true -> gen true q c e = attach e (gen false q c e).
  Proof. destruct c; cbn [nopipe]; intros H; try discriminate; reflexivity. Qed.
  Lemma uses_code c : uses c = true -> forall fed q e, complex e ->
    Sub (print e) (print (gen fed q c e)) /\ complex (gen fed q c e).
  Proof.
    induction c as [|l|g|ax|n|o l IH|a n IHa IHn|i l IH|l IH|nc co t f IHc IHt IHf
                    |a s idx d IHs IHi IHd|k es co IHe IHc|k ls IH|n c ls IHc IHl|a b IHa IHb|o ms IHo IHm]
      using cv_ind'; intros Hu fed q e Hc; try discriminate.
    - assert (HE : gen fed q CThis e = e).
      { cbn [Model_Code.gen]. destruct fed; auto. apply attach_id, Sub_refl. }
      rewrite HE. split; auto using Sub_refl.
    - cbn [uses] in Hu. apply andb_true_iff in Hu. destruct Hu as [Hw Hx].
      apply existsb_exists in Hx. destruct Hx as (c & Hin & Huc).
      rewrite Forall_forall in IH.
      destruct (gens_in q 0 l e c Hin) as (j & Hj).
      destruct (IH c Hin Huc false (j :: q) e Hc) as [Hs Hcx].
      assert (HinT : In (print (gen false (j :: q) c e)) (map print (gens q 0 l e)))
        by (now apply in_map).
      rewrite gen_COp. split.
      + apply fin_sub. cbn [Model_Code.print].
        eapply Sub_trans; [exact Hs|]. apply op_text_sub; auto.
        now rewrite map_length, gens_length.
      + apply fin_complex. apply complex_op; [now rewrite gens_length|].
        intros np kws ->.
        destruct (map print (gens q 0 l e)) as [|f r] eqn:EL; [destruct HinT|].
        destruct HinT as [Hf|Hr].
        * left. unfold nth_t; cbn [nth]. rewrite Hf. intros E.
          apply (complex_nonempty _ Hcx E).
        * right. cbn [tl].
          assert (Hlen : length (f :: r) = length l) by (rewrite <- EL, map_length; apply gens_length).
          cbn [wf_op] in Hw. apply Nat.eqb_eq in Hw. cbn [length] in Hlen.
          assert (Hu' : exists u, In u (firstn np r ++ zip_kw kws (skipn np r)) /\
                                  Sub (print (gen false (j :: q) c e)) u).
          { rewrite <- (firstn_skipn np r) in Hr. apply in_app_iff in Hr. destruct Hr as [Hr|Hr].
            - eexists. split; [apply in_or_app; left; exact Hr|apply Sub_refl].
            - destruct (Sub_zip_kw (print (gen false (j :: q) c e)) kws (skipn np r)) with (2 := Hr) as (u & Hu' & Hs').
              + rewrite skipn_length. lia.
              + exists u. split; [apply in_or_app; now right|auto]. }
          destruct Hu' as (u & Hu1 & Hu2).
          apply (bad_of_complex _ _ Hcx). eapply Sub_trans; [exact Hu2|]. now apply Sub_intersperse.
    - cbn [uses] in Hu. rewrite gen_CAttr. split; [apply fin_sub|apply fin_complex, attr_code_complex].
      destruct (IHa Hu false (0 :: q) e Hc) as [Hs _].
      eapply Sub_trans; [exact Hs|apply attr_code_sub1].
    - cbn [uses] in Hu. apply existsb_exists in Hu. destruct Hu as (c & Hin & Huc).
      rewrite Forall_forall in IH.
      destruct (gens_in q 0 l e c Hin) as (j & Hj).
      destruct (IH c Hin Huc false (j :: q) e Hc) as [Hs Hcx].
      assert (HinT : In (print (gen false (j :: q) c e)) (map print (gens q 0 l e)))
        by (now apply in_map).
      rewrite gen_CBool.
      assert (HS : Sub (print e) (print (PBool i (gens q 0 l e)))).
      { cbn [Model_Code.print]. apply Sub_r, Sub_l. eapply Sub_trans; [exact Hs|].
        now apply Sub_intersperse. }
      split; [now apply fin_sub|]. apply fin_complex. unfold complex. cbn [Model_Code.print].
      apply simple_paren. apply (bad_of_complex _ _ Hcx). now apply Sub_intersperse.
    - cbn [uses] in Hu. apply existsb_exists in Hu. destruct Hu as (c & Hin & Huc).
      rewrite Forall_forall in IH.
      destruct (gens_in q 0 l e c Hin) as (j & Hj).
      destruct (IH c Hin Huc false (j :: q) e Hc) as [Hs Hcx].
      assert (HinT : In (print (gen false (j :: q) c e)) (map print (gens q 0 l e)))
        by (now apply in_map).
      rewrite gen_CEqs.
      assert (HS : Sub (print e) (print (PEqs (gens q 0 l e)))).
      { cbn [Model_Code.print]. apply Sub_r, Sub_l. eapply Sub_trans; [exact Hs|].
        now apply Sub_intersperse. }
      split; [now apply fin_sub|]. apply fin_complex. unfold complex. cbn [Model_Code.print].
      apply simple_paren. apply (bad_of_complex _ _ Hcx). now apply Sub_intersperse.
    - rewrite gen_CIf. split; [|apply fin_complex, complex_if]. apply fin_sub.
      cbn [Model_Code.print]. apply Sub_r, Sub_r, Sub_r, Sub_l.
      assert (Hi := ic_complex q nc e Hc). assert (Hs := ic_sub q nc e Hc).
      destruct co as [c|]; cbn [fed_opt]; [|exact Hs].
      eapply Sub_trans; [exact Hs|]. cbn [uses] in Hu. cbn [optP] in IHc.
      destruct (nopipe c) eqn:Hn; cbn [orb] in Hu.
      + rewrite nopipe_fed by exact Hn. now apply attach_sub.
      + now apply IHc.
    - rewrite gen_CDefault.
      assert (HS : Sub (print e) (intersperse (T ",") (map print
        ((if over_self s then [self_code q s e; e] else [e]) ++ [gen false (1 :: q) d e])))).
      { apply Sub_intersperse. apply in_map. destruct (over_self s); cbn; auto. }
      split; [apply fin_sub|apply fin_complex; unfold complex]; cbn [Model_Code.print].
      + apply Sub_r, Sub_r, Sub_l, HS.
      + apply simple_call. right. apply (bad_of_complex _ _ Hc HS).
    - rewrite gen_CComp. split; [apply fin_sub|apply fin_complex, complex_comp].
      cbn [Model_Code.print]. destruct k; cbn [comp_text];
        eauto 9 using Sub_r, Sub_l, Sub_refl.
    - rewrite gen_CItems.
      assert (HS : Sub (print e) (intersperse (T ",") (map print (e :: map PName (params_of (CItems k ls)))))).
      { apply Sub_intersperse. now left. }
      split; [apply fin_sub|apply fin_complex, complex_items]; cbn [Model_Code.print].
      apply Sub_r, Sub_r, Sub_r, Sub_r, Sub_l, HS.
    - cbn [uses] in Hu. destruct (IHc Hu false (0 :: q) e Hc) as [Hs Hcx].
      rewrite gen_CCache. split; [apply fin_sub|apply fin_complex].
      + cbn [Model_Code.print]. apply Sub_r, Sub_l. cbn [map].
        eapply Sub_trans; [|apply Sub_intersperse; now left].
        cbn [Model_Code.print]. apply Sub_r, Sub_r, Sub_r, Sub_l, Hs.
      + destruct ls as [|(l, lc) ls]; cbn [gen_labels]; apply complex_sep_bool.
    - cbn [uses] in Hu. apply andb_true_iff in Hu. destruct Hu as [Hua Hub].
      destruct (IHa Hua fed (0 :: q) e Hc) as [Hs1 Hc1].
      destruct (IHb Hub false (1 :: q) (gen fed (0 :: q) a e) Hc1) as [Hs2 Hc2].
      rewrite gen_CPipe. rewrite attach_id by exact Hs2. split; auto.
      eapply Sub_trans; eauto.
    - cbn [uses] in Hu. destruct (IHo Hu false (0 :: q) e Hc) as [Hs Hcx].
      rewrite gen_CTap.
      assert (HS : Sub (print (gen false (0 :: q) o e)) (intersperse (T ",") (map print
                     (gen false (0 :: q) o e :: map PName (params_of (CTap o ms)))))).
      { apply Sub_intersperse. now left. }
      split; [apply fin_sub|apply fin_complex; unfold complex]; cbn [Model_Code.print].
      + eapply Sub_trans; [exact Hs|]. apply Sub_r, Sub_r, Sub_l, HS.
      + apply simple_call. right. apply (bad_of_complex _ _ Hcx HS).
  Qed.

  Lemma fed_uses c : uses c = true -> forall q e, complex e -> gen true q c e = gen false q c e.
  Proof.
    induction c using cv_ind'; intros Hu q e Hc; try discriminate;
      try (rewrite nopipe_fed by reflexivity; apply attach_id; now apply uses_code).
    cbn [uses] in Hu. apply andb_true_iff in Hu. destruct Hu as [Hua Hub].
    rewrite !gen_CPipe. now rewrite (IHc1 Hua).
  Qed.

  Lemma gens_ext q i l e e' :
    Forall (fun c => forall q, gen false q c e = gen false q c e') l -> gens q i l e = gens q i l e'.
  Proof.
    revert i; induction l as [|c l IH]; intros i H; cbn; auto. inversion H; subst.
    now rewrite H2, IH.
  Qed.
  Lemma gen_free c : free c = true -> forall q e e', gen false q c e = gen false q c e'.
  Proof.
    induction c as [|l|g|ax|n|o l IH|a n IHa IHn|i l IH|l IH|nc co t f IHc IHt IHf
                    |a s idx d IHs IHi IHd|k es co IHe IHc|k ls IH|n c ls IHc IHl|a b IHa IHb|o ms IHo IHm]
      using cv_ind'; intros Hf q e e'; try discriminate; try reflexivity.
    - cbn [free] in Hf. rewrite !gen_COp. cbn [fin]. f_equal. apply gens_ext.
      rewrite Forall_forall in *. rewrite forallb_forall in Hf. auto.
    - cbn [free] in Hf. apply andb_true_iff in Hf. destruct Hf as [Hfa Hfn].
      rewrite !gen_CAttr. cbn [fin]. rewrite (IHa Hfa (0 :: q) e e'), (IHn Hfn (1 :: q) e e').
      reflexivity.
    - cbn [free] in Hf. rewrite !gen_CBool. cbn [fin]. f_equal. apply gens_ext.
      rewrite Forall_forall in *. rewrite forallb_forall in Hf. auto.
    - cbn [free] in Hf. rewrite !gen_CEqs. cbn [fin]. f_equal. apply gens_ext.
      rewrite Forall_forall in *. rewrite forallb_forall in Hf. auto.
    - cbn [free] in Hf. rewrite !gen_CCache. cbn [fin]. now rewrite (IHc Hf (0 :: q) e e').
    - cbn [free] in Hf. rewrite !gen_CPipe. now rewrite (IHa Hf (0 :: q) e e').
    - cbn [free] in Hf. rewrite !gen_CTap. cbn [fin]. now rewrite (IHo Hf (0 :: q) e e').
  Qed.

  Lemma andb4 a b c d : a && b && c && d = true <-> a = true /\ b = true /\ c = true /\ d = true.
  Proof. rewrite !andb_true_iff. tauto. Qed.

  Lemma lin_uses pt c : lin c = true -> forall fed x, frag pt fed x c = true -> uses c = true.
  Proof.
    induction c as [|l|g|ax|n|o l IH|a n IHa IHn|i l IH|l IH|nc co t f IHc IHt IHf
                    |a s idx d IHs IHi IHd|k es co IHe IHc|k ls IH|n c ls IHc IHl|a b IHa IHb|o ms IHo IHm]
      using cv_ind'; intros Hl fed x Hf; try discriminate; try reflexivity.
    - cbn [frag] in Hf. rewrite !andb_true_iff in Hf. destruct Hf as [[_ Hw] Hfl].
      cbn [uses]. rewrite Hw. cbn [andb]. clear Hw.
      cbn [lin] in Hl. induction l as [|c l IHl]; [discriminate|].
      cbn [forallb] in Hfl. apply andb_true_iff in Hfl. destruct Hfl as [Hfc Hfl].
      inversion IH; subst. cbn [existsb]. apply orb_true_iff in Hl. destruct Hl as [Hl|Hl].
      + apply andb_true_iff in Hl. destruct Hl as [Hlc _].
        match goal with H : lin c = true -> _ |- _ => rewrite (H Hlc false x Hfc) end. reflexivity.
      + apply andb_true_iff in Hl. destruct Hl as [_ Hl]. rewrite (IHl H2 Hl Hfl). apply orb_true_r.
    - cbn [lin] in Hl. apply andb_true_iff in Hl. destruct Hl as [Hl _].
      cbn [frag] in Hf. rewrite !andb_true_iff in Hf. destruct Hf as [[_ Hfa] _].
      cbn [uses]. now apply (IHa Hl false x).
    - cbn [lin] in Hl. destruct l as [|c l]; [discriminate|]. apply andb_true_iff in Hl. destruct Hl as [Hl _].
      cbn [frag forallb] in Hf. rewrite !andb_true_iff in Hf. destruct Hf as [_ [Hfc _]].
      inversion IH; subst. cbn [uses existsb].
      match goal with H : lin c = true -> _ |- _ => rewrite (H Hl false x Hfc) end. reflexivity.
    - cbn [lin] in Hl. destruct l as [|c l]; [discriminate|]. apply andb_true_iff in Hl. destruct Hl as [Hl _].
      cbn [frag forallb] in Hf. rewrite !andb_true_iff in Hf. destruct Hf as [_ [Hfc _]].
      inversion IH; subst. cbn [uses existsb].
      match goal with H : lin c = true -> _ |- _ => rewrite (H Hl false x Hfc) end. reflexivity.
    - cbn [lin] in Hl. apply andb_true_iff in Hl. destruct Hl as [_ Hl].
      cbn [frag] in Hf. rewrite !andb_true_iff in Hf. destruct Hf as [[[[_ Hfc] _] _] _].
      destruct co as [c|]; [|reflexivity]. cbn [uses]. cbn [optb] in Hfc. cbn [optP] in IHc.
      rewrite (IHc Hl true x Hfc). apply orb_true_r.
    - cbn [lin] in Hl. cbn [frag] in Hf. rewrite !andb_true_iff in Hf. destruct Hf as [[[[[_ Hfc] _] _] _] _].
      cbn [uses]. now apply (IHc Hl false x).
    - cbn [lin] in Hl. apply andb_true_iff in Hl. destruct Hl as [Hla Hlb].
      cbn [frag] in Hf. cbn [uses].
      destruct a; try discriminate Hla; rewrite !andb_true_iff in Hf.
      1: { rewrite (IHb Hlb false x) by apply Hf. reflexivity. }
      all: destruct Hf as [[[Hfa _] Hfb] _]; rewrite (IHa Hla fed x Hfa), (IHb Hlb false true Hfb); reflexivity.
    - cbn [lin] in Hl. cbn [frag] in Hf. rewrite !andb_true_iff in Hf. destruct Hf as [[_ Hfo] _].
      cbn [uses]. now apply (IHo Hl false x).
  Qed.

  Lemma forallb_impl {B} (f g : B -> bool) l :
    Forall (fun b => f b = true -> g b = true) l -> forallb f l = true -> forallb g l = true.
  Proof.
    intros H. induction H; cbn; auto. rewrite !andb_true_iff. tauto.
  Qed.
  Lemma frag_mono pt c : forall fed, frag pt fed true c = true -> frag pt fed false c = true.
  Proof.
    assert (HO : forall o fed, optP (fun c => forall fed, frag pt fed true c = true -> frag pt fed false c = true) o ->
                 optb (frag pt fed true) o = true -> optb (frag pt fed false) o = true).
    { intros [c0|] fed; cbn; auto. }
    induction c as [|l|g|ax|n|o l IH|a n IHa IHn|i l IH|l IH|nc co t f IHc IHt IHf
                    |a s idx d IHs IHi IHd|k es co IHe IHc|k ls IH|n c ls IHc IHl|a b IHa IHb|o ms IHo IHm]
      using cv_ind'; intros fed Hf; cbn [frag] in *; rewrite ?andb_false_r; cbn [negb orb andb];
      rewrite ?andb_true_iff in *; auto.
    - tauto.
    - destruct Hf as [[_ Hw] Hl]. split; auto.
      eapply forallb_impl; [|exact Hl]. rewrite Forall_forall in *. auto.
    - destruct Hf as [[_ Ha] Hn]. split; auto.
    - destruct Hf as [[_ Hw] Hl]. split; auto.
      eapply forallb_impl; [|exact Hl]. rewrite Forall_forall in *. auto.
    - destruct Hf as [[_ Hw] Hl]. split; auto.
      eapply forallb_impl; [|exact Hl]. rewrite Forall_forall in *. auto.
    - destruct Hf as [[[[_ Hc] Ht] Hff] _]. repeat split; auto.
    - destruct Hf as [[[Hs Hd] Hi] Ha]. repeat split; auto.
    - destruct Hf as [[[[[_ Hc] Hl] Hn] Hls] Hd]. repeat split; auto.
    - destruct a; rewrite ?andb_true_iff in *; try tauto.
      all: try (destruct Hf as [Hb _]; split; auto; fail).
      all: try (destruct Hf as [[[Hfa Hlb] Hfb] Hcp]; repeat split; auto; fail).
    - destruct Hf as [[_ Ho] Hm]. split; auto.
  Qed.

  Lemma frag_writes pt c : forall fed x, frag pt fed x c = true ->
    forall n, In n (writes c) -> user_name n = true.
  Proof.
    assert (HO : forall o fed x n,
      optP (fun c => forall fed x, frag pt fed x c = true -> forall n, In n (writes c) -> user_name n = true) o ->
      optb (frag pt fed x) o = true -> In n (match o with Some c => writes c | None => [] end) -> user_name n = true).
    { intros [c0|] fed x n; cbn; [eauto|tauto]. }
    assert (HL : forall l x n,
      Forall (fun c => forall fed x, frag pt fed x c = true -> forall n, In n (writes c) -> user_name n = true) l ->
      forallb (frag pt false x) l = true -> In n (flat_map writes l) -> user_name n = true).
    { intros l x n Hl Hf Hi. rewrite Forall_forall in Hl. rewrite forallb_forall in Hf.
      apply in_flat_map in Hi. destruct Hi as (c0 & Hc & Hi). eauto. }
    induction c as [|l|g|ax|n|o l IH|a n IHa IHn|i l IH|l IH|nc co t f IHc IHt IHf
                    |a s idx d IHs IHi IHd|k es co IHe IHc|k ls IH|n c ls IHc IHl|a b IHa IHb|o ms IHo IHm]
      using cv_ind'; intros fed y Hf m Hm; cbn [frag writes] in *; rewrite ?andb_true_iff in *;
      try (destruct Hm; fail); rewrite ?in_app_iff in Hm.
    - destruct Hf as [_ Hl]. eauto.
    - destruct Hf as [[_ Ha] Hn]. destruct Hm; eauto.
    - destruct Hf as [_ Hl]. eauto.
    - destruct Hf as [_ Hl]. eauto.
    - destruct Hf as [[[[_ Hc] Ht] Hff] _]. destruct Hm as [Hm|[Hm|Hm]]; [eapply (HO co)|eapply (HO t)|eapply (HO f)]; eauto.
    - destruct Hf as [[[Hs Hd] Hi] Ha]. destruct Hm as [Hm|[Hm|Hm]]; eauto.
    - destruct Hf as [[_ He] Hc]. destruct Hm as [Hm|Hm]; [|eapply (HO co)]; eauto.
    - apply in_flat_map in Hm. destruct Hm as ((co & c) & Hin & Hm). rewrite Forall_forall in IH.
      rewrite forallb_forall in Hf. specialize (Hf _ Hin). apply andb_true_iff in Hf.
      destruct (IH _ Hin) as [H1 H2]. destruct Hf as [Hf1 Hf2]. cbn [fst snd] in *.
      apply in_app_iff in Hm. destruct Hm as [Hm|Hm]; eauto.
    - destruct Hf as [[[[[_ Hc] Hl] Hn] Hls] Hd].
      destruct Hm as [<-|Hm]; [exact Hn|]. rewrite !in_app_iff in Hm. destruct Hm as [Hm|[Hm|Hm]].
      + eauto.
      + apply in_map_iff in Hm. destruct Hm as (l & <- & Hin). rewrite forallb_forall in Hls. auto.
      + apply in_flat_map in Hm. destruct Hm as (l & Hin & Hm). rewrite Forall_forall in IHl.
        rewrite forallb_forall in Hl. eauto.
    - destruct a; rewrite ?andb_true_iff in *;
        (destruct Hm as [Hm|Hm]; [first [destruct Hm; fail | (eapply IHa; [|exact Hm]; apply Hf)]
                                 |eapply IHb; [|exact Hm]; apply Hf]).
    - destruct Hf as [[_ Ho] Hms]. destruct Hm as [Hm|Hm]; [eauto|].
      apply in_flat_map in Hm. destruct Hm as (l & Hin & Hm). rewrite Forall_forall in IHm.
      rewrite forallb_forall in Hms. eauto.
  Qed.

  (** Names are never empty. *)
  Hypothesis gname_ne : forall g, gname g <> [].
  Hypothesis hname_ne : forall q, hname q <> [].
  Hypothesis srepr_ne : forall s, srepr s <> [].

  Lemma ndec_ne n : ndec n <> [].
  Proof.
    unfold ndec. cbn [digits]. destruct (N.ltb n 10); [discriminate|].
    intros E. apply app_eq_nil in E. destruct E as [_ E]. discriminate.
  Qed.
  Lemma lit_ne l : lit_text srepr l <> [].
  Proof.
    destruct l as [|b|z|s]; cbn [lit_text]; try discriminate; auto.
    - destruct b; discriminate.
    - destruct z; cbn [zrepr]; try apply ndec_ne. cbn. discriminate.
  Qed.
  Lemma has_char_ne c (t : text) : In c t -> t <> [].
  Proof. intros H E. subst. destruct H. Qed.
  Ltac ne n := apply has_char_ne with (c := n); inchar.

  Lemma op_text_ne o l : op_text o l <> [].
  Proof.
    destruct o; cbn [op_text]; [ne 91%N|ne 46%N|ne 44%N|ne 40%N| | | | | | | | | | | ]; try discriminate.
  Qed.
  Lemma fin_ne fed e r : print r <> [] -> print (fin fed e r) <> [].
  Proof. destruct (fin_cases fed e r) as [-> | ->]; auto. cbn [Model_Code.print]. discriminate. Qed.
  Lemma gen_ne c : (forall x, In x (args_of c) -> x <> []) -> forall fed q e, print e <> [] ->
    print (gen fed q c e) <> [].
  Proof.
    induction c as [|l|g|ax|n|o l IH|a n IHa IHn|i l IH|l IH|nc co t f IHc IHt IHf
                    |a s idx d IHs IHi IHd|k es co IHe IHc|k ls IH|n c ls IHc IHl|a b IHa IHb|o ms IHo IHm]
      using cv_ind'; intros Ha fed q e He.
    - assert (HE : gen fed q CThis e = e).
      { cbn [Model_Code.gen]. destruct fed; auto. apply attach_id, Sub_refl. }
      now rewrite HE.
    - change (gen fed q (CLit l) e) with (fin fed e (PLit l)). apply fin_ne. cbn [Model_Code.print]. apply lit_ne.
    - change (gen fed q (CGlob g) e) with (fin fed e (PGlob g)). apply fin_ne. cbn [Model_Code.print]. auto.
    - change (gen fed q (CArg ax) e) with (fin fed e (PName ax)). apply fin_ne. cbn [Model_Code.print].
      apply Ha. now left.
    - change (gen fed q (CLabel n) e) with (fin fed e (PGet n)). apply fin_ne. cbn [Model_Code.print]. discriminate.
    - rewrite gen_COp. apply fin_ne. cbn [Model_Code.print]. apply op_text_ne.
    - rewrite gen_CAttr. apply fin_ne.
      destruct (attr_code_cases (gen false (0 :: q) a e) (gen false (1 :: q) n e)) as [(s & _ & ->) | ->];
        cbn [Model_Code.print]; apply op_text_ne.
    - rewrite gen_CBool. apply fin_ne. cbn [Model_Code.print]. discriminate.
    - rewrite gen_CEqs. apply fin_ne. cbn [Model_Code.print]. discriminate.
    - rewrite gen_CIf. apply fin_ne. cbn [Model_Code.print]. discriminate.
    - rewrite gen_CDefault. apply fin_ne. cbn [Model_Code.print]. ne 40%N.
    - rewrite gen_CComp. apply fin_ne. cbn [Model_Code.print]. destruct k; cbn [comp_text]; discriminate.
    - rewrite gen_CItems. apply fin_ne. cbn [Model_Code.print]. ne 40%N.
    - rewrite gen_CCache. apply fin_ne. cbn [Model_Code.print]. discriminate.
    - rewrite gen_CPipe. cbn [args_of] in Ha.
      destruct (attach_cases (gen fed (0 :: q) a e) (gen false (1 :: q) b (gen fed (0 :: q) a e))) as [-> | ->].
      + apply IHb; [intros; apply Ha, in_or_app; auto|]. apply IHa; auto.
        intros; apply Ha, in_or_app; auto.
      + cbn [Model_Code.print]. discriminate.
    - rewrite gen_CTap. apply fin_ne. cbn [Model_Code.print]. ne 40%N.
  Qed.

  Lemma compound_code pt c : (forall x, In x (args_of c) -> x <> []) -> compound c = true ->
    forall fed x, frag pt fed x c = true -> forall q e, print e <> [] -> complex (gen fed q c e).
  Proof.
    induction c as [|l|g|ax|n|o l IH|a n IHa IHn|i l IH|l IH|nc co t f IHc IHt IHf
                    |a s idx d IHs IHi IHd|k es co IHe IHc|k ls IH|n c ls IHc IHl|a b IHa IHb|o ms IHo IHm]
      using cv_ind'; intros Ha Hcp fed y Hf q e He; try discriminate.
    - cbn [frag] in Hf. rewrite !andb_true_iff in Hf. destruct Hf as [[_ Hw] _].
      rewrite gen_COp. apply fin_complex, complex_op; [now rewrite gens_length|].
      intros np kws ->. left. destruct l as [|c l]; [discriminate|].
      cbn. apply gen_ne; auto. intros z Hz. apply Ha. cbn. apply in_or_app. auto.
    - rewrite gen_CAttr. apply fin_complex, attr_code_complex.
    - cbn [frag] in Hf. rewrite !andb_true_iff in Hf. destruct Hf as [[_ Hw] _].
      rewrite gen_CBool. destruct l as [|c [|d l]]; [discriminate|discriminate|].
      apply fin_complex, complex_sep_bool.
    - cbn [frag] in Hf. rewrite !andb_true_iff in Hf. destruct Hf as [[_ Hw] _].
      rewrite gen_CEqs. destruct l as [|c [|d l]]; [discriminate|discriminate|].
      apply fin_complex, complex_sep_eqs.
    - rewrite gen_CIf. apply fin_complex, complex_if.
    - rewrite gen_CDefault. apply fin_complex. unfold complex. cbn [Model_Code.print].
      apply simple_call. auto.
    - rewrite gen_CComp. apply fin_complex, complex_comp.
    - rewrite gen_CItems. apply fin_complex, complex_items.
    - rewrite gen_CCache. apply fin_complex.
      destruct ls as [|(l, lc) ls]; cbn [gen_labels]; apply complex_sep_bool.
    - rewrite gen_CPipe. cbn [args_of] in Ha.
      assert (Haa : forall x, In x (args_of a) -> x <> []) by (intros; apply Ha, in_or_app; auto).
      assert (Hab : forall x, In x (args_of b) -> x <> []) by (intros; apply Ha, in_or_app; auto).
      assert (Hfb : exists z, frag pt false z b = true).
      { cbn [frag] in Hf. destruct a; rewrite ?andb_true_iff in Hf; eexists; apply Hf. }
      destruct Hfb as (z & Hfb).
      assert (Hne := gen_ne a Haa fed (0 :: q) e He).
      destruct (match b with CThis => true | _ => false end) eqn:Eb.
      + destruct b; try discriminate. cbn [compound] in Hcp. cbn [Model_Code.gen].
        rewrite attach_id by apply Sub_refl.
        assert (exists z', frag pt fed z' a = true) as (z' & Hfa).
        { cbn [frag] in Hf. destruct a; try discriminate Hcp; rewrite ?andb_true_iff in Hf; eexists; apply Hf. }
        now apply (IHa Haa Hcp fed z').
      + apply attach_complex. apply (IHb Hab) with (x := z); auto.
        destruct b; auto; discriminate.
    - rewrite gen_CTap. apply fin_complex. unfold complex. cbn [Model_Code.print].
      apply simple_call. auto.
  Qed.
End TextFacts.
