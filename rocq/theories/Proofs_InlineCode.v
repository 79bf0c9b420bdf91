(** The code of an argument at its place, and the code of an inline expression. *)
From Coq Require Import String Ascii List NArith ZArith Bool Arith Lia.
From Verif Require Import Model_Code Model_Inline Spec_Frag Spec_Syntax Spec_Tree Spec_Inline Proofs_Syntax Proofs_Grammar Proofs_Lex
  Proofs_Code Proofs_Scope Proofs_Tree Proofs_Plug Proofs_Inline.
From Verif Require Proofs_Api.
Import ListNotations.

Record code_ok (w : text) (ts : list token) (a : ast) (int : bool) : Prop := {
  co_lex : lex_ok w ts int;
  co_lev : forall k r, k <= 11 -> stops k r -> P k (ts ++ r) a r;
  co_prim : int = false -> forall r b r', PTrail a r b r' -> P 13 (ts ++ r) b r';
  co_pos : forall r, match r with Assign :: _ => False | _ => True end -> positional (ts ++ r);
  co_tok : match ts with [] | KNot :: _ => False | TBin _ :: _ => int = true | _ => True end
}.
Lemma code_ok_int w ts a int : code_ok w ts a false -> code_ok w ts a int.
Proof.
  intros H. destruct int; [|exact H]. constructor; try apply H.
  - apply lex_ok_int, H.
  - discriminate.
  - pose proof (co_tok _ _ _ _ H) as K. destruct ts as [|[] ts]; auto.
Qed.
Lemma code_ok_reads w ts a int : code_ok w ts a int -> reads w a.
Proof.
  intros H. destruct (co_lev _ _ _ _ H 0 [] ltac:(lia) I) as [n E]. exists ts, n. rewrite app_nil_r in E. split; [|exact E].
  destruct (co_lex _ _ _ _ H) as [L _]. pose proof (L [] I) as K. rewrite app_nil_r in K. unfold tokenize. rewrite K. cbn. now rewrite app_nil_r.
Qed.

(** *** first and last characters of generated code *)
Definition ending (c : N) : bool := is_ident c || is_quote c || existsb (N.eqb c) [41; 93; 125]%N.
Definition starts_ok (t : text) : Prop := match t with c :: _ => second c = false | [] => False end.
Definition ends_ok (t : text) : Prop := exists s d, t = (s ++ [d])%list /\ ending d = true.
Definition edged (t : text) : Prop := starts_ok t /\ ends_ok t.
Lemma starts_app a b : starts_ok a -> starts_ok (a ++ b). Proof. destruct a; [contradiction|auto]. Qed.
Lemma ends_app a b : ends_ok b -> ends_ok (a ++ b).
Proof. intros (s & d & -> & E). exists (a ++ s)%list, d. split; [apply app_assoc|exact E]. Qed.
Lemma ends_par : ends_ok (T ")"). Proof. exists [], 41%N. now split. Qed.
Lemma ends_br : ends_ok (T "]"). Proof. exists [], 93%N. now split. Qed.
Lemma ends_brace : ends_ok (T "}"). Proof. exists [], 125%N. now split. Qed.
Lemma ends_two s : ends_ok (T s) -> ends_ok (T s). Proof. auto. Qed.
Lemma ends_all t : t <> [] -> (forall c, In c t -> ending c = true) -> ends_ok t.
Proof.
  intros N H. destruct (exists_last N) as (s & d & ->). exists s, d. split; [reflexivity|]. apply H, in_or_app. right. now left.
Qed.
Lemma ident_edged x : ident x = true -> edged x.
Proof.
  intros H. destruct (ident_token x H) as [W _]. unfold wordy in W. destruct x as [|c x]; [discriminate|].
  apply andb_true_iff in W as [W1 W2]. assert (C : is_ident c = true) by (unfold is_ident; now rewrite W1). split.
  - cbn. now apply alpha_second.
  - apply ends_all; [discriminate|]. intros d D. unfold ending.
    destruct D as [<-|D]; [now rewrite C|]. rewrite forallb_forall in W2. now rewrite (W2 _ D).
Qed.
Lemma ndec_edged n : edged (ndec n).
Proof.
  split.
  - destruct (ndec_head n) as (c & r & E & D). rewrite E. apply alpha_second. unfold is_ident. now rewrite D, orb_true_r.
  - destruct (ndec_field n) as (_ & D & N & _). apply ends_all; [exact N|]. intros c I.
    rewrite forallb_forall in D. specialize (D _ I). unfold ending, is_ident. unfold decimal in D. unfold is_digit. now rewrite D, !orb_true_r.
Qed.

Section Argument.
  Variable printable : N -> bool.
  Variable gname : nat -> text.
  Variable pnum : list nat -> nat.
  Hypothesis PO : printable_ok printable.
  Notation print := (print (py_repr printable) gname pnum).
  Notation tree := (tree gname pnum).
  Notation readable := (readable gname pnum).

  Lemma repr_edged s : edged (py_repr printable s).
  Proof.
    unfold py_repr. set (q := if _ && _ then 34%N else 39%N). assert (Q : q = 34%N \/ q = 39%N) by (subst q; destruct (_ && _); auto).
    split; [destruct Q as [-> | ->]; reflexivity|]. apply ends_app, ends_app. exists [], q. split; [reflexivity|]. destruct Q as [-> | ->]; reflexivity.
  Qed.
  Ltac ends := match goal with
    | |- ends_ok (T ")") => exact ends_par
    | |- ends_ok (T "]") => exact ends_br
    | |- ends_ok (T "}") => exact ends_brace
    | |- ends_ok (T ",)") => exists (T ","), 41%N; now split
    | |- ends_ok (T "))") => exists (T ")"), 41%N; now split
    | |- ends_ok (T "')") => exists (T "'"), 41%N; now split
    | |- ends_ok (_ ++ _) => apply ends_app; ends
    end.
  Ltac con := split; [reflexivity|ends].
  Lemma edges e : readable e = true -> edged (print e).
  Proof.
    induction e as [x|l|g|o l H|i l H|l H|c t f Hc Ht Hf|a b Ha Hb|n e He|n|k l x it co Hl Hi Hc|f l b Hl Hb|f k l ps ls Hl|f l ps ss Hl]
      using px_ind'; intros R; cbn [Spec_Tree.readable] in R; cbn [Model_Code.print].
    - now apply ident_edged.
    - destruct l as [|[]|z|s]; cbn [lit_text].
      + split; [reflexivity|]. exists (T "Non"), 101%N. now split.
      + split; [reflexivity|]. exists (T "Tru"), 101%N. now split.
      + split; [reflexivity|]. exists (T "Fals"), 101%N. now split.
      + destruct z; cbn [zrepr]; try apply ndec_edged. split; [reflexivity|]. apply ends_app, ndec_edged.
      + apply repr_edged.
    - now apply ident_edged.
    - apply andb_true_iff in R as [R1 R2]. unfold op_ok in R1. apply andb_true_iff in R1 as [W R1].
      destruct o; cbn [op_text]; try con.
      + destruct l as [|a [|b [|? ?]]]; try discriminate W. cbn [map nth_t nth]. cbn [forallb] in R2. apply andb_true_iff in R2 as [Ra _].
        inversion H; subst. destruct (H2 Ra) as [S _]. split; [now apply starts_app|ends].
      + destruct l as [|a [|? ?]]; try discriminate W. cbn [map nth_t nth]. cbn [forallb] in R2. apply andb_true_iff in R2 as [Ra _].
        inversion H; subst. destruct (H2 Ra) as [S _]. split; [now apply starts_app|].
        apply andb_true_iff in R1 as [R1 _]. apply ends_app, ends_app. now apply ident_edged.
      + destruct l as [|a l]; [discriminate W|]. cbn [map nth_t nth]. cbn [forallb] in R2. apply andb_true_iff in R2 as [Ra _].
        inversion H; subst. destruct (H2 Ra) as [S _]. split; [now apply starts_app|ends].
    - con.
    - con.
    - con.
    - con.
    - con.
    - con.
    - destruct k; cbn [comp_text]; con.
    - apply andb_true_iff in R as [R _]. apply andb_true_iff in R as [R _]. destruct (ident_edged _ R). split; [now apply starts_app|ends].
    - destruct k; cbn [kind_text]; con.
    - apply andb_true_iff in R as [R _]. apply andb_true_iff in R as [R _]. destruct (ident_edged _ R). split; [now apply starts_app|ends].
  Qed.

  Lemma int_tree e : is_int e = true -> number_tree (tree e) = true.
  Proof. destruct e; try discriminate. destruct l; try discriminate. intros _. cbn. destruct (z <? 0)%Z; reflexivity. Qed.
  Lemma ending_op c : ending c = true -> op_char c = false.
  Proof.
    intros H. destruct (op_char c) eqn:O; [|reflexivity]. exfalso. unfold op_char in O.
    apply existsb_exists in O as (x & J & E). apply N.eqb_eq in E as ->. cbn [In] in J.
    repeat (destruct J as [<-|J]; [discriminate H|]). destruct J.
  Qed.
  Lemma print_code_ok e : readable e = true -> exists ts, code_ok (print e) ts (tree e) (is_int e).
  Proof.
    intros R. destruct (readable_good printable gname pnum PO e R) as [ts G]. exists ts. destruct (edges e R) as [S (t & d & E & D)].
    constructor; try apply G.
    assert (L : lex Start (print e) = Some ts).
    { pose proof (g_lex _ _ _ _ _ G [] I) as L. rewrite app_nil_r in L. rewrite L. cbn. now rewrite app_nil_r. }
    destruct (lex_split _ _ _ L) as (l & s & f & Rn & F & ->).
    apply (lex_ok_of _ _ _ l s f Rn F eq_refl).
    - pose proof Rn as Rn'. rewrite E in Rn'. pose proof (run_last t Start d l s 0%N I Rn') as Q.
      pose proof (ending_op _ D) as O. destruct s; cbn [last_is flush] in *; try discriminate; auto.
      + destruct (is_int e) eqn:J; [reflexivity|]. exfalso.
        pose proof (g_lex _ _ _ _ _ G (T ".")) as L'. rewrite J in L'. specialize (L' eq_refl).
        rewrite (lex_run _ _ _ _ _ Rn) in L'. cbn in L'. discriminate.
      + destruct Q. congruence.
      + destruct Q. congruence.
      + apply Q.
    - destruct (print e) as [|c r]; [contradiction|]. exists c, r. now split.
  Qed.
  Lemma argument_code e : readable e = true -> exists ts, code_ok (print e) ts (tree e) (number_tree (tree e)).
  Proof.
    intros R. destruct (print_code_ok e R) as [ts C]. exists ts. destruct (is_int e) eqn:J.
    - now rewrite (int_tree _ J).
    - now apply code_ok_int.
  Qed.
End Argument.

(** *** the code of a template with its arguments *)
Lemma starts_self v t : starts v (v ++ t) = true.
Proof. induction v as [|c v IH]; [destruct t; reflexivity|]. cbn [app starts]. now rewrite N.eqb_refl. Qed.
Lemma contains_in v a b : contains v (a ++ v ++ b) = true.
Proof.
  induction a as [|c a IH].
  - cbn [app]. destruct (v ++ b) as [|c r] eqn:E; cbn [contains]; rewrite <- E at 1; now rewrite starts_self.
  - cbn [app contains]. rewrite IH. apply orb_true_r.
Qed.
Section Template.
  Variable name : slot -> text.
  Variable ps : list piece.
  Variable int : slot -> bool.
  Variable body : ast.
  Hypothesis RT : reads_template name int ps body.
  Variable val : slot -> text.
  Variable tk : slot -> list token.
  Variable tr : slot -> ast.
  Hypothesis VC : forall s, In s (holes ps) -> code_ok (val s) (tk s) (tr s) (int s).
  Variable targs : list ast.
  Variable tkws : list (text * ast).
  Hypothesis AR : forall s, In s (holes ps) -> argument targs tkws s = Some (tr s).
  Notation slot_of := (slot_of name ps).
  Notation clear := (clear_of name ps).
  Definition hole_ (v : text) : option (list token * ast) := option_map (fun s => (tk s, tr s)) (slot_of v).
  Lemma slot_in v s : slot_of v = Some s -> In s (holes ps) /\ name s = v.
  Proof. intros H. apply find_some in H as [J E]. split; [exact J|]. now apply Proofs_Api.teqb_true. Qed.
  Lemma slot_name s : In s (holes ps) -> slot_of (name s) = Some s.
  Proof.
    intros J. destruct (slot_of (name s)) as [s'|] eqn:E.
    - destruct (slot_in _ _ E) as [J' N]. f_equal. destruct RT as [[_ INJ] _]. now apply INJ.
    - pose proof (find_none _ _ E _ J) as N. cbn in N. rewrite (proj2 (Proofs_Api.teqb_true _ _) eq_refl) in N. discriminate.
  Qed.
  Lemma clear_slot x a v b : clear x = true -> x = (a ++ v ++ b)%list -> slot_of v = None.
  Proof.
    intros C ->. destruct (slot_of v) as [s|] eqn:E; [|reflexivity]. destruct (slot_in _ _ E) as [J N].
    unfold clear_of in C. rewrite forallb_forall in C. specialize (C _ J). unfold not_in in C. rewrite N, contains_in in C. discriminate.
  Qed.
  Lemma hole_some v w a : hole_ v = Some (w, a) -> exists s, slot_of v = Some s /\ In s (holes ps) /\ w = tk s /\ a = tr s.
  Proof.
    unfold hole_. destruct (slot_of v) as [s|] eqn:E; [|discriminate]. injection 1 as <- <-. exists s. repeat split. now apply (slot_in v).
  Qed.
  Lemma template_tokens : flat_map (sub1 hole_) (ptoks (fun s => [TName (name s)]) ps) = ptoks tk ps.
  Proof.
    destruct RT as (_ & _ & RW & _ & _). unfold raw_ok in RW. rewrite forallb_forall in RW.
    assert (Sub : forall p, In p ps -> In p ps) by auto. revert Sub. generalize ps at 1 3 4 as l.
    induction l as [|p l IH]; intros Sub; [reflexivity|]. unfold ptoks in *. cbn [flat_map]. rewrite flat_map_app, IH by (intros; apply Sub; now right).
    f_equal. specialize (Sub p ltac:(now left)). destruct p as [t|s].
    - specialize (RW _ Sub). cbn in RW. unfold raw_tokens. destruct (tokenize t) as [ts|]; [|discriminate].
      induction ts as [|u ts IHt]; [reflexivity|]. cbn [flat_map forallb] in *. apply andb_true_iff in RW as [U V]. rewrite IHt by exact V.
      destruct u; cbn [sub1]; try reflexivity. unfold hole_. rewrite (clear_slot _ [] _ [] U); [reflexivity|]. cbn. now rewrite app_nil_r.
    - cbn [flat_map sub1]. unfold hole_. rewrite slot_name; [cbn; now rewrite app_nil_r|].
      unfold holes. apply in_flat_map. exists (Hole s). split; [exact Sub|now left].
  Qed.
  Theorem template_code : exists ts, code_ok (T "(" ++ fill val ps ++ T ")") ts (instance name ps targs tkws body) false.
  Proof.
    pose proof RT as ((NI & _) & RD & RW & AP & HO).
    assert (L1 : lex Start (fill name ps) = Some (ptoks (fun s => [TName (name s)]) ps)).
    { eapply (fill_lex int name); [|exact RW|exact AP]. intros s J. apply lex_ok_name. now apply NI. }
    assert (L2 : lex Start (fill val ps) = Some (ptoks tk ps)).
    { eapply (fill_lex int val); [|exact RW|exact AP]. intros s J. apply (VC s J). }
    destruct RD as (ts0 & n & K & Pn). unfold tokenize in K. rewrite L1 in K. injection K as <-.
    assert (PP : forall r, P 0 (ptoks tk ps ++ RPar :: r) (instance name ps targs tkws body) (RPar :: r)).
    { intros r. rewrite <- template_tokens.
      refine (plug_parse hole_ (fun v => match slot_of v with Some s => argument targs tkws s | None => None end) _ _
                (fun v => match slot_of v with Some s => int s | None => false end) clear _ _ _ _ _ _ r _ body (ex_intro _ n Pn) HO).
      - intros v w a H. destruct (hole_some _ _ _ H) as (s & -> & J & _ & ->). now apply AR.
      - intros v H. unfold hole_ in H. destruct (slot_of v); [discriminate|reflexivity].
      - intros v w a H k r' Hk St. destruct (hole_some _ _ _ H) as (s & _ & J & -> & ->). now apply (co_lev _ _ _ _ (VC s J)).
      - intros v w a H. destruct (hole_some _ _ _ H) as (s & -> & J & -> & ->). intros Hi. apply (co_prim _ _ _ _ (VC s J) Hi).
      - intros v w a H. destruct (hole_some _ _ _ H) as (s & _ & J & -> & ->). apply (co_pos _ _ _ _ (VC s J)).
      - intros v w a H. destruct (hole_some _ _ _ H) as (s & -> & J & -> & ->). apply (co_tok _ _ _ _ (VC s J)).
      - intros x C. unfold hole_. rewrite (clear_slot x [] x [] C); [reflexivity|]. cbn. now rewrite app_nil_r.
      - intros x y C. unfold hole_. split.
        + rewrite (clear_slot _ [] x (T ", " ++ y) C); reflexivity.
        + rewrite (clear_slot _ (x ++ T ", ") y [] C); [reflexivity|]. now rewrite app_nil_r, <- app_assoc. }
    exists (LPar :: ptoks tk ps ++ [RPar]).
    assert (Pr : forall r b r', PTrail (instance name ps targs tkws body) r b r' -> P 13 ((LPar :: ptoks tk ps ++ [RPar]) ++ r) b r').
    { intros r b r' Tr. cbn [app]. rewrite <- app_assoc. eapply p_primary; [apply a_paren; apply PP|exact Tr]. }
    constructor.
    - split; [|exists 40%N, (fill val ps ++ T ")"); now split]. intros rest _. rewrite <- !app_assoc.
      change (T "(" ++ fill val ps ++ T ")" ++ rest) with (40%N :: (fill val ps ++ T ")" ++ rest)).
      cbn [lex step first]. change (first 40%N) with (Some ([LPar], Start)). cbv iota beta.
      rewrite (lex_close _ _ rest L2). destruct (lex Start rest); reflexivity.
    - intros k r Hk St. apply (descends 13); try lia; [|exact St|exact I|exact I].
      apply Pr. apply stops_trailers. apply (stops_le k); [lia|exact St].
    - intros _. exact Pr.
    - intros r H. exact I.
    - exact I.
  Qed.
End Template.
