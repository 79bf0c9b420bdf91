(** C58: c.inline_expr(code).pass_args(...).  Python reads its code as the expression of
    the template with the expressions of the arguments in the holes. *)
From Coq Require Import String Ascii List NArith ZArith Bool Arith Lia.
From Verif Require Import Model_Code Model_Converter Model_Inline Spec_Frag Spec_Syntax Spec_Tree Spec_Writable Spec_Inline
  Proofs_Syntax Proofs_Code Proofs_Lex Proofs_Tree Proofs_Writable Proofs_Inline Proofs_InlineCode Props_Syntax.
Import ListNotations.
From Verif Require Import Spec_Demo.

(** the argument of the hole is an int constant *)
Definition int_hole (args : list ast) (kws : list (text * ast)) (s : slot) : bool :=
  match argument args kws s with Some a => number_tree a | None => false end.

Section Inline.
  Variable printable : N -> bool.
  Variable wordch : N -> bool.
  Variable gname : nat -> text.
  Variable pnum : list nat -> nat.
  Variable pname : text -> text.
  Variable hname : list nat -> text.
  Hypothesis PO : printable_ok printable.
  Hypothesis NP : names_plain gname pname hname.
  Variable x : text.                      (* the name of the input *)
  Hypothesis IX : ident x = true.
  Notation srepr := (py_repr printable).
  Notation gen := (gen wordch srepr gname pnum pname hname).
  Notation print := (print srepr gname pnum).
  Notation icode := (icode wordch srepr gname pnum pname hname (PName x)).

  (** The expression a conversion stands for.  An ordinary conversion: the one that its
      code is read as (see C10).  An inline expression: the body of its template with the
      expressions of the arguments in the holes.  The arguments are numbered from 0,
      the keyword arguments after the others. *)
  Inductive stands_for : list nat -> icv -> ast -> Prop :=
  | SF_conv q c a : writable false c = true -> reads (print (gen false q c (PName x))) a -> stands_for q (IConv c) a
  | SF_inline q numbered ps args kws targs tkws name body :
      well_written numbered ps = true ->
      stand_for 0 q args targs -> stand_for_kw (length args) q kws tkws ->
      (forall s, In s (holes ps) -> argument targs tkws s <> None) ->
      reads_template name (int_hole targs tkws) ps body ->
      stands_for q (IInline (written numbered ps) args kws) (instance name ps targs tkws body)
  with stand_for : nat -> list nat -> list icv -> list ast -> Prop :=
  | SF_nil k q : stand_for k q [] []
  | SF_cons k q i l a la : stands_for (k :: q) i a -> stand_for (S k) q l la -> stand_for k q (i :: l) (a :: la)
  with stand_for_kw : nat -> list nat -> list (text * icv) -> list (text * ast) -> Prop :=
  | SK_nil k q : stand_for_kw k q [] []
  | SK_cons k q n i l a la : stands_for (k :: q) i a -> stand_for_kw (S k) q l la ->
      stand_for_kw k q ((n, i) :: l) ((n, a) :: la).
  Scheme stands_ind' := Induction for stands_for Sort Prop
    with stand_ind' := Induction for stand_for Sort Prop
    with standkw_ind' := Induction for stand_for_kw Sort Prop.
  Combined Scheme stands_mut from stands_ind', stand_ind', standkw_ind'.

  Fixpoint codes (q : list nat) (k : nat) (l : list icv) : option (list text) :=
    match l with
    | [] => Some []
    | i :: r => match icode (k :: q) i, codes q (S k) r with Some a, Some b => Some (a :: b) | _, _ => None end
    end.
  Fixpoint kcodes (q : list nat) (k : nat) (l : list (text * icv)) : option (list (text * text)) :=
    match l with
    | [] => Some []
    | (n, i) :: r => match icode (k :: q) i, kcodes q (S k) r with Some a, Some b => Some ((n, a) :: b) | _, _ => None end
    end.
  Lemma icode_inline q t args kws : icode q (IInline t args kws) =
    match codes q 0 args, kcodes q (length args) kws with
    | Some l, Some ks => option_map (fun s => T "(" ++ s ++ T ")") (str_format t l ks)
    | _, _ => None
    end.
  Proof.
    cbn [Model_Inline.icode].
    match goal with |- match ?f 0 args with _ => _ end = _ => assert (E : forall l k, f k l = codes q k l) end.
    { induction l as [|i l IH]; intros k; [reflexivity|]. cbn [codes]. rewrite <- IH. reflexivity. }
    rewrite E. destruct (codes q 0 args); [|reflexivity].
    match goal with |- match ?f (length args) kws with _ => _ end = _ => assert (E2 : forall l k, f k l = kcodes q k l) end.
    { induction l0 as [|[n i] l0 IH]; intros k; [reflexivity|]. cbn [kcodes]. rewrite <- IH. reflexivity. }
    now rewrite E2.
  Qed.

  Definition coded (w : text) (a : ast) : Prop := exists ts, code_ok w ts a (number_tree a).
  Definition codedkw (p : text * text) (b : text * ast) : Prop := fst p = fst b /\ coded (snd p) (snd b).
  Lemma nth_coded l la i a : Forall2 coded l la -> nth_error la i = Some a -> exists w, nth_error l i = Some w /\ coded w a.
  Proof.
    intros F. revert i; induction F as [|w b l la C F IH]; intros [|i] H; try discriminate; cbn in *.
    - injection H as ->. eauto.
    - eauto.
  Qed.
  Lemma lookup_coded l la k a : Forall2 codedkw l la -> lookup k la = Some a -> exists w, lookup k l = Some w /\ coded w a.
  Proof.
    intros F. induction F as [|[n w] [n' b] l la [E C] F IH]; intros H; [discriminate|]. cbn in *. subst n'.
    destruct (teqb k n); [injection H as ->; eauto|eauto].
  Qed.
  Lemma all_coded :
    (forall q i a, stands_for q i a -> exists w, icode q i = Some w /\ coded w a) /\
    (forall k q l la, stand_for k q l la -> exists ws, codes q k l = Some ws /\ Forall2 coded ws la) /\
    (forall k q l la, stand_for_kw k q l la -> exists ws, kcodes q k l = Some ws /\ Forall2 codedkw ws la).
  Proof.
    apply stands_mut.
    - intros q c a W R. eexists. split; [reflexivity|].
      assert (RD : readable gname pnum (gen false q c (PName x)) = true).
      { apply (gen_readable wordch srepr gname pnum pname hname NP c false q (PName x) false); auto; discriminate. }
      destruct (argument_code printable gname pnum PO _ RD) as [ts C].
      assert (E : a = tree gname pnum (gen false q c (PName x))).
      { eapply reads_unique; [exact R|]. now apply readable_reads. }
      subst a. exists ts. exact C.
    - intros q numbered ps args kws targs tkws name body WW _ (ws & E1 & F1) _ (ks & E2 & F2) AR RT.
      rewrite icode_inline, E1, E2.
      assert (A : forall s, In s (holes ps) -> exists w a, argument ws ks s = Some w /\ argument targs tkws s = Some a /\ coded w a).
      { intros s J. specialize (AR s J). destruct (argument targs tkws s) as [a|] eqn:Ea; [|contradiction].
        destruct s as [i|k]; cbn [argument] in *.
        - destruct (nth_coded _ _ _ _ F1 Ea) as (w & Ew & C). eauto.
        - destruct (lookup_coded _ _ _ _ F2 Ea) as (w & Ew & C). eauto. }
      set (val := fun s => match argument ws ks s with Some w => w | None => [] end).
      set (tr := fun s => match argument targs tkws s with Some a => a | None => AConst [] end).
      rewrite (format_written ws ks numbered val ps WW).
      2:{ intros s J. destruct (A s J) as (w & a & Ew & _ & _). unfold val. now rewrite Ew. }
      cbn [option_map]. eexists. split; [reflexivity|].
      assert (TK : exists tk, forall s, In s (holes ps) -> code_ok (val s) (tk s) (tr s) (int_hole targs tkws s)).
      { clear - A. assert (B : forall s, In s (holes ps) -> exists ts, code_ok (val s) ts (tr s) (int_hole targs tkws s)).
        { intros s J. destruct (A s J) as (w & a & Ew & Ea & ts & C). exists ts. unfold val, tr, int_hole. now rewrite Ew, Ea. }
        clear A. induction (holes ps) as [|s l IH]; [exists (fun _ => []); intros s []|].
        destruct IH as [tk H]; [intros s' J; apply B; now right|]. destruct (B s ltac:(now left)) as [ts C].
        assert (D : forall s s' : slot, {s = s'} + {s <> s'}) by (decide equality; [apply Nat.eq_dec|apply text_eq_dec]).
        exists (fun s' => if D s' s then ts else tk s'). intros s' J. destruct (D s' s) as [->|N]; [exact C|].
        destruct J as [<-|J]; [contradiction|auto]. }
      destruct TK as [tk TK].
      destruct (template_code name ps (int_hole targs tkws) body RT val tk tr TK targs tkws) as [ts C].
      { intros s J. destruct (A s J) as (w & a & _ & Ea & _). unfold tr. now rewrite Ea. }
      exists ts. now apply code_ok_int.
    - intros k q. exists []. split; [reflexivity|constructor].
    - intros k q i l a la _ (w & E & C) _ (ws & E2 & F). exists (w :: ws). cbn [codes]. rewrite E, E2. split; [reflexivity|now constructor].
    - intros k q. exists []. split; [reflexivity|constructor].
    - intros k q n i l a la _ (w & E & C) _ (ws & E2 & F). exists ((n, w) :: ws). cbn [kcodes]. rewrite E, E2.
      split; [reflexivity|]. constructor; [|exact F]. split; [reflexivity|exact C].
  Qed.

  (** *** C58 *)
  (** Whatever the template and the arguments (again inline expressions, to any depth):
      the code is read as the template with the arguments put into the holes, and as
      nothing else.  No operator of the template comes between an argument and its parts,
      and no operator outside comes between the template and its parts. *)
  Theorem C58_inline_is_the_template_with_its_arguments : forall q i a,
    stands_for q i a -> exists code, icode q i = Some code /\ reads_only code a.
  Proof.
    intros q i a H. destruct (proj1 all_coded q i a H) as (w & E & ts & C). exists w. split; [exact E|].
    pose proof (code_ok_reads _ _ _ _ C) as R. split; [exact R|]. intros b B. eapply reads_unique; eauto.
  Qed.
End Inline.

(** str.format writes the arguments into the holes, any number of times each, and un-doubles
    the braces ... *)
Theorem C58_template_text : forall numbered ps args kws val,
  well_written numbered ps = true ->
  (forall s, In s (holes ps) -> argument args kws s = Some (val s)) ->
  str_format (written numbered ps) args kws = Some (fill val ps).
Proof. intros. now apply format_written. Qed.
(** ... and raises when an argument is missing. *)
Theorem C58_missing_argument : forall numbered ps args kws s,
  well_written numbered ps = true -> In s (holes ps) -> argument args kws s = None ->
  str_format (written numbered ps) args kws = None.
Proof.
  intros numbered ps args kws s W J A. unfold well_written in W. ands. apply format_missing; [|assumption|now exists s].
  destruct numbered; [exact I|exact H].
Qed.

(** The operators of the library are templates of this kind: their texts in the model of
    the other conversions are what str.format makes of the library's templates. *)
Lemma C58_operators : forall o t a b, In (o, t) operator_templates ->
  option_map (fun s => T "(" ++ s ++ T ")") (str_format t [a; b] []) = Some (op_text (OBin o) [a; b]).
Proof.
  intros o t a b J. unfold operator_templates in J. apply in_map_iff in J as (s & E0 & J).
  assert (Ho : T s = o) by exact (f_equal fst E0). assert (Ht : T "{0} " ++ T s ++ T " {1}" = t) by exact (f_equal snd E0). subst o t. clear E0.
  assert (E : T "{0} " ++ T s ++ T " {1}" = written true [Hole (Pos 0); Raw (T " " ++ T s ++ T " "); Hole (Pos 1)]).
  { cbn [In] in J. repeat (destruct J as [<-|J]; [reflexivity|]). destruct J. }
  rewrite E, (format_written _ _ true (fun s => match s with Pos 0 => a | _ => b end)).
  - cbn [option_map fill flat_map op_text nth_t nth]. rewrite <- !app_assoc. reflexivity.
  - reflexivity.
  - intros s' [<-|[<-|[]]]; reflexivity.
Qed.
Lemma C58_unary_and_slice : forall a b c,
  option_map (fun s => T "(" ++ s ++ T ")") (str_format (T "not {0}") [a] []) = Some (op_text ONot [a]) /\
  option_map (fun s => T "(" ++ s ++ T ")") (str_format (T "-{0}") [a] []) = Some (op_text ONeg [a]) /\
  option_map (fun s => T "(" ++ s ++ T ")") (str_format (T "slice({}, {}, {})") [a; b; c] []) = Some (op_text OSlice [a; b; c]) /\
  option_map (fun s => T "(" ++ s ++ T ")") (str_format (T "{}[{}]") [a; b] []) = Some (T "(" ++ op_text OItem [a; b] ++ T ")").
Proof.
  intros a b c. repeat split; unfold str_format; cbn; repeat (rewrite <- ?app_assoc; cbn [app]); reflexivity.
Qed.

(** The arguments are not parenthesised: a template that applies ** to an argument reads a
    negative constant wrongly.  c.inline_expr("{} ** 2").pass_args(-1) is -(1 ** 2). *)
Definition square : list piece := [Hole (Pos 0); Raw (T " ** 2")].
Theorem C58_power_of_negative_constant_refuted : forall printable wordch gname pnum pname hname,
  exists i body code, i = IInline (T "{} ** 2") [IConv (CLit (LInt (-1)))] [] /\
    reads (fill (fun _ => T "v") square) body /\
    icode wordch (py_repr printable) gname pnum pname hname (PName (T "data_")) [0] i = Some code /\
    ~ reads code (instance (fun _ => T "v") square [AUnary (T "-") (ANum 1)] [] body) /\
    reads code (AUnary (T "-") (ABin (T "**") (ANum 1) (ANum 2))).
Proof.
  intros. exists (IInline (T "{} ** 2") [IConv (CLit (LInt (-1)))] []), (ABin (T "**") (AName (T "v")) (ANum 2)), (T "(-1 ** 2)").
  split; [reflexivity|]. split; [|split; [reflexivity|]].
  - eexists _, 30. split; [vm_compute; reflexivity|vm_compute; reflexivity].
  - assert (R : reads (T "(-1 ** 2)") (AUnary (T "-") (ABin (T "**") (ANum 1) (ANum 2)))).
    { eexists _, 40. split; [vm_compute; reflexivity|vm_compute; reflexivity]. }
    split; [|exact R]. intros B. pose proof (reads_unique _ _ _ R B) as E. vm_compute in E. discriminate E.
Qed.

(** *** a case *)
(** c.inline_expr("{0}.get({1}, {{'k': {k}}}) if {0} else 2 * {1}").pass_args(
      c.item("d"), c.inline_expr("[i ** 2 for i in {}]").pass_args(c.this + 1), k=-5) *)
Definition outer : list piece :=
  [Hole (Pos 0); Raw (T ".get("); Hole (Pos 1); Raw (T ", {'k': "); Hole (Key (T "k")); Raw (T "}) if ");
   Hole (Pos 0); Raw (T " else 2 * "); Hole (Pos 1)].
Definition inner : list piece := [Raw (T "[i ** 2 for i in "); Hole (Pos 0); Raw (T "]")].
Definition demo : icv :=
  IInline (T "{0}.get({1}, {{'k': {k}}}) if {0} else 2 * {1}")
    [IConv (key "d"); IInline (T "[i ** 2 for i in {}]") [IConv (COp (OBin (T "+")) [CThis; int 1])] []]
    [(T "k", IConv (int (-5)))].
Definition hole_name (s : slot) : text := match s with Pos 0 => T "v0" | Pos _ => T "v1" | Key _ => T "vk" end.
Definition item_d : ast := ASub (AName (T "data_")) (AStr (T "d")).
Definition squares : ast :=
  AComp GList [ABin (T "**") (AName (T "i")) (ANum 2)] (T "i") (ABin (T "+") (AName (T "data_")) (ANum 1)) None.
Definition demo_tree : ast :=
  AIf item_d (ACall (AAttr item_d (T "get")) [squares; ADict [(AStr (T "k"), AUnary (T "-") (ANum 5))]] [])
    (ABin (T "*") (ANum 2) squares).
Example C58_instance :
  stands_for ascii_printable word names pnum0 pn hn (T "data_") [0] demo demo_tree /\
  icode word (py_repr ascii_printable) names pnum0 pn hn (PName (T "data_")) [0] demo =
    Some (T "(data_['d'].get(([i ** 2 for i in (data_ + 1)]), {'k': -5}) if data_['d'] else 2 * ([i ** 2 for i in (data_ + 1)]))").
Proof.
  split; [|vm_compute; reflexivity].
  change demo with (IInline (written true outer)
    [IConv (key "d"); IInline (written false inner) [IConv (COp (OBin (T "+")) [CThis; int 1])] []]
    [(T "k", IConv (int (-5)))]).
  change demo_tree with (instance hole_name outer [item_d; squares] [(T "k", AUnary (T "-") (ANum 5))]
    (AIf (AName (T "v0")) (ACall (AAttr (AName (T "v0")) (T "get")) [AName (T "v1"); ADict [(AStr (T "k"), AName (T "vk"))]] [])
      (ABin (T "*") (ANum 2) (AName (T "v1"))))).
  apply SF_inline.
  - vm_compute. reflexivity.
  - repeat constructor.
    + eexists _, 30. split; [vm_compute; reflexivity|vm_compute; reflexivity].
    + change squares with (instance hole_name inner [ABin (T "+") (AName (T "data_")) (ANum 1)] []
        (AComp GList [ABin (T "**") (AName (T "i")) (ANum 2)] (T "i") (AName (T "v0")) None)).
      apply SF_inline.
      * vm_compute. reflexivity.
      * repeat constructor. eexists _, 30. split; [vm_compute; reflexivity|vm_compute; reflexivity].
      * constructor.
      * intros s [<-|[]]. discriminate.
      * split; [split|split; [|split; [|split]]]; try (vm_compute; reflexivity).
        -- intros s [<-|[]]. vm_compute. reflexivity.
        -- intros s s' [<-|[]] [<-|[]] _. reflexivity.
        -- eexists _, 40. split; [vm_compute; reflexivity|vm_compute; reflexivity].
  - repeat constructor. eexists _, 30. split; [vm_compute; reflexivity|vm_compute; reflexivity].
  - intros s J. cbn in J. repeat (destruct J as [<-|J]; [vm_compute; discriminate|]). destruct J.
  - split; [split|split; [|split; [|split]]]; try (vm_compute; reflexivity).
    + intros s J. cbn in J. repeat (destruct J as [<-|J]; [vm_compute; reflexivity|]). destruct J.
    + intros s s' J J' E. cbn in J, J'. repeat (destruct J as [<-|J]; [|]); try (destruct J); repeat (destruct J' as [<-|J']; [|]); try (destruct J');
        try reflexivity; discriminate E.
    + eexists _, 60. split; [vm_compute; reflexivity|vm_compute; reflexivity].
Qed.

Print Assumptions C58_inline_is_the_template_with_its_arguments.
Print Assumptions C58_template_text.
Print Assumptions C58_missing_argument.
Print Assumptions C58_operators.
Print Assumptions C58_unary_and_slice.
Print Assumptions C58_power_of_negative_constant_refuted.
