(** C24, generator comprehensions: the source text gen_converter compiles for
    c1.pipe(c2). ... .pipe(c.generator_comp(e).filter(co)), read and run by Python,
    makes a generator, and next() by next() it does what the conversion says. *)
From Coq Require Import String Ascii List NArith ZArith Bool Arith Lia.
From Verif Require Import Model_PyVal Model_Code Model_Eval Model_Python Model_Converter Model_Source Model_Api Spec_Frag Spec_Eval
  Spec_Converter Spec_Coll Spec_Syntax Spec_Tree Spec_Source Spec_Writable Spec_Module Spec_Generator Spec_Demo Proofs_Code
  Proofs_Eval Proofs_Den Proofs_Meaning Proofs_Sourced Proofs_Converter
  Proofs_Writable Proofs_Unique Proofs_Module Proofs_ReadFunc Proofs_SourceDemo Proofs_Generator Props_Syntax Props_Source.
Import ListNotations.

Section Claims.
  Context {V W X : Type}.
  Variable pr : prims V W X.
  Variable glob : text -> option V.
  Variable printable : N -> bool.
  Variable key : text -> lname.
  Variables (wordch : N -> bool) (gname : nat -> text) (pnum : list nat -> nat)
            (pname : text -> text) (hname : list nat -> text) (tname : text -> text) (role_of : text -> role).
  Notation srepr := (py_repr printable).

  (** [c] is l1.pipe(l2). ... .pipe(c.generator_comp(e).filter(co)), and covered *)
  Definition generator_of (c : cv) (l : list cv) (e : cv) (co : option cv) : Prop :=
    stages c = l ++ [generator_comp e co] /\ writable false c = true /\
    forallb (sourced false) l = true /\ sourced false e = true /\ optb (sourced false) co = true /\
    forallb (frag true false false) (stages c) = true.

  (** The texts define functions, in exactly one way; one of them is [name]; a
      call of it with the data and exactly the input arguments makes a generator
      ([makes]): first l1, l2, ... are applied, then iter() to the result; every
      next() does what [next_item] says. *)
  Definition returns_generator (name : text) (c : cv) (l : list cv) (e : cv) (co : option cv) : Prop :=
    exists tab fd n0,
      (forall tab', defines (module_texts wordch srepr gname pnum pname hname tname name c) tab' <-> tab' = tab) /\
      find_def tab name = Some fd /\
      forall n args v, n0 <= n -> (forall x, In x (args_of c) <-> In x (map fst args)) ->
        exists m, call_for_generator pr glob key tab n fd [v] args = Some m /\
          makes pr args e co m (bind (in_turn pr args l v) (fun u => prim (iter pr u))).

  Theorem C24_generator_text name c l e co :
    python_world pr glob printable gname -> names_world printable wordch gname pname hname tname role_of name c ->
    labels_world key pnum c -> generator_of c l e co -> args_named pname tname c ->
    one_function_per_name printable wordch gname pnum pname hname tname c ->
    returns_generator name c l e co.
  Proof.
    intros (PO & HB & HPy & HT & HG) (NO & NP & Ht & Hn & NA) (HP & HL) (Es & C1 & C2 & C3 & C4 & C5) HA NC.
    assert (Hdata : ~ In (T "data_") (args_of c)) by (intros I; now apply (proj1 (HA _ I))).
    assert (Hself : ~ In (T "self") (args_of c)) by (intros I; now apply (proj1 (proj2 (HA _ I)))).
    assert (Hcls : ~ In (T "cls") (args_of c)) by (intros I; now apply (proj1 (proj2 (proj2 (HA _ I))))).
    assert (Hs : sourced_to true (stages c) = true).
    { rewrite Es. clear - C2 C3 C4. induction l as [|s l IH].
      - cbn. now rewrite C3, C4.
      - cbn [forallb] in C2. apply andb_true_iff in C2 as [A B]. cbn [app sourced_to].
        destruct (l ++ [generator_comp e co]) eqn:El; [destruct l; discriminate|]. rewrite A. cbn [andb]. now apply IH. }
    set (tab := module_table printable wordch gname pnum pname hname tname name c).
    set (fd := conv_func printable wordch gname pnum pname hname tname c).
    assert (Eb : forall x, In x (flat_map args_of (l ++ [generator_comp e co])) -> In x (args_of c)).
    { rewrite <- Es. intros x I. apply in_flat_map in I as (s & I & J). eapply args_stages; eauto. }
    assert (Ec : converter wordch srepr gname pnum pname hname tname c =
                 body wordch srepr gname pnum pname hname tname 0 (T "data_") (l ++ [generator_comp e co])).
    { unfold converter. now rewrite Es. }
    assert (HM : forall px, Main pr glob key tab gname pnum (loc role_of) (fnm role_of) px).
    { intros px. eapply main; eauto. }
    destruct (exec_made pr glob key printable wordch gname pnum pname hname tname tab role_of
                HM NO HPy HT e co l 0 (T "data_") (locals fd) (bd0 c)) as [n0 N].
    - eapply locals_scoped with (key := key) (u := true); eauto.
    - intros y I. unfold generator_comp in Ec. rewrite <- Ec in I. now apply assigned_local.
    - now left.
    - intros y I. right. now apply Eb.
    - unfold generator_comp in Ec. rewrite <- Ec. eapply conv_src; eauto.
    - unfold generator_comp in Ec. rewrite <- Ec. eapply module_known; eauto.
    - rewrite Es in C5. exact C5.
    - exists tab, fd, n0. split; [apply the_table; eapply module_defines with (u := true); eauto|]. split.
      + unfold tab, module_table. cbn [find_def]. unfold teqb. destruct (text_eq_dec name name); [reflexivity|congruence].
      + intros n args v Hle Hargs. destruct (N n Hle) as (m & Em & Lm). exists (m ((T "data_", v) :: args)). split.
        * unfold call_for_generator. change (f_params fd) with [T "data_"]. change (f_kwonly fd) with (kwargs_of c).
          unfold fd. rewrite not_generator. cbn [length Nat.eqb negb andb].
          rewrite (kwargs_passed c Hself Hcls args Hargs). fold fd.
          assert (Em' : exec_generator pr (comp pr glob key tab n) (locals fd) (f_body fd) = Some m).
          { rewrite <- Em. unfold generator_comp in Ec. rewrite <- Ec. reflexivity. }
          rewrite Em'. reflexivity.
        * intros s. assert (HR : R s s) by (split; auto).
          assert (Mm : made pr e co args (m ((T "data_", v) :: args)) (bind (in_turn pr args l v) (fun u => prim (iter pr u)))).
          { apply Lm.
            - eapply args_bound; eauto.
            - cbn. now destruct (text_eq_dec (T "data_") (T "data_")).
            - apply forallb_forall. intros z Hz.
              assert (Hzz : N.ltb z 128 && (ascii_alpha z || (N.leb 48 z && N.leb z 57) || N.eqb z 95) = true).
              { assert (HD : forallb (fun z => N.ltb z 128 && (ascii_alpha z || (N.leb 48 z && N.leb z 57) || N.eqb z 95)) (T "data_") = true) by reflexivity.
                rewrite forallb_forall in HD. now apply HD. }
              apply andb_true_iff in Hzz. destruct Hzz as [Z1 Z2]. apply N.ltb_lt in Z1.
              now rewrite (nk_word _ _ _ _ _ _ NO).
            - discriminate.
            - intros y I. pose proof (Eb y I) as J. destruct (HA y J) as (A1 & _ & _ & A2 & A3). repeat split; auto.
              + intros ->. pose proof (args_ident c false C1) as F. rewrite Forall_forall in F. specialize (F _ J). discriminate F.
              + apply Hargs in J. apply in_map_iff in J as ([z u] & <- & J). destruct (lookup_in _ _ _ J) as [u' U]. exists u'.
                split; [|exact U]. cbn [lookup fst]. destruct (text_eq_dec z (T "data_")); [contradiction|exact U]. }
          destruct (Mm s s HR) as [[Q1 Q2] Q3]. split; [exact Q1|]. split; [exact Q2|exact Q3].
  Qed.
End Claims.

(** On Python's built-in values: the generator yields item(x) for exactly the x
    with truthy cond(x), in order, and then stops. *)
Section Values.
  Context {W : Type}.
  Variable call : val -> list val -> list (text * val) -> W -> W * out exc val.
  Variable getattr : val -> string -> W -> W * out exc val.
  Notation pr := (python call getattr).
  Variable args : list (text * val).
  Variables (e : cv) (co : option cv).
  Notation yields := (Spec_Coll.yields call getattr args co e).
  Notation next_item := (next_item pr args e co).

  Lemma passes_cond x b : passes call getattr args x co b ->
    forall s s' b', cond_is pr args co x s s' b' -> s' = s /\ b' = b.
  Proof.
    intros H s s' b'. unfold cond_is. inversion H; subst; [tauto|].
    intros (t & s1 & D & T). rewrite (H0 s) in D. injection D as <- <-. unfold prim in T. destruct s as [w L].
    cbn in T. injection T as <- <-. auto.
  Qed.
  Lemma passes_no_exc x b : passes call getattr args x co b -> forall s s' z, ~ cond_fails pr args co x s s' z.
  Proof.
    intros H s s' z. unfold cond_fails. inversion H; subst; [tauto|].
    intros [D|(t & s1 & D & T)]; rewrite (H0 s) in D; [discriminate|]. injection D as <- <-. unfold prim in T. destruct s. discriminate T.
  Qed.
  Definition found (xs : list val) (yss : list (list val)) : Prop :=
    (concat yss = [] /\ forall s s' r, next_item (list_iter xs) s s' r -> s' = s /\ r = Val None) \/
    exists y xs' yss', concat yss = y :: concat yss' /\ Forall2 yields xs' yss' /\ length xs' < length xs /\
      forall s s' r, next_item (list_iter xs) s s' r -> s' = s /\ r = Val (Some (y, list_iter xs')).
  Lemma list_step x xs (w w' : W) (st : @istep val W exc) : (w, IYield x (list_iter xs)) = (w', st) -> w' = w /\ st = IYield x (list_iter xs).
  Proof. intros H. injection H as <- <-. auto. Qed.
  Lemma all_found xs yss : Forall2 yields xs yss -> found xs yss.
  Proof.
    induction 1 as [|x ys xs yss Hy F IH].
    - left. split; [reflexivity|]. intros s s' r N. inversion N; subst; cbn in *; try congruence.
      match goal with Q : (_, IStop) = _ |- _ => injection Q as <- end. auto.
    - assert (Sk : ys = [] -> passes call getattr args x co false -> forall s s' r,
        next_item (list_iter (x :: xs)) s s' r -> next_item (list_iter xs) s s' r).
      { intros E P s s' r N. inversion N; subst;
          match goal with Q : _ = (_, _) |- _ => try discriminate Q; apply list_step in Q as [-> Q]; try discriminate Q end.
        - match goal with Q : IYield _ _ = _ |- _ => injection Q as -> -> end.
          match goal with Q : cond_is _ _ _ _ _ _ _ |- _ => apply (passes_cond _ _ P) in Q as [-> _] end. assumption.
        - match goal with Q : IYield _ _ = _ |- _ => injection Q as -> -> end.
          match goal with Q : cond_is _ _ _ _ _ _ _ |- _ => apply (passes_cond _ _ P) in Q as [_ Q]; discriminate Q end.
        - match goal with Q : IYield _ _ = _ |- _ => injection Q as -> -> end.
          match goal with Q : cond_is _ _ _ _ _ _ _ |- _ => apply (passes_cond _ _ P) in Q as [_ Q]; discriminate Q end.
        - match goal with Q : IYield _ _ = _ |- _ => injection Q as -> -> end.
          match goal with Q : cond_fails _ _ _ _ _ _ _ |- _ => now apply (passes_no_exc _ _ P) in Q end. }
      inversion Hy as [y P G|P]; subst.
      + right. exists y, xs, yss. split; [reflexivity|]. split; [exact F|]. split; [cbn; lia|]. intros s s' r N.
        inversion N; subst;
          match goal with Q : _ = (_, _) |- _ => try discriminate Q; apply list_step in Q as [-> Q]; try discriminate Q end;
          match goal with Q : IYield _ _ = _ |- _ => injection Q as -> -> end.
        * match goal with Q : cond_is _ _ _ _ _ _ _ |- _ => apply (passes_cond _ _ P) in Q as [-> Q]; discriminate Q end.
        * match goal with Q : cond_is _ _ _ _ _ _ _ |- _ => apply (passes_cond _ _ P) in Q as [-> Q] end.
          match goal with Q : den _ _ _ _ _ = _ |- _ => rewrite G in Q; injection Q as <- <- end. auto.
        * match goal with Q : cond_is _ _ _ _ _ _ _ |- _ => apply (passes_cond _ _ P) in Q as [-> Q] end.
          match goal with Q : den _ _ _ _ _ = _ |- _ => rewrite G in Q; discriminate Q end.
        * match goal with Q : cond_fails _ _ _ _ _ _ _ |- _ => now apply (passes_no_exc _ _ P) in Q end.
      + specialize (Sk eq_refl P). cbn [concat app]. destruct IH as [[E1 E2]|(y & xs' & yss' & E1 & E2 & E3 & E4)].
        * left. split; [exact E1|]. intros s s' r N. eauto.
        * right. exists y, xs', yss'. repeat split; auto; [cbn; lia| |]; eapply E4, Sk; eassumption.
  Qed.

  Theorem yields_all g : generates pr args e co g -> forall n xs yss, length xs < n -> Forall2 yields xs yss ->
    gives_all pr (item g) (test g) (list_iter xs) (concat yss).
  Proof.
    intros G. induction n as [|n IH]; intros xs yss L F; [lia|].
    destruct (all_found _ _ F) as [[E1 E2]|(y & xs' & yss' & E1 & E2 & E3 & E4)]; rewrite E1.
    - constructor. intros s. destruct (G (list_iter xs) s) as (s' & r & N & Q). destruct (E2 _ _ _ N) as [-> ->]. exact Q.
    - apply ga_more with (list_iter xs').
      + intros s. destruct (G (list_iter xs) s) as (s' & r & N & Q). destruct (E4 _ _ _ N) as [-> ->]. exact Q.
      + apply IH; [lia|exact E2].
  Qed.
End Values.

Section Items.
  Context {W : Type}.
  Variable call : val -> list val -> list (text * val) -> W -> W * out exc val.
  Variable getattr : val -> string -> W -> W * out exc val.
  Notation pr := (python call getattr).
  Variable glob : text -> option val.
  Variable printable : N -> bool.
  Variable key : text -> lname.
  Variables (wordch : N -> bool) (gname : nat -> text) (pnum : list nat -> nat)
            (pname : text -> text) (hname : list nat -> text) (tname : text -> text) (role_of : text -> role).
  Notation srepr := (py_repr printable).

  (** [u]: what the stages before the comprehension make of the input, an iterable
      of the values [xs]; [yss]: what each of them yields ([item(x)] or nothing). *)
  Theorem C24_generator_items name c l e co :
    python_world pr glob printable gname -> names_world printable wordch gname pname hname tname role_of name c ->
    labels_world key pnum c -> generator_of c l e co -> args_named pname tname c ->
    one_function_per_name printable wordch gname pnum pname hname tname c ->
    exists tab fd n0,
      (forall tab', defines (module_texts wordch srepr gname pnum pname hname tname name c) tab' <-> tab' = tab) /\
      find_def tab name = Some fd /\
      forall n args v u xs yss, n0 <= n -> (forall x, In x (args_of c) <-> In x (map fst args)) ->
        (forall s, in_turn pr args l v s = (s, Val u)) -> items_of u = Ok xs ->
        Forall2 (Spec_Coll.yields call getattr args co e) xs yss ->
        exists m, call_for_generator pr glob key tab n fd [v] args = Some m /\
          forall s, exists s' g, m s = (s', Val g) /\ fst s' = fst s /\
            gives_all pr (item g) (test g) (source g) (concat yss).
  Proof.
    intros H1 H2 H3 H4 H5 H6.
    destruct (C24_generator_text pr glob printable key wordch gname pnum pname hname tname role_of name c l e co H1 H2 H3 H4 H5 H6)
      as (tab & fd & n0 & D & F & N).
    exists tab, fd, n0. split; [exact D|]. split; [exact F|]. intros n args v u xs yss Hle Hargs Hl Hi HF.
    destruct (N n args v Hle Hargs) as (m & Em & Lm). exists m. split; [exact Em|]. intros s.
    destruct (Lm s) as (L1 & L2 & L3). unfold bind in L1, L2, L3. rewrite Hl in L1, L2, L3. unfold prim in L1, L2, L3.
    cbn [iter python fst snd] in L1, L2, L3. rewrite Hi in L3. cbn [fst snd] in L1, L2, L3.
    destruct (m s) as [s' [g|x]]; cbn [fst snd] in *; [|contradiction]. destruct L3 as [L3 L4].
    exists s', g. split; [reflexivity|]. split; [exact L1|]. rewrite L3. eapply yields_all; eauto.
  Qed.
End Items.

(** *** a concrete case *)
(** c.item("l").pipe(c.generator_comp(f0(c.this(), c.input_arg("d"))).filter(c.this() > 1)) *)
Definition gen_item : cv := fcall 0 [CThis; CArg (T "d")].
Definition gen_cond : cv := COp (OBin (T ">")) [CThis; int 1].
Definition gen_demo : cv := CPipe (COp OItem [CThis; str "l"]) (generator_comp gen_item (Some gen_cond)).
Lemma gen_demo_args : args_of gen_demo = [T "d"].
Proof. reflexivity. Qed.
Example C24_generator_case :
  generator_of gen_demo [COp OItem [CThis; str "l"]] gen_item (Some gen_cond) /\
  python_world bpy bglob ascii_printable oname /\
  names_world ascii_printable word oname pn hplace tn demo_role (T "converter") gen_demo /\
  labels_world label_key place_num gen_demo /\ args_named pn tn gen_demo /\
  one_function_per_name ascii_printable word oname place_num pn hplace tn gen_demo.
Proof.
  split; [repeat split; vm_compute; reflexivity|].
  assert (HR : forall x, In x (args_of gen_demo) -> demo_role x = Local).
  { rewrite gen_demo_args. intros x [<-|[]]. reflexivity. }
  destruct (demo_world gen_demo HR) as [D1 D2]. split; [exact D1|]. split; [exact D2|].
  split; [split; [apply label_key_place|intros n I; exfalso; revert I; vm_compute; tauto]|]. split.
  - intros x. rewrite gen_demo_args. intros [<-|[]]. repeat split; try discriminate; intros t; discriminate.
  - intros f h h'. now apply names_unique, hplace_inj.
Qed.
Example C24_generator_source :
  map str_of (flat_map lines (module_texts word (py_repr ascii_printable) oname (fun _ => 1) (fun _ => T "i_0") short
                                (fun _ => T "pipe_0") (T "converter") gen_demo)) =
  [""; "def converter(data_, *, d):"; "    global add_label_, get_by_label_"; "    pipe_0 = data_['l']";
   "    return (f_(i_0,d) for i_0 in pipe_0 if (i_0 > 1))"; ""]%string.
Proof. vm_compute. reflexivity. Qed.
(** two calls of next(): the item that fails the test is skipped, later ones are not looked at *)
Example C24_generator_run :
  let tab := module_table ascii_printable word oname place_num pn hplace tn (T "converter") gen_demo in
  let fd := conv_func ascii_printable word oname place_num pn hplace tn gen_demo in
  let input := VDict [(VStr "l", VList [VInt 1; VInt 5; VInt 0; VInt 7; VInt 9])] in
  option_map (fun m =>
    match m ([], nolab) with
    | (s, Val g) =>
        match advance bpy (item g) (test g) (source g) s with
        | (s1, Val (Some (v1, r1))) =>
            match advance bpy (item g) (test g) r1 s1 with
            | (s2, Val (Some (v2, _))) => Some (v1, fst s1, v2, fst s2)
            | _ => None
            end
        | _ => None
        end
    | _ => None
    end) (call_for_generator bpy bglob label_key tab 20 fd [input] [(T "d", VInt 3)]) =
  Some (Some (VTuple [VInt 5; VInt 3], [(0, [VInt 5; VInt 3])], VTuple [VInt 7; VInt 3], [(0, [VInt 5; VInt 3]); (0, [VInt 7; VInt 3])])).
Proof. vm_compute. reflexivity. Qed.
(** the hypothesis about what each item yields *)
Example C24_generator_yields :
  Forall2 (Spec_Coll.yields bcall battr [] (Some gen_cond) (COp (OBin (T "+")) [CThis; int 1])) [VInt 1; VInt 5] [[]; [VInt 6]].
Proof.
  constructor; [apply YieldsNot|constructor; [apply Yields|constructor]].
  - change false with (truthy (VBool false)). constructor. intros [w L]. reflexivity.
  - change true with (truthy (VBool true)). constructor. intros [w L]. reflexivity.
  - intros [w L]. reflexivity.
Qed.
Print Assumptions C24_generator_text.
Print Assumptions C24_generator_items.
