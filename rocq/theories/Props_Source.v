(** C51: the source text gen_converter compiles - the helper functions and the
    converter, executed in turn in one namespace - computes what the conversion
    says.  Python is Spec_Source.v (reading and running functions) and
    Spec_Syntax.v (reading expressions); what the conversion says is Spec_Eval.v. *)
From Coq Require Import String Ascii List NArith ZArith Bool Arith Lia.
From Verif Require Import Model_PyVal Model_Code Model_Eval Model_Python Model_Converter Model_Source Spec_Frag Spec_Eval
  Spec_Converter Spec_Syntax Spec_Tree Spec_Source Spec_Writable Spec_Module Spec_Demo Proofs_Code Proofs_Den Proofs_Converter
  Proofs_Writable Proofs_Writable Proofs_Sourced Proofs_Unique Proofs_Module Proofs_ReadFunc Proofs_SourceDemo Props_Syntax.
Import ListNotations.

Lemma the_table ts tab : defines ts tab -> forall tab', defines ts tab' <-> tab' = tab.
Proof. intros H tab'. split; [intros H'; eapply defines_once; eauto|intros ->; exact H]. Qed.

Section Claims.
  Context {V W X : Type}.
  (** Python: its values and operations, the builtins, the characters repr prints as they are *)
  Variable pr : prims V W X.
  Variable glob : text -> option V.
  Variable printable : N -> bool.
  (** the keys of labels_ *)
  Variable key : text -> lname.
  (** the names gen_name picks *)
  Variables (wordch : N -> bool) (gname : nat -> text) (pnum : list nat -> nat)
            (pname : text -> text) (hname : list nat -> text) (tname : text -> text) (role_of : text -> role).
  Notation srepr := (py_repr printable).

  Definition python_world : Prop :=
    printable_ok printable /\ builtins_ok pr glob /\ py_ok pr /\ tests_ok pr /\
    forall g, glob (gname g) = Some (globv pr g).
  Definition names_world (name : text) (c : cv) : Prop :=
    names_ok wordch srepr gname pname hname tname /\ names_plain gname pname hname /\
    (forall t, ident (tname t) = true) /\ ident name = true /\
    names_apart gname pname hname tname name (args_of c) role_of.
  (** different labels are different strings *)
  Definition labels_world (c : cv) : Prop :=
    (forall q, key (label_text pnum (P q)) = P q) /\
    (forall n, In n (labels_in c) -> key (label_text pnum n) = n).
  (** the conversions covered *)
  Definition covered (c : cv) : Prop :=
    writable false c = true /\ forallb (sourced false) (stages c) = true /\
    forallb (frag true false false) (stages c) = true.
  (** input arguments have names of their own *)
  Definition args_named (c : cv) : Prop :=
    forall x, In x (args_of c) ->
      x <> T "data_" /\ x <> T "self" /\ x <> T "cls" /\ (forall t, pname t <> x) /\ (forall t, tname t <> x).
  (** a name of a helper function always stands for the same function *)
  Definition one_function_per_name (c : cv) : Prop :=
    forall f h h', In (f, h) (converter_defs wordch srepr gname pnum pname hname tname c) ->
                   In (f, h') (converter_defs wordch srepr gname pnum pname hname tname c) -> h = h'.

  (** The texts define functions, in exactly one way; one of them is [name], and a
      call of it with the data and exactly the input arguments has the result, the
      effects and the labels that the conversion says (Spec_Converter.same). *)
  Definition computes (name : text) (c : cv) : Prop :=
    exists tab fd n0,
      (forall tab', defines (module_texts wordch srepr gname pnum pname hname tname name c) tab' <-> tab' = tab) /\
      find_def tab name = Some fd /\
      forall n args v s, n0 <= n -> (forall x, In x (args_of c) <-> In x (map fst args)) ->
        exists m, call_function pr glob key tab n fd [v] args = Some m /\ same (m s) (den pr args c v s).

  (** Missing for the full claim: conversions outside [covered] (group_by,
      aggregate, join, generators that are not consumed at once, default indices
      with input arguments), truth tests with effects. *)
  Theorem C51_source_computes_the_conversion_partial name c :
    python_world -> names_world name c -> labels_world c -> covered c -> args_named c ->
    one_function_per_name c -> computes name c.
  Proof.
    intros (PO & HB & HPy & HT & HG) (NO & NP & Ht & Hn & NA) (HP & HL) (C1 & C2 & C3) HA NC.
    assert (Hdata : ~ In (T "data_") (args_of c)) by (intros I; now apply (proj1 (HA _ I))).
    assert (Hself : ~ In (T "self") (args_of c)) by (intros I; now apply (proj1 (proj2 (HA _ I)))).
    assert (Hcls : ~ In (T "cls") (args_of c)) by (intros I; now apply (proj1 (proj2 (proj2 (HA _ I))))).
    destruct (module_runs pr glob key printable wordch gname pnum pname hname tname name c role_of
                NA NP Hn Ht C1 false (sourced_to_false _ C2) Hdata HP HL NC HG HB HPy HT Hself Hcls eq_refl) as [n0 N].
    exists (module_table printable wordch gname pnum pname hname tname name c),
           (conv_func printable wordch gname pnum pname hname tname c), n0.
    split; [apply the_table; eapply module_defines with (u := false); eauto using sourced_to_false|]. split.
    - unfold module_table. cbn [find_def]. unfold teqb. destruct (text_eq_dec name name); congruence.
    - intros n args v s Hle Hargs. destruct (N n Hle v args Hargs) as (m & E & L). exists m. split; [exact E|].
      rewrite (L s). eapply converter_reads; eauto.
      intros y I. destruct (HA y I) as (A1 & _ & _ & A2 & A3). repeat split; auto.
      + intros ->. pose proof (args_ident c false C1) as F. rewrite Forall_forall in F. specialize (F _ I). discriminate F.
      + apply Hargs in I. apply in_map_iff in I as ([z u] & <- & I). eauto.
  Qed.

  (** Names that differ from place to place are enough. *)
  Theorem C51_helpers_do_not_clash_partial name c :
    python_world -> names_world name c -> labels_world c -> covered c -> args_named c ->
    (forall p q, hname p = hname q -> p = q) -> computes name c.
  Proof.
    intros H1 H2 H3 H4 H5 HI. apply C51_source_computes_the_conversion_partial; auto.
    intros f h h'. now apply names_unique.
  Qed.
End Claims.

(** *** a concrete case *)
(** c.list(
      c.item("x", default=c.input_arg("d")),
      c.list(c.optional(c.item("a"), skip_if=...), c.item("l").item(7, default=-1)),
      c.item("l").pipe(c.list_comp(f0(c.this()), where=c.this() > 1).sort(reverse=True)),
      c.if_(c.item("on"), c.item("y", default=2), None),
    ).pipe(c.tuple(c.this(), c.naive(3) == 3)) *)
Definition demo_source : cv :=
  CPipe
    (COp OList
       [CDefault false None [str "x"] (CArg (T "d"));
        CItems KList [(Some (key "on"), key "a"); (None, CDefault false (Some (key "l")) [int 7] (int (-1)))];
        CPipe (key "l")
          (COp OSortedList [CComp KSrc [fcall 0 [CThis]] (Some (COp (OBin (T ">")) [CThis; int 1])); CLit LNone; CLit (LBool true)]);
        CIf false (Some (key "on")) (Some (CDefault false None [str "y"] (int 2))) (Some (CLit LNone))])
    (COp OTuple [CThis; CEqs [int 3; int 3]]).
Definition demo_input : val :=
  VDict [(VStr "x", VInt 10); (VStr "on", VBool true); (VStr "a", VStr "A");
         (VStr "l", VList [VInt 2; VInt 1; VInt 5])].

Lemma demo_world c : (forall x, In x (args_of c) -> demo_role x = Local) ->
  python_world bpy bglob ascii_printable oname /\
  names_world ascii_printable word oname pn hplace tn demo_role (T "converter") c.
Proof.
  intros H. split.
  - split; [apply ascii_ok|]. split; [apply bpy_builtins|]. split; [apply bpy_ok|]. split; [apply bpy_tests|]. apply bglob_object.
  - split; [apply source_names|]. split; [apply source_plain|]. split; [apply demo_temp|]. split; [reflexivity|].
    now apply demo_apart.
Qed.

Example C51_instance :
  covered demo_source /\ args_of demo_source = [T "d"] /\
  python_world bpy bglob ascii_printable oname /\
  names_world ascii_printable word oname pn hplace tn demo_role (T "converter") demo_source /\
  labels_world label_key place_num demo_source /\
  args_named pn tn demo_source /\ (forall p q, hplace p = hplace q -> p = q).
Proof.
  assert (HA : args_of demo_source = [T "d"]) by reflexivity.
  split; [split; [|split]; vm_compute; reflexivity|]. split; [exact HA|].
  assert (HR : forall x, In x (args_of demo_source) -> demo_role x = Local) by (rewrite HA; intros x [<-|[]]; reflexivity).
  destruct (demo_world demo_source HR) as [D1 D2]. split; [exact D1|]. split; [exact D2|].
  split; [split; [apply label_key_place|]|].
  - intros n I. exfalso. revert I. vm_compute. tauto.
  - split; [|apply hplace_inj]. unfold args_named. rewrite HA. intros x [<-|[]]. repeat split; try discriminate; intros t; discriminate.
Qed.
(** the text, with short names *)
Definition short (q : list nat) : text := T "h_" ++ flat_map (fun n => ndec (N.of_nat n)) q.
Example C51_text :
  map str_of (flat_map lines (module_texts word (py_repr ascii_printable) oname (fun _ => 1) (fun _ => T "i_0") short
                                (fun _ => T "pipe_0") (T "converter") demo_source)) =
  [""; "def h_00(obj_, default_):"; "    global add_label_, get_by_label_"; "    try:"; "        return obj_['x']";
   "    except (TypeError, KeyError, IndexError, AttributeError):"; "        return default_"; "";
   ""; "def h_1110(self_, obj_, default_):"; "    global add_label_, get_by_label_"; "    try:"; "        return self_[7]";
   "    except (TypeError, KeyError, IndexError, AttributeError):"; "        return default_"; "";
   ""; "def h_10(data_):"; "    if data_['on']:"; "        yield data_['a']"; "    yield h_1110(data_['l'],data_,-1)"; "        ";
   ""; "def h_130(obj_, default_):"; "    global add_label_, get_by_label_"; "    try:"; "        return obj_['y']";
   "    except (TypeError, KeyError, IndexError, AttributeError):"; "        return default_"; "";
   ""; "def converter(data_, *, d):"; "    global add_label_, get_by_label_";
   "    pipe_0 = [h_00(data_,d),list(h_10(data_)),sorted((f_(i_0) for i_0 in data_['l'] if (i_0 > 1)), key=None,reverse=True),(h_130(data_,2) if data_['on'] else None)]";
   "    return (pipe_0,(3 == 3),)"; ""]%string.
Proof. vm_compute. reflexivity. Qed.
(** its result *)
Example C51_result :
  let tab := (module_table ascii_printable word oname place_num pn hplace tn (T "converter") demo_source) in
  let fd := conv_func ascii_printable word oname place_num pn hplace tn demo_source in
  option_map (fun m => let r := m ([], nolab) in (fst (fst r), snd r))
    (call_function bpy bglob label_key tab 20 fd [demo_input] [(T "d", VInt 0)]) =
  Some ([(0, [VInt 2]); (0, [VInt 5])],
        Val (VTuple [VList [VInt 10; VList [VStr "A"; VInt (-1)]; VList [VInt 6; VInt 3]; VInt 2]; VBool true])).
Proof. vm_compute. reflexivity. Qed.

(** *** helper functions with one name *)
(** gen_name gives equal names to conversions with equal hashes (base.py:275,
    364-388): the hash is the id, and If generates the code of clones that are
    freed afterwards (base.py:1227-1253, 340-361), so that a later clone can get
    the id, hence the name, of an earlier one.
    c.list(c.if_(c.this(), c.item("x", default=1)), c.if_(c.this(), c.item("y", default=2)))
    then defines the same function twice, and both places call the last one. *)
Definition two_ifs : cv :=
  COp OList [CIf false None (Some (CDefault false None [str "x"] (int 1))) None;
             CIf false None (Some (CDefault false None [str "y"] (int 2))) None].
Definition one_name (q : list nat) : text := T "h_".
Definition xy : val := VDict [(VStr "x", VInt 10); (VStr "y", VInt 20)].

Theorem C51_equal_helper_names_refuted :
  exists c tab fd,
    python_world bpy bglob ascii_printable oname /\
    names_world ascii_printable word oname pn one_name tn demo_role (T "converter") c /\
    labels_world label_key place_num c /\ covered c /\ args_of c = [] /\
    (forall tab', defines (module_texts word (py_repr ascii_printable) oname place_num pn one_name tn (T "converter") c) tab' <-> tab' = tab) /\
    find_def tab (T "converter") = Some fd /\
    option_map (fun m => snd (m ([], nolab))) (call_function bpy bglob label_key tab 20 fd [xy] []) =
      Some (Val (VList [VInt 20; VInt 20])) /\
    snd (den bpy [] c xy ([], nolab)) = Val (VList [VInt 10; VInt 20]).
Proof.
  exists two_ifs,
    (module_table ascii_printable word oname place_num pn one_name tn (T "converter") two_ifs),
    (conv_func ascii_printable word oname place_num pn one_name tn two_ifs).
  assert (HA : args_of two_ifs = []) by reflexivity.
  assert (D1 : python_world bpy bglob ascii_printable oname).
  { apply (demo_world two_ifs). rewrite HA. intros x []. }
  assert (NP : names_plain oname pn one_name).
  { destruct source_plain as (A & B & _). repeat split; auto. }
  assert (NA : names_apart oname pn one_name tn (T "converter") (args_of two_ifs) demo_role).
  { destruct (demo_apart []) as [A1 A2 A3 A4 A5 A6 A7 A8]; [intros x []|]. constructor; auto. }
  assert (NW : names_world ascii_printable word oname pn one_name tn demo_role (T "converter") two_ifs).
  { split; [|split; [exact NP|split; [apply demo_temp|split; [reflexivity|exact NA]]]].
    destruct source_names as [A1 A2 A3 A4 A5 A6]. constructor; auto. discriminate. }
  assert (LW : labels_world label_key place_num two_ifs).
  { split; [apply label_key_place|]. intros n I. exfalso. revert I. vm_compute. tauto. }
  assert (CO : covered two_ifs) by (split; [|split]; vm_compute; reflexivity).
  split; [exact D1|]. split; [exact NW|]. split; [exact LW|]. split; [exact CO|]. split; [exact HA|].
  split; [|split; [reflexivity|split; vm_compute; reflexivity]].
  apply the_table. eapply module_defines with (key := label_key) (u := false); try exact NA; try exact NP; try apply CO; try apply LW; try (apply (sourced_to_false _ (proj1 (proj2 CO)))).
  - apply ascii_ok.
  - apply demo_temp.
  - rewrite HA. intros [].
Qed.

Print Assumptions C51_source_computes_the_conversion_partial.
Print Assumptions C51_helpers_do_not_clash_partial.
Print Assumptions C51_equal_helper_names_refuted.
