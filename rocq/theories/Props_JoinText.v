(** C57: the source text of a join. *)
From Coq Require Import String Ascii List ZArith NArith Bool Arith Lia.
From Verif Require Import Model_PyVal Model_Join Model_Labels Model_JoinLazy Model_Code Model_Source Model_JoinText Model_JoinFuncs
  Spec_Syntax Spec_Source Spec_JoinLazy Spec_GenRun Spec_JoinText.
From Verif Require Proofs_JoinRead Proofs_JoinCall Proofs_JoinStages Proofs_Meaning Props_JoinLazy.
Import ListNotations.
Notation the_call := Spec_JoinLazy.call_of.

Section C57.
  (** str.isprintable (for repr of strings) and \w *)
  Variable printable : N -> bool.
  Hypothesis PO : printable_ok printable.
  Variable wordch : N -> bool.
  Hypothesis WC : forall c, (c < 128)%N -> wordch c = (ascii_alpha c || (N.leb 48 c && N.leb c 57) || N.eqb c 95).
  Variable N : jnames.
  Variable h : Model_Join.how.
  Variable cond : option jx.
  Hypothesis CL : clean N cond.
  Hypothesis TX : match cond with Some e => textual e = true | None => True end.

  Definition source : text := join_text wordch (py_repr printable) N h cond.

  (** what the function is: read from the text *)
  Definition join_func : func :=
    {| f_params := T "left" :: T "right" :: cond_args cond; f_kwonly := [];
       f_body := SGlobal [T "add_label_"; T "get_by_label_"] :: Proofs_JoinStages.body_stmts N h cond |}.
  Lemma source_reads : reads_function source (n_fn N) join_func.
  Proof. apply Proofs_JoinRead.join_reads; auto. Qed.

  Section Run.
    (** the operators and functions of the condition *)
    Variable opr : text -> list val -> res val.
    Notation calls := (calls (module_globals N) opr (module_gfuns N h) (module_indexers N h cond opr)).
    Notation takes := (takes (module_globals N) opr (module_gfuns N h) (module_indexers N h cond opr)).
    Notation outs ops := (snd (Model_Labels.run (jcall_out (jop opr) h cond) (jresume (jop opr) h cond) jclose world0 ops)).

    (** The text of a join is the source of a Python function.  Called on the two
        collections and the arguments of the condition it raises what the join raises,
        returns the empty list if the join does, and otherwise returns an iterator:
        next() after next(), up to the end or an exception, it gives the pairs, the end or
        the exception that the join gives. *)
    Theorem C57_text_runs :
      exists fd,
        reads_function source (n_fn N) fd /\
        f_params fd = T "left" :: T "right" :: cond_args cond /\
        forall x m args,
        call_args cond x m args ->
        exists m1 r,
          calls fd args m m1 r /\
          match r with
          | Err e => outs [Call x] = [ORaise e]
          | Ok (Coll l) => l = [] /\ outs [Call x] = [OValue LEmpty]
          | Ok it =>
              outs [Call x] = [OGenerator] /\
              forall n ps o,
              outs (Call x :: repeat (Next 0) (S n)) = OGenerator :: yields ps ++ [o] ->
              exists g, as_out o = Some g /\ takes (S n) it m1 (map as_item ps ++ [g])
          end.
    Proof.
      exists join_func. split; [apply source_reads|]. split; [reflexivity|]. intros x m args A.
      eapply Proofs_JoinCall.call_takes; eauto; reflexivity.
    Qed.

    (** If the join of two collections is [out] (C38-C42 say what that is), the function
        gives exactly [out]: as an iterator whose next() gives its pairs in this order and
        then the end, or as the empty list. *)
    Theorem C57_all_pairs :
      exists fd,
        reads_function source (n_fn N) fd /\
        forall kl kr left right inputs out m args,
        join (jop opr) inputs h cond kl kr left right = Ok out ->
        call_args cond (the_call h kl kr left right inputs []) m args ->
        exists m1 v,
          calls fd args m m1 (Ok v) /\
          (v = Coll [] /\ out = [] \/ takes (S (length out)) v m1 (map as_item out ++ [GEnd])).
    Proof.
      destruct C57_text_runs as (fd & R & _ & H). exists fd. split; [exact R|]. intros kl kr left right inputs out m args J A.
      destruct (H _ _ _ A) as (m1 & r & C & B).
      destruct (Props_JoinLazy.C56_all_pairs (jop opr) h cond kl kr left right inputs out 1 J) as [[G O]|[-> O]].
      - assert (X : forall v, match v with
          | Coll l => l = [] /\ outs [Call (the_call h kl kr left right inputs [])] = [OValue LEmpty]
          | _ => outs [Call (the_call h kl kr left right inputs [])] = [OGenerator] /\
              forall n ps o, outs (Call (the_call h kl kr left right inputs []) :: repeat (Next 0) (S n)) = OGenerator :: yields ps ++ [o] ->
              exists g, as_out o = Some g /\ takes (S n) v m1 (map as_item ps ++ [g])
          end -> takes (S (length out)) v m1 (map as_item out ++ [GEnd])).
        { intros v V. rewrite Nat.add_1_r in O.
          assert (Y : forall n ps o, outs (Call (the_call h kl kr left right inputs []) :: repeat (Next 0) (S n)) = OGenerator :: yields ps ++ [o] ->
              exists g, as_out o = Some g /\ takes (S n) v m1 (map as_item ps ++ [g])).
          { destruct v; try exact (proj2 V). exfalso. destruct V as [_ V]. rewrite G in V. discriminate V. }
          destruct (Y (length out) out OStop O) as (g & E & T). cbn in E. injection E as <-. exact T. }
        destruct r as [v|e].
        + exists m1, v. split; [exact C|]. right. apply X. exact B.
        + rewrite G in B. discriminate B.
      - destruct r as [v|e].
        + exists m1, v. split; [exact C|]. left. destruct v; try (destruct B as [B _]; rewrite O in B; discriminate B). destruct B as [-> _]. auto.
        + rewrite O in B. discriminate B.
    Qed.

    (** The first pairs come out whatever follows in the collection that is read row by row:
        [more] may hold rows the condition fails on, or an exception. *)
    Theorem C57_first_pairs :
      exists fd,
        reads_function source (n_fn N) fd /\
        forall kl kr left right inputs out k p more m args,
        join (jop opr) inputs h cond kl kr left right = Ok out ->
        nth_error out k = Some p ->
        (h = Outer -> Forall (fun p => rid (fst p) <> 0) (firstn (S k) out)) ->
        call_args cond (the_call h kl kr left right inputs more) m args ->
        exists m1 it,
          calls fd args m m1 (Ok it) /\
          takes (S k) it m1 (map as_item (firstn k out) ++ [as_item p]).
    Proof.
      destruct C57_text_runs as (fd & R & _ & H). exists fd. split; [exact R|]. intros kl kr left right inputs out k p more m args J NK NN A.
      destruct (H _ _ _ A) as (m1 & r & C & B).
      destruct (Props_JoinLazy.C56_lazy (jop opr) h cond kl kr left right inputs out k p more J NK NN) as [O _].
      assert (FK : firstn (S k) out = firstn k out ++ [p]).
      { clear - NK. revert out NK. induction k as [|k IH]; intros [|q out] NK; try discriminate.
        - injection NK as ->. reflexivity.
        - cbn [firstn app]. f_equal. now apply IH. }
      rewrite FK in O. unfold yields in O. rewrite map_app in O. cbn [map] in O.
      assert (NV : forall e l, outs (Call (the_call h kl kr left right inputs more) :: l) = e -> exists o, e = o :: tl e /\ outs [Call (the_call h kl kr left right inputs more)] = [o]).
      { intros e l <-. cbn [Model_Labels.run]. destruct (Model_Labels.step _ _ _ world0 (Call (the_call h kl kr left right inputs more))) as [w o]. exists o.
        destruct (Model_Labels.run _ _ _ w l). cbn [snd tl]. auto. }
      destruct (NV _ _ O) as (o & E & G). injection E as <-.
      destruct r as [v|e]; [|rewrite G in B; discriminate B]. exists m1, v. split; [exact C|].
      assert (Y : forall n ps o, outs (Call (the_call h kl kr left right inputs more) :: repeat (Next 0) (S n)) = OGenerator :: yields ps ++ [o] ->
              exists g, as_out o = Some g /\ takes (S n) v m1 (map as_item ps ++ [g])).
      { destruct v; try exact (proj2 B). exfalso. destruct B as [_ V]. rewrite G in V. discriminate V. }
      destruct (Y k (firstn k out) (OYield (LPair p)) O) as (g & E & TK). destruct p as [a b]. cbn in E. injection E as <-. exact TK.
    Qed.
  End Run.
End C57.

(** *** examples *)
Definition word (c : N) : bool := ascii_alpha c || (N.leb 48 c && N.leb c 57) || N.eqb c 95.
Definition visible (c : N) : bool := N.leb 32 c && N.ltb c 127.
Lemma visible_ok : printable_ok visible.
Proof.
  intros c. unfold surrogate, visible. rewrite andb_true_iff, !N.leb_le. intros [A _]. apply andb_false_iff. right. apply N.ltb_ge. lia.
Qed.
Definition picked : jnames :=
  {| n_fn := T "join"; n_right := T "i"; n_left := T "i1"; n_pipe := fun k => T "pipe_" ++ ndec (N.of_nat k); n_cached := 7;
     n_empty := T "empty"; n_agg := T "aggregate"; n_joiner := T "left_joiner"; n_adder := T "add_right_part" |}.
(** LEFT.item(0) == RIGHT.item("id") and RIGHT.item("n") > input_arg("least")
    and LEFT.item(1) is not None and LEFT.item(2) != RIGHT.item("m") *)
Definition some_cond : jx :=
  JAnd [JEq [JItem JLeft (JConst (VInt 0)); JItem JRight (JConst (VStr "id"))];
        JOp ">" [JItem JRight (JConst (VStr "n")); JArg "least"];
        JOp "is not" [JItem JLeft (JConst (VInt 1)); JConst VNone];
        JOp "!=" [JItem JLeft (JConst (VInt 2)); JItem JRight (JConst (VStr "m"))]].
Lemma nodup_all (l : list text) : nodup text_eq_dec l = l -> NoDup l.
Proof. intros <-. apply NoDup_nodup. Qed.
Example picked_clean : clean picked (Some some_cond).
Proof.
  split; [apply nodup_all; vm_compute; reflexivity|]. split; [apply Forall_forall; intros x I; revert x I; apply Forall_forall; repeat constructor|].
  split; [|intros x []]. intros x [<-|[]]. split; [|intros []]. intros I.
  assert (X : existsb (fun y => teqb (T "least") y) (reserved picked) = true).
  { apply existsb_exists. exists (T "least"). split; [exact I|]. vm_compute. reflexivity. }
  vm_compute in X. discriminate X.
Qed.
Example some_textual : textual some_cond = true. Proof. reflexivity. Qed.

(** the text of an inner join ... *)
Example inner_text : source visible word picked Inner (Some some_cond) =
  nl ++ T "def join(left, right, least):" ++ nl ++
  T "    global add_label_, get_by_label_" ++ nl ++
  T "    pipe_0 = (add_label_('right_collection', (i for i in right if (i['n'] > least))) or get_by_label_('right_collection'))" ++ nl ++
  T "    pipe_1 = pipe_0" ++ nl ++
  T "    pipe_2 = (add_label_('hash_to_items', aggregate(pipe_1)) or get_by_label_('hash_to_items'))" ++ nl ++
  T "    pipe_3 = left" ++ nl ++
  T "    pipe_4 = (i1 for i1 in pipe_3 if (i1[1] is not None))" ++ nl ++
  T "    return (((left_item, right_item) for left_item in pipe_4 for right_item in (get_by_label_('hash_to_items')[get_by_label_('cached_val_7')] if ((add_label_('cached_val_7', (left_item)[0]) or get_by_label_('cached_val_7')) in get_by_label_('hash_to_items')) else (get_by_label_('cached_val_7') and None or empty)) if (left_item[2] != right_item['m'])))" ++ nl.
Proof. vm_compute. reflexivity. Qed.
(** ... and of a full outer join on the rows themselves *)
Example outer_text : source visible word picked Outer (Some (JEq [JLeft; JRight])) =
  nl ++ T "def join(left, right):" ++ nl ++
  T "    global add_label_, get_by_label_" ++ nl ++
  T "    return add_right_part(left_joiner(((left_item, (right_item for right_item in (get_by_label_('hash_to_items')[(left_item)] if ((left_item) in get_by_label_('hash_to_items')) else empty))) for left_item in ((add_label_('hash_to_items', aggregate((add_label_('right_collection', list(right)) or get_by_label_('right_collection')))) or get_by_label_('hash_to_items')) and None or left))),get_by_label_=(get_by_label_))" ++ nl.
Proof. vm_compute. reflexivity. Qed.

(** a list on the left, an iterator on the right; least=5 *)
Definition opr0 (o : text) (l : list val) : res val :=
  match l with
  | [VInt a; VInt b] => Ok (VBool (if teqb o (T ">") then Z.ltb b a else negb (Z.eqb a b)))
  | [a; _] => Ok (VBool (match a with VNone => false | _ => true end))
  | _ => Err TypeError
  end.
Definition five (a : string) : val := VInt 5.
Definition lefts : list robj :=
  [mkObj 1 (VTuple [VInt 1; VStr "a"; VInt 5]); mkObj 2 (VTuple [VInt 1; VNone; VInt 5]); mkObj 3 (VTuple [VInt 2; VStr "b"; VInt 5])].
Definition rights : list robj :=
  [mkObj 4 (VDict [(VStr "id", VInt 1); (VStr "n", VInt 9); (VStr "m", VInt 4)]);
   mkObj 5 (VDict [(VStr "id", VInt 1); (VStr "n", VInt 2); (VStr "m", VInt 4)]);
   mkObj 6 (VDict [(VStr "id", VInt 1); (VStr "n", VInt 9); (VStr "m", VInt 5)]);
   mkObj 7 (VDict [(VStr "id", VInt 1); (VStr "n", VInt 6); (VStr "m", VInt 6)])].
Definition some_mem : mem := mkMem (fun _ => mkFrame [] [] None) 0 (fun _ => map Ok rights) 1 [] (fun _ => []) 0 100.
Example joined : join (jop opr0) five Inner (Some some_cond) Reiterable OneShot lefts rights =
  Ok [(nth 0 lefts none_obj, nth 0 rights none_obj); (nth 0 lefts none_obj, nth 3 rights none_obj)].
Proof. vm_compute. reflexivity. Qed.
Example the_args : call_args (Some some_cond) (the_call Inner Reiterable OneShot lefts rights five []) some_mem [Coll lefts; Iter 0; Val (VInt 5)].
Proof.
  exists (Coll lefts), (Iter 0). split; [vm_compute; reflexivity|]. split; [right; exists lefts; split; reflexivity|]. split; [|exact I].
  exists 0. repeat split. cbn. lia.
Qed.
Example run_joined : exists fd m1 it,
  reads_function (source visible word picked Inner (Some some_cond)) (T "join") fd /\
  calls (module_globals picked) opr0 (module_gfuns picked Inner) (module_indexers picked Inner (Some some_cond) opr0)
    fd [Coll lefts; Iter 0; Val (VInt 5)] some_mem m1 (Ok it) /\
  takes (module_globals picked) opr0 (module_gfuns picked Inner) (module_indexers picked Inner (Some some_cond) opr0) 3 it m1
    [GItem (Tup [Obj (nth 0 lefts none_obj); Obj (nth 0 rights none_obj)]);
     GItem (Tup [Obj (nth 0 lefts none_obj); Obj (nth 3 rights none_obj)]); GEnd].
Proof.
  destruct (C57_all_pairs visible visible_ok word (fun c _ => eq_refl) picked Inner (Some some_cond) picked_clean some_textual opr0) as (fd & R & H).
  destruct (H _ _ _ _ _ _ _ _ joined the_args) as (m1 & v & C & [[_ E]|TK]); [discriminate E|]. exists fd, m1, v. auto.
Qed.

Print Assumptions C57_text_runs.
Print Assumptions C57_all_pairs.
Print Assumptions C57_first_pairs.
