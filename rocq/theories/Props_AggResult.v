(** C36: group keys may be used freely in the output of a group_by.

    [group_by( *by_).aggregate(c)]: the code of [c] is generated for the name
    [row_] and searched for the codes of the keys [by_].  [s] below is the code
    of [c] with places instead of the keys.  The full property has no condition
    on the texts; it does not hold (see the refutations). *)
From Coq Require Import String Ascii List ZArith NArith Bool Arith Lia.
From Verif Require Import Model_PyVal Model_Code Model_Eval Model_Python Spec_Frag Spec_Eval Spec_Converter Spec_Demo
  Proofs_Eval Model_AggText Model_AggResult Spec_AggResult Proofs_AggResult.
Import ListNotations.

Section C36.
  Variables (wordch : N -> bool) (srepr : text -> text) (gname : nat -> text) (pnum : list nat -> nat)
            (pname : text -> text) (hname : list nat -> text).
  Notation print := (print srepr gname pnum).
  Notation gen := (gen wordch srepr gname pnum pname hname).
  Notation output := (output srepr gname pnum).
  Notation result_code := (result_code wordch srepr gname pnum pname hname).
  Notation key_codes := (key_codes wordch srepr gname pnum pname hname).

  (** the code of key [i]; after the keys, the row itself *)
  Definition key_code (kq : list nat) (by_ : list cv) (i : nat) : px :=
    gen false kq (nth i by_ CThis) (PName (T "row_")).

  Lemma key_codes_are kq by_ :
    key_codes kq by_ = map (fun i => print (key_code kq by_ i)) (seq 0 (length by_)).
  Proof.
    unfold Model_AggResult.key_codes, key_code. change row_name with (T "row_").
    induction by_ as [|b by_ IH]; [reflexivity|]. cbn [length seq map nth]. f_equal. rewrite IH, <- seq_shift, map_map. reflexivity.
  Qed.

  (** The output is accepted if the row is needed for the keys only, and then its
      code means what [c] says, with the values of the group's keys for the keys. *)
  Theorem C36_keys_partial : forall kq by_ q c s,
    plain_output c ->
    output (length by_) (key_code kq by_) s (gen false q c (PName (T "row_"))) ->
    (forall i, In i (places s) -> i < length by_) ->
    exists e,
      result_code (key_codes kq by_) q c = Code (print e) /\
      forall (V W X : Type) (pr : prims V W X) key E E',
        group_env pr (length by_) key E E' ->
        (forall x, In x (loop_vars s) -> place_of x = None /\ x <> T "signature_") ->
        forall st, eval pr E e st = eval pr E' s st.
  Proof.
    intros kq by_ q c s Pl O Hp. exists (plug (signature_code (length by_)) s). rewrite key_codes_are. split.
    - apply (result_code_spec wordch srepr gname pnum pname hname (length by_) (key_code kq by_) q c s Pl O).
      intros i Hi. apply Hp. revert Hi. apply printed_place. apply O.
    - intros V W X pr key E E' HE Hv st. now apply (plug_value pr (length by_) key).
  Qed.

  (** Where the keys have the values [key], also on the row itself, the accepted
      output means what the conversion means on that row. *)
  Theorem C36_as_on_a_row_partial : forall kq by_ q c s,
    plain_output c ->
    output (length by_) (key_code kq by_) s (gen false q c (PName (T "row_"))) ->
    (forall i, In i (places s) -> i < length by_) ->
    exists e,
      result_code (key_codes kq by_) q c = Code (print e) /\
      forall (V W X : Type) (pr : prims V W X) key (E Erow E' : list (text * V)),
        group_env pr (length by_) key E E' ->
        (forall x, In x (loop_vars s) -> place_of x = None /\ x <> T "signature_") ->
        (forall y, place_of y = None -> lookup E' y = lookup Erow y) ->
        (forall B, (forall p, In p B -> In (fst p) (loop_vars s)) -> forall i, i < length by_ ->
           forall st, eval pr (B ++ Erow) (key_code kq by_ i) st = (st, Val (key i))) ->
        forall st, eval pr E e st = eval pr Erow (gen false q c (PName (T "row_"))) st.
  Proof.
    intros kq by_ q c s Pl O Hp. destruct (C36_keys_partial kq by_ q c s Pl O Hp) as (e & R & H).
    exists e. split; [exact R|]. intros V W X pr key E Erow E' HE Hv HR HK st. rewrite (H V W X pr key E E' HE Hv st).
    rewrite (out_plug _ _ _ _ _ _ _ O). symmetry.
    apply (plug_means pr (length by_) key (key_code kq by_) s Erow E'); auto.
    - apply HE.
    - intros x Hx. now apply Hv.
  Qed.

  (** Any other use of the row is rejected. *)
  Theorem C36_rejected_partial : forall kq by_ q c s,
    plain_output c ->
    output (length by_) (key_code kq by_) s (gen false q c (PName (T "row_"))) ->
    (exists i, length by_ <= i /\ In (place i) (print s)) ->
    result_code (key_codes kq by_) q c = Rejected.
  Proof.
    intros kq by_ q c s Pl O Hp. rewrite key_codes_are.
    now apply (result_code_spec wordch srepr gname pnum pname hname (length by_) (key_code kq by_) q c s Pl O).
  Qed.
End C36.

(** *** Instances *)
Notation rcode := (result_code word quote gn pnum0 pn hn).
Notation kcodes := (key_codes word quote gn pnum0 pn hn []).
Notation pr0 := (print quote gn pnum0).
Definition reduced (n : nat) : cv := CArg (T "agg_data_.v" ++ ndec (N.of_nat n)).
Definition at_ (i : nat) : px := PName [place i].
Definition attr (s : string) : cv := CAttr CThis (str s).

(** group_by(c.item("a"), c.item("b")).aggregate({"k": c.item("b"),
    "f": c.call_func(f0, c.item("a")), "s": c.reduce(...), "c": "text", "p": [c.item("a", 1) ...]}) *)
Definition ex_by : list cv := [key "a"; key "b"].
Definition ex_out : cv :=
  COp ODict [str "k"; key "b"; str "f"; fcall 0 [key "a"]; str "s"; reduced 0;
             str "c"; str "text"; str "i"; CIf false (Some (COp (OBin (T ">")) [key "b"; int 1])) (Some (int 1)) (Some (key "a"))].
Definition ex_s : px :=
  POp ODict [PLit (LStr (T "k")); at_ 1; PLit (LStr (T "f")); POp (OCall 1 []) [PGlob 0; at_ 0];
             PLit (LStr (T "s")); PName (T "agg_data_.v0"); PLit (LStr (T "c")); PLit (LStr (T "text"));
             PLit (LStr (T "i")); PIf (POp (OBin (T ">")) [at_ 1; PLit (LInt 1)]) (PLit (LInt 1)) (at_ 0)].

Lemma unicode_by (l : list text) : forallb (forallb (fun c => negb (is_place c))) l = true -> Forall unicode l.
Proof.
  intros H. apply Forall_forall. intros t I. rewrite forallb_forall in H. specialize (H t I). apply Forall_forall.
  intros c Ic. rewrite forallb_forall in H. apply negb_true_iff, H, Ic.
Qed.
Lemma unicode_one (t : text) : forallb (fun c => negb (is_place c)) t = true -> unicode t.
Proof. intros H. assert (F : Forall unicode [t]) by (apply unicode_by; cbn [forallb]; rewrite H; reflexivity). now inversion F. Qed.

Example ex_output : output quote gn pnum0 (length ex_by) (key_code word quote gn pnum0 pn hn [] ex_by) ex_s
  (gen word quote gn pnum0 pn hn false [] ex_out (PName (T "row_"))).
Proof.
  constructor.
  - vm_compute. reflexivity.
  - apply unicode_by. vm_compute. reflexivity.
  - intros i. destruct i as [|[|[|i]]]; split; try (vm_compute; reflexivity); apply unicode_one; vm_compute; reflexivity.
  - vm_compute. reflexivity.
  - vm_compute. reflexivity.
Qed.
Example ex_keys :
  plain_output ex_out /\ (forall i, In i (places ex_s) -> i < length ex_by) /\ loop_vars ex_s = [] /\
  rcode (kcodes ex_by) [] ex_out =
  Code (T "{'k':signature_[1],'f':f0(signature_[0]),'s':agg_data_.v0,'c':'text','i':(1 if (signature_[1] > 1) else signature_[0])}").
Proof.
  split; [exists 5; reflexivity|]. split; [|split; vm_compute; reflexivity].
  assert (F : forallb (fun i => Nat.ltb i 2) (places ex_s) = true) by reflexivity.
  intros i I. rewrite forallb_forall in F. apply Nat.ltb_lt. now apply F.
Qed.
(** an environment in which the group has the keys 5 and 7 *)
Definition ex_key (i : nat) : val := if Nat.eqb i 0 then VInt 5 else VInt 7.
Example ex_group : group_env tpy 2 ex_key
  [(T "signature_", VTuple [VInt 5; VInt 7]); (T "agg_data_.v0", VInt 12)]
  [([place 0], VInt 5); ([place 1], VInt 7); (T "signature_", VTuple [VInt 5; VInt 7]); (T "agg_data_.v0", VInt 12)].
Proof.
  constructor.
  - eexists. split; [reflexivity|]. split; [discriminate|]. intros _ i Hi w. destruct i as [|[|i]]; [reflexivity|reflexivity|lia].
  - intros i Hi. destruct i as [|[|i]]; [reflexivity|reflexivity|lia].
  - intros y Hy. cbn [lookup]. destruct (text_eq_dec y [place 0]) as [->|]; [discriminate|].
    destruct (text_eq_dec y [place 1]) as [->|]; [discriminate|]. reflexivity.
Qed.
(** and its meaning there *)
Example ex_meaning :
  eval tpy [(T "signature_", VTuple [VInt 5; VInt 7]); (T "agg_data_.v0", VInt 12)] (plug (signature_code 2) ex_s) ([], nolab) =
  (([(0, [VInt 5])], nolab),
   Val (VDict [(VStr "k", VInt 7); (VStr "f", VInt 6); (VStr "s", VInt 12); (VStr "c", VStr "text"); (VStr "i", VInt 1)])).
Proof. vm_compute. reflexivity. Qed.

(** One key; the output is the key and another field: rejected. *)
Definition ex_bad : cv := COp OTuple [key "a"; COp (OBin (T "+")) [key "c"; int 1]].
Definition ex_bad_s : px :=
  POp OTuple [at_ 0; POp (OBin (T "+")) [POp OItem [at_ 1; PLit (LStr (T "c"))]; PLit (LInt 1)]].
Example ex_rejected :
  plain_output ex_bad /\
  output quote gn pnum0 1 (key_code word quote gn pnum0 pn hn [] [key "a"]) ex_bad_s
    (gen word quote gn pnum0 pn hn false [] ex_bad (PName (T "row_"))) /\
  In (place 1) (pr0 ex_bad_s).
Proof.
  split; [exact I|]. split; [|vm_compute; intuition].
  constructor.
  - vm_compute. reflexivity.
  - apply unicode_by. vm_compute. reflexivity.
  - intros i. destruct i as [|[|i]]; split; try (vm_compute; reflexivity); apply unicode_one; vm_compute; reflexivity.
  - vm_compute. reflexivity.
  - vm_compute. reflexivity.
Qed.

(** *** Refutations of the full property *)

(** A constant in which the letters [row_] occur is rejected:
    c.group_by(c.item("a")).aggregate({"narrow_": c.item("a")}). *)
Theorem C36_constants_refuted : exists c,
  rcode (kcodes [key "a"]) [] c = Rejected /\ c = COp ODict [str "narrow_"; key "a"].
Proof. eexists. split; [|reflexivity]. vm_compute. reflexivity. Qed.

(** A constant is changed: group_by(c.this()).aggregate({"row_id": c.this()}) makes
    dicts with the key "signature_id". *)
Theorem C36_constant_changed_refuted : exists c,
  rcode (kcodes [CThis]) [] c = Code (T "{'signature_id':signature_}") /\ c = COp ODict [str "row_id"; CThis].
Proof. eexists. split; [|reflexivity]. vm_compute. reflexivity. Qed.

(** group_by(c.item("b"), 0).aggregate((c.item("b"), 10)): the code of the constant
    key is found in the number, and the generated code is not Python. *)
Theorem C36_constant_key_refuted : exists c,
  rcode (kcodes [key "b"; int 0]) [] c = Code (T "(signature_[signature_[1]],1signature_[1],)") /\ c = COp OTuple [key "b"; int 10].
Proof. eexists. split; [|reflexivity]. vm_compute. reflexivity. Qed.

(** group_by(c.attr("a")).aggregate(c.attr("ab")) is not rejected, although "ab" is no
    key: the code is the undefined name [signature_b]. *)
Theorem C36_prefix_refuted : exists c,
  rcode (kcodes [attr "a"]) [] c = Code (T "signature_b") /\ c = attr "ab".
Proof. eexists. split; [|reflexivity]. vm_compute. reflexivity. Qed.

(** c.reduce(...).pipe({"k": c.item("a")}) as the output of group_by(c.item("a")): the
    reduced value is dropped and the group key is returned. *)
Theorem C36_pipe_refuted : exists c,
  rcode (kcodes [key "a"]) [] c = Code (T "{'k':signature_}") /\
  c = CPipe (reduced 0) (COp ODict [str "k"; key "a"]).
Proof. eexists. split; [|reflexivity]. vm_compute. reflexivity. Qed.

(** Optional items, which need no row, cannot be used in the output at all. *)
Theorem C36_optional_refuted : forall keys q k ls, rcode keys q (CItems k ls) = Misplaced.
Proof. reflexivity. Qed.

Print Assumptions C36_keys_partial.
Print Assumptions C36_as_on_a_row_partial.
Print Assumptions C36_rejected_partial.
