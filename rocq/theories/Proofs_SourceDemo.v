(** A concrete Python for the theorems of Props_Source.v: the values of
    Model_PyVal.v with the functions of Spec_Demo.v and the builtins that generated
    code uses, and concrete names. *)
From Coq Require Import String Ascii List NArith ZArith Bool Arith Lia Cantor.
From Verif Require Import Model_PyVal Model_Code Model_Eval Model_Python Model_Converter Model_Source Spec_Frag Spec_Eval
  Spec_Converter Spec_Syntax Spec_Tree Spec_Source Spec_Writable Spec_Module Spec_Demo Proofs_Code Proofs_Lex Props_Syntax.
Import ListNotations.

(** *** builtins *)
Definition log := list (nat * list val).
Definition battr (v : val) (s : string) (w : log) : log * out exc val :=
  (w, Exc (if String.eqb s "pop" then TypeError else AttributeError)).
Definition bcall0 (f : val) (a : list val) (kw : list (text * val)) (w : log) : log * out exc val :=
  match f with
  | VObj i =>
      if Nat.eqb i 100 then match a with [x; VStr n] => battr x n w | _ => (w, Exc TypeError) end   (* getattr *)
      else if Nat.leb 101 i && Nat.leb i 103 then (w, Exc TypeError)      (* setattr, delattr, slice *)
      else if Nat.eqb i 104 then (w, Exc TypeError)                       (* sorted without key and reverse *)
      else if Nat.eqb i 105 then match a with [VList l] => (w, Val (VTuple l)) | _ => (w, Exc TypeError) end
      else if Nat.eqb i 106 then
        match a with
        | [VList l] => (w, of_res (do l2 <- pair_list l; do d <- build_dict l2 []; Ok (VDict d)))
        | _ => (w, Exc TypeError) end
      else tcall f a kw w
  | _ => tcall f a kw w
  end.
Definition bcall (f : val) (a : list val) (kw : list (text * val)) (w : log) : log * out exc val :=
  match f, a, kw with
  | VObj i, [x], [(_, k); (_, r)] =>
      if Nat.eqb i 104
      then let '(w', o) := py_sorted bcall0 x k r w in
           (w', match o with Val l => Val (VList l) | Exc e => Exc e end)
      else bcall0 f a kw w
  | _, _, _ => bcall0 f a kw w
  end.
Definition bpy := python bcall battr.

Definition oname (g : nat) : text := T "f_" ++ repeat 49%N g.
Definition number (x : text) (l : list text) : option nat :=
  (fix go i l := match l with [] => None | y :: r => if teqb x y then Some i else go (S i) r end) 100 l.
Definition bglob (x : text) : option val :=
  match number x (map T ["getattr"; "setattr"; "delattr"; "slice"; "sorted"; "tuple"; "OrderedDict"]%string) with
  | Some i => Some (VObj i)
  | None => if teqb (firstn 2 x) (T "f_") then Some (VObj (length x - 2)) else None
  end.

Lemma keys_same f l w : keys_of bcall f l w = keys_of bcall0 f l w.
Proof.
  revert w. induction l as [|x l IH]; intros w; [reflexivity|]. cbn [keys_of].
  assert (E : bcall f [x] [] w = bcall0 f [x] [] w) by (destruct f; reflexivity).
  rewrite E. destruct f; try (rewrite IH; reflexivity); destruct (bcall0 _ [x] [] w) as [w' [k|e]]; rewrite ?IH; reflexivity.
Qed.
Lemma sorted_same a k r w : py_sorted bcall a k r w = py_sorted bcall0 a k r w.
Proof. unfold py_sorted. destruct (items_of a); [|reflexivity]. now rewrite keys_same. Qed.

Lemma bpy_builtins : builtins_ok bpy bglob.
Proof.
  constructor.
  - intros a n. exists (VObj 100). split; [reflexivity|]. intros w. destruct n; reflexivity.
  - intros a n v. exists (VObj 101). split; [reflexivity|]. reflexivity.
  - intros a n. exists (VObj 102). split; [reflexivity|]. reflexivity.
  - intros a b c. exists (VObj 103). split; [reflexivity|]. reflexivity.
  - intros a k r. exists (VObj 104). split; [reflexivity|]. intros w.
    transitivity (let '(w', o) := py_sorted bcall0 a k r w in
                  (w', match o with Val l => Val (VList l) | Exc e => Exc e end)); [reflexivity|].
    rewrite <- sorted_same. reflexivity.
  - exists (VObj 105). split; [reflexivity|]. intros a k r w. unfold and_then. cbn [op bpy python py_op].
    destruct (py_sorted bcall a k r w) as [w' [l|e]]; reflexivity.
  - exists (VObj 106). split; [reflexivity|]. intros a k r w. unfold and_then. cbn [op bpy python py_op].
    destruct (py_sorted bcall a k r w) as [w' [l|e]]; reflexivity.
  - intros d i w. reflexivity.
  - intros n w. reflexivity.
  - intros w. reflexivity.
  - intros a w. reflexivity.
  - intros acc a b w. destruct acc; reflexivity.
Qed.
Lemma bpy_ok : py_ok bpy.
Proof. apply python_ok. Qed.
Lemma bpy_tests : tests_ok bpy.
Proof. apply python_tests. Qed.

(** *** names *)
Lemma teqb_head a b x y : a <> b -> teqb (a :: x) (b :: y) = false.
Proof. intros H. unfold teqb. destruct (text_eq_dec _ _) as [E|]; [|reflexivity]. congruence. Qed.
Lemma under_not c x l : forallb (fun k => match k with _ :: d :: _ => negb (N.eqb d 95) | _ => true end) l = true ->
  existsb (teqb (c :: 95%N :: x)) l = false.
Proof.
  induction l as [|k l IH]; intros H; [reflexivity|]. cbn [forallb existsb] in *. apply andb_true_iff in H as [H1 H2].
  rewrite IH by assumption. rewrite orb_false_r. unfold teqb. destruct (text_eq_dec _ k) as [<-|]; [discriminate|reflexivity].
Qed.
Lemma number_none x l : existsb (teqb x) l = false -> number x l = None.
Proof.
  unfold number. generalize 100. induction l as [|y l IH]; intros i H; [reflexivity|]. cbn [existsb] in H.
  apply orb_false_iff in H as [H1 H2]. cbn. rewrite H1. auto.
Qed.
Lemma bglob_object g : bglob (oname g) = Some (globv bpy g).
Proof.
  unfold bglob. rewrite number_none by (apply under_not; reflexivity).
  change (teqb (firstn 2 (oname g)) (T "f_")) with true. cbv iota. unfold oname. rewrite app_length, repeat_length.
  change (length (T "f_")) with 2. change (globv bpy g) with (VObj g). do 2 f_equal. lia.
Qed.

(** an injective name for every place *)
Definition hplace (q : list nat) : text := T "h_" ++ flat_map (fun n => repeat 49%N n ++ [48%N]) q.
Lemma hplace_inj p q : hplace p = hplace q -> p = q.
Proof.
  unfold hplace. intros H. apply app_inv_head in H. revert q H.
  assert (U : forall n m (a b : text), repeat 49%N n ++ 48%N :: a = repeat 49%N m ++ 48%N :: b -> n = m /\ a = b).
  { induction n as [|n IH]; intros [|m] a b H; cbn in H; try discriminate; [split; congruence|].
    injection H as H. apply IH in H as [-> ->]. auto. }
  induction p as [|n p IH]; intros [|m q] H; cbn in H; auto.
  - destruct m; discriminate.
  - destruct n; discriminate.
  - rewrite <- !app_assoc in H. apply U in H as [-> H]. f_equal. now apply IH.
Qed.
(** a number for every place *)
Fixpoint place_num (q : list nat) : nat := match q with [] => 0 | n :: r => S (to_nat (n, place_num r)) end.
Fixpoint num_place (fuel k : nat) : list nat :=
  match fuel, k with
  | S f, S k => fst (of_nat k) :: num_place f (snd (of_nat k))
  | _, _ => []
  end.
Lemma place_inv q : forall f, length q <= f -> num_place f (place_num q) = q.
Proof.
  induction q as [|n q IH]; intros f H; [destruct f; reflexivity|]. cbn [length] in H. destruct f as [|f]; [lia|].
  cbn [place_num num_place]. rewrite cancel_of_to. cbn [fst snd]. rewrite IH by lia. reflexivity.
Qed.
Lemma place_long q : length q <= place_num q.
Proof.
  induction q as [|n q IH]; [cbn; lia|]. cbn [length place_num].
  pose proof (to_nat_spec n (place_num q)). assert (place_num q <= to_nat (n, place_num q)) by nia. lia.
Qed.
Definition label_key (x : text) : lname :=
  if teqb (firstn 11 x) (T "cached_val_") then
    match lex Start (skipn 11 x) with
    | Some [TNum n] => P (num_place (N.to_nat n) (N.to_nat n))
    | _ => U x
    end
  else U x.
Lemma label_key_place q : label_key (label_text place_num (P q)) = P q.
Proof.
  unfold label_key, label_text. change (firstn 11 (T "cached_val_" ++ ?r)) with (T "cached_val_").
  change (teqb (T "cached_val_") (T "cached_val_")) with true.
  change (skipn 11 (T "cached_val_" ++ ?r)) with r.
  pose proof (lex_ndec (N.of_nat (place_num q)) [] I) as E. rewrite app_nil_r in E.
  set (x := ndec _) in *. cbv iota. change (skipn 11 (T "cached_val_" ++ x)) with x. rewrite E. cbn [lex flush prepend app].
  rewrite Nat2N.id, place_inv; auto. apply place_long.
Qed.

Definition demo_role (x : text) : role :=
  if existsb (teqb x) reserved then Builtin
  else match x with
       | c :: d :: _ =>
           if N.eqb d 95 then if N.eqb c 102 then Object else if N.eqb c 104 then Helper else Local
           else if teqb x (T "converter") then Converter else Local
       | _ => Local
       end.
Lemma filter_word t : forallb is_ident (filter word t) = true.
Proof.
  apply forallb_forall. intros c H. apply filter_In in H as [_ H]. revert H.
  unfold word, is_ident, is_alpha, is_digit, ascii_alpha.
  destruct (65 <=? c)%N, (c <=? 90)%N, (97 <=? c)%N, (c <=? 122)%N, (48 <=? c)%N, (c <=? 57)%N, (c =? 95)%N; auto.
Qed.
Lemma role_under c x : demo_role (c :: 95%N :: x) = if N.eqb c 102 then Object else if N.eqb c 104 then Helper else Local.
Proof. unfold demo_role. rewrite under_not by reflexivity. reflexivity. Qed.
Lemma demo_apart args : (forall x, In x args -> demo_role x = Local) ->
  names_apart oname pn hplace tn (T "converter") args demo_role.
Proof.
  intros HA. constructor.
  - intros x [<-|[<-|[<-|[<-|[]]]]]; reflexivity.
  - intros t. apply role_under.
  - intros t. unfold tn. generalize (filter word t). reflexivity.
  - exact HA.
  - intros x I. unfold demo_role. replace (existsb (teqb x) reserved) with true; [reflexivity|]. symmetry.
    apply existsb_exists. exists x. split; [exact I|]. unfold teqb. destruct (text_eq_dec x x); congruence.
  - intros g. apply role_under.
  - intros q. apply role_under.
  - reflexivity.
Qed.
Lemma source_plain : names_plain oname pn hplace.
Proof.
  split; [|split].
  - intros g. apply (under_ident 102); [reflexivity|]. induction g as [|g IH]; [reflexivity|exact IH].
  - intros t. apply (under_ident 105); [reflexivity|]. apply filter_word.
  - intros q. apply (under_ident 104); [reflexivity|]. induction q as [|n q IH]; [reflexivity|]. cbn [flat_map].
    rewrite !forallb_app, IH. cbn [forallb]. rewrite !andb_true_r. induction n as [|n IHn]; [reflexivity|exact IHn].
Qed.
Lemma source_names : names_ok word (py_repr ascii_printable) oname pn hplace tn.
Proof.
  constructor; try (intros; discriminate); try reflexivity.
  - intros t. split; [|discriminate]. unfold pn. rewrite forallb_app, andb_true_iff.
    split; [reflexivity|]. apply forallb_forall. intros c Hc. now apply filter_In in Hc.
  - intros t. split; [|discriminate]. unfold tn. rewrite forallb_app, andb_true_iff.
    split; [reflexivity|]. apply forallb_forall. intros c Hc. now apply filter_In in Hc.
Qed.
