(** Lemmas about the statement result_.sort(...) of the functions of aggregations (C55). *)
From Coq Require Import String Ascii List NArith ZArith Bool Arith Lia.
From Verif Require Import Model_PyVal Model_Reducers Model_Aggregate Model_Code Model_AggText Model_AggSource Model_AggFinish
  Spec_AggText Spec_Syntax Spec_Tree Spec_Stmt Spec_FuncText Spec_AggProgram Spec_FuncRun Spec_AggRun Spec_AggFinish
  Spec_Reducers Spec_Coll Proofs_Syntax Proofs_Lex Proofs_Tree Proofs_AggExpr Proofs_AggRead Proofs_AggFunc Proofs_FuncRun Proofs_Coll Props_AggText Props_Syntax.
From Verif Require Proofs_SourceText.
Import ListNotations.

(** *** the text *)
Definition sort_px (key : option text) (rv : bool) : px :=
  POp (OCall 0 [T "key"; T "reverse"])
    [POp (OAttr (T "sort")) [PName (T "result_")]; match key with None => PLit LNone | Some f => PName f end; PLit (LBool rv)].
Lemma sort_reads key rv : match key with None => True | Some f => ident f = true end -> sort_ok (sort_text key rv) (Some (sort_call key rv)).
Proof.
  intros I. split; [|cbn; discriminate].
  assert (R : reads (print (py_repr ascii_printable) (fun _ => []) (fun _ => 0) (sort_px key rv)) (tree (fun _ => []) (fun _ => 0) (sort_px key rv))).
  { apply readable_reads; [exact ascii_ok|]. destruct key as [f|]; cbn -[ident]; [rewrite I|]; reflexivity. }
  destruct key as [f|], rv; exact R.
Qed.
Lemma sorted_frame_ok f key rv : match key with None => True | Some f => ident f = true end -> frame_ok f None -> frame_ok (sorted_frame f key rv) (Some (sort_call key rv)).
Proof. intros K [F1 F2 F3 F4 _]. split; auto. now apply sort_reads. Qed.

(** *** the run *)
Section Sort.
  Variable globals : text -> option rv.
  Variable call : text -> list val -> res val.
  Variable classes : text -> option (list text).
  Variable outside : ast -> (ast -> option val) -> res val.
  Definition key_function (key : option text) : val -> res val := match key with None => fun x => Ok x | Some f => fun x => call f [x] end.
  Definition sort_value (key : option text) (rv : bool) (v : val) : res val :=
    match v with
    | VList l => do ks <- with_keys (key_function key) l; do l' <- Model_Python.sort_pairs rv ks; Ok (VList l')
    | _ => Err AttributeError
    end.
  Lemma end_sorted key rv s v :
    match key with None => True | Some f => Spec_Stmt.assoc (Spec_FuncRun.names s) f = None /\ f <> T "result_" end ->
    Spec_FuncRun.run_body globals call classes outside (end_of (Some (sort_call key rv))) (put s (PN (T "result_")) (OVal v None)) =
    do v' <- sort_value key rv v; Ok (Some (RVal v')).
  Proof.
    intros K. set (s1 := put s (PN (T "result_")) (OVal v None)).
    set (l := length (objects s)).
    assert (L : loc_of s1 (PN (T "result_")) = Some l) by apply (loc_set_same (snd (new s (OVal v None))) (PN (T "result_"))).
    assert (O : obj_at s1 l = OVal v None) by apply obj_new.
    assert (KF : sort_key call (match key with None => AConst (T "None") | Some f => AName f end) s1 = Some (key_function key)).
    { destruct key as [f|]; cbn [sort_key key_function]; [|reflexivity]. destruct K as [K1 K2].
      assert (G : is_global f s1 = true); [|now rewrite G]. unfold is_global, s1, put. cbn [new Spec_FuncRun.names].
      unfold set_place. cbn [name_it Spec_FuncRun.names Spec_Stmt.assoc]. unfold name_it. cbn [Spec_FuncRun.names Spec_Stmt.assoc].
      destruct (same_text f (T "result_")) eqn:E; [apply same_text_eq in E; contradiction|]. change (Spec_FuncRun.names (snd (new s (OVal v None)))) with (Spec_FuncRun.names s). now rewrite K1. }
    unfold end_of, sort_call, name. cbn [app Spec_FuncRun.run_body Spec_FuncRun.run_simple].
    change (same_text (T "sort") (T "sort") && same_text (T "key") (T "key") && same_text (T "reverse") (T "reverse")) with true. cbv iota.
    rewrite (slot_change globals call outside (AName (T "result_")) (PN (T "result_")) s1 _ l eq_refl L), O. unfold sort_list at 1. rewrite KF.
    destruct v as [| | | | |vs| | |]; cbn [sort_value]; try reflexivity.
    assert (E : forall s, ev globals call outside (AConst (if rv then T "True" else T "False")) s = Ok (RVal (VBool rv), s)) by (intros; destruct rv; reflexivity).
    rewrite E. cbn [bind fst snd is_true truthy].
    destruct (with_keys (key_function key) vs) as [ks|e]; cbn [bind]; [|reflexivity].
    destruct (Model_Python.sort_pairs rv ks) as [l'|e]; cbn [bind on fst snd]; [|reflexivity].
    cbn [Spec_FuncRun.ev]. change (Spec_Stmt.assoc (Spec_FuncRun.names (store s1 l (OVal (VList l') None))) (T "result_")) with (loc_of s1 (PN (T "result_"))). rewrite L.
    replace (obj_at (store s1 l (OVal (VList l') None)) l) with (OVal (VList l') None); [reflexivity|].
    change (obj_at (store s1 l (OVal (VList l') None)) l) with (nth l (set_nth (objects s ++ [OVal (VList vs) None]) l (OVal (VList l') None)) OSent).
    unfold l. rewrite set_nth_end. symmetry. apply nth_middle.
  Qed.
  Lemma with_keys_ok key k l : sort_keys call key k l -> with_keys (key_function key) l = Ok (keyed k l).
  Proof.
    induction l as [|x l IH]; intros H; [reflexivity|]. cbn [with_keys].
    assert (E : key_function key x = Ok (k x)) by (pose proof (H x (or_introl eq_refl)) as Hx; destruct key; cbn [key_function]; [exact Hx|now rewrite Hx]).
    rewrite E. cbn [bind]. rewrite IH by (intros y Hy; apply H; now right). reflexivity.
  Qed.
  Lemma sort_value_ok key k rv l : sort_keys call key k l -> ordered (map k l) ->
    exists ys, sorted_by k rv l ys /\ sort_value key rv (VList l) = Ok (VList ys).
  Proof.
    intros H O. destruct (sort_pairs_ok k rv l O) as (ys & E & S). exists ys. split; [exact S|]. cbn [sort_value].
    rewrite (with_keys_ok key k l H). cbn [bind]. rewrite E. reflexivity.
  Qed.
End Sort.
