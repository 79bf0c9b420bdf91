(** The conditions of a join: their trees, and what evaluating them gives. *)
From Coq Require Import String Ascii List NArith ZArith Bool Arith Lia.
From Verif Require Import Model_PyVal Model_Join Model_Labels Model_JoinLazy Model_Code Model_JoinText Model_JoinFuncs Spec_Tree Spec_Syntax Spec_Source Spec_GenRun Spec_JoinText Proofs_Join Proofs_GenRun.
Import ListNotations.

Lemma T_back s : string_of_list_ascii (map ascii_of_N (T s)) = s.
Proof.
  unfold T. rewrite map_map. rewrite (map_ext _ (fun a => a)) by (intros a; apply ascii_N_embedding).
  rewrite map_id. apply string_of_list_ascii_of_string.
Qed.
Lemma T_inj a b : T a = T b -> a = b.
Proof. intros E. rewrite <- (T_back a), <- (T_back b). now rewrite E. Qed.
Lemma T_small s : forallb (fun c => N.ltb c 256) (T s) = true.
Proof.
  unfold T. apply forallb_forall. intros c I. apply in_map_iff in I as (a & <- & _). apply N.ltb_lt. apply N_ascii_bounded.
Qed.
Lemma str_of_T s : str_of (T s) = Some s.
Proof. unfold str_of. rewrite T_small. now rewrite T_back. Qed.

Fixpoint jast (named : option (ast * ast)) (inp : ast) (e : jx) : ast :=
  match e with
  | JLeft => match named with Some (l, _) => l | None => inp end
  | JRight => match named with Some (_, r) => r | None => inp end
  | JArg a => AName (T a)
  | JConst v => lit_tree (lit_of v)
  | JItem o k => ASub (jast named inp o) (jast named inp k)
  | JEq l => match map (jast named inp) l with a :: r => ACompare a (map (fun b => (T "==", b)) r) | [] => inp end
  | JAnd l => ABool false (map (jast named inp) l)
  | JOr l => ABool true (map (jast named inp) l)
  | JOp o l =>
      if is_operator o then op_tree (OBin (T o)) (map (jast named inp) l)
      else if String.eqb o "not" then ANot (nth_a (map (jast named inp) l) 0)
      else ACall (AName (T o)) (map (jast named inp) l) []
  | JThis | JPipe _ _ => inp
  end.
Definition all_ast (named : option (ast * ast)) (inp : ast) (l : list jx) : ast :=
  match l with [e] => jast named inp e | _ => ABool false (map (jast named inp) l) end.
Definition key_ast (inp : ast) (l : list jx) : ast :=
  match l with [e] => jast None inp e | _ => ATuple (map (jast None inp) l) end.

Definition plainv (p : pv) (v : val) : Prop := p = Val v \/ exists o, p = Obj o /\ rval o = v.
Lemma plain_val p v : plainv p v -> as_val p = Some v.
Proof. intros [->|(o & -> & <-)]; reflexivity. Qed.
Lemma plain_truth m p v : plainv p v -> truth m p = truthy v.
Proof. intros [->|(o & -> & <-)]; reflexivity. Qed.

Section Cond.
  Variable globals : text -> option pv.
  Variable opr : text -> list val -> res val.
  Variable gfuns : text -> option gfun.
  Variable indexers : text -> option (list val -> list (val * list robj) -> robj -> res (list (val * list robj))).
  Notation gives := (gives globals opr gfuns indexers).
  Notation op := (jop opr).

  Definition rel (r : res pv) (q : res val) : Prop :=
    match q with Ok v => exists p, r = Ok p /\ plainv p v | Err x => r = Err x end.
  Definition worth (sc : list nat) (a : ast) (m : mem) (q : res val) : Prop :=
    exists r, gives sc a m m r /\ rel r q.

  (** a name that stands for a function of values *)
  Definition value_fun (m : mem) (sc : list nat) (f : text) : Prop :=
    look m sc f = None /\ globals f = None /\ gfuns f = None /\ indexers f = None /\
    ~ In f (map T ["add_label_"; "get_by_label_"; "list"; "next"; "id"; "set"; "object"]%string).

  Lemma or_go E l : forall d,
    (fix any (last : val) (l : list jx) : res val :=
       match l with [] => Ok last | a :: r => do x <- ev op E a; if truthy x then Ok x else any x r end) d l =
    (fix go (last : val) (l : list jx) : res val :=
       match l with [] => Ok last | a :: r => do x <- ev op E a; if Bool.eqb (truthy x) true then Ok x else go x r end) d l.
  Proof. induction l as [|a l IH]; intros d; [reflexivity|]. destruct (ev op E a) as [v|x]; cbn [bind]; [|reflexivity]. destruct (truthy v); [reflexivity|apply IH]. Qed.
  Lemma and_go E l : forall d,
    (fix all (last : val) (l : list jx) : res val :=
       match l with [] => Ok last | a :: r => do x <- ev op E a; if truthy x then all x r else Ok x end) d l =
    (fix go (last : val) (l : list jx) : res val :=
       match l with [] => Ok last | a :: r => do x <- ev op E a; if Bool.eqb (truthy x) false then Ok x else go x r end) d l.
  Proof. induction l as [|a l IH]; intros d; [reflexivity|]. destruct (ev op E a) as [v|x]; cbn [bind]; [|reflexivity]. destruct (truthy v); [apply IH|reflexivity]. Qed.

  Section At.
    Variable m : mem.
    Variable sc : list nat.
    Variable E : env.
    Variable named : option (ast * ast).
    Variable inp : ast.
    Notation jast := (jast named inp).

    Lemma worth_eq a q q' : q = q' -> worth sc a m q -> worth sc a m q'.
    Proof. now intros ->. Qed.
    Lemma worth_val a v : (forall nx each, eval globals opr gfuns indexers nx each sc a m = give (Val v) m) -> worth sc a m (Ok v).
    Proof. intros H. exists (Ok (Val v)). split; [exact H|]. exists (Val v). split; [reflexivity|now left]. Qed.

    Lemma compare_plain o p q v w m0 : plainv p v -> plainv q w ->
      compare opr o p q m0 = if teqb o (T "==") then give (Val (VBool (py_eq v w))) m0 else pure (opr o [v; w]) Val m0.
    Proof. intros [->|(a & -> & <-)] [->|(b & -> & <-)]; reflexivity. Qed.
    Lemma subscript_plain p q v w m0 : plainv p v -> plainv q w -> subscript p q m0 = pure (py_getitem v w) Val m0.
    Proof. intros [->|(a & -> & <-)] [->|(b & -> & <-)]; reflexivity. Qed.
    Lemma pure_worth (r : res val) m0 : exists r', @pure val pv r Val m0 = Some (m0, r') /\ rel r' r.
    Proof.
      destruct r as [v|x]; cbn.
      - exists (Ok (Val v)). split; [reflexivity|]. exists (Val v). split; [reflexivity|now left].
      - exists (Err x). split; reflexivity.
    Qed.

    Lemma worth_lit v : literal v = true -> worth sc (lit_tree (lit_of v)) m (Ok v).
    Proof.
      destruct v; try discriminate; intros _; cbn [lit_of lit_tree].
      - exists (Ok (Obj none_obj)). split; [intros nx each; reflexivity|]. exists (Obj none_obj). split; [reflexivity|]. right. exists none_obj. auto.
      - destruct b; apply worth_val; intros; reflexivity.
      - destruct (Z.ltb _ 0) eqn:Z0; apply worth_val; intros nx each.
        + cbn [eval]. unfold give at 1. cbn [after as_val]. change (teqb (T "-") (T "-")) with true. cbn iota.
          apply Z.ltb_lt in Z0. rewrite Z2N.id by lia. now rewrite Z.opp_involutive.
        + apply Z.ltb_ge in Z0. cbn [eval]. now rewrite Z2N.id by lia.
      - apply worth_val. intros. cbn [eval]. now rewrite str_of_T.
    Qed.

    (** lists of conditions *)
    Definition evs (E : env) : list jx -> res (list val) :=
      fix evs (l : list jx) : res (list val) :=
        match l with [] => Ok [] | a :: r => do x <- ev op E a; do xs <- evs r; Ok (x :: xs) end.
    Notation vals := (fun nx each => fix evals (l : list ast) (m : mem) : result (list pv) :=
        match l with
        | [] => give [] m
        | a :: r => after (eval globals opr gfuns indexers nx each sc a m) (fun v m => after (evals r m) (fun vs m => give (v :: vs) m))
        end).
    Lemma vals_worth l : Forall (fun e => worth sc (jast e) m (ev op E e)) l ->
      exists r, (forall nx each, vals nx each (map jast l) m = Some (m, r)) /\
        match evs E l with Ok vs => exists ps, r = Ok ps /\ Forall2 plainv ps vs | Err x => r = Err x end.
    Proof.
      induction 1 as [|e l (r & G & R) F IH]; cbn [map evs].
      - exists (Ok []). split; [reflexivity|]. exists []. auto.
      - destruct IH as (r' & G' & R'). destruct (ev op E e) as [v|x]; cbn [bind rel] in *.
        + destruct R as (p & -> & P). change ((fix evs (l : list jx) : res (list val) :=
            match l with [] => Ok [] | a :: r => do x <- ev op E a; do xs <- evs r; Ok (x :: xs) end) l) with (evs E l).
          destruct (evs E l) as [vs|x]; cbn [bind].
          * destruct R' as (ps & -> & Ps). exists (Ok (p :: ps)). split; [|eauto]. intros nx each. rewrite (G nx each). cbn [after]. rewrite G'. reflexivity.
          * subst r'. exists (Err x). split; [|reflexivity]. intros nx each. rewrite (G nx each). cbn [after]. rewrite G'. reflexivity.
        + subst r. exists (Err x). split; [|reflexivity]. intros nx each. now rewrite (G nx each).
    Qed.
    Lemma plains_vals ps vs : Forall2 plainv ps vs -> as_vals ps = Some vs.
    Proof. induction 1 as [|p v ps vs P F IH]; [reflexivity|]. cbn [as_vals]. rewrite (plain_val p v P), IH. reflexivity. Qed.

    Lemma worth_bool (isor : bool) l : l <> [] -> Forall (fun e => worth sc (jast e) m (ev op E e)) l ->
      worth sc (ABool isor (map jast l)) m (ev op E (if isor then JOr l else JAnd l)).
    Proof.
      intros NE F. destruct F as [|e l W F]; [contradiction|]. clear NE.
      set (go := fix go (last : val) (l : list jx) : res val :=
             match l with [] => Ok last | a :: r => do x <- ev op E a; if Bool.eqb (truthy x) isor then Ok x else go x r end).
      assert (GO : forall d a r, go d (a :: r) = do x <- ev op E a; if Bool.eqb (truthy x) isor then Ok x else go x r) by reflexivity.
      assert (H : forall d, worth sc (ABool isor (map jast (e :: l))) m (go d (e :: l))).
      { revert e W. induction F as [|e' l W' F IH]; intros e (r & G & R) d.
        - exists r. split; [exact G|]. rewrite GO. destruct (ev op E e) as [v|x]; cbn [bind] in *; [|exact R]. destruct (Bool.eqb (truthy v) isor); exact R.
        - specialize (IH e' W'). rewrite GO. destruct (ev op E e) as [v|x]; cbn [bind rel] in R |- *.
          + destruct R as (p & -> & P). destruct (Bool.eqb (truthy v) isor) eqn:B.
            * exists (Ok p). split; [|exists p; auto].
              intros nx each. specialize (G nx each). cbn [map eval]. rewrite G. cbn [after]. rewrite (plain_truth _ _ _ P), B. reflexivity.
            * destruct (IH v) as (r' & G' & R'). exists r'. split; [|exact R'].
              intros nx each. specialize (G nx each). specialize (G' nx each). cbn [map eval] in *. rewrite G. cbn [after]. rewrite (plain_truth _ _ _ P), B. exact G'.
          + subst r. exists (Err x). split; [|reflexivity]. intros nx each. specialize (G nx each). cbn [map eval]. now rewrite G. }
      destruct isor.
      - specialize (H (VBool false)). eapply worth_eq; [|exact H]. exact (eq_sym (or_go E (e :: l) (VBool false))).
      - specialize (H (VBool true)). eapply worth_eq; [|exact H]. exact (eq_sym (and_go E (e :: l) (VBool true))).
    Qed.

    Lemma worth_eqs l : 2 <= length l -> Forall (fun e => worth sc (jast e) m (ev op E e)) l ->
      worth sc (jast (JEq l)) m (ev op E (JEq l)).
    Proof.
      intros L F. destruct F as [|e l (r & G & R) F]; [cbn in L; lia|].
      cbn [Proofs_JoinCond.jast map]. set (chainv := fix chain (prev : option val) (l : list jx) : res val :=
           match l with
           | [] => Ok (VBool true)
           | a :: r =>
               do x <- ev op E a;
               match prev with
               | Some p => if py_eq p x then chain (Some x) r else Ok (VBool false)
               | None => chain (Some x) r
               end
           end).
      change (ev op E (JEq (e :: l))) with (do x <- ev op E e; chainv (Some x) l).
      destruct (ev op E e) as [v|x]; cbn [bind rel] in *.
      2: { subst r. exists (Err x). split; [|reflexivity]. intros nx each. cbn [eval]. now rewrite G. }
      destruct R as (p & -> & P).
      set (chain := fun nx each => fix chain (v : pv) (l : list (text * ast)) (m : mem) : result pv :=
             match l with
             | [] => None
             | (o, b) :: r =>
                 after (eval globals opr gfuns indexers nx each sc b m) (fun w m => after (compare opr o v w m) (fun c m =>
                 match r with
                 | [] => give c m
                 | _ => if truth m c then chain w r m else give c m
                 end))
             end).
      assert (H : exists r, (forall nx each, chain nx each p (map (fun b => (T "==", b)) (map jast l)) m = Some (m, r)) /\ rel r (chainv (Some v) l)).
      { destruct F as [|e1 l W F]; [cbn in L; lia|]. clear G L. revert p v P e1 W. induction F as [|e2 l W2 F IH]; intros p v P e1 (r1 & G1 & R1).
        - cbn [map chainv]. destruct (ev op E e1) as [w|x]; cbn [bind rel] in *.
          + destruct R1 as (q & -> & Q). exists (Ok (Val (VBool (py_eq v w)))). split.
            * intros nx each. cbn [chain]. rewrite G1. cbn [after]. rewrite (compare_plain _ _ _ _ _ m P Q). reflexivity.
            * destruct (py_eq v w); eexists; (split; [reflexivity|now left]).
          + subst r1. exists (Err x). split; [|reflexivity]. intros nx each. cbn [chain]. now rewrite G1.
        - change (chainv (Some v) (e1 :: e2 :: l)) with (do x <- ev op E e1; if py_eq v x then chainv (Some x) (e2 :: l) else Ok (VBool false)).
          destruct (ev op E e1) as [w|x]; cbn [bind rel] in *.
          + destruct R1 as (q & -> & Q). destruct (py_eq v w) eqn:EQ.
            * destruct (IH q w Q e2 W2) as (r' & G' & R'). exists r'. split; [|exact R'].
              intros nx each. specialize (G' nx each). cbn [map] in *. cbn [chain]. rewrite G1. cbn [after]. rewrite (compare_plain _ _ _ _ _ m P Q).
              change (teqb (T "==") (T "==")) with true. cbn iota. unfold give at 1. cbn [after]. rewrite EQ. cbn [truth truthy]. exact G'.
            * exists (Ok (Val (VBool false))). split; [|eexists; split; [reflexivity|now left]].
              intros nx each. cbn [map chain]. rewrite G1. cbn [after]. rewrite (compare_plain _ _ _ _ _ m P Q).
              change (teqb (T "==") (T "==")) with true. cbn iota. unfold give at 1. cbn [after]. rewrite EQ. reflexivity.
          + subst r1. exists (Err x). split; [|reflexivity]. intros nx each. cbn [map chain]. now rewrite G1. }
      destruct H as (r & H & R). exists r. split; [|exact R]. intros nx each. cbn [eval]. rewrite G. cbn [after]. exact (H nx each).
    Qed.

    Lemma existsb_in {A} (f : A -> bool) l a : In a l -> f a = true -> existsb f l = true.
    Proof. intros I H. apply existsb_exists. eauto. Qed.

    Lemma not_callee f : value_fun m sc f -> callee globals m sc f = Some f.
    Proof. intros (L & G & _). unfold callee. now rewrite L, G. Qed.
    Lemma not_named (f : text) x : ~ In f (map T ["add_label_"; "get_by_label_"; "list"; "next"; "id"; "set"; "object"]%string) ->
      In x ["add_label_"; "get_by_label_"; "list"; "next"; "id"; "set"; "object"]%string -> teqb f (T x) = false.
    Proof. intros N I. apply teqb_neq. intros ->. apply N. now apply in_map. Qed.
    Lemma apply_value nx each f ps vs : value_fun m sc f -> Forall2 plainv ps vs ->
      apply opr gfuns indexers nx each f ps [] m = pure (opr f vs) Val m.
    Proof.
      intros (_ & _ & G & I & N) F. unfold apply. rewrite G, I.
      rewrite !(not_named f _ N) by (cbn; tauto).
      rewrite (plains_vals ps vs F). reflexivity.
    Qed.

    Lemma other_ops E0 name l : String.eqb name "not" = false -> (do vs <- evs E0 l; op name vs) = do vs <- evs E0 l; opr (T name) vs.
    Proof. intros NN. destruct (evs E0 l); cbn [bind]; [|reflexivity]. unfold jop. now rewrite NN. Qed.
    Theorem cond_worth e :
      textual e = true ->
      (dep_left e = true -> worth sc (jast JLeft) m (ev op E JLeft)) ->
      (dep_right e = true -> worth sc (jast JRight) m (ev op E JRight)) ->
      (forall a, In (T a) (jargs e) -> look m sc (T a) = Some (Some (Val (args E a)))) ->
      (forall f, In f (functions e) -> value_fun m sc f) ->
      worth sc (jast e) m (ev op E e).
    Proof.
      assert (LIST : forall l, Forall (fun e => textual e = true ->
        (dep_left e = true -> worth sc (jast JLeft) m (ev op E JLeft)) ->
        (dep_right e = true -> worth sc (jast JRight) m (ev op E JRight)) ->
        (forall a, In (T a) (jargs e) -> look m sc (T a) = Some (Some (Val (args E a)))) ->
        (forall f, In f (functions e) -> value_fun m sc f) ->
        worth sc (jast e) m (ev op E e)) l ->
        forallb textual l = true ->
        (existsb dep_left l = true -> worth sc (jast JLeft) m (ev op E JLeft)) ->
        (existsb dep_right l = true -> worth sc (jast JRight) m (ev op E JRight)) ->
        (forall a, In (T a) (flat_map jargs l) -> look m sc (T a) = Some (Some (Val (args E a)))) ->
        (forall f, In f (flat_map functions l) -> value_fun m sc f) ->
        Forall (fun e => worth sc (jast e) m (ev op E e)) l).
      { clear e. intros l IH X L R A F. rewrite Forall_forall in *. rewrite forallb_forall in X. intros e I. apply IH; auto.
        - intros D. apply L. now apply existsb_in with e.
        - intros D. apply R. now apply existsb_in with e.
        - intros a J. apply A. apply in_flat_map. eauto.
        - intros f J. apply F. apply in_flat_map. eauto. }
      induction e as [| |a|v| |e1 e2 IHe1 IHe2|l H|l H|l H|name l H|e1 e2 _ _] using jx_ind'; intros X L R A F; cbn [textual dep_left dep_right jargs functions] in X, L, R, A, F; try discriminate.
      - apply L. reflexivity.
      - apply R. reflexivity.
      - exists (Ok (Val (args E a))). split.
        + intros nx each. cbn [Proofs_JoinCond.jast eval]. rewrite A by (left; reflexivity). reflexivity.
        + exists (Val (args E a)). split; [reflexivity|now left].
      - now apply worth_lit.
      - apply andb_true_iff in X as [X X2]. apply andb_true_iff in X as [_ X1].
        destruct IHe1 as (r1 & G1 & R1); auto.
        { intros D. apply L. rewrite D. reflexivity. } { intros D. apply R. rewrite D. reflexivity. }
        { intros a J. apply A. apply in_app_iff. now left. } { intros f J. apply F. apply in_app_iff. now left. }
        destruct IHe2 as (r2 & G2 & R2); auto.
        { intros D. apply L. rewrite D. apply orb_true_r. } { intros D. apply R. rewrite D. apply orb_true_r. }
        { intros a J. apply A. apply in_app_iff. now right. } { intros f J. apply F. apply in_app_iff. now right. }
        cbn [Proofs_JoinCond.jast]. cbn [ev]. destruct (ev op E e1) as [v|x]; cbn [bind rel] in *.
        2: { subst r1. exists (Err x). split; [|reflexivity]. intros nx each. cbn [eval]. now rewrite G1. }
        destruct R1 as (p & -> & P). destruct (ev op E e2) as [w|x]; cbn [bind rel] in *.
        2: { subst r2. exists (Err x). split; [|reflexivity]. intros nx each. cbn [eval]. rewrite G1. cbn [after]. now rewrite G2. }
        destruct R2 as (q & -> & Q). destruct (pure_worth (py_getitem v w) m) as (r & Hr & Rr). exists r. split; [|exact Rr].
        intros nx each. cbn [eval]. rewrite G1. cbn [after]. rewrite G2. cbn [after]. now rewrite (subscript_plain _ _ _ _ m P Q).
      - apply andb_true_iff in X as [X1 X2]. apply Nat.leb_le in X1. apply worth_eqs; auto.
      - apply andb_true_iff in X as [X1 X2]. apply Nat.leb_le in X1. apply (worth_bool false); auto. destruct l; [cbn in X1; lia|discriminate].
      - apply andb_true_iff in X as [X1 X2]. apply Nat.leb_le in X1. apply (worth_bool true); auto. destruct l; [cbn in X1; lia|discriminate].
      - apply andb_true_iff in X as [X1 X2].
        assert (FL : forall f, In f (flat_map functions l) -> value_fun m sc f) by (intros f J; apply F; apply in_app_iff; now right).
        pose proof (LIST l H X2 L R A FL) as W. destruct (vals_worth l W) as (r & G & RR).
        cbn [Proofs_JoinCond.jast]. change (ev op E (JOp name l)) with (do vs <- evs E l; op name vs).
        destruct (is_operator name) eqn:IO.
        + assert (NN : String.eqb name "not" = false).
          { destruct (String.eqb name "not") eqn:Z; auto. apply String.eqb_eq in Z. subst name. discriminate IO. }
          assert (NE : teqb (T name) (T "==") = false).
          { apply teqb_neq. intros Z. apply T_inj in Z. subst name. discriminate IO. }
          destruct l as [|e1 [|e2 [|? ?]]]; try discriminate X1. inversion W as [|? ? (r1 & G1 & R1) W2]; subst. inversion W2 as [|? ? (r2 & G2 & R2) _]; subst.
          cbn [map op_tree nth_a nth]. rewrite (other_ops E name _ NN).
          assert (Y : exists r, (forall nx each, after (eval globals opr gfuns indexers nx each sc (jast e1) m) (fun v m => after (eval globals opr gfuns indexers nx each sc (jast e2) m)
                       (fun w m => match as_val v, as_val w with Some v, Some w => pure (opr (T name) [v; w]) Val m | _, _ => None end)) = Some (m, r)) /\
                     (forall nx each, after (eval globals opr gfuns indexers nx each sc (jast e1) m) (fun v m => after (eval globals opr gfuns indexers nx each sc (jast e2) m)
                       (fun w m => after (compare opr (T name) v w m) (fun c m => give c m))) = Some (m, r)) /\ rel r (do vs <- evs E [e1; e2]; opr (T name) vs)).
          { cbn [evs]. destruct (ev op E e1) as [v|x]; cbn [bind rel] in *.
            2: { subst r1. exists (Err x). split; [|split; [|exact eq_refl]]; intros nx each; now rewrite G1. }
            destruct R1 as (p & -> & P). destruct (ev op E e2) as [w|x]; cbn [bind rel] in *.
            2: { subst r2. exists (Err x). split; [|split; [|exact eq_refl]]; intros nx each; rewrite G1; cbn [after]; now rewrite G2. }
            destruct R2 as (q & -> & Q). destruct (pure_worth (opr (T name) [v; w]) m) as (r0 & Hr & Rr). exists r0. split; [|split; [|exact Rr]].
            - intros nx each. rewrite G1. cbn [after]. rewrite G2. cbn [after]. rewrite (plain_val _ _ P), (plain_val _ _ Q). exact Hr.
            - intros nx each. rewrite G1. cbn [after]. rewrite G2. cbn [after]. rewrite (compare_plain _ _ _ _ _ m P Q), NE, Hr. destruct r0; reflexivity. }
          destruct Y as (r0 & Y1 & Y2 & Y3). exists r0. split; [|exact Y3]. intros nx each. destruct (compares (T name)); cbn [eval]; [apply Y2|apply Y1].
        + destruct (String.eqb name "not") eqn:NN.
          * apply String.eqb_eq in NN. subst name. destruct l as [|e1 [|? ?]]; try discriminate X1.
            inversion W as [|? ? (r1 & G1 & R1) _]; subst. cbn [map nth_a nth evs].
            destruct (ev op E e1) as [v|x]; cbn [bind rel] in *.
            2: { subst r1. exists (Err x). split; [|exact eq_refl]. intros nx each. cbn [eval]. now rewrite G1. }
            destruct R1 as (p & -> & P). apply worth_val. intros nx each. cbn [eval]. rewrite G1. cbn [after]. now rewrite (plain_truth m p v P).
          * assert (VF : value_fun m sc (T name)) by (apply F; cbn [orb app]; left; reflexivity).
            rewrite (other_ops E name _ NN). destruct (evs E l) as [vs|x]; cbn [bind].
            -- destruct RR as (ps & -> & Ps). destruct (pure_worth (opr (T name) vs) m) as (r0 & Hr & Rr). exists r0. split; [|exact Rr].
               intros nx each. cbn [eval]. rewrite (not_callee _ VF), G. cbn [after]. unfold give. cbn [after]. rewrite (apply_value nx each _ ps vs VF Ps). exact Hr.
            -- subst r. exists (Err x). split; [|exact eq_refl]. intros nx each. cbn [eval]. rewrite (not_callee _ VF), G. reflexivity.
    Qed.
  End At.
End Cond.
