(** C62: what c.reduce makes of its arguments. *)
From Coq Require Import String List ZArith NArith Bool Arith.
From Verif Require Import Model_PyVal Model_Reducers Model_Code Model_Eval Model_Converter Model_Python Model_Api Spec_Frag Spec_Eval
  Spec_Reducers Spec_Converter Spec_Coll Spec_Demo Spec_Syntax Proofs_Converter Props_Coll Model_Ensure Spec_Ensure Props_Ensure
  Model_ReduceArgs Spec_ReduceArgs Spec_Tree Spec_Writable Spec_Meant Proofs_Syntax Proofs_Code Props_Syntax.
Import ListNotations.
Open Scope list_scope.

Lemma ensured_or_not p : (exists c, ensure_conversion p = Some c /\ ~ inside PMutation p) \/
                         (ensure_conversion p = None /\ inside PMutation p).
Proof.
  destruct (ensure_conversion p) as [c|] eqn:E; [left|right].
  - exists c. split; auto. intros I. apply C61_mutations_refused in I. congruence.
  - split; auto. now apply C61_mutations_refused.
Qed.
Lemma args_ensured l : (forall p, In p l -> ~ inside PMutation p) <-> exists cs, ensure_args l = Some cs.
Proof.
  induction l as [|p l IH]; cbn; [split; [eauto|now intros _ p []]|]. split.
  - intros H. destruct (ensured_or_not p) as [(c & -> & _)|(_ & I)]; [|now destruct (H p (or_introl eq_refl))].
    destruct (proj1 IH (fun q Hq => H q (or_intror Hq))) as (cs & ->). eauto.
  - intros (cs & E) q [<-|Hq].
    + destruct (ensured_or_not p) as [(c & _ & N)|(E' & _)]; auto. rewrite E' in E. discriminate.
    + destruct (ensure_conversion p); [|discriminate]. destruct (ensure_args l) as [cs'|] eqn:El; [|discriminate].
      apply (proj2 IH (ex_intro _ cs' eq_refl)). exact Hq.
Qed.
Lemma args_nil l : ensure_args l = Some [] -> l = [].
Proof. destruct l as [|p l]; cbn; auto. destruct (ensure_conversion p), (ensure_args l); discriminate. Qed.
Lemma args_cons l c cs : ensure_args l = Some (c :: cs) -> l <> [].
Proof. intros E ->. discriminate E. Qed.
Lemma opt_ensured {A} (f : pyobj -> option A) (Hf : forall p, (exists x, f p = Some x) <-> ~ inside PMutation p) o :
  (forall p, o = Some p -> ~ inside PMutation p) <-> exists x, each_opt f o = Some x.
Proof.
  destruct o as [p|]; cbn.
  - split.
    + intros H. destruct (proj2 (Hf p) (H p eq_refl)) as (x & ->). cbn. eauto.
    + intros (x & E) q Eq. injection Eq as <-. apply Hf. destruct (f p); [eauto|discriminate].
  - split; [eauto|]. intros _ p E. discriminate.
Qed.
Lemma f_ensured p : (exists x, ensure_conversion p = Some x) <-> ~ inside PMutation p.
Proof. destruct (ensured_or_not p) as [(c & -> & N)|(-> & I)]; split; auto; [eauto|intros (x & E); discriminate|tauto]. Qed.
Lemma map_some {A B} (f : A -> B) o : (exists x, option_map f o = Some x) <-> exists x, o = Some x.
Proof. destruct o; cbn; split; intros (x & E); try discriminate; eauto. Qed.
Lemma f_initial cl p : (exists x, initial_of cl p = Some x) <-> ~ inside PMutation p.
Proof. unfold initial_of. rewrite map_some. apply f_ensured. Qed.
Lemma f_default cl p : (exists x, default_of cl p = Some x) <-> ~ inside PMutation p.
Proof. unfold default_of. rewrite map_some. apply f_ensured. Qed.
Lemma pair_items p c : ensure_conversion p = Some c -> (a_pair p <-> exists k v, items_of_expr c = Some [k; v]).
Proof.
  intros E. split.
  - intros A. revert c E. induction A as [a b|a b|a b|a b|x d A IH]; intros c E.
    + rewrite (proj1 (proj2 (ensure_coll _))) in E. cbn in E. destruct (ensure_conversion a); [|discriminate].
      destruct (ensure_conversion b); [|discriminate]. injection E as <-. cbn. eauto.
    + rewrite (proj1 (ensure_coll _)) in E. cbn in E. destruct (ensure_conversion a); [|discriminate].
      destruct (ensure_conversion b); [|discriminate]. injection E as <-. cbn. eauto.
    + injection E as <-. cbn. eauto.
    + injection E as <-. cbn. eauto.
    + injection E as <-. cbn. apply IH. reflexivity.
  - intros (k & v & I). destruct p as [c0| |l|l|l|l|a b c0|l|g].
    + injection E as <-. revert I. induction c0; cbn; try discriminate.
      * destruct o; try discriminate; injection 1 as ->; constructor.
      * intros I. constructor. auto.
    + discriminate.
    + rewrite ensure_dict in E. destruct (ensure_pairs l) as [cs|]; [|discriminate]. injection E as <-. exfalso. revert I.
      unfold dict. destruct (existsb _ _); discriminate.
    + rewrite (proj1 (ensure_coll l)) in E. destruct (ensure_each l) as [cs|] eqn:El; [|discriminate]. injection E as <-.
      assert (N : existsb is_opt (map Req cs) = false) by (clear; induction cs; auto).
      unfold coll in I. rewrite N in I. cbn in I. injection I as I. rewrite map_map, map_id in I. subst cs.
      destruct l as [|x [|y [|z l]]]; cbn in El; try discriminate; try constructor;
        repeat match type of El with context [ensure_conversion ?q] => destruct (ensure_conversion q); try discriminate end;
        destruct (ensure_each l); discriminate.
    + rewrite (proj1 (proj2 (ensure_coll l))) in E. destruct (ensure_each l) as [cs|] eqn:El; [|discriminate]. injection E as <-.
      assert (N : existsb is_opt (map Req cs) = false) by (clear; induction cs; auto).
      unfold coll in I. rewrite N in I. cbn in I. injection I as I. rewrite map_map, map_id in I. subst cs.
      destruct l as [|x [|y [|z l]]]; cbn in El; try discriminate; try constructor;
        repeat match type of El with context [ensure_conversion ?q] => destruct (ensure_conversion q); try discriminate end;
        destruct (ensure_each l); discriminate.
    + rewrite (proj2 (proj2 (ensure_coll l))) in E. destruct (ensure_each l) as [cs|]; [|discriminate]. injection E as <-.
      assert (N : existsb is_opt (map Req cs) = false) by (clear; induction cs; auto).
      unfold coll in I. rewrite N in I. discriminate I.
    + cbn in E. destruct (ensure_conversion a), (ensure_conversion b), (ensure_conversion c0); try discriminate. injection E as <-. discriminate I.
    + injection E as <-. discriminate I.
    + injection E as <-. discriminate I.
Qed.
Lemma is_dict_keyed b : is_dict (OpBuiltin b) = true <-> In b keyed.
Proof. split; destruct b; cbn; try discriminate; intuition discriminate. Qed.

Section Accepted.
  Variable callable : nat -> bool.
  (** *** C62 *)
  (** c.reduce accepts exactly the arguments that Spec_ReduceArgs.v says, and raises for
      all others. *)
  Theorem C62_accepted_exactly : forall o a, (exists m, make callable o a = Reduces m) <-> acceptable o a.
  Proof.
    intros o a. unfold acceptable.
    assert (Pass : (forall p, passes a p -> ~ inside PMutation p) <->
      (exists e, each_opt ensure_conversion (g_expr a) = Some e) /\ (exists i, each_opt (initial_of callable) (g_initial a) = Some i) /\
      (exists d, each_opt (default_of callable) (g_default a) = Some d) /\ (exists xs, ensure_args (g_args a) = Some xs)).
    { rewrite <- (opt_ensured _ f_ensured), <- (opt_ensured _ (f_initial callable)), <- (opt_ensured _ (f_default callable)), <- args_ensured.
      unfold passes. split; [intros H; repeat split; intros p Hp; apply H; tauto|].
      intros (H1 & H2 & H3 & H4) p [Hp|[Hp|[Hp|Hp]]]; auto. }
    rewrite Pass. clear Pass.
    assert (Own : forall p, own_default o = Some p -> exists d, default_of callable p = Some d).
    { intros p E. destruct o as [b|]; [|discriminate]. destruct b; cbn in E; injection E as <-; cbn; eauto. }
    assert (Dft : (exists d, each_opt (default_of callable) (g_default a) = Some d) <->
      exists d, each_opt (default_of callable) (match g_default a with Some _ => g_default a | None => own_default o end) = Some d).
    { destruct (g_default a); [reflexivity|]. split; [|cbn; eauto]. intros _. destruct (own_default o) as [p|] eqn:E; cbn; [|eauto].
      destruct (Own p eq_refl) as (d & ->). cbn. eauto. }
    rewrite Dft. clear Dft Own.
    unfold make.
    destruct (each_opt ensure_conversion (g_expr a)) as [e|] eqn:Ee; [|split; [intros (m & H); discriminate|intros (((e & H) & _) & _); discriminate]].
    destruct (ensure_args (g_args a)) as [xs|] eqn:Ex; [|split; [intros (m & H); discriminate|intros ((_ & _ & _ & (x & H)) & _); discriminate]].
    set (d := match g_default a with Some _ => g_default a | None => own_default o end) in *.
    assert (NE : g_expr a <> None <-> e <> None).
    { destruct (g_expr a) as [p|]; cbn in Ee.
      - destruct (ensure_conversion p); [|discriminate]. injection Ee as <-. split; discriminate.
      - injection Ee as <-. tauto. }
    (* the last step *)
    assert (Last : forall e0 xs0, (exists m, match g_initial a, d with
              | None, None => Refused NoStart
              | _, _ => match each_opt (initial_of callable) (g_initial a), each_opt (default_of callable) d with
                        | Some i, Some d => Reduces (mkMade e0 xs0 i d (g_uncond a || own_uncond o))
                        | _, _ => Refused BadPart end end = Reduces m) <->
       (exists i, each_opt (initial_of callable) (g_initial a) = Some i) /\ (exists d', each_opt (default_of callable) d = Some d') /\
       (g_initial a <> None \/ d <> None)).
    { intros e0 xs0. destruct (g_initial a) as [pi|] eqn:Ei, d as [pd|] eqn:Ed.
      4:{ split; [intros (m & H); discriminate|intros (_ & _ & [H|H]); now destruct H]. }
      all: match goal with |- (exists m, match ?A with _ => _ end = _) <-> _ => destruct A as [i|] end;
        [|split; [intros (m & H); discriminate|intros ((i & H) & _); discriminate]].
      all: match goal with |- (exists m, match ?A with _ => _ end = _) <-> _ => destruct A as [dd|] end;
        [|split; [intros (m & H); discriminate|intros (_ & (i' & H) & _); discriminate]].
      all: split; [intros _; split; [eauto|]; split; [eauto|]; (left; discriminate) || (right; discriminate)|eauto]. }
    destruct o as [b|].
    - (* built-ins *)
      assert (Hd : d <> None) by (unfold d; destruct (g_default a); [discriminate|]; cbn; destruct b; discriminate).
      destruct (is_dict (OpBuiltin b)) eqn:Db.
      + assert (K := proj1 (is_dict_keyed b) Db).
        assert (OA : own_args (OpBuiltin b) = []) by (clear - K; destruct b; cbn in K; try reflexivity; intuition discriminate).
        assert (OE : own_expr (OpBuiltin b) = None) by (clear - K; destruct b; cbn in K; try reflexivity; intuition discriminate).
        rewrite OA, OE.
        destruct xs as [|x xs].
        2:{ cbn. split; [intros (m & H); discriminate|]. intros (_ & H & _). destruct (H K) as (G & _). now apply args_cons in Ex. }
        apply args_nil in Ex.
        replace (match e with Some _ => e | None => None end) with e by now destruct e. cbn [split_pair].
        destruct e as [e|].
        2:{ split; [intros (m & H); discriminate|]. intros (_ & H & _). destruct (H K) as (_ & p & Ep & _). destruct NE as [N1 _]. now destruct (N1 ltac:(congruence)). }
        destruct (g_expr a) as [p|] eqn:Ep; [|discriminate Ee].
        assert (Ec : ensure_conversion p = Some e) by (cbn in Ee; destruct (ensure_conversion p); [now injection Ee as ->|discriminate]).
        assert (Ai := pair_items p e Ec).
        destruct (items_of_expr e) as [items|].
        2:{ split; [intros (m & H); discriminate|]. intros (_ & H & _). destruct (H K) as (_ & p' & E & A). injection E as <-.
            apply Ai in A. destruct A as (k & v & A). discriminate. }
        assert (Bad : (forall k v, items <> [k; v]) ->
          (exists m : made, Refused DictItems = Reduces m) <->
          ((exists e0, Some (Some e) = Some e0) /\ (exists i, each_opt (initial_of callable) (g_initial a) = Some i) /\
           (exists d0, each_opt (default_of callable) d = Some d0) /\ (exists xs0 : list cv, Some [] = Some xs0)) /\
          (In b keyed -> g_args a = [] /\ (exists p0, Some p = Some p0 /\ a_pair p0)) /\ (~ In b keyed -> b = Count \/ Some p <> None)).
        { intros N. split; [intros (m & H); discriminate|]. intros (_ & H & _). destruct (H K) as (_ & p' & E & A). injection E as <-.
          apply Ai in A. destruct A as (k & v & A). injection A as A. now destruct (N k v). }
        destruct items as [|k [|v [|z items]]]; [apply Bad; discriminate|apply Bad; discriminate| |apply Bad; discriminate].
        rewrite (Last k [v]). split.
        * intros (H1 & H2 & _). split; [repeat split; eauto|]. split; [|tauto]. intros _. split; [auto|]. exists p. split; auto. apply Ai. eauto.
        * intros ((_ & H1 & H2 & _) & _). auto.
      + assert (NK : ~ In b keyed) by (intros K; apply is_dict_keyed in K; congruence).
        destruct (match e with Some _ => e | None => own_expr (OpBuiltin b) end) as [e'|] eqn:E'.
        * rewrite Last. split.
          -- intros (H1 & H2 & _). split; [repeat split; eauto|]. split; [tauto|]. intros _.
             destruct e as [e|]; [right; apply NE; discriminate|left]. destruct b; try discriminate E'; reflexivity.
          -- intros ((_ & H1 & H2 & _) & _). auto.
        * split; [intros (m & H); discriminate|]. intros (_ & _ & H). destruct (H NK) as [->|N]; [destruct e; discriminate|].
          apply NE in N. now destruct e.
    - cbn [is_dict own_expr]. replace (match e with Some _ => e | None => None end) with e by now destruct e.
      assert (OD : d <> None <-> g_default a <> None) by (unfold d; destruct (g_default a); cbn; tauto).
      destruct e as [e|].
      + rewrite Last. rewrite OD. split.
        * intros (H1 & H2 & H3). split; [repeat split; eauto|]. split; [apply NE; discriminate|exact H3].
        * intros ((_ & H1 & H2 & _) & _ & H3). auto.
      + split; [intros (m & H); discriminate|]. intros (_ & N & _). apply NE in N. now destruct N.
  Qed.
End Accepted.

(** what a successful [make] consists of *)
Lemma make_inv cl o a m : make cl o a = Reduces m ->
  exists e xs, each_opt ensure_conversion (g_expr a) = Some e /\ ensure_args (g_args a) = Some xs /\
  let e' := match e with Some _ => e | None => own_expr o end in
  let xs' := match xs with [] => own_args o | _ => xs end in
  (if is_dict o then split_pair e' xs' = inl (m_expr m, m_args m) else e' = Some (m_expr m) /\ xs' = m_args m) /\
  each_opt (initial_of cl) (g_initial a) = Some (m_initial m) /\
  each_opt (default_of cl) (match g_default a with Some _ => g_default a | None => own_default o end) = Some (m_default m) /\
  m_uncond m = (g_uncond a || own_uncond o)%bool.
Proof.
  unfold make. destruct (each_opt ensure_conversion (g_expr a)) as [e|]; [|discriminate].
  destruct (ensure_args (g_args a)) as [xs|]; [|discriminate]. intros H. exists e, xs. split; [auto|]. split; [auto|]. cbn zeta in *.
  set (e' := match e with Some _ => e | None => own_expr o end) in *. set (xs' := match xs with [] => own_args o | _ => xs end) in *.
  set (d := match g_default a with Some _ => g_default a | None => own_default o end) in *.
  assert (L : forall e0 xs0, match g_initial a, d with
              | None, None => Refused NoStart
              | _, _ => match each_opt (initial_of cl) (g_initial a), each_opt (default_of cl) d with
                        | Some i, Some d => Reduces (mkMade e0 xs0 i d (g_uncond a || own_uncond o))
                        | _, _ => Refused BadPart end end = Reduces m ->
    m_expr m = e0 /\ m_args m = xs0 /\ each_opt (initial_of cl) (g_initial a) = Some (m_initial m) /\
    each_opt (default_of cl) d = Some (m_default m) /\ m_uncond m = (g_uncond a || own_uncond o)%bool).
  { intros e0 xs0 G. assert (G' : match each_opt (initial_of cl) (g_initial a), each_opt (default_of cl) d with
                        | Some i, Some d => Reduces (mkMade e0 xs0 i d (g_uncond a || own_uncond o))
                        | _, _ => Refused BadPart end = Reduces m) by (destruct (g_initial a), d; auto; discriminate G).
    destruct (each_opt (initial_of cl) (g_initial a)) as [i|]; [|discriminate].
    destruct (each_opt (default_of cl) d) as [dd|]; [|discriminate].
    assert (Em : mkMade e0 xs0 i dd (g_uncond a || own_uncond o) = m) by congruence. rewrite <- Em. cbn. auto. }
  destruct (is_dict o).
  - destruct (split_pair e' xs') as [[e0 xs0]|]; [|discriminate]. destruct (L _ _ H) as (-> & -> & R). auto.
  - destruct e' as [e0|]; [|discriminate]. destruct (L _ _ H) as (-> & -> & R). auto.
Qed.

Section Values.
  Context {W : Type}.
  Variable call : val -> list val -> list (text * val) -> W -> W * out exc val.
  Variable getattr : val -> string -> W -> W * out exc val.
  Variable callable : nat -> bool.
  Variable args : list (text * val).
  Notation pr := (python call getattr).
  Notation gives := (gives call getattr).
  Notation means := (means call getattr).
  Notation make := (make callable).

  (** The expression that is reduced is the one that was passed. *)
  Theorem C62_expr : forall o a m p row x, make o a = Reduces m -> (forall b, o = OpBuiltin b -> ~ In b keyed) ->
    g_expr a = Some p -> means args row p x -> gives args (m_expr m) row x.
  Proof.
    intros o a m p row x H N E M. destruct (make_inv _ _ _ _ H) as (e & xs & Ee & _ & D & _).
    assert (Dn : is_dict o = false).
    { destruct o as [b|]; [|reflexivity]. destruct (is_dict (OpBuiltin b)) eqn:Db; auto. apply is_dict_keyed in Db. now destruct (N b eq_refl). }
    rewrite Dn in D. destruct D as [D _]. rewrite E in Ee. cbn in Ee.
    destruct (ensure_conversion p) as [c|] eqn:Ec; [|discriminate]. injection Ee as <-. injection D as D. rewrite <- D.
    exact (ensured_gives call getattr args row p c x Ec M).
  Qed.
  (** For the reducers that make a dict: key and value are the two parts of the pair. *)
  Theorem C62_pair : forall b a m k v row x y, make (OpBuiltin b) a = Reduces m -> In b keyed ->
    g_expr a = Some (PTupling [k; v]) \/ g_expr a = Some (PListing [k; v]) ->
    means args row k x -> means args row v y ->
    gives args (m_expr m) row x /\ exists c, m_args m = [c] /\ gives args c row y.
  Proof.
    intros b a m k v row x y H K E Mk Mv. destruct (make_inv _ _ _ _ H) as (e & xs & Ee & Ex & D & _).
    apply is_dict_keyed in K. rewrite K in D.
    assert (R : exists ck cv', ensure_conversion k = Some ck /\ ensure_conversion v = Some cv' /\ exists c, e = Some c /\ items_of_expr c = Some [ck; cv']).
    { destruct E as [E|E]; rewrite E in Ee; cbn [each_opt] in Ee.
      - rewrite (proj1 (proj2 (ensure_coll _))) in Ee. cbn in Ee. destruct (ensure_conversion k) as [ck|]; [|discriminate].
        destruct (ensure_conversion v) as [cv'|]; [|discriminate]. injection Ee as <-. exists ck, cv'. repeat split. eexists. split; reflexivity.
      - rewrite (proj1 (ensure_coll _)) in Ee. cbn in Ee. destruct (ensure_conversion k) as [ck|]; [|discriminate].
        destruct (ensure_conversion v) as [cv'|]; [|discriminate]. injection Ee as <-. exists ck, cv'. repeat split. eexists. split; reflexivity. }
    destruct R as (ck & cv' & Ek & Ev & c & -> & I). unfold split_pair in D.
    destruct (match xs with [] => own_args (OpBuiltin b) | _ => xs end); [|discriminate]. rewrite I in D. injection D as <- <-.
    split; [exact (ensured_gives call getattr args row k ck x Ek Mk)|]. exists cv'. split; auto.
    exact (ensured_gives call getattr args row v cv' y Ev Mv).
  Qed.
  (** Additional arguments are those that were passed; without any, MaxRow and MinRow
      get the row, other reducers none. *)
  Theorem C62_additional_args : forall o a m, make o a = Reduces m -> (forall b, o = OpBuiltin b -> ~ In b keyed) ->
    (g_args a <> [] -> Forall2 (fun p c => forall row x, means args row p x -> gives args c row x) (g_args a) (m_args m)) /\
    (g_args a = [] -> (o = OpBuiltin MaxRow \/ o = OpBuiltin MinRow) -> exists c, m_args m = [c] /\ forall row, gives args c row row) /\
    (g_args a = [] -> o <> OpBuiltin MaxRow -> o <> OpBuiltin MinRow -> m_args m = []).
  Proof.
    intros o a m H N. destruct (make_inv _ _ _ _ H) as (e & xs & _ & Ex & D & _).
    assert (Dn : is_dict o = false).
    { destruct o as [b|]; [|reflexivity]. destruct (is_dict (OpBuiltin b)) eqn:Db; auto. apply is_dict_keyed in Db. now destruct (N b eq_refl). }
    rewrite Dn in D. destruct D as [_ D]. split; [|split].
    - intros G. assert (Exs : xs = m_args m) by (destruct xs; [now apply args_nil in Ex|auto]). rewrite <- Exs. clear - Ex. revert xs Ex.
      induction (g_args a) as [|p l IH]; intros xs Ex; cbn in Ex; [injection Ex as <-; constructor|].
      destruct (ensure_conversion p) as [c|] eqn:Ec; [|discriminate]. destruct (ensure_args l) as [cs|]; [|discriminate].
      injection Ex as <-. constructor; auto. intros row x M. exact (ensured_gives call getattr args row p c x Ec M).
    - intros G Ho. rewrite G in Ex. injection Ex as <-. exists CThis. rewrite <- D. split; [now destruct Ho as [-> | ->]|]. intros row s. reflexivity.
    - intros G N1 N2. rewrite G in Ex. injection Ex as <-. rewrite <- D. destruct o as [b|]; [|reflexivity]. now destruct b.
  Qed.
  (** initial: the value that was passed; what it returns if it is a callable object,
      which is called each time; no built-in brings one along. *)
  Theorem C62_initial : forall o a m, make o a = Reduces m ->
    (g_initial a = None -> m_initial m = None) /\
    (forall p, g_initial a = Some p -> exists c, m_initial m = Some c /\
      ((forall g, p = PObject g -> callable g = false) -> forall row x, means args row p x -> gives args c row x) /\
      (forall g, p = PObject g -> callable g = true -> forall row w L w' r,
         call (VObj g) [] [] w = (w', r) -> den pr args c row (w, L) = ((w', L), r))).
  Proof.
    intros o a m H. destruct (make_inv _ _ _ _ H) as (e & xs & _ & _ & _ & I & _). split.
    - intros E. rewrite E in I. now injection I.
    - intros p E. rewrite E in I. cbn in I. unfold initial_of in I. destruct (ensure_conversion p) as [c|] eqn:Ec; [|discriminate].
      injection I as I. eexists. split; [symmetry; exact I|]. split.
      + intros Hp row x M. apply (ensured_gives call getattr args row p c x Ec) in M. destruct p; auto. now rewrite (Hp g eq_refl).
      + intros g -> Hg row w L w' r Hc. rewrite Hg. injection Ec as <-. cbn. unfold bind, ret, prim. cbn. now rewrite Hc.
  Qed.
  (** default: the same, except that a callable wrapped by c.naive is called, too; the
      built-in reducers bring along 0 or None. *)
  Theorem C62_default : forall o a m, make o a = Reduces m ->
    (g_default a = None -> match o with
                           | OpBuiltin b => exists c, m_default m = Some c /\ forall row, gives args c row (builtin_default b)
                           | OpExpression => m_default m = None
                           end) /\
    (forall p, g_default a = Some p -> exists c, m_default m = Some c /\
      ((forall g, an_object p g -> callable g = false) -> forall row x, means args row p x -> gives args c row x) /\
      (forall g, p = PObject g \/ p = PConversion (CGlob g) -> callable g = true -> forall row w L w' r,
         call (VObj g) [] [] w = (w', r) -> den pr args c row (w, L) = ((w', L), r))).
  Proof.
    intros o a m H. destruct (make_inv _ _ _ _ H) as (e & xs & _ & _ & _ & _ & D & _). split.
    - intros E. rewrite E in D. destruct o as [b|]; [|now injection D].
      destruct b; cbn in D; injection D as D; eexists; (split; [symmetry; exact D|]); intros row s; reflexivity.
    - intros p E. rewrite E in D. cbn in D. unfold default_of in D. destruct (ensure_conversion p) as [c|] eqn:Ec; [|discriminate].
      injection D as D. eexists. split; [symmetry; exact D|]. split.
      + intros Hp row x M. apply (ensured_gives call getattr args row p c x Ec) in M.
        destruct (naive_value c) as [g|] eqn:Nv; auto. rewrite (Hp g); auto.
        assert (A : forall c, naive_value c = Some g -> an_object (PConversion c) g).
        { clear. induction c; cbn; try discriminate; intros H; [injection H as <-; constructor|constructor; auto]. }
        destruct p as [c0| |l|l|l|l|x1 x2 x3|l|g0].
        * injection Ec as <-. auto.
        * discriminate.
        * rewrite ensure_dict in Ec. destruct (ensure_pairs l); [|discriminate]. injection Ec as <-. unfold dict in Nv. destruct (existsb _ _); discriminate.
        * rewrite (proj1 (ensure_coll l)) in Ec. destruct (ensure_each l); [|discriminate]. injection Ec as <-. unfold coll in Nv. destruct (existsb _ _); discriminate.
        * rewrite (proj1 (proj2 (ensure_coll l))) in Ec. destruct (ensure_each l); [|discriminate]. injection Ec as <-. unfold coll in Nv. destruct (existsb _ _); discriminate.
        * rewrite (proj2 (proj2 (ensure_coll l))) in Ec. destruct (ensure_each l); [|discriminate]. injection Ec as <-. unfold coll in Nv. destruct (existsb _ _); discriminate.
        * cbn in Ec. destruct (ensure_conversion x1), (ensure_conversion x2), (ensure_conversion x3); try discriminate. injection Ec as <-. discriminate Nv.
        * injection Ec as <-. discriminate Nv.
        * injection Ec as <-. injection Nv as <-. constructor.
      + intros g Hg Cg row w L w' r Hc. assert (c = CGlob g) as -> by (destruct Hg as [-> | ->]; injection Ec as <-; reflexivity).
        cbn [naive_value]. rewrite Cg. cbn. unfold bind, ret, prim. cbn. now rewrite Hc.
  Qed.
  (** It is initialised unconditionally if that was asked for or the reducer says so. *)
  Theorem C62_unconditional_init : forall o a m, make o a = Reduces m ->
    m_uncond m = true <-> g_uncond a = true \/ exists b, o = OpBuiltin b /\ ~ In b [Max; Min; MaxRow; MinRow; DictMax; DictMin].
  Proof.
    intros o a m H. destruct (make_inv _ _ _ _ H) as (e & xs & _ & _ & _ & _ & _ & ->). rewrite orb_true_iff.
    destruct (g_uncond a); [tauto|]. split; intros [U|U]; try discriminate U; right.
    - destruct o as [b|]; [|discriminate]. exists b. split; auto. destruct b; try discriminate U; cbn; intuition discriminate.
    - destruct U as (b & -> & N). destruct b; try reflexivity; destruct N; cbn; tauto.
  Qed.
End Values.

(** *** instances *)
Definition reduce_max_name : given :=            (* c.reduce(c.ReduceFuncs.MaxRow, c.item("v"), additional_args=(c.item("n"),)) *)
  mkGiven (Some (PConversion (key "v"))) None None [PConversion (key "n")] false.
Example C62_instance : make (fun _ => true) (OpBuiltin MaxRow) reduce_max_name =
  Reduces (mkMade (key "v") [key "n"] None (Some (CLit LNone)) false).
Proof. reflexivity. Qed.
(** c.reduce(c.ReduceFuncs.DictSum, (c.item("k"), [1, c.item("v")]), default=dict) *)
Definition reduce_dict : given :=
  mkGiven (Some (PTupling [PConversion (key "k"); PListing [PConstant (LInt 1); PConversion (key "v")]])) None (Some (PObject 3)) [] false.
Example C62_dict_instance :
  (exists m, make (fun _ => true) (OpBuiltin DictSum) reduce_dict = Reduces m /\ m_default m = Some (COp (OCall 0 []) [CGlob 3])) /\
  means tcall tattr [] (VDict [(VStr "k", VInt 5); (VStr "v", VInt 6)]) (PListing [PConstant (LInt 1); PConversion (key "v")]) (VList [VInt 1; VInt 6]).
Proof.
  split; [eexists; split; reflexivity|]. constructor. repeat (constructor; try (constructor; intros [w L]; reflexivity)).
Qed.
Example C62_refused_instances :
  make (fun _ => true) OpExpression (mkGiven (Some (PConversion CThis)) None None [] false) = Refused NoStart /\
  make (fun _ => true) (OpBuiltin Sum) (mkGiven None None None [] false) = Refused NoExpr /\
  make (fun _ => true) (OpBuiltin Count) (mkGiven None None None [] false) <> Refused NoExpr /\
  make (fun _ => true) (OpBuiltin Dict) (mkGiven (Some (PConversion (key "a"))) None None [] false) = Refused DictExpr.
Proof. repeat split; try reflexivity. discriminate. Qed.

(** Something piped into the pair is lost: of
    c.reduce(c.ReduceFuncs.Dict, c.item("x").pipe((c.item("k"), c.item("v")))) key and value
    are those of the row, not those of its item "x". *)
Theorem C62_piped_pair_refuted : exists e m row x y x',
  make (fun _ => true) (OpBuiltin Dict) (mkGiven (Some (PConversion e)) None None [] false) = Reduces m /\
  gives tcall tattr [] e row (VTuple [x; y]) /\ gives tcall tattr [] (m_expr m) row x' /\ x' <> x.
Proof.
  exists (CPipe (key "x") (COp OTuple [key "k"; key "v"])), (mkMade (key "k") [key "v"] None (Some (CLit LNone)) true).
  exists (VDict [(VStr "k", VInt 0); (VStr "x", VDict [(VStr "k", VInt 1); (VStr "v", VInt 2)])]), (VInt 1), (VInt 2), (VInt 0).
  split; [reflexivity|]. split; [intros [w L]; reflexivity|]. split; [intros [w L]; reflexivity|discriminate].
Qed.
(** The code of a default that uses its input is generated for an empty input:
    default=c.item(1) is the list [1]. *)
Theorem C62_default_input_refuted : exists m c,
  make (fun _ => true) (OpBuiltin First) (mkGiven (Some (PConversion CThis)) None (Some (PConversion (citem None [int 1]))) [] false) = Reduces m /\
  m_default m = Some c /\ Spec_Syntax.reads (default_text word quote gn pnum0 pn hn [] c) (AList [ANum 1]).
Proof. eexists _, _. split; [reflexivity|]. split; [reflexivity|]. eexists _, 40. split; [vm_compute; reflexivity|vm_compute; reflexivity]. Qed.
(** A default that does not look at its input: Python reads its code as the expression
    that was written and as nothing else; the name [x] of an input does not matter. *)
Theorem C62_default_without_input : forall printable wordch gname pnum pname hname,
  printable_ok printable -> word_ok wordch -> names_plain gname pname hname ->
  forall c q x,
    free c = true -> operators c = true -> writable false c = true -> ident x = true ->
    exists t, reads_only (default_text wordch (py_repr printable) gname pnum pname hname q c) t /\
              desugar t = meant gname pname x c.
Proof.
  intros printable wordch gname pnum pname hname PO WO NP c q x F O W X. unfold default_text.
  rewrite (gen_free wordch (py_repr printable) gname pnum pname hname c F q (PName []) (PName x)).
  exact (C10_code_is_what_was_written printable wordch gname pnum pname hname PO WO NP c x q O W X).
Qed.
(** c.reduce(c.ReduceFuncs.First, c.this(), default=f) with a callable f: the code is f() *)
Example C62_default_without_input_instance : exists m c,
  make (fun _ => true) (OpBuiltin First) (mkGiven (Some (PConversion CThis)) None (Some (PObject 3)) [] false) = Reduces m /\
  m_default m = Some c /\ free c = true /\ operators c = true /\ writable false c = true /\
  default_text word quote gn pnum0 pn hn [] c = T "f3()".
Proof. eexists _, _. repeat split. Qed.
Print Assumptions C62_accepted_exactly.
Print Assumptions C62_expr.
Print Assumptions C62_pair.
Print Assumptions C62_additional_args.
Print Assumptions C62_initial.
Print Assumptions C62_default.
Print Assumptions C62_unconditional_init.
Print Assumptions C62_piped_pair_refuted.
Print Assumptions C62_default_input_refuted.
Print Assumptions C62_default_without_input.
