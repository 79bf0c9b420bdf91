(** Calling the function of a join: the stages before the generator is made. *)
From Coq Require Import String Ascii List NArith ZArith Bool Arith Lia.
From Verif Require Proofs_Code.
From Verif Require Import Model_PyVal Model_Join Model_Labels Model_JoinLazy Model_Code Model_Source Model_JoinText Model_JoinFuncs Spec_Tree Spec_Syntax Spec_Source Spec_GenRun Spec_JoinText Proofs_Join Proofs_GenRun Proofs_JoinCond Proofs_JoinSource Proofs_JoinScope Proofs_JoinRows Proofs_JoinSim Proofs_JoinSimLeft.
Import ListNotations.

(** *** going through an iterator *)
Section Each.
  Context {A : Type}.
  Variable p : robj -> res bool.
  Variable f : A -> robj -> res A.
  Fixpoint each_rows (u : list (res robj)) (a : A) : res A :=
    match u with
    | [] => Ok a
    | Err e :: _ => Err e
    | Ok y :: r => do b <- p y; if (b : bool) then do a' <- f a y; each_rows r a' else each_rows r a
    end.
  Lemma each_seek u : forall a, each_rows u a = match seek p u with Found y r => do a' <- f a y; each_rows r a' | Nothing => Ok a | Failed e => Err e end.
  Proof. induction u as [|[y|e] u IH]; intros a; cbn [each_rows seek]; [reflexivity| |reflexivity]. destruct (p y) as [[|]|e]; cbn [bind]; auto. Qed.
End Each.
Lemma each_ext {A} p q (f g : A -> robj -> res A) u : (forall y, p y = q y) -> (forall a y, f a y = g a y) -> forall a, each_rows p f u a = each_rows q g u a.
Proof.
  intros P F. induction u as [|[y|e] u IH]; intros a; cbn [each_rows]; [reflexivity| |reflexivity]. rewrite P, F. destruct (q y) as [[|]|]; cbn [bind]; auto. destruct (g a y); cbn [bind]; auto.
Qed.
Section EachRun.
  Variable globals : text -> option pv.
  Variable opr : text -> list val -> res val.
  Variable gfuns : text -> option gfun.
  Variable indexers : text -> option (list val -> list (val * list robj) -> robj -> res (list (val * list robj))).
  Variable cl : string.
  Lemma each_source s {A} (f : A -> robj -> res A) : works globals opr gfuns indexers cl s -> forall n u m a, length u <= n -> s_at s m u ->
    exists m', leaves cl (s_F s) (s_I s) m m' /\
      (exists K, forall n k, K <= n -> K <= k -> each_of (Spec_GenRun.next globals opr gfuns indexers n) k A f (s_pv s) a m = Some (m', each_rows (s_test s) f u a)) /\
      (forall a', each_rows (s_test s) f u a = Ok a' -> s_at s m' []).
  Proof.
    intros (ADV & _). induction n as [|n IH]; intros u m a LN AT; destruct (ADV m u AT) as (m1 & o & [K NX] & LV & O); rewrite each_seek.
    all: destruct (seek (s_test s) u) as [y r| |e] eqn:SK.
    1: { apply seek_shorter in SK. lia. }
    1,4: destruct O as [-> AT1]; exists m1; (split; [exact LV|]); split; [|auto]; exists (S K); intros n' k L1 L2; (destruct k; [lia|]); cbn [each_of]; rewrite NX by lia; reflexivity.
    1,3: subst o; exists m1; (split; [exact LV|]); split; [|discriminate]; exists (S K); intros n' k L1 L2; (destruct k; [lia|]); cbn [each_of]; rewrite NX by lia; reflexivity.
    destruct O as [-> AT1]. destruct (f a y) as [a'|e] eqn:FA; cbn [bind].
    - apply seek_shorter in SK. destruct (IH r m1 a') as (m2 & LV2 & [K2 E2] & AT2); [lia|exact AT1|].
      exists m2. split; [now apply leaves_trans with m1|]. split; [|exact AT2]. exists (S (K + K2)). intros n' k L1 L2. destruct k; [lia|]. cbn [each_of]. rewrite NX by lia. rewrite FA. apply E2; lia.
    - exists m1. split; [exact LV|]. split; [|discriminate]. exists (S K). intros n' k L1 L2. destruct k; [lia|]. cbn [each_of]. rewrite NX by lia. rewrite FA. reflexivity.
  Qed.
End EachRun.

Lemma each_list l : forall a, each_rows all_rows (fun l o => Ok (l ++ [o])) (map Ok l) a = Ok (a ++ l).
Proof. induction l as [|y l IH]; intros a; cbn; [now rewrite app_nil_r|]. rewrite IH. now rewrite <- app_assoc. Qed.
Lemma each_index op keys params vs p l : forall d,
  each_rows p (index_row op keys params vs) (map Ok l) d = index_passing p (fun y => ev_key op (on_row (named_values params vs) y) keys) l d.
Proof.
  induction l as [|y l IH]; intros d; [reflexivity|]. cbn [map each_rows index_passing]. destruct (p y) as [[|]|]; cbn [bind]; auto.
  unfold index_row. destruct (ev_key op (on_row (named_values params vs) y) keys) as [k0|]; cbn [bind]; [|reflexivity]. destruct (need_hash k0); cbn [bind]; auto.
Qed.
Lemma index_passing_ext p q k k' l : (forall y, p y = q y) -> (forall y, k y = k' y) -> forall d, index_passing p k l d = index_passing q k' l d.
Proof.
  intros P K. induction l as [|y l IH]; intros d; [reflexivity|]. cbn [index_passing]. rewrite P, K. destruct (q y) as [[|]|]; cbn [bind]; auto.
  destruct (k' y) as [k0|]; cbn [bind]; auto. destruct (need_hash k0); cbn [bind]; auto.
Qed.

(** *** only the arguments that occur matter *)
Lemma ev_args op e : forall E E', names E = names E' -> cur E = cur E' -> (forall a, In (T a) (jargs e) -> args E a = args E' a) -> textual e = true -> ev op E e = ev op E' e.
Proof.
  induction e using jx_ind'; intros E E' EN EC EA TX; try discriminate TX.
  - cbn [ev]. now rewrite EN, EC.
  - cbn [ev]. now rewrite EN, EC.
  - cbn [ev]. rewrite EA; [reflexivity|now left].
  - reflexivity.
  - cbn [textual] in TX. apply andb_true_iff in TX as [TX T2]. apply andb_true_iff in TX as [_ T1]. cbn [ev jargs] in *.
    rewrite (IHe1 E E'), (IHe2 E E'); auto; intros a I; apply EA, in_app_iff; auto.
  - cbn [textual] in TX. apply andb_true_iff in TX as [_ TX]. cbn [ev jargs] in *.
    assert (G : forall p, (fix chain (prev : option val) (l : list jx) : res val :=
           match l with
           | [] => Ok (VBool true)
           | a :: r => do x <- ev op E a; match prev with Some p => if py_eq p x then chain (Some x) r else Ok (VBool false) | None => chain (Some x) r end
           end) p l = (fix chain (prev : option val) (l : list jx) : res val :=
           match l with
           | [] => Ok (VBool true)
           | a :: r => do x <- ev op E' a; match prev with Some p => if py_eq p x then chain (Some x) r else Ok (VBool false) | None => chain (Some x) r end
           end) p l); [|apply G].
    induction H as [|e l IHe F IH]; intros p; [reflexivity|]. cbn [forallb flat_map] in *. apply andb_true_iff in TX as [T1 T2].
    rewrite (IHe E E'); auto; [|intros a I; apply EA, in_app_iff; auto]. destruct (ev op E' e) as [x|]; cbn [bind]; [|reflexivity].
    assert (EA' : forall a, In (T a) (flat_map jargs l) -> args E a = args E' a) by (intros a I; apply EA, in_app_iff; auto).
    destruct p as [p|]; [destruct (py_eq p x)|]; auto.
  - cbn [textual] in TX. apply andb_true_iff in TX as [_ TX]. cbn [ev jargs] in *.
    assert (G : forall p, (fix all (last : val) (l : list jx) : res val := match l with [] => Ok last | a :: r => do x <- ev op E a; if truthy x then all x r else Ok x end) p l =
      (fix all (last : val) (l : list jx) : res val := match l with [] => Ok last | a :: r => do x <- ev op E' a; if truthy x then all x r else Ok x end) p l); [|apply G].
    induction H as [|e l IHe F IH]; intros p; [reflexivity|]. cbn [forallb flat_map] in *. apply andb_true_iff in TX as [T1 T2].
    rewrite (IHe E E'); auto; [|intros a I; apply EA, in_app_iff; auto]. destruct (ev op E' e) as [x|]; cbn [bind]; [|reflexivity]. destruct (truthy x); auto.
    apply IH; auto. intros a I; apply EA, in_app_iff; auto.
  - cbn [textual] in TX. apply andb_true_iff in TX as [_ TX]. cbn [ev jargs] in *.
    assert (G : forall p, (fix any (last : val) (l : list jx) : res val := match l with [] => Ok last | a :: r => do x <- ev op E a; if truthy x then Ok x else any x r end) p l =
      (fix any (last : val) (l : list jx) : res val := match l with [] => Ok last | a :: r => do x <- ev op E' a; if truthy x then Ok x else any x r end) p l); [|apply G].
    induction H as [|e l IHe F IH]; intros p; [reflexivity|]. cbn [forallb flat_map] in *. apply andb_true_iff in TX as [T1 T2].
    rewrite (IHe E E'); auto; [|intros a I; apply EA, in_app_iff; auto]. destruct (ev op E' e) as [x|]; cbn [bind]; [|reflexivity]. destruct (truthy x); auto.
    apply IH; auto. intros a I; apply EA, in_app_iff; auto.
  - cbn [textual] in TX. apply andb_true_iff in TX as [_ TX]. cbn [ev jargs] in *.
    assert (G : (fix evs (l : list jx) : res (list val) := match l with [] => Ok [] | a :: r => do x <- ev op E a; do xs <- evs r; Ok (x :: xs) end) l =
      (fix evs (l : list jx) : res (list val) := match l with [] => Ok [] | a :: r => do x <- ev op E' a; do xs <- evs r; Ok (x :: xs) end) l); [|now rewrite G].
    induction H as [|e l IHe F IH]; [reflexivity|]. cbn [forallb flat_map] in *. apply andb_true_iff in TX as [T1 T2].
    rewrite (IHe E E'); auto; [|intros a I; apply EA, in_app_iff; auto]. rewrite IH; auto. intros a I; apply EA, in_app_iff; auto.
Qed.
Lemma key_args op E E' l : names E = names E' -> cur E = cur E' -> (forall a, In (T a) (flat_map jargs l) -> args E a = args E' a) -> forallb textual l = true -> ev_key op E l = ev_key op E' l.
Proof.
  intros EN EC EA TX.
  assert (G : ev_list op E l = ev_list op E' l).
  { revert EA TX. induction l as [|e l IH]; intros EA TX; [reflexivity|]. cbn [ev_list forallb flat_map] in *. apply andb_true_iff in TX as [T1 T2].
    rewrite (ev_args op e E E'); auto; [|intros a I; apply EA, in_app_iff; auto]. rewrite IH; auto. intros a I; apply EA, in_app_iff; auto. }
  unfold ev_key. destruct l as [|e [|e' l]]; try (now rewrite G). cbn [forallb flat_map] in *. apply andb_true_iff in TX as [T1 T2]. apply ev_args; auto. intros a I; apply EA, in_app_iff; auto.
Qed.
Lemma named_found (inputs : string -> val) params a : In (T a) params ->
  named_values params (map (fun p => inputs (string_of_list_ascii (map ascii_of_N p))) params) a = inputs a.
Proof.
  induction params as [|p params IH]; intros I; [destruct I|]. cbn [named_values map]. unfold teqb at 1. destruct (text_eq_dec (T a) p) as [<-|NE].
  - now rewrite T_back.
  - destruct I as [->|I]; [contradiction|auto].
Qed.

Section Stages.
  Variable N : jnames.
  Variable h : Model_Join.how.
  Variable cond : option jx.
  Variable opr : text -> list val -> res val.
  Hypothesis CL : clean N cond.
  Hypothesis TX : match cond with Some e => textual e = true | None => True end.
  Variable x : jcall.
  Notation inputs := (c_inputs x).
  Notation globals := (module_globals N).
  Notation gfuns := (module_gfuns N h).
  Notation indexers := (module_indexers N h cond opr).
  Notation op := (jop opr).
  Notation in_scope := (in_scope N cond inputs).
  Notation cs := (cs_of h cond).
  Notation cl := (cl N).
  Notation keeps := (keeps cl).
  Notation leaves := (leaves cl).
  Notation nexts := (nexts globals opr gfuns indexers).
  Notation evals := (evals globals opr gfuns indexers).
  Notation gives := (gives globals opr gfuns indexers).
  Notation works := (works globals opr gfuns indexers cl).
  Notation rf := (fun y => ev_all op (on_row inputs y) (rfilters h cond)).
  Notation lf := (fun y => ev_all op (on_row inputs y) (lfilters h cond)).

  (** *** trees of the stages *)
  Definition filter_ast (z : text) (it : ast) (l : list jx) : ast :=
    match l with [] => it | _ => AComp GGen [AName z] z it (Some (all_ast None (AName z) l)) end.
  Definition right_ast : ast :=
    let r := filter_ast (n_right N) (nm "right") (rfilters h cond) in
    match how' h with Outer => fn "list" [r] | _ => r end.
  Definition label_ast : ast := cache_ast (T "right_collection") right_ast.
  Definition hash_ast (inp : ast) : ast := cache_ast (T "hash_to_items") (ACall (AName (n_agg N)) (inp :: map AName (index_args h cond)) []).

  (** *** the frame of the call *)
  Variable f : nat.
  Variables lv rv : pv.
  Definition here (m : mem) : Prop :=
    f < nframes m /\ in_scope m [f] /\ look m [f] (T "left") = Some (Some lv) /\ look m [f] (T "right") = Some (Some rv).
  Definition at_home (m : mem) : Prop := f < nframes m /\ in_scope m [f].

  Definition sturdy (s : Proofs_JoinSource.source) : Prop :=
    forall m m' u F I, s_at s m u -> keeps F I m m' -> apart F (s_F s) -> apart I (s_I s) -> at_home m' -> s_at s m' u.
  Definition src_ok (s : Proofs_JoinSource.source) (p : robj -> res bool) (m : mem) : Prop :=
    works s /\ sturdy s /\ incl (s_R s) [f] /\ ~ In f (s_F s) /\
    (forall g, In g (s_F s) -> g < nframes m) /\ (forall i, In i (s_I s) -> i < niters m) /\ (forall y, s_test s y = p y).
  Definition renewed (s : Proofs_JoinSource.source) : Prop := forall m, iter_of m (s_pv s) = Some (s_pv s, m).
  Lemma src_grows s p m m' : nframes m <= nframes m' -> niters m <= niters m' -> src_ok s p m -> src_ok s p m'.
  Proof.
    intros A B (C & D & E & F & G & H & I). repeat (split; [assumption|]). split; [intros g Z; apply G in Z; lia|]. split; [intros g Z; apply H in Z; lia|exact I].
  Qed.

  Definition no_source (p : robj -> res bool) : Proofs_JoinSource.source := mkSource (Iter 0) [] [] [] p (fun _ _ => False).
  Lemma no_works p : works (no_source p).
  Proof. split; [|split]; intros m u; cbn; contradiction. Qed.
  Lemma no_ok p m : src_ok (no_source p) p m.
  Proof.
    split; [apply no_works|]. split; [intros m0 m' u F I []|]. split; [intros z []|]. split; [intros []|]. split; [intros z []|]. split; [intros z []|reflexivity].
  Qed.
  Lemma plain_ok i m p : i < niters m -> (forall y, p y = Ok true) -> src_ok (plain_source i) p m.
  Proof.
    intros L P. split; [apply plain_works|]. split.
    - intros m0 m' u F I [A B] K _ A2 _. cbn in *. split; [pose proof (k_ni _ _ _ _ _ K); lia|]. rewrite (k_iters _ _ _ _ _ K); auto. intros X. apply (A2 i X). now left.
    - split; [intros z []|]. split; [intros []|]. split; [intros z []|]. split; [intros z [<-|[]]; exact L|]. intros y. now rewrite P.
  Qed.

  Definition sieve (i g : nat) (z : text) (l : list jx) : Proofs_JoinSource.source :=
    filtered (plain_source i) g z (Some (all_ast None (AName z) l)) [f] at_home (fun y => ev_all op (on_row inputs y) l).
  Lemma sieve_ok i g z l m : i < niters m -> g < nframes m -> g <> f -> l <> [] -> Forall (fine cond) l -> In z (inside N) ->
    src_ok (sieve i g z l) (fun y => ev_all op (on_row inputs y) l) m.
  Proof.
    intros LI LG NF NE FI IZ. split; [|split; [|split; [|split; [|split; [|split]]]]].
    - apply filtered_works.
      + apply plain_works.
      + cbn. tauto.
      + split; [intros [X|[]]; congruence|]. intros a [].
      + intros m0 m' F I (A & B) K AP. split; [pose proof (k_nf _ _ _ _ _ K); lia|]. revert B. apply scope_keeps with (1 := K); [exact AP|]. intros f' [<-|[]]; exact A.
      + intros m0 y (A & B) (C & D). apply (filter_worth N h cond opr CL inputs m0 g [f] z y l); auto.
        apply (more_scope N cond CL); [exact B|]. rewrite D. cbn [vars map fst]. intros a [<-|[]]. exact IZ.
    - intros m0 m' u F I (A & B & [C1 C2] & vs & D & E) K AF AI AH. pose proof (k_nf _ _ _ _ _ K). pose proof (k_ni _ _ _ _ _ K). cbn [sieve filtered s_F s_I plain_source] in AF, AI.
      split; [lia|]. split; [exact AH|]. split.
      + split; [lia|]. rewrite (k_iters _ _ _ _ _ K); auto. intros X. apply (AI i X). now left.
      + exists vs. split; [exact D|]. rewrite (k_frames _ _ _ _ _ K); auto. intros X. apply (AF g X). now left.
    - intros a Z. cbn in Z. destruct Z as [<-|[]]. now left.
    - intros [X|[]]. congruence.
    - intros a [<-|[]]. exact LG.
    - intros a [<-|[]]. exact LI.
    - reflexivity.
  Qed.

  (** iter() of an argument *)
  Lemma open_rows m v u : gives_rows m v u -> exists i m1, iter_of m v = Some (Iter i, m1) /\ s_at (plain_source i) m1 u /\ i < niters m1 /\
    leaves [] [] m m1 /\ frames m1 = frames m /\ labels m1 = labels m /\ (v = Iter i \/ niters m <= i).
  Proof.
    intros [(i & -> & L & E)|(l & -> & ->)].
    - exists i, m. split; [reflexivity|]. split; [split; auto|]. split; [exact L|]. split; [apply leaves_refl|]. auto.
    - exists (niters m), (snd (new_iter m (map Ok l))). split; [reflexivity|]. split; [split; [cbn; lia|cbn; apply at_same]|]. split; [cbn; lia|]. split; [apply leaves_new_iter|]. auto.
  Qed.

  (** (z for z in it if filters) *)
  Lemma filter_evals z l it m m1 v u : l <> [] -> Forall (fine cond) l -> In z (inside N) -> evals [f] it m m1 (Ok v) -> gives_rows m1 v u -> at_home m1 ->
    exists g i m2, evals [f] (filter_ast z it l) m m2 (Ok (Gen g)) /\ src_ok (sieve i g z l) (fun y => ev_all op (on_row inputs y) l) m2 /\ s_at (sieve i g z l) m2 u /\
      leaves [] [] m1 m2 /\ labels m2 = labels m1 /\ (v = Iter i \/ niters m1 <= i) /\ nframes m1 <= g.
  Proof.
    intros NE FI IZ [K EV] GR (AH1 & AH2). destruct (open_rows m1 v u GR) as (i & m1' & IT & AT & LI & LV & FR & LB & ID).
    set (fr := mkFrame [(z, None)] [f] (Some [KLoop [z] (Iter i) (loop_body (Some (all_ast None (AName z) l)) (AName z))])).
    set (m2 := snd (new_frame m1' fr)). exists (nframes m1'), i, m2.
    assert (LV2 : leaves [] [] m1 m2) by (apply leaves_trans with m1'; [exact LV|apply leaves_new_frame]).
    pose proof (k_nf _ _ _ _ _ (proj1 LV)) as NF.
    split; [|split; [|split; [|split; [|split; [|split]]]]]; auto.
    - exists K. intros n LE. unfold filter_ast. destruct l as [|e l]; [contradiction|]. cbn [eval]. rewrite (EV n LE). cbn [after]. rewrite IT. reflexivity.
    - apply sieve_ok; auto; cbn in *; try lia.
    - split; [cbn; lia|]. split.
      + split; [cbn; lia|]. revert AH2. apply scope_keeps with (1 := proj1 LV2); [intros a []|]. intros f' [<-|[]]; exact AH1.
      + split; [exact AT|]. exists [(z, None)]. split; [intros w; cbn [put_var]; now rewrite teqb_refl|]. left. unfold m2. cbn. apply at_same.
  Qed.

  (** *** the right collection, under its label *)
  Definition again : bool := match how' h, c_once x, rfilters h cond with Outer, _, _ => true | _, false, [] => true | _, _, _ => false end.
  Definition right_arg (m : mem) : Prop := if c_once x then an_iterator m rv (map Ok (c_right x)) else rv = Coll (c_right x).
  Definition left_arg (m : mem) (SR : Proofs_JoinSource.source) : Prop :=
    gives_rows m lv (c_left x) /\ forall i, lv = Iter i -> ~ In i (s_I SR).
  Definition labelled (m : mem) (v : pv) (SR : Proofs_JoinSource.source) : Prop :=
    here m /\ src_ok SR rf m /\ renewed SR /\ left_arg m SR /\ label_of (labels m) right_key = Some v /\
    if again then v = Coll (c_right x) else v = s_pv SR /\ s_at SR m (map Ok (c_right x)).
  Lemma fines' : each_part (fine cond) cs.
  Proof. now apply parts_fine. Qed.
  Lemma rfilters_fine : Forall (fine cond) (rfilters h cond).
  Proof. pose proof fines' as F. unfold each_part in F. unfold rfilters. destruct (swapped h); apply F. Qed.
  Lemma lfilters_fine : Forall (fine cond) (lfilters h cond).
  Proof. pose proof fines' as F. unfold each_part in F. unfold lfilters. destruct (swapped h); apply F. Qed.
  Lemma outer_rfilters : how' h = Outer -> rfilters h cond = [].
  Proof.
    intros HO. pose proof (parts_sides (how' h) cond TX) as (_ & _ & _ & S & _). unfold rfilters, cs_of. rewrite HO in *.
    destruct h; try discriminate HO. apply S. reflexivity.
  Qed.
  Lemma here_keeps F I m m' : keeps F I m m' -> ~ In f F -> here m -> here m'.
  Proof.
    intros K NI (A & B & C & D). pose proof (k_nf _ _ _ _ _ K).
    assert (E : forall z, look m' [f] z = look m [f] z) by (intros z; apply look_keeps with (1 := K); [intros a Z [<-|[]]; contradiction|intros f' [<-|[]]; exact A]).
    split; [lia|]. rewrite !E. split; [|auto]. revert B. apply scope_keeps with (1 := K); [intros a Z [<-|[]]; contradiction|intros f' [<-|[]]; exact A].
  Qed.
  Lemma here_home m : here m -> at_home m.
  Proof. intros (A & B & _). split; auto. Qed.
  Lemma here_labels m l : here m -> here (set_labels m l).
  Proof. intros H. exact H. Qed.
  Lemma nr_inside : In (n_right N) (inside N).
  Proof. change (n_right N) with (res_at N 18). unfold inside. apply in_map. cbn. tauto. Qed.
  Lemma nl_inside : In (n_left N) (inside N).
  Proof. change (n_left N) with (res_at N 19). unfold inside. apply in_map. cbn. tauto. Qed.
  Lemma sieve_renewed i g z l : renewed (sieve i g z l).
  Proof. intros m. reflexivity. Qed.
  Lemma src_set_labels s p m l : src_ok s p m -> src_ok s p (set_labels m l).
  Proof. intros H. exact H. Qed.
  Lemma sturdy_labels s p m l u : src_ok s p m -> at_home m -> s_at s m u -> s_at s (set_labels m ((right_key, l) :: labels m)) u \/ True.
  Proof. auto. Qed.

  Lemma evals_cache k s e m m1 v : str_of k = Some s -> at_home m -> at_home m1 -> evals [f] e m m1 (Ok v) ->
    evals [f] (cache_ast k e) m (set_labels m1 ((s, v) :: labels m1)) (Ok v).
  Proof. intros S (_ & A) (_ & B) [K E]. exists K. intros n LE. apply (ev_cache N h cond opr CL inputs) with (1 := S); auto. Qed.
  Lemma evals_cache_fail k s e m m1 z : str_of k = Some s -> at_home m -> evals [f] e m m1 (Err z) -> evals [f] (cache_ast k e) m m1 (Err z).
  Proof. intros S (_ & A) [K E]. exists K. intros n LE. apply (ev_cache_fail N h cond opr CL inputs) with (1 := S); auto. Qed.
  Lemma evals_name m z v : look m [f] z = Some (Some v) -> evals [f] (AName z) m m (Ok v).
  Proof. intros L. apply gives_evals. intros nx each. cbn [eval]. now rewrite L. Qed.

  (** sources when a label is set *)
  Definition carefree (s : Proofs_JoinSource.source) : Prop := forall m l u, at_home m -> s_at s m u -> s_at s (set_labels m l) u.
  Lemma plain_free i : carefree (plain_source i).
  Proof. intros m l u _ H. exact H. Qed.
  Lemma sieve_free i g z l : carefree (sieve i g z l).
  Proof. intros m l' u _ H. exact H. Qed.

  Lemma rfilters_or : rfilters h cond = [] \/ rfilters h cond <> [].
  Proof. destruct (rfilters h cond); [now left|right; discriminate]. Qed.
  Theorem right_stage m : here m -> right_arg m -> gives_rows m lv (c_left x) -> (match lv, rv with Iter i, Iter j => i <> j | _, _ => True end) ->
    exists m1 v SR, evals [f] label_ast m m1 (Ok v) /\ labelled m1 v SR.
  Proof.
    intros HE RA GL DI. pose proof HE as (LF & SC & LL & LR).
    assert (EVR : evals [f] (nm "right") m m (Ok rv)) by (apply evals_name; exact LR).
    assert (GR : gives_rows m rv (map Ok (c_right x))) by (unfold right_arg in RA; destruct (c_once x); [left; exact RA|right; eauto]).
    assert (FIN : forall m1 v SR, evals [f] right_ast m m1 (Ok v) -> here m1 -> src_ok SR rf m1 -> renewed SR -> left_arg m1 SR ->
      (if again then v = Coll (c_right x) else v = s_pv SR /\ s_at SR m1 (map Ok (c_right x)) /\ carefree SR) ->
      exists m1 v SR, evals [f] label_ast m m1 (Ok v) /\ labelled m1 v SR).
    { intros m1 v SR EV H1 SO RN LA AG. exists (set_labels m1 ((right_key, v) :: labels m1)), v, SR. split.
      - apply evals_cache; auto using here_home.
      - split; [exact H1|]. split; [exact SO|]. split; [exact RN|]. split; [exact LA|]. split; [reflexivity|].
        destruct again; [exact AG|]. destruct AG as (A1 & A2 & A3). split; [exact A1|]. apply A3; auto using here_home. }
    destruct (how' h) eqn:HO.
    4: { (* list(right) *)
      pose proof (outer_rfilters HO) as RF.
      destruct (open_rows m rv _ GR) as (i & m1 & IT & AT & LI & LV & FR & LB & ID).
      destruct (each_source globals opr gfuns indexers cl (plain_source i) (fun (l : list robj) o => Ok (l ++ [o])) (plain_works _ _ _ _ _ i) _ _ m1 [] (le_n _) AT) as (m2 & LV2 & [K EC] & _).
      cbn [plain_source s_F s_I s_test s_pv] in LV2, EC. rewrite each_list in EC. cbn [app] in EC.
      assert (LV12 : leaves [] [i] m m2) by (apply leaves_trans with m1; [apply leaves_weaken with [] []; auto; intros a []|exact LV2]).
      apply FIN with m2 (Coll (c_right x)) (no_source rf).
      - unfold right_ast. rewrite HO, RF. cbn [filter_ast]. destruct EVR as [K1 E1]. exists (K + K1). intros n LE.
        unfold fn, nm in *. cbn [eval] in *. change (T "list") with (res_at N 6). rewrite (machine_callee N cond CL inputs m [f] 6 SC) by (cbn; tauto).
        rewrite (E1 n) by lia. cbn [after]. unfold give at 1. cbn [after]. unfold give at 1. cbn [after]. unfold give at 1. cbn [after].
        unfold apply. rewrite (not_gfun N h cond CL), (not_indexer N h cond opr CL) by lia. change (res_at N 6) with (T "list"). rewrite !teqb_T. cbn [String.eqb Ascii.eqb Bool.eqb]. rewrite IT.
        rewrite EC by lia. reflexivity.
      - apply here_keeps with (1 := proj1 LV12); auto.
      - apply no_ok.
      - intros m0. reflexivity.
      - split; [|intros j _ []]. destruct GL as [(j & -> & A & B)|(l & -> & E)]; [left|right; eauto].
        exists j. split; [reflexivity|]. pose proof (k_ni _ _ _ _ _ (proj1 LV12)). split; [lia|]. rewrite (k_iters _ _ _ _ _ (proj1 LV12)); auto.
        intros [X|[]]. subst j. destruct ID as [->|ID]; [now apply DI|lia].
      - unfold again. rewrite HO. reflexivity. }
    all: destruct rfilters_or as [RF|RF].
    (* no filters *)
    1,3,5: apply FIN with m rv (if c_once x then match rv with Iter j => plain_source j | _ => no_source rf end else no_source rf); auto.
    1,6,11: unfold right_ast; rewrite HO, RF; exact EVR.
    1,5,9: unfold right_arg in RA; destruct (c_once x); [|apply no_ok]; destruct RA as (j & -> & A & B); apply plain_ok; auto; intros y; now rewrite RF.
    1,4,7: intros m0; unfold right_arg in RA; destruct (c_once x); [|reflexivity]; destruct RA as (j & -> & A & B); reflexivity.
    1,3,5: split; [exact GL|]; intros j ->; unfold right_arg in RA; destruct (c_once x); [|intros []]; destruct RA as (j' & -> & A & B); intros [X|[]]; congruence.
    1,2,3: unfold again; rewrite HO, RF; unfold right_arg in RA; destruct (c_once x); [|exact RA]; destruct RA as (j & -> & A & B); (split; [reflexivity|]); split; [split; auto|apply plain_free].
    (* filters *)
    all: destruct (filter_evals (n_right N) (rfilters h cond) (nm "right") m m rv _ RF rfilters_fine nr_inside EVR GR (here_home m HE)) as (g & i & m2 & EV & SO & AT & LV & LB & ID & NG).
    all: apply FIN with m2 (Gen g) (sieve i g (n_right N) (rfilters h cond)); auto.
    1,6,11: unfold right_ast; rewrite HO; exact EV.
    1,5,9: apply here_keeps with (1 := proj1 LV); auto.
    1,4,7: apply sieve_renewed.
    1,3,5: split; [destruct GL as [(j & -> & A & B)|(l & -> & E)]; [left|right; eauto]; exists j; (split; [reflexivity|]); pose proof (k_ni _ _ _ _ _ (proj1 LV)); (split; [lia|]); rewrite (k_iters _ _ _ _ _ (proj1 LV)); auto|
      intros j -> [X|[]]; subst j; destruct ID as [->|ID]; [now apply DI|destruct GL as [(j & [= <-] & A & B)|(l & X & _)]; [lia|discriminate]]].
    all: unfold again; rewrite HO; assert (AG : match c_once x with false => match rfilters h cond with [] => true | _ => false end | true => false end = false) by (destruct (rfilters h cond); [contradiction|now destruct (c_once x)]); rewrite AG; (split; [reflexivity|]); (split; [exact AT|apply sieve_free]).
  Qed.

  (** *** ready to read the left collection *)
  Definition arrived (m : mem) (ls : Model_Labels.labels lab) (SR : Proofs_JoinSource.source) : Prop :=
    here m /\ src_ok SR rf m /\ renewed SR /\ left_arg m SR /\ right_at h cond SR m ls.
  Definition ls1 (ls0 : Model_Labels.labels lab) : Model_Labels.labels lab := set_label ls0 right_key (if again then LAgain (c_right x) else LOnce (c_right x)).
  Lemma again_outer : how' h = Outer -> again = true.
  Proof. intros E. unfold again. now rewrite E. Qed.
  Lemma again_rf : again = true -> forall y, rf y = Ok true.
  Proof.
    intros A y. assert (E : rfilters h cond = []); [|now rewrite E]. unfold again in A. destruct (how' h) eqn:HO; [| | |now apply outer_rfilters].
    all: destruct (c_once x); [discriminate|]; destruct (rfilters h cond); [reflexivity|discriminate].
  Qed.
  Lemma label_arrives m v SR ls0 : left_hash cs = [] -> labelled m v SR -> arrived m (ls1 ls0) SR.
  Proof.
    intros LH (A & B & C & D & L & E). repeat (split; [assumption|]). unfold ls1. split; [|split].
    - unfold lab_rel. rewrite LH, label_at_set. destruct again; [now subst v|]. eauto.
    - intros _ rs R. rewrite label_at_set in R. destruct again; [discriminate|]. injection R as <-. destruct E as [-> E]. auto.
    - intros HO. rewrite (again_outer HO) in *. subst v. exists (c_right x). split; [apply label_at_set|exact L].
  Qed.

  (** *** the index *)
  Lemma jargs_T e : forall z, In z (jargs e) -> exists a, z = T a.
  Proof.
    induction e using jx_ind'; intros z I; cbn [jargs] in I; try contradiction.
    1: { destruct I as [<-|[]]. eauto. }
    all: try (apply in_app_iff in I as [I|I]; auto).
    all: apply in_flat_map in I as (e & I1 & I2); rewrite Forall_forall in H; eauto.
  Qed.
  Definition arg_pv (a : text) : pv := Val (inputs (string_of_list_ascii (map ascii_of_N a))).
  Lemma arg_names m l nx each : at_home m -> (forall a, In a l -> In a (all_args cond)) ->
    (fix evals (l : list ast) (m : mem) : result (list pv) :=
        match l with
        | [] => give [] m
        | a :: r => after (eval globals opr gfuns indexers nx each [f] a m) (fun v m => after (evals r m) (fun vs m => give (v :: vs) m))
        end) (map AName l) m = give (map arg_pv l) m.
  Proof.
    intros (_ & SC). induction l as [|a l IH]; intros H; [reflexivity|]. cbn [map].
    assert (E : eval globals opr gfuns indexers nx each [f] (AName a) m = give (arg_pv a) m).
    { cbn [eval]. pose proof (H a (or_introl eq_refl)) as I. assert (X : exists b, a = T b) by (unfold all_args in I; destruct cond as [e|]; [now apply jargs_T with e|destruct I]).
      destruct X as [b ->]. rewrite (proj1 SC b I). unfold arg_pv. now rewrite T_back. }
    rewrite E. unfold give at 1. cbn [after]. rewrite IH by (intros b I; apply H; now right). reflexivity.
  Qed.
  Lemma arg_vals l : as_vals (map arg_pv l) = Some (map (fun a => inputs (string_of_list_ascii (map ascii_of_N a))) l).
  Proof. induction l as [|a l IH]; [reflexivity|]. cbn [map as_vals arg_pv as_val]. now rewrite IH. Qed.
  Lemma right_fine : Forall (fine cond) (right_hash cs).
  Proof. pose proof fines' as F. unfold each_part in F. apply F. Qed.
  Lemma index_names a : In a (index_args h cond) <-> In a (flat_map jargs (right_hash cs)).
  Proof. unfold index_args, sorted_args. rewrite Proofs_Code.in_sort. apply nodup_In. Qed.
  Lemma index_in a : In a (index_args h cond) -> In a (all_args cond).
  Proof. intros I. apply index_names in I. apply in_flat_map in I as (e & I1 & I2). pose proof right_fine as F. rewrite Forall_forall in F. now apply (F e I1). Qed.
  Lemma right_textual : forallb textual (right_hash cs) = true.
  Proof. apply forallb_forall. intros e I. pose proof right_fine as F. rewrite Forall_forall in F. now apply (F e I). Qed.

  Definition index_of : res (list (val * list robj)) :=
    index_passing rf (fun y => ev_key op (on_row inputs y) (right_hash cs)) (c_right x) [].
  Lemma index_same p vs : vs = map (fun a => inputs (string_of_list_ascii (map ascii_of_N a))) (index_args h cond) -> (forall y, p y = rf y) ->
    each_rows p (index_row op (right_hash cs) (index_args h cond) vs) (map Ok (c_right x)) [] = index_of.
  Proof.
    intros -> P. rewrite each_index. apply index_passing_ext; [exact P|]. intros y. apply key_args; auto using right_textual.
    intros a I. apply index_names in I. cbn [args on_row]. now rewrite named_found.
  Qed.

  Theorem index_stage inp m m1 v SR ls0 : left_hash cs <> [] -> evals [f] inp m m1 (Ok v) -> at_home m -> labelled m1 v SR ->
    exists m2, match index_of with
    | Ok d => evals [f] (hash_ast inp) m m2 (Ok (Index d)) /\ arrived m2 (set_label (ls1 ls0) index_key (LIndex d)) SR
    | Err e => evals [f] (hash_ast inp) m m2 (Err e)
    end.
  Proof.
    intros LH EV AH (HE & SO & RN & LA & LB & AG). pose proof (here_home _ HE) as AH1.
    assert (X : exists it m1' m2, iter_of m1 v = Some (it, m1') /\ leaves (s_F SR) (niters m1 :: s_I SR) m1 m2 /\
       exists K, forall n k, K <= n -> K <= k -> each_of (Spec_GenRun.next globals opr gfuns indexers n) k _
         (index_row op (right_hash cs) (index_args h cond) (map (fun a => inputs (string_of_list_ascii (map ascii_of_N a))) (index_args h cond))) it [] m1' = Some (m2, index_of)).
    { destruct again eqn:AGN.
      - subst v. set (i := niters m1). destruct (each_source globals opr gfuns indexers cl (plain_source i)
          (index_row op (right_hash cs) (index_args h cond) (map (fun a => inputs (string_of_list_ascii (map ascii_of_N a))) (index_args h cond)))
          (plain_works _ _ _ _ _ i) _ (map Ok (c_right x)) (snd (new_iter m1 (map Ok (c_right x)))) [] (le_n _)) as (m2 & LV2 & KE & _).
        { split; [cbn; lia|cbn; apply at_same]. }
        exists (Iter i), (snd (new_iter m1 (map Ok (c_right x)))), m2. split; [reflexivity|]. split.
        + apply leaves_trans with (snd (new_iter m1 (map Ok (c_right x)))); [apply leaves_new_iter|]. apply leaves_weaken with (1 := LV2); [intros z []|]. intros z [<-|[]]. now left.
        + rewrite (index_same all_rows) in KE; [exact KE|reflexivity|]. intros y. now rewrite (again_rf AGN).
      - destruct AG as [-> AT]. destruct SO as (W & _ & _ & _ & _ & _ & TS).
        destruct (each_source globals opr gfuns indexers cl SR
          (index_row op (right_hash cs) (index_args h cond) (map (fun a => inputs (string_of_list_ascii (map ascii_of_N a))) (index_args h cond)))
          W _ (map Ok (c_right x)) m1 [] (le_n _) AT) as (m2 & LV2 & KE & _).
        exists (s_pv SR), m1, m2. split; [apply RN|]. split; [apply leaves_weaken with (1 := LV2); [apply incl_refl|intros z Z; now right]|].
        rewrite (index_same (s_test SR)) in KE; [exact KE|reflexivity|exact TS]. }
    destruct X as (it & m1' & m2 & IT & LV & [K1 KE]). destruct EV as [K2 EV].
    assert (C : evals [f] (ACall (AName (n_agg N)) (inp :: map AName (index_args h cond)) []) m m2 (match index_of with Ok d => Ok (Index d) | Err e => Err e end)).
    { exists (K1 + K2). intros n LE. cbn [eval]. change (n_agg N) with (res_at N 21). rewrite (machine_callee N cond CL inputs m [f] 21) by (try apply AH; cbn; tauto).
      rewrite (EV n) by lia. cbn [after]. rewrite (arg_names m1 _ _ _ AH1) by (intros a; apply index_in). unfold give at 1. cbn [after]. unfold give at 1. cbn [after]. unfold give at 1. cbn [after].
      unfold apply. rewrite (not_gfun N h cond CL) by lia. unfold module_indexers at 1. change (res_at N 21) with (n_agg N). rewrite teqb_refl, arg_vals, IT.
      rewrite KE by lia. destruct index_of; reflexivity. }
    assert (NF : ~ In f (s_F SR)) by apply SO.
    assert (H2 : here m2) by (apply here_keeps with (1 := proj1 LV); auto).
    destruct index_of as [d|e] eqn:IO.
    - exists (set_labels m2 ((index_key, Index d) :: labels m2)). split; [apply evals_cache; auto using here_home|].
      split; [exact H2|]. split; [apply src_grows with m1; [apply (k_nf _ _ _ _ _ (proj1 LV))|apply (k_ni _ _ _ _ _ (proj1 LV))|exact SO]|]. split; [exact RN|]. split.
      + destruct LA as [GL NI]. split; [|exact NI]. destruct GL as [(i & -> & A & B)|(l & -> & E)]; [left|right; eauto].
        exists i. split; [reflexivity|]. pose proof (k_ni _ _ _ _ _ (proj1 LV)). split; [cbn; lia|]. cbn [iters set_labels]. rewrite (k_iters _ _ _ _ _ (proj1 LV)); auto.
        intros [X|X]; [lia|]. now apply (NI i eq_refl).
      + split; [|split].
        * unfold lab_rel. destruct (left_hash cs) as [|e l]; [contradiction|]. exists d. split; [apply label_at_set|reflexivity].
        * intros E. contradiction.
        * intros HO. rewrite (again_outer HO) in AG. subst v. exists (c_right x). split.
          -- unfold ls1. rewrite (again_outer HO). reflexivity.
          -- cbn [labels set_labels label_of]. change (String.eqb index_key right_key) with false. cbn iota. rewrite (k_labels _ _ _ _ _ (proj1 LV)); [exact LB|apply cl_right].
    - exists m2. apply evals_cache_fail with index_key; auto.
  Qed.

  (** *** the left collection *)
  Definition opened (m : mem) (ls : Model_Labels.labels lab) (SR SL : Proofs_JoinSource.source) : Prop :=
    here m /\ src_ok SR rf m /\ renewed SR /\ src_ok SL lf m /\ apart (s_F SL) (s_F SR) /\ apart (s_I SL) (s_I SR) /\ right_at h cond SR m ls /\ s_at SL m (c_left x).
  Definition left_value (m : mem) (v : pv) (ls : Model_Labels.labels lab) (SR : Proofs_JoinSource.source) : Prop :=
    (lfilters h cond = [] /\ v = lv /\ arrived m ls SR) \/ exists SL, v = s_pv SL /\ renewed SL /\ opened m ls SR SL.
  Lemma right_stays m m' ls SR : src_ok SR rf m -> leaves [] [] m m' -> right_at h cond SR m ls -> right_at h cond SR m' ls.
  Proof.
    intros SO LV. apply (right_keeps N h cond opr f SR) with (F := []) (I := []); [apply SO|apply SO|apply LV|intros z []|intros []|intros z []].
  Qed.
  Lemma here_stays m m' : leaves [] [] m m' -> here m -> here m'.
  Proof. intros LV. apply here_keeps with (1 := proj1 LV). intros []. Qed.
  Lemma src_stays s p m m' : leaves [] [] m m' -> src_ok s p m -> src_ok s p m'.
  Proof. intros LV. apply src_grows; [apply (k_nf _ _ _ _ _ (proj1 LV))|apply (k_ni _ _ _ _ _ (proj1 LV))]. Qed.
  Lemma at_stays s p m m' u : leaves [] [] m m' -> src_ok s p m -> s_at s m u -> s_at s m' u.
  Proof. intros LV SO AT. destruct SO as ((_ & STAY & _) & _). apply STAY with m [] []; auto; [apply LV| | |]; intros z []. Qed.
  Lemma opened_stays m m' ls SR SL : leaves [] [] m m' -> opened m ls SR SL -> opened m' ls SR SL.
  Proof.
    intros LV (A & B & C & D & E & F & G & H). split; [now apply here_stays with m|]. split; [now apply src_stays with m|]. split; [exact C|]. split; [now apply src_stays with m|].
    split; [exact E|]. split; [exact F|]. split; [now apply right_stays with m|]. now apply at_stays with lf m.
  Qed.
  Lemma lfilters_or : lfilters h cond = [] \/ lfilters h cond <> [].
  Proof. destruct (lfilters h cond); [now left|right; discriminate]. Qed.
  Lemma left_filter e m m2 ls SR : evals [f] e m m2 (Ok lv) -> arrived m2 ls SR ->
    exists m3 v, evals [f] (filter_ast (n_left N) e (lfilters h cond)) m m3 (Ok v) /\ left_value m3 v ls SR.
  Proof.
    intros EV AR. destruct lfilters_or as [LF|LF].
    { exists m2, lv. rewrite LF. split; [exact EV|]. left. auto. }
    pose proof AR as (HE & SO & RN & (GL & NI) & RA).
    destruct (filter_evals (n_left N) (lfilters h cond) e m m2 lv _ LF lfilters_fine nl_inside EV GL (here_home _ HE)) as (g & i & m3 & EV3 & SO3 & AT3 & LV & LB & ID & NG).
    exists m3, (Gen g). split; [exact EV3|]. right. exists (sieve i g (n_left N) (lfilters h cond)). split; [reflexivity|]. split; [apply sieve_renewed|].
    split; [now apply here_stays with m2|]. split; [now apply src_stays with m2|]. split; [exact RN|]. split; [exact SO3|]. split; [|split; [|split; [now apply right_stays with m2|exact AT3]]].
    - intros z [<-|[]] Z. destruct SO as (_ & _ & _ & _ & LO & _). apply LO in Z. lia.
    - intros z [<-|[]] Z. destruct ID as [->|ID]; [now apply (NI i)|]. destruct SO as (_ & _ & _ & _ & _ & LO & _). apply LO in Z. lia.
  Qed.
  Lemma opens m v ls SR : left_value m v ls SR -> exists SL m', iter_of m v = Some (s_pv SL, m') /\ opened m' ls SR SL.
  Proof.
    intros [(LF & -> & HE & SO & RN & (GL & NI) & RA)|(SL & -> & RN & OP)]; [|exists SL, m; split; [apply RN|exact OP]].
    destruct (open_rows m lv _ GL) as (i & m1 & IT & AT & LI & LV & FR & LB & ID).
    exists (plain_source i), m1. split; [exact IT|]. split; [now apply here_stays with m|]. split; [now apply src_stays with m|]. split; [exact RN|].
    split; [apply plain_ok; auto; intros y; now rewrite LF|]. split; [intros z []|]. split; [|split; [now apply right_stays with m|exact AT]].
    intros z [<-|[]] Z. destruct ID as [->|ID]; [now apply (NI i)|]. destruct SO as (_ & _ & _ & _ & _ & LO & _). apply LO in Z. lia.
  Qed.
  Lemma opened_world m ls SR SL : opened m ls SR SL -> world N cond inputs f SL SR m.
  Proof.
    intros ((A1 & A2 & _) & B & _ & D & _). split; [exact A1|]. split; [exact A2|]. split; intros z Z; apply in_app_iff in Z as [Z|Z]; [apply D in Z|apply B in Z|apply D in Z|apply B in Z]; exact Z.
  Qed.

  (** *** the generator *)
  Notation LI := (T "left_item").
  Notation RI := (T "right_item").
  Definition rows_ast (le : ast) : ast := AComp GGen [ATuple [nm "left_item"; ones_ast N h cond]] LI le None.
  Definition last_ast (le : ast) : ast :=
    match how' h with
    | Inner => AComp2 (ATuple [nm "left_item"; nm "right_item"]) LI le RI (ri_ast N h cond) (if_ast h cond)
    | Outer => ACall (AName (n_adder N)) [ACall (AName (n_joiner N)) [rows_ast le] []] [(T "get_by_label_", nm "get_by_label_")]
    | _ => ACall (AName (n_joiner N)) [rows_ast le] []
    end.
  Definition behaves (it : pv) (m : mem) (s : gstate) (ls : Model_Labels.labels lab) : Prop :=
    exists inv, inv m s ls /\ forall m s ls, inv m s ls -> exists m' r, nexts it m m' r /\ outcome inv m' r (next_pair op h cond inputs s ls).
  Lemma inner_h : how' h = Inner -> h = Inner.
  Proof. destruct h; auto; discriminate. Qed.
  Lemma joiner_gfun : gfuns (n_joiner N) = Some (left_joiner (swapped h)).
  Proof. unfold module_gfuns. now rewrite teqb_refl. Qed.
  Lemma adder_gfun : gfuns (n_adder N) = Some Model_JoinFuncs.add_right.
  Proof.
    unfold module_gfuns. rewrite teqb_neq, teqb_refl; [reflexivity|]. change (n_adder N) with (res_at N 23). change (n_joiner N) with (res_at N 22). apply (res_neq N cond CL); lia.
  Qed.
  Lemma rows_evals le m m3 v ls SR : evals [f] le m m3 (Ok v) -> left_value m3 v ls SR ->
    exists g1 SL m4 m5, evals [f] (rows_ast le) m m5 (Ok (Gen g1)) /\ opened m4 ls SR SL /\ g1 = nframes m4 /\ m5 = snd (new_frame m4 (mkFrame [(LI, None)] [f] (Some (rows_code N h cond SL)))).
  Proof.
    intros [K EV] LVA. destruct (opens m3 v ls SR LVA) as (SL & m4 & IT & OP).
    exists (nframes m4), SL, m4, (snd (new_frame m4 (mkFrame [(LI, None)] [f] (Some (rows_code N h cond SL))))). split; [|auto].
    exists K. intros n LE. unfold rows_ast. cbn [eval]. rewrite (EV n LE). cbn [after]. rewrite IT. reflexivity.
  Qed.
  Lemma joiner_evals le m m3 v ls SR : at_home m -> evals [f] le m m3 (Ok v) -> left_value m3 v ls SR ->
    exists g1 g2 SL m6, evals [f] (ACall (AName (n_joiner N)) [rows_ast le] []) m m6 (Ok (Gen g2)) /\ opened m6 ls SR SL /\ f < g1 < g2 /\ g2 < nframes m6 /\
      (forall a, In a (s_F SL ++ s_F SR) -> a < g1) /\
      frames m6 g1 = mkFrame [(LI, None)] [f] (Some (rows_code N h cond SL)) /\ frames m6 g2 = start_frame h g1.
  Proof.
    intros AH EV LVA. destruct (rows_evals le m m3 v ls SR EV LVA) as (g1 & SL & m4 & m5 & [K EV5] & OP & -> & ->).
    set (m5 := snd (new_frame m4 (mkFrame [(LI, None)] [f] (Some (rows_code N h cond SL))))) in *. set (m6 := snd (new_frame m5 (start_frame h (nframes m4)))).
    exists (nframes m4), (nframes m5), SL, m6. split; [|split; [|split; [|split; [|split; [|split]]]]].
    - exists K. intros n LE. cbn [eval]. change (n_joiner N) with (res_at N 22). rewrite (machine_callee N cond CL inputs m [f] 22) by (try apply AH; cbn; tauto).
      rewrite (EV5 n LE). cbn [after]. unfold give at 1. cbn [after]. unfold give at 1. cbn [after]. unfold give at 1. cbn [after]. unfold apply. change (res_at N 22) with (n_joiner N). rewrite joiner_gfun. reflexivity.
    - apply opened_stays with m5; [apply leaves_new_frame|]. apply opened_stays with m4; [apply leaves_new_frame|exact OP].
    - destruct OP as ((A & _) & _). cbn. lia.
    - cbn. lia.
    - intros a I. destruct OP as (_ & B & _ & D & _). apply in_app_iff in I as [I|I]; [apply D in I|apply B in I]; exact I.
    - unfold m6, m5. cbn. rewrite at_other by lia. apply at_same.
    - unfold m6, m5. cbn. apply at_same.
  Qed.
  Theorem last_stage_runs le m m3 v ls SR : at_home m -> evals [f] le m m3 (Ok v) -> left_value m3 v ls SR ->
    exists it m6, evals [f] (last_ast le) m m6 (Ok it) /\ behaves it m6 (GOuter (c_left x) []) ls.
  Proof.
    intros AH EV LVA. unfold last_ast. destruct (how' h) eqn:HO.
    1: { destruct EV as [K EV]. destruct (opens m3 v ls SR LVA) as (SL & m4 & IT & OP).
      set (g := nframes m4). set (m5 := snd (new_frame m4 (mkFrame [(LI, None); (RI, None)] [f] (Some (outer_code N h cond SL))))).
      assert (OP5 : opened m5 ls SR SL) by (apply opened_stays with m4; [apply leaves_new_frame|exact OP]).
      exists (Gen g), m5. split.
      - exists K. intros n LE. cbn [eval]. rewrite (EV n LE). cbn [after]. rewrite IT. unfold m5, outer_code, inner_body, loop_body. destruct (if_ast h cond); reflexivity.
      - pose proof OP as ((A & _) & B & C & D & E & F & _). exists (inner_inv N h cond inputs f SL SR g). split.
        + cbn [inner_inv]. split.
          * split; [unfold g; cbn; lia|]. split; [now apply opened_world with ls|]. destruct OP5 as (_ & _ & _ & _ & _ & _ & G & H). auto.
          * exists None, None. unfold m5, g. cbn. apply at_same.
        + intros m' s' ls' IV. destruct (inner_next N h cond opr CL TX inputs f SL SR) with (g := g) (m := m') (s := s') (ls := ls') as (m1 & r & NX & O); auto; try apply B; try apply D.
          * now apply inner_h.
          * unfold g. lia.
          * intros X. apply D in X. unfold g in X. lia.
          * intros X. apply B in X. unfold g in X. lia.
          * exists m1, r. split; [exact NX|]. unfold outcome. destruct (next_pair op h cond inputs s' ls') as [ls2 [w s2| |e]]; [exact O|apply O|apply O]. }
    1,2: destruct (joiner_evals le m m3 v ls SR AH EV LVA) as (g1 & g2 & SL & m6 & EV6 & OP & L1 & L2 & LO & E1 & E2); exists (Gen g2), m6; (split; [exact EV6|]);
      pose proof OP as ((A & _) & B & C & D & E & F & RA & AT);
      assert (LOL : forall a, In a (s_F SL) -> a < g1) by (intros a I; apply LO, in_app_iff; auto);
      assert (LOR : forall a, In a (s_F SR) -> a < g1) by (intros a I; apply LO, in_app_iff; auto);
      exists (fun m s ls => exists st ids, s = as_state st ids /\ joiner_inv N h cond opr inputs f SL SR g1 g2 (S g2) m st ls); split;
      [exists (c_left x, None), []; split; [reflexivity|]; split; [split; [lia|]; split; [now apply opened_world with ls|]; split; [exact AT|]; eauto|]; split; [exact RA|]; left; exact E2|];
      intros m' s' ls' (st & ids & -> & IV);
      destruct (joiner_next N h cond opr CL TX inputs f SL SR) with (g1 := g1) (g2 := g2) (base := S g2) (m := m') (s := st) (ls := ls') as (m1 & r & NX & O); auto; try apply B; try apply D; try lia;
      try (intros X; apply LOL in X; lia); try (intros X; apply LOR in X; lia); try (intros a X; apply LOL in X; lia); try (intros a X; apply LOR in X; lia);
      exists m1, r; (split; [exact NX|]); rewrite next_pair_lead by (rewrite HO; discriminate);
      destruct O as [_ O]; destruct (lead op h cond inputs st ls') as [ls2 [p s2| |e]]; cbn [outcome];
      [exists p; destruct O as [O1 O2]; split; [reflexivity|]; split; [exact O1|]; eauto|unfold finish; rewrite HO; apply O|exact O].
    destruct (joiner_evals le m m3 v ls SR AH EV LVA) as (g1 & g2 & SL & m6 & [K EV6] & OP & L1 & L2 & LO & E1 & E2).
    set (m7 := snd (new_frame m6 (add_start g2))). set (g3 := nframes m6). exists (Gen g3), m7.
    assert (OP7 : opened m7 ls SR SL) by (apply opened_stays with m6; [apply leaves_new_frame|exact OP]).
    pose proof OP7 as ((A & _) & B & C & D & E & F & RA & AT).
    assert (LOL : forall a, In a (s_F SL) -> a < g1) by (intros a I; apply LO, in_app_iff; auto).
    assert (LOR : forall a, In a (s_F SR) -> a < g1) by (intros a I; apply LO, in_app_iff; auto).
    assert (G3 : g2 < g3) by exact L2. assert (G4 : nframes m7 = S g3) by reflexivity.
    split.
    - exists K. intros n LE. cbn [eval]. change (n_adder N) with (res_at N 23). rewrite (machine_callee N cond CL inputs m [f] 23) by (try apply AH; cbn; tauto).
      specialize (EV6 n LE). cbn [eval] in EV6. rewrite EV6. cbn [after]. unfold give at 1. cbn [after]. unfold give at 1. cbn [after].
      assert (S6 : in_scope m6 [f]) by apply OP.
      unfold nm. cbn [eval]. change (T "get_by_label_") with (res_at N 5). rewrite (proj2 (proj2 S6)) by (unfold machine; apply in_map; cbn; tauto). rewrite (not_empty N cond CL) by lia.
      change (res_at N 5) with (T "get_by_label_"). rewrite teqb_T. cbn [String.eqb Ascii.eqb Bool.eqb]. unfold give at 1. cbn [after]. unfold give at 1. cbn [after]. unfold give at 1. cbn [after].
      unfold apply. change (res_at N 23) with (n_adder N). rewrite adder_gfun. reflexivity.
    - exists (adder_inv N h cond opr inputs f SL SR g1 g2 (S g3) g3). split.
      + cbn [adder_inv]. exists (c_left x, None), []. split; [reflexivity|]. split.
        * split; [split; [lia|]; split; [now apply opened_world with ls|]; split; [exact AT|]; exists None; unfold m7; cbn; rewrite at_other by lia; exact E1|].
          split; [exact RA|]. left. unfold m7. cbn. rewrite at_other by lia. exact E2.
        * left. split; [|reflexivity]. unfold m7, g3. cbn. apply at_same.
      + intros m' s' ls' IV. apply (adder_next N h cond opr CL TX inputs f SL SR) with (g1 := g1) (g2 := g2) (base := S g3); auto; try lia;
          try (intros X; apply LOL in X; lia); try (intros X; apply LOR in X; lia); try (intros a X; apply LOL in X; lia); try (intros a X; apply LOR in X; lia); try apply B; try apply D.
  Qed.

  (** *** the body of the function *)
  Definition execs (b : list stmt) (m m' : mem) (r : res pv) : Prop := exists K, forall n, K <= n -> exec globals opr gfuns indexers n f b m = Some (m', r).
  Lemma execs_return a m m' r : evals [f] a m m' r -> execs [SReturn a] m m' r.
  Proof. intros [K E]. exists K. intros n LE. cbn [exec]. now apply E. Qed.
  Lemma execs_assign z a b m m1 v m' r : evals [f] a m m1 (Ok v) -> execs b (set_var m1 f z v) m' r -> execs (SAssign z a :: b) m m' r.
  Proof. intros [K E] [K2 E2]. exists (K + K2). intros n LE. cbn [exec]. unfold evals in E. rewrite (E n) by lia. cbn [after]. apply E2. lia. Qed.
  Lemma execs_assign_fail z a b m m1 e : evals [f] a m m1 (Err e) -> execs (SAssign z a :: b) m m1 (Err e).
  Proof. intros [K E]. exists K. intros n LE. cbn [exec]. rewrite (E n) by lia. reflexivity. Qed.
  Lemma execs_global l b m m' r : execs b m m' r -> execs (SGlobal l :: b) m m' r.
  Proof. intros [K E]. exists K. intros n LE. cbn [exec]. now apply E. Qed.
  Lemma filter_fail z l e m m' r : evals [f] e m m' (Err r) -> evals [f] (filter_ast z e l) m m' (Err r).
  Proof. intros [K E]. unfold filter_ast. destruct l; [exists K; exact E|]. exists K. intros n LE. cbn [eval]. now rewrite (E n LE). Qed.
  Lemma last_fail le m m' r : at_home m -> evals [f] le m m' (Err r) -> evals [f] (last_ast le) m m' (Err r).
  Proof.
    intros AH [K E]. exists K. intros n LE. unfold last_ast, rows_ast.
    pose proof (machine_callee N cond CL inputs m [f] 22 (proj2 AH)) as C1. pose proof (machine_callee N cond CL inputs m [f] 23 (proj2 AH)) as C2.
    change (res_at N 22) with (n_joiner N) in C1. change (res_at N 23) with (n_adder N) in C2.
    destruct (how' h); cbn [eval]; rewrite ?C1, ?C2 by (cbn; tauto); now rewrite (E n LE).
  Qed.

  Definition head_ast : ast := match left_hash cs with [] => label_ast | _ => hash_ast label_ast end.
  Definition left_ast : ast := filter_ast (n_left N) (after_ast head_ast (nm "left")) (lfilters h cond).
  Definition full_ast : ast := last_ast left_ast.
  Definition begun (ls0 : Model_Labels.labels lab) : Model_Labels.labels lab * option exc :=
    match left_hash cs with
    | [] => (ls1 ls0, None)
    | _ => match index_of with Ok d => (set_label (ls1 ls0) index_key (LIndex d), None) | Err e => (ls1 ls0, Some e) end
    end.
  Definition given (m : mem) : Prop :=
    here m /\ right_arg m /\ gives_rows m lv (c_left x) /\ match lv, rv with Iter i, Iter j => i <> j | _, _ => True end.
  Lemma head_runs m ls0 : given m -> exists m1,
    match begun ls0 with
    | (ls, None) => exists v SR, evals [f] head_ast m m1 (Ok v) /\ arrived m1 ls SR
    | (_, Some e) => evals [f] head_ast m m1 (Err e)
    end.
  Proof.
    intros (HE & RA & GL & DI). destruct (right_stage m HE RA GL DI) as (m1 & v & SR & EV & LB). unfold begun, head_ast.
    destruct (left_hash cs) as [|k ks] eqn:LH.
    - exists m1, v, SR. split; [exact EV|]. now apply label_arrives with v.
    - destruct (index_stage label_ast m m1 v SR ls0) as (m2 & I2); auto using here_home; [rewrite LH; discriminate|].
      exists m2. destruct index_of as [d|e]; [|exact I2]. exists (Index d), SR. exact I2.
  Qed.
  Theorem full_runs m ls0 : given m -> exists m1,
    match begun ls0 with
    | (ls, None) => exists it, evals [f] full_ast m m1 (Ok it) /\ behaves it m1 (GOuter (c_left x) []) ls
    | (_, Some e) => evals [f] full_ast m m1 (Err e)
    end.
  Proof.
    intros G. destruct (head_runs m ls0 G) as (m1 & HR). pose proof (here_home _ (proj1 G)) as AH. destruct (begun ls0) as [ls [e|]].
    - exists m1. apply last_fail; [exact AH|]. apply filter_fail. destruct HR as [K E]. exists K. intros n LE. apply ev_after_fail. now apply E.
    - destruct HR as (v & SR & [K E] & AR).
      assert (EL : evals [f] (after_ast head_ast (nm "left")) m m1 (Ok lv)).
      { exists K. intros n LE. apply ev_after with m1 v; [now apply E|]. unfold nm. cbn [eval]. destruct AR as ((_ & _ & LL & _) & _). now rewrite LL. }
      destruct (left_filter _ m m1 ls SR EL AR) as (m3 & w & EW & LW).
      destruct (last_stage_runs _ m m3 w ls SR AH EW LW) as (it & m6 & E6 & B6). exists m6, it. auto.
  Qed.

  (** the stages of an inner join, one statement each *)
  Notation p := (n_pipe N).
  Definition left_stmts (k : nat) : list stmt :=
    SAssign (p k) (nm "left") ::
    match lfilters h cond with
    | [] => [SReturn (last_ast (AName (p k)))]
    | l => [SAssign (p (S k)) (filter_ast (n_left N) (AName (p k)) l); SReturn (last_ast (AName (p (S k))))]
    end.
  Definition pipe_stmts : list stmt :=
    SAssign (p 0) label_ast :: SAssign (p 1) (AName (p 0)) ::
    match left_hash cs with
    | [] => left_stmts 2
    | _ => SAssign (p 2) (hash_ast (AName (p 1))) :: left_stmts 3
    end.
  Definition body_stmts : list stmt :=
    match pre cs, how' h with
    | [], Inner => pipe_stmts
    | [], _ => [SReturn full_ast]
    | l, _ => [SReturn (AIf (all_ast None (nm "data_") l) full_ast (AList []))]
    end.

  Lemma pipe_name k : k < 5 -> p k = res_at N (24 + k).
  Proof. intros L. do 5 (destruct k as [|k]; [reflexivity|]). lia. Qed.
  Lemma look_set m z v : look (set_var m f z v) [f] z = Some (Some v).
  Proof. cbn [look]. rewrite frames_set_var. cbn [vars]. now rewrite var_put. Qed.
  Lemma look_set_other m z z' v : z' <> z -> look (set_var m f z v) [f] z' = look m [f] z'.
  Proof. intros NE. cbn [look]. rewrite frames_set_var. cbn [vars]. now rewrite var_put_other. Qed.
  Lemma here_set m k v : k < 5 -> here m -> here (set_var m f (p k) v).
  Proof.
    intros L (A & (B1 & B2 & B3) & C & D). rewrite (pipe_name k L). pose proof CL as (_ & _ & DA & DF).
    assert (IR : In (res_at N (24 + k)) (reserved N)) by (apply res_in; lia).
    split; [exact A|]. split; [split; [|split]|split].
    - intros a I. rewrite look_set_other; auto. intros X. apply (proj1 (DA _ I)). now rewrite X.
    - intros a I. rewrite look_set_other; auto. intros X. apply (DF _ I). now rewrite X.
    - intros a I. rewrite look_set_other; auto. intros X. subst a. apply in_map_iff in I as (j & E & I). revert E. apply (res_neq N cond CL); [cbn in I; lia|lia|cbn in I; lia].
    - rewrite look_set_other; auto. change (T "left") with (res_at N 0). apply (res_neq N cond CL); lia.
    - rewrite look_set_other; auto. change (T "right") with (res_at N 1). apply (res_neq N cond CL); lia.
  Qed.
  Lemma var_keeps m z v : keeps [f] [] m (set_var m f z v).
  Proof. apply leaves_var. now left. Qed.
  Lemma source_set s q m u k v : k < 5 -> here m -> src_ok s q m -> s_at s m u -> s_at s (set_var m f (p k) v) u.
  Proof.
    intros L H SO AT. destruct SO as (_ & ST & _ & NF & _). apply ST with m [f] []; auto using var_keeps, here_home, here_set; [|intros z []]. intros z [<-|[]]. exact NF.
  Qed.
  Lemma right_set m ls SR k v : k < 5 -> here m -> src_ok SR rf m -> right_at h cond SR m ls -> right_at h cond SR (set_var m f (p k) v) ls.
  Proof.
    intros L H SO (A & B & C). split; [exact A|]. split; [|exact C]. intros E rs R. destruct (B E rs R) as [B1 B2]. split; [exact B1|]. now apply source_set with rf.
  Qed.
  Lemma labelled_set m v SR k w : k < 5 -> labelled m v SR -> labelled (set_var m f (p k) w) v SR.
  Proof.
    intros L (A & B & C & D & E & F). split; [now apply here_set|]. split; [exact B|]. split; [exact C|]. split; [exact D|]. split; [exact E|].
    destruct again; [exact F|]. destruct F as [F1 F2]. split; [exact F1|]. now apply source_set with rf.
  Qed.
  Lemma arrived_set m ls SR k w : k < 5 -> arrived m ls SR -> arrived (set_var m f (p k) w) ls SR.
  Proof.
    intros L (A & B & C & D & E). split; [now apply here_set|]. split; [exact B|]. split; [exact C|]. split; [exact D|]. now apply right_set.
  Qed.
  Lemma left_value_set m v ls SR k w : k < 5 -> left_value m v ls SR -> left_value (set_var m f (p k) w) v ls SR.
  Proof.
    intros L [(A & B & C)|(SL & A & B & C1 & C2 & C3 & C4 & C5 & C6 & C7 & C8)].
    - left. split; [exact A|]. split; [exact B|]. now apply arrived_set.
    - right. exists SL. split; [exact A|]. split; [exact B|]. split; [now apply here_set|]. split; [exact C2|]. split; [exact C3|]. split; [exact C4|]. split; [exact C5|]. split; [exact C6|].
      split; [now apply right_set|]. now apply source_set with lf.
  Qed.
  Lemma left_value_here m v ls SR : left_value m v ls SR -> here m.
  Proof. intros [(_ & _ & A & _)|(SL & _ & _ & A & _)]; exact A. Qed.
  Lemma left_runs k m ls SR : k < 4 -> arrived m ls SR -> exists it m1, execs (left_stmts k) m m1 (Ok it) /\ behaves it m1 (GOuter (c_left x) []) ls.
  Proof.
    intros LK AR. pose proof AR as ((_ & _ & LL & _) & _). set (m1 := set_var m f (p k) lv).
    assert (AR1 : arrived m1 ls SR) by (apply arrived_set; [lia|exact AR]).
    assert (EP : evals [f] (AName (p k)) m1 m1 (Ok lv)) by (apply evals_name, look_set).
    destruct (left_filter _ m1 m1 ls SR EP AR1) as (m2 & w & E2 & LV2). unfold left_stmts.
    destruct lfilters_or as [LF|LF].
    - rewrite LF in *. cbn [filter_ast] in E2. destruct (last_stage_runs _ m1 m2 w ls SR (here_home _ (proj1 AR1)) E2 LV2) as (it & m6 & E6 & B6).
      exists it, m6. split; [|exact B6]. apply execs_assign with m lv; [now apply evals_name|]. now apply execs_return.
    - set (m3 := set_var m2 f (p (S k)) w). assert (LV3 : left_value m3 w ls SR) by (apply left_value_set; [lia|exact LV2]).
      assert (E3 : evals [f] (AName (p (S k))) m3 m3 (Ok w)) by (apply evals_name, look_set).
      destruct (last_stage_runs _ m3 m3 w ls SR (here_home _ (left_value_here _ _ _ _ LV3)) E3 LV3) as (it & m6 & E6 & B6).
      exists it, m6. split; [|exact B6]. apply execs_assign with m lv; [now apply evals_name|].
      destruct (lfilters h cond) as [|e l] eqn:EL; [contradiction|]. apply execs_assign with m2 w; [exact E2|]. now apply execs_return.
  Qed.
  Theorem pipe_runs m ls0 : given m -> exists m1,
    match begun ls0 with
    | (ls, None) => exists it, execs pipe_stmts m m1 (Ok it) /\ behaves it m1 (GOuter (c_left x) []) ls
    | (_, Some e) => execs pipe_stmts m m1 (Err e)
    end.
  Proof.
    intros (HE & RA & GL & DI). destruct (right_stage m HE RA GL DI) as (m1 & v & SR & EV & LB).
    set (m2 := set_var m1 f (p 0) v). set (m3 := set_var m2 f (p 1) v).
    assert (LB2 : labelled m2 v SR) by (apply labelled_set; [lia|exact LB]).
    assert (LB3 : labelled m3 v SR) by (apply labelled_set; [lia|exact LB2]).
    assert (RUN : forall b m' r, execs b m3 m' r -> execs (SAssign (p 0) label_ast :: SAssign (p 1) (AName (p 0)) :: b) m m' r).
    { intros b m' r X. apply execs_assign with m1 v; [exact EV|]. apply execs_assign with m2 v; [apply evals_name, look_set|exact X]. }
    unfold begun, pipe_stmts. destruct (left_hash cs) as [|k ks] eqn:LH.
    - destruct (left_runs 2 m3 (ls1 ls0) SR) as (it & m4 & X & B); [lia|now apply label_arrives with v|]. exists m4, it. auto.
    - assert (E3 : evals [f] (AName (p 1)) m3 m3 (Ok v)) by (apply evals_name, look_set).
      destruct (index_stage (AName (p 1)) m3 m3 v SR ls0) as (m4 & I4); auto; [rewrite LH; discriminate|apply here_home, LB3|].
      destruct index_of as [d|e]; [|exists m4; apply RUN; now apply execs_assign_fail].
      destruct I4 as [I4 AR]. set (m5 := set_var m4 f (p 2) (Index d)).
      destruct (left_runs 3 m5 (set_label (ls1 ls0) index_key (LIndex d)) SR) as (it & m6 & X & B); [lia|apply arrived_set; [lia|exact AR]|].
      exists m6, it. split; [|exact B]. apply RUN. now apply execs_assign with m4 (Index d).
  Qed.

  Lemma pre_fine : Forall (fine cond) (pre cs).
  Proof. pose proof fines' as F. unfold each_part in F. apply F. Qed.
  Lemma pre_runs m a b : pre cs <> [] -> given m ->
    (forall r m', evals [f] (if match ev_all op (on_nothing inputs) (pre cs) with Ok true => true | _ => false end then a else b) m m' r ->
      match ev_all op (on_nothing inputs) (pre cs) with Ok _ => evals [f] (AIf (all_ast None (nm "data_") (pre cs)) a b) m m' r | Err _ => True end) /\
    match ev_all op (on_nothing inputs) (pre cs) with Err e => evals [f] (AIf (all_ast None (nm "data_") (pre cs)) a b) m m (Err e) | Ok _ => True end.
  Proof.
    intros NE G. pose proof (here_home _ (proj1 G)) as (_ & SC).
    pose proof (parts_sides (how' h) cond TX) as (PR & _). fold cs in PR.
    assert (NL : existsb dep_left (pre cs) = false).
    { destruct (existsb dep_left (pre cs)) eqn:X; [|reflexivity]. apply existsb_exists in X as (e & I & D). rewrite Forall_forall in PR. apply PR in I as [I _]. congruence. }
    assert (NR : existsb dep_right (pre cs) = false).
    { destruct (existsb dep_right (pre cs)) eqn:X; [|reflexivity]. apply existsb_exists in X as (e & I & D). rewrite Forall_forall in PR. apply PR in I as [_ I]. congruence. }
    destruct (all_worth N h cond opr CL inputs m [f] SC (on_nothing inputs) eq_refl None (nm "data_") (pre cs) NE pre_fine) as (q & W & EQ); [congruence|congruence|].
    rewrite EQ. destruct W as (r & GV & RL). destruct q as [v|e]; cbn [bind]; unfold rel in RL.
    - split; [|exact I]. destruct RL as (pp & -> & PV).
      pose proof (plain_truth m pp v PV) as TR.
      intros r m' [K E]. exists K. intros n LE. cbn [eval]. rewrite (GV _ _). cbn [after]. rewrite TR. destruct (truthy v); now apply E.
    - subst r. split; [auto|]. exists 0. intros n _. cbn [eval]. now rewrite (GV _ _).
  Qed.
  Theorem body_runs m ls0 : given m -> exists m1,
    match jcall_out op h cond x ls0 with
    | (_, CRaise e) => execs body_stmts m m1 (Err e)
    | (_, CValue _) => execs body_stmts m m1 (Ok (Coll []))
    | (ls, CGenerator (y, s)) => y = x /\ exists it, execs body_stmts m m1 (Ok it) /\ behaves it m1 s ls
    end.
  Proof.
    intros G.
    assert (BG : jcall_out op h cond x ls0 = match ev_all op (on_nothing inputs) (pre cs) with
      | Err e => (ls0, CRaise e) | Ok false => (ls0, CValue LEmpty)
      | Ok true => match begun ls0 with (ls, None) => (ls, CGenerator (x, GOuter (c_left x) [])) | (ls, Some e) => (ls, CRaise e) end end).
    { unfold jcall_out, begun, ls1, index_of, again. destruct (ev_all op (on_nothing inputs) (pre cs)) as [[|]|]; try reflexivity. destruct (left_hash cs); [reflexivity|].
      destruct (index_passing _ _ (c_right x) []); reflexivity. }
    rewrite BG. clear BG. unfold body_stmts. destruct (pre cs) as [|e l] eqn:PR.
    - cbn [ev_all]. assert (FULL : how' h <> Inner -> exists m1, match begun ls0 with
        | (ls, None) => exists it, execs [SReturn full_ast] m m1 (Ok it) /\ behaves it m1 (GOuter (c_left x) []) ls
        | (_, Some e) => execs [SReturn full_ast] m m1 (Err e) end).
      { intros _. destruct (full_runs m ls0 G) as (m1 & F). exists m1. destruct (begun ls0) as [ls [e|]]; [now apply execs_return|]. destruct F as (it & F1 & F2). exists it. split; [now apply execs_return|exact F2]. }
      destruct (how' h) eqn:HO.
      1: destruct (pipe_runs m ls0 G) as (m1 & F). 2-4: destruct FULL as (m1 & F); [discriminate|].
      all: exists m1; destruct (begun ls0) as [ls [e|]]; auto.
    - rewrite <- PR. assert (NE : pre cs <> []) by (rewrite PR; discriminate).
      destruct (pre_runs m full_ast (AList []) NE G) as [P1 P2].
      assert (BODY : match pre cs, how' h with [], Inner => pipe_stmts | [], _ => [SReturn full_ast] | l, _ => [SReturn (AIf (all_ast None (nm "data_") l) full_ast (AList []))] end =
        [SReturn (AIf (all_ast None (nm "data_") (pre cs)) full_ast (AList []))]) by (rewrite PR; reflexivity).
      rewrite PR in BODY at 1. destruct (ev_all op (on_nothing inputs) (pre cs)) as [[|]|z].
      + destruct (full_runs m ls0 G) as (m1 & F). exists m1. destruct (begun ls0) as [ls [z|]].
        * rewrite PR. apply execs_return. rewrite <- PR. now apply P1.
        * destruct F as (it & F1 & F2). split; [reflexivity|]. exists it. split; [|exact F2]. rewrite PR. apply execs_return. rewrite <- PR. now apply P1.
      + exists m. rewrite PR. apply execs_return. rewrite <- PR. apply P1. exists 0. intros n _. reflexivity.
      + exists m. rewrite PR. apply execs_return. rewrite <- PR. exact P2.
  Qed.
End Stages.
