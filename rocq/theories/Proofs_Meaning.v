(** The meaning of generated code read as source text is that of Model_Eval.v. *)
From Coq Require Import String Ascii List NArith ZArith Bool Arith Lia.
From Verif Require Import Model_Code Model_Eval Model_Converter Model_Source Spec_Frag Spec_Eval Spec_Converter
  Spec_Syntax Spec_Tree Spec_Source Spec_Module Proofs_Code Proofs_Eval Proofs_Den Proofs_Scope.
Import ListNotations.

Section PxInd.
  Variable P : px -> Prop.
  Notation optPx := (optPx P).
  Hypothesis Hname : forall x, P (PName x).
  Hypothesis Hlit : forall l, P (PLit l).
  Hypothesis Hglob : forall g, P (PGlob g).
  Hypothesis Hop : forall o l, Forall P l -> P (POp o l).
  Hypothesis Hbool : forall i l, Forall P l -> P (PBool i l).
  Hypothesis Heqs : forall l, Forall P l -> P (PEqs l).
  Hypothesis Hif : forall c t f, P c -> P t -> P f -> P (PIf c t f).
  Hypothesis Hatt : forall a b, P a -> P b -> P (PAttach a b).
  Hypothesis Hadd : forall n e, P e -> P (PAdd n e).
  Hypothesis Hget : forall n, P (PGet n).
  Hypothesis Hcomp : forall k l x it co, Forall P l -> P it -> optPx co -> P (PComp k l x it co).
  Hypothesis Hdef : forall f l b, Forall P l -> P b -> P (PDefault f l b).
  Hypothesis Hitems : forall f k l ps ls, Forall P l ->
    Forall (fun c => optPx (fst c) /\ P (snd c)) ls -> P (PItems f k l ps ls).
  Hypothesis Htap : forall f l ps ls, Forall P l -> Forall (fun s => Forall P (snd s)) ls -> P (PTap f l ps ls).
  Fixpoint px_ind2 (e : px) : P e :=
    let lst := fix lst (l : list px) : Forall P l :=
      match l with [] => Forall_nil _ | e :: r => Forall_cons _ (px_ind2 e) (lst r) end in
    let opt := fun (o : option px) =>
      match o as o return optPx o with Some c => px_ind2 c | None => I end in
    match e with
    | PName x => Hname x
    | PLit l => Hlit l
    | PGlob g => Hglob g
    | POp o l => Hop o l (lst l)
    | PBool i l => Hbool i l (lst l)
    | PEqs l => Heqs l (lst l)
    | PIf c t f => Hif c t f (px_ind2 c) (px_ind2 t) (px_ind2 f)
    | PAttach a b => Hatt a b (px_ind2 a) (px_ind2 b)
    | PAdd n e => Hadd n e (px_ind2 e)
    | PGet n => Hget n
    | PComp k l x it co => Hcomp k l x it co (lst l) (px_ind2 it) (opt co)
    | PDefault f l b => Hdef f l b (lst l) (px_ind2 b)
    | PItems f k l ps ls =>
        Hitems f k l ps ls (lst l)
          ((fix go (ls : list (option px * px)) : Forall (fun c => optPx (fst c) /\ P (snd c)) ls :=
              match ls with
              | [] => Forall_nil _
              | c :: r => Forall_cons _ (conj (opt (fst c)) (px_ind2 (snd c))) (go r)
              end) ls)
    | PTap f l ps ls =>
        Htap f l ps ls (lst l)
          ((fix go (ls : list (mkind * list px)) : Forall (fun s => Forall P (snd s)) ls :=
              match ls with
              | [] => Forall_nil _
              | s :: r => Forall_cons _ (lst (snd s)) (go r)
              end) ls)
    end.
End PxInd.

Ltac name_goals :=
  match goal with
  | |- In _ reserved => cbn; tauto
  | |- _ <> _ => discriminate
  | |- Forall2 _ _ _ => assumption
  | |- Forall _ _ => try assumption
  | |- all _ = _ => assumption
  | |- _ => solve [reflexivity | assumption | auto 2] || idtac
  end.

(** *** the functions the texts should define *)
Section Func.
  Variable gname : nat -> text.
  Variable pnum : list nat -> nat.
  Notation tree := (tree gname pnum).
  Definition glob2 : stmt := SGlobal [T "add_label_"; T "get_by_label_"].
  Definition dat : ast := AName (T "data_").
  Definition item_stmt (l : option px * px) : stmt :=
    match fst l with
    | Some c => SIf (tree c) [SYield (tree (snd l))]
    | None => SYield (tree (snd l))
    end.
  Definition mut_stmt (s : mkind * list px) : stmt :=
    let arg i := tree (nth i (snd s) (PLit LNone)) in
    match fst s with
    | MSetItem => SSetItem dat (arg 0) (arg 1)
    | MSetAttr => SExpr (call "setattr" [dat; arg 0; arg 1])
    | MDelItem => SExpr (ACall (AAttr dat (T "pop")) [arg 0] [])
    | MDelAttr => SExpr (call "delattr" [dat; arg 0])
    | MCustom => SExpr (arg 0)
    end.
  Definition hfunc (h : helper) : func :=
    match h with
    | HDefault over b =>
        {| f_params := default_params over; f_kwonly := [];
           f_body := [glob2; STry [SReturn (tree b)] [SReturn (AName (T "default_"))]] |}
    | HItems ps ls => {| f_params := T "data_" :: ps; f_kwonly := []; f_body := map item_stmt ls |}
    | HTap ps ss => {| f_params := T "data_" :: ps; f_kwonly := []; f_body := map mut_stmt ss ++ [SReturn dat] |}
    end.
End Func.

Section Meaning.
  Context {V W X : Type}.
  Variable pr : prims V W X.
  Variable glob : text -> option V.
  Variable key : text -> lname.
  Variable tab : table.
  Variable gname : nat -> text.
  Variable pnum : list nat -> nat.
  Notation comp := (comp pr glob key tab).
  Notation tree := (tree gname pnum).
  Notation label := (label_text pnum).
  Notation M := (@M V W X).
  Notation env := (list (text * V)).
  Notation hfunc := (hfunc gname pnum).

  Variable loc : text -> bool.
  Variable fnm : text -> bool.       (* names of helper functions *)
  Hypothesis Hloc : forall x, loc x = true ->
    ~ In x reserved /\ (forall g, gname g <> x) /\ find_def tab x = None.
  Hypothesis Hglob : forall g, glob (gname g) = Some (globv pr g) /\ find_def tab (gname g) = None /\
    gname g <> T "add_label_" /\ gname g <> T "get_by_label_".
  Hypothesis Hres : forall x, In x reserved -> find_def tab x = None.
  Hypothesis Hb : builtins_ok pr glob.
  Hypothesis Hnone : forall w, truth pr (litv pr LNone) w = (w, Val false).
  Hypothesis Htests : tests_ok pr.

  Definition lab_known (n : lname) : bool := if lname_eq_dec (key (label n)) n then true else false.
  Definition fixed (e : px) : bool := match e with PLit _ | PGlob _ => true | _ => false end.

  Definition stmt_ok (s : mkind * list px) : bool :=
    match fst s, snd s with
    | MSetItem, [_; _] | MSetAttr, [_; _] | MDelAttr, [_] | MCustom, [_] => true
    | MDelItem, [i] => fixed i
    | _, _ => false
    end.

  (** parameters of a helper function *)
  Definition plocal (f : text) (l : list text) : bool := forallb loc l && (forallb ident l && distinct l && fnm f).

  Fixpoint src (inner : bool) (bd : list text) (e : px) : bool :=
    match e with
    | PName x => mem x bd
    | PLit _ | PGlob _ => true
    | PGet n => lab_known n
    | POp o l =>
        wf_op o (length l) &&
        match o with
        | OSortedList | OSortedTuple | OSortedDict =>
            match l with a :: r => src true bd a && forallb fixed r | [] => false end
        | _ => forallb (src false bd) l
        end
    | PBool _ l | PEqs l => Nat.leb 2 (length l) && forallb (src false bd) l
    | PIf c t f => src false bd c && src false bd t && src false bd f
    | PAttach a b => src false bd a && src false bd b
    | PAdd n e => lab_known n && src false bd e
    | PComp k elts x it cond =>
        (inner || plain_kind k) && wf_comp k (length elts) && loc x && src false bd it &&
        forallb (src false (x :: bd)) elts && match cond with Some c => src false (x :: bd) c | None => true end
    | PDefault f args body =>
        (Nat.eqb (length args) 2 || Nat.eqb (length args) 3) && forallb (src false bd) args &&
        src false (default_params (Nat.eqb (length args) 3)) body &&
        plocal f (default_params (Nat.eqb (length args) 3))
    | PItems f k args ps ls =>
        plain_kind k && Nat.eqb (length args) (S (length ps)) && forallb (src false bd) args &&
        negb (match ls with [] => true | _ => false end) && plocal f (T "data_" :: ps) &&
        forallb (fun l => match fst l with Some c => src false (T "data_" :: ps) c | None => true end &&
                          src false (T "data_" :: ps) (snd l)) ls
    | PTap f args ps ss =>
        Nat.eqb (length args) (S (length ps)) && forallb (src false bd) args && plocal f (T "data_" :: ps) &&
        forallb (fun s => stmt_ok s && forallb (src false (T "data_" :: ps)) (snd s)) ss
    end.

  Definition known (l : list (text * helper)) : Prop :=
    forall f h, In (f, h) l -> find_def tab f = Some (hfunc h).
  Lemma known_app l l' : known (l ++ l') -> known l /\ known l'.
  Proof. intros H. split; intros f h I; apply H, in_or_app; auto. Qed.
  Lemma known_flat {A} (g : A -> list (text * helper)) l x : known (flat_map g l) -> In x l -> known (g x).
  Proof. intros H I f h J. apply H, in_flat_map. eauto. Qed.

  Definition bound (bd : list text) (E : env) : Prop := forall x, In x bd -> exists v, lookup E x = Some v.
  Definition scoped (bd sc : list text) : Prop :=
    (forall x, In x bd -> In x sc) /\ (forall x, In x sc -> loc x = true).

  Lemma mem_in x l : mem x l = true <-> In x l.
  Proof.
    unfold mem. rewrite existsb_exists. split.
    - intros (y & I & E). unfold teqb in E. destruct (text_eq_dec x y) as [->|]; [exact I|discriminate].
    - intros I. exists x. split; [exact I|]. unfold teqb. now destruct (text_eq_dec x x).
  Qed.
  Lemma mem_not x l : mem x l = false <-> ~ In x l.
  Proof. rewrite <- mem_in. destruct (mem x l); split; congruence. Qed.
  Lemma teqb_eq a b : teqb a b = true <-> a = b.
  Proof. unfold teqb. destruct (text_eq_dec a b); split; congruence. Qed.
  Lemma teqb_ne a b : teqb a b = false <-> a <> b.
  Proof. unfold teqb. destruct (text_eq_dec a b); split; congruence. Qed.

  (** *** monad *)
  Lemma mapM_F2 {A B} (f : A -> M V) (g : B -> M V) l l' :
    Forall2 (fun a b => meq (f a) (g b)) l l' -> meq (mapM f l) (mapM g l').
  Proof.
    induction 1; cbn [mapM]; [apply meq_refl|]. apply bind_meq; auto. intros v. apply bind_meq; auto.
    intros vs. apply meq_refl.
  Qed.
  Lemma mapM_len {A} (f : A -> M V) l : forall s s' vs, mapM f l s = (s', Val vs) -> length vs = length l.
  Proof.
    induction l as [|a l IH]; cbn [mapM]; intros s s' vs H.
    - inversion H. reflexivity.
    - unfold bind in H. destruct (f a s) as [s1 [v|x]]; [|discriminate].
      destruct (mapM f l s1) as [s2 [us|x]] eqn:E; [|discriminate]. inversion H; subst. cbn. f_equal. eauto.
  Qed.
  Lemma bind_len {A B} (f : A -> M V) l (k k' : list V -> M B) :
    (forall vs, length vs = length l -> meq (k vs) (k' vs)) -> meq (bind (mapM f l) k) (bind (mapM f l) k').
  Proof.
    intros H s. unfold bind. destruct (mapM f l s) as [s' [vs|x]] eqn:E; [|reflexivity].
    apply H. eapply mapM_len; eauto.
  Qed.
  Lemma prim_eq {B} (f g : W -> W * out X B) : (forall w, f w = g w) -> meq (V:=V) (prim f) (prim g).
  Proof. intros H s. unfold prim. now rewrite H. Qed.
  Lemma prim_then (f : W -> W * out X V) g : meq (V:=V) (prim (and_then f g)) (bind (prim f) (fun v => prim (g v))).
  Proof.
    intros s. unfold prim, bind, and_then. destruct (f (fst s)) as [w [v|x]]; cbn; [|reflexivity].
    destruct (g v w); reflexivity.
  Qed.

  (** *** one equation per form *)
  Definition o1 (n : nat) (sc : list text) (o : opn) (l : list ast) : option (env -> M V) :=
    match all (map (comp n sc) l) with Some ms => Some (op1 pr o ms) | None => None end.
  Definition gcall n sc f args (kws : list (text * ast)) :=
    o1 n sc (OCall (length args) (map fst kws)) (f :: args ++ map snd kws).

  (** an argument that is evaluated before the call *)
  Definition eager (sc : list text) (a : ast) : Prop :=
    match a with
    | AComp GGen _ _ _ _ => False
    | ACall (AName g) _ [] => mem g sc = true \/ (forall fd, find_def tab g = Some fd -> is_generator fd = false)
    | _ => True
    end.
  Definition direct (sc : list text) (f : ast) : Prop :=
    match f with
    | AName x => mem x sc = true \/
        (find_def tab x = None /\ x <> T "add_label_" /\ x <> T "get_by_label_")
    | _ => True
    end.
  Lemma comp_call n sc f args kws : direct sc f -> Forall (eager sc) args ->
    comp (S n) sc (ACall f args kws) = gcall n sc f args kws.
  Proof.
    intros D Ea. destruct f; try reflexivity. cbn [direct] in D.
    unfold gcall, o1. cbn [Spec_Source.comp].
    destruct (mem x sc) eqn:Em; [reflexivity|]. destruct D as [D|(D1 & D2 & D3)]; [discriminate|].
    rewrite D1. apply teqb_ne in D2, D3. rewrite D2, D3.
    destruct args as [|a args]; [reflexivity|]. destruct args as [|a2 args].
    2:{ destruct a; try reflexivity; [destruct a; try reflexivity; destruct kws0; reflexivity|destruct k; reflexivity]. }
    inversion Ea as [|? ? Ha _]; subst.
    destruct a; try (destruct kws; reflexivity).
    - destruct a; try (destruct kws; reflexivity). cbn [eager] in Ha.
      destruct kws0; [|destruct kws; reflexivity]. destruct kws; [|reflexivity].
      destruct (mem x0 sc) eqn:E0; [reflexivity|]. destruct Ha as [Ha|Ha]; [discriminate|].
      destruct (find_def tab x0) as [fd|] eqn:Ef; [|reflexivity]. rewrite (Ha fd eq_refl). reflexivity.
    - destruct k; try (destruct kws; reflexivity). destruct Ha.
  Qed.

  Lemma res_not_loc x sc bd : scoped bd sc -> In x reserved -> mem x sc = false.
  Proof.
    intros [_ S2] I. apply mem_not. intros J. apply S2 in J. apply Hloc in J. tauto.
  Qed.
  Lemma glob_not_loc g sc bd : scoped bd sc -> mem (gname g) sc = false.
  Proof.
    intros [_ S2]. apply mem_not. intros J. apply S2 in J. apply Hloc in J. destruct J as (_ & J & _). now apply (J g).
  Qed.

  Lemma map_nth_a l i d : i < length l -> nth_a (map tree l) i = tree (nth i l d).
  Proof. intros H. unfold nth_a. rewrite (nth_indep _ _ (tree d)) by now rewrite map_length. apply map_nth. Qed.

  Lemma tree_name e g : tree e = AName g -> e = PName g \/ exists k, e = PGlob k /\ gname k = g.
  Proof.
    intros H. destruct e; cbn [Spec_Tree.tree] in H; try discriminate H.
    - inversion H. now left.
    - destruct l as [|[]|z|]; cbn in H; try discriminate H. destruct (Z.ltb z 0); discriminate H.
    - inversion H. eauto.
    - destruct o; cbn [op_tree call] in H; try discriminate H. destruct (compares o); discriminate H.
    - destruct (map tree l); discriminate H.
    - destruct k; discriminate H.
  Qed.
  Lemma no_yields ss : existsb yields (map (mut_stmt gname pnum) ss ++ [SReturn dat]) = false.
  Proof.
    rewrite existsb_app. cbn [existsb yields]. rewrite !orb_false_r.
    induction ss as [|[k l] ss IH]; [reflexivity|]. cbn [map existsb]. rewrite IH, orb_false_r. destruct k; reflexivity.
  Qed.
  Lemma tree_eager sc bd e : scoped bd sc -> src false bd e = true -> known (defs e) -> eager sc (tree e).
  Proof.
    intros S Hs K.
    assert (HR : forall x, In x reserved -> mem x sc = true \/ (forall fd, find_def tab x = Some fd -> is_generator fd = false)).
    { intros x I. right. rewrite (Hres x I). discriminate. }
    destruct e; cbn [Spec_Tree.tree]; try exact I.
    - destruct l as [|[]|z|]; cbn; try exact I. destruct (Z.ltb z 0); exact I.
    - cbn [src] in Hs. apply andb_true_iff in Hs as [Hw Hs].
      destruct o; cbn [op_tree call eager]; try exact I; try (apply HR; cbn; tauto).
      + cbn [wf_op] in Hw. destruct l as [|f l]; [discriminate|]. cbn [map]. unfold nth_a. cbn [nth].
        destruct (tree f) eqn:Ef; try exact I. destruct (combine _ _); [|exact I].
        cbn [forallb] in Hs. apply andb_true_iff in Hs as [Hs _].
        destruct (tree_name _ _ Ef) as [->|(k & -> & <-)].
        * left. cbn [src] in Hs. apply mem_in. apply mem_in in Hs. now apply S.
        * right. destruct (Hglob k) as (_ & -> & _). discriminate.
      + destruct (compares o); exact I.
    - destruct (map tree l); exact I.
    - apply HR; cbn; tauto.
    - apply HR; cbn; tauto.
    - cbn [src] in Hs. destruct k; cbn [comp_tree call eager]; try exact I; try discriminate. apply HR; cbn; tauto.
    - right. intros fd Hfd. cbn [defs] in K.
      rewrite (K f (HDefault (Nat.eqb (length args) 3) e)) in Hfd.
      2:{ apply in_or_app; right; apply in_or_app; right; now left. }
      inversion Hfd. reflexivity.
    - cbn [eager]. cbn [src] in Hs. apply HR. destruct k; cbn; try tauto; cbn in Hs; discriminate.
    - right. intros fd Hfd. cbn [defs] in K.
      rewrite (K f (HTap params stmts)) in Hfd.
      2:{ apply in_or_app; right; apply in_or_app; right; now left. }
      inversion Hfd. unfold is_generator. cbn [f_body Proofs_Meaning.hfunc]. apply no_yields.
  Qed.
  Lemma all_eager sc bd l : scoped bd sc -> forallb (src false bd) l = true -> known (flat_map defs l) ->
    Forall (eager sc) (map tree l).
  Proof.
    intros S Hs K. rewrite forallb_forall in Hs. apply Forall_forall. intros a I. apply in_map_iff in I as (e & <- & I).
    apply tree_eager with bd; auto. now apply (known_flat _ _ _ K).
  Qed.

  Definition means (n : nat) (sc bd : list text) (e : px) : Prop :=
    exists m, comp n sc (tree e) = Some m /\ forall E, bound bd E -> meq (m E) (eval pr E e).
  Definition Main (e : px) : Prop := forall sc bd, scoped bd sc -> src false bd e = true -> known (defs e) ->
    exists n0, forall n, n0 <= n -> means n sc bd e.
  Definition like (bd : list text) (m : env -> M V) (e : px) : Prop :=
    forall E, bound bd E -> meq (m E) (eval pr E e).
  Definition like_opt (bd : list text) (m : option (env -> M V)) (e : option px) : Prop :=
    match m, e with Some m, Some e => like bd m e | None, None => True | _, _ => False end.
  Definition opt_tree (co : option px) : option ast := match co with Some c => Some (tree c) | None => None end.
  Definition comp_opt n sc (co : option ast) : option (option (env -> M V)) :=
    match co with None => Some None | Some e => option_map Some (comp n sc e) end.
  Definition Parts (e : px) : Prop :=
    match e with
    | PComp k elts x it co => forall sc bd, scoped bd sc -> src true bd e = true -> known (defs e) ->
        exists n0, forall n, n0 <= n -> exists mi ms mc,
          comp n sc (tree it) = Some mi /\ all (map (comp n (x :: sc)) (map tree elts)) = Some ms /\
          comp_opt n (x :: sc) (opt_tree co) = Some mc /\
          like bd mi it /\ Forall2 (like (x :: bd)) ms elts /\ like_opt (x :: bd) mc co
    | _ => True
    end.

  Lemma main_all l : Forall Main l -> forall sc bd, scoped bd sc -> forallb (src false bd) l = true ->
    known (flat_map defs l) ->
    exists n0, forall n, n0 <= n -> exists ms, all (map (comp n sc) (map tree l)) = Some ms /\ Forall2 (like bd) ms l.
  Proof.
    induction 1 as [|e l He Hl IH]; intros sc bd S Hs K.
    - exists 0. intros n _. exists []. split; [reflexivity|constructor].
    - cbn [forallb flat_map] in *. apply andb_true_iff in Hs as [H1 H2]. apply known_app in K as [K1 K2].
      destruct (He sc bd S H1 K1) as [n1 N1]. destruct (IH sc bd S H2 K2) as [n2 N2].
      exists (Nat.max n1 n2). intros n Hn.
      destruct (N1 n ltac:(lia)) as (m & Em & Lm). destruct (N2 n ltac:(lia)) as (ms & Ems & Lms).
      exists (m :: ms). cbn [map all]. rewrite Em, Ems. split; [reflexivity|]. constructor; assumption.
  Qed.
  Lemma like_mapM bd ms l E : Forall2 (like bd) ms l -> bound bd E ->
    meq (mapM (fun m => m E) ms) (mapM (eval pr E) l).
  Proof. intros F B. apply mapM_F2. induction F; constructor; auto. Qed.
  Lemma op1_like bd o ms l E : Forall2 (like bd) ms l -> bound bd E ->
    meq (op1 pr o ms E) (bind (mapM (eval pr E) l) (fun vs => prim (op pr o vs))).
  Proof. intros F B. apply bind_meq; [now apply like_mapM with bd|]. intros. apply meq_refl. Qed.

  (** a name of the globals *)
  Lemma comp_res n sc bd x fv : scoped bd sc -> In x reserved -> x <> T "add_label_" -> x <> T "get_by_label_" ->
    glob x = Some fv -> exists m, comp (S n) sc (AName x) = Some m /\ forall E, m E = ret fv.
  Proof.
    intros S I N1 N2 G. cbn [Spec_Source.comp]. rewrite (res_not_loc _ _ _ S I), (Hres x I).
    apply teqb_ne in N1, N2. rewrite N1, N2. cbn [orb]. eexists. split; [reflexivity|]. intros E. now rewrite G.
  Qed.

  (** calls of builtins *)
  Lemma named_call n sc bd x fv pos kws ms l f : scoped bd sc -> In (T x) reserved ->
    T x <> T "add_label_" -> T x <> T "get_by_label_" -> Forall (eager sc) pos ->
    glob (T x) = Some fv ->
    pos ++ map snd kws = map tree l ->
    all (map (comp (S n) sc) (map tree l)) = Some ms -> Forall2 (like bd) ms l ->
    (forall vs w, length vs = length l -> op pr (OCall (length pos) (map fst kws)) (fv :: vs) w = f vs w) ->
    exists m, comp (S (S n)) sc (ACall (AName (T x)) pos kws) = Some m /\
      forall E, bound bd E -> meq (m E) (bind (mapM (eval pr E) l) (fun vs => prim (f vs))).
  Proof.
    intros S I N1 N2 Ea G Epos Ems F Ef. rewrite comp_call; auto.
    2:{ right. split; [now apply Hres|]. split; assumption. }
    destruct (comp_res n sc bd (T x) fv S I N1 N2 G) as (m0 & E0 & L0).
    unfold gcall, o1. rewrite Epos. cbn [map all]. rewrite E0, Ems. eexists. split; [reflexivity|].
    intros E B. unfold op1. cbn [mapM].
    eapply meq_trans; [apply bind_assoc|]. rewrite L0.
    eapply meq_trans; [apply bind_ret_l|]. eapply meq_trans; [apply bind_assoc|].
    apply meq_trans with (bind (mapM (eval pr E) l) (fun vs => prim (op pr (OCall (length pos) (map fst kws)) (fv :: vs)))).
    { apply bind_meq; [apply like_mapM with bd; eauto|]. intros vs s. reflexivity. }
    apply bind_len. intros vs Hl. apply prim_eq. intros w. now apply Ef.
  Qed.

  Lemma call_parts np (kws : list text) (l : list px) : length l = S (np + length kws) ->
    let t := map tree l in
    nth_a t 0 :: firstn np (tl t) ++ map snd (combine kws (skipn np (tl t))) = t /\
    length (firstn np (tl t)) = np /\ map fst (combine kws (skipn np (tl t))) = kws.
  Proof.
    intros H t. subst t. destruct l as [|f l]; [discriminate|]. cbn [map tl nth_a]. unfold nth_a. cbn [nth].
    cbn [length] in H. inversion H as [H1].
    assert (HL : length (skipn np (map tree l)) = length kws) by (rewrite skipn_length, map_length; lia).
    assert (HS : map snd (combine kws (skipn np (map tree l))) = skipn np (map tree l)).
    { revert HL. generalize (skipn np (map tree l)). clear. induction kws as [|k kws IH]; intros [|a r] H; cbn in *; try discriminate; auto.
      f_equal. apply IH. lia. }
    assert (HK : map fst (combine kws (skipn np (map tree l))) = kws).
    { revert HL. generalize (skipn np (map tree l)). clear. induction kws as [|k kws IH]; intros [|a r] H; cbn in *; try discriminate; auto.
      f_equal. apply IH. lia. }
    rewrite HS, HK, firstn_skipn. split; [reflexivity|]. split; [|reflexivity].
    rewrite firstn_length, map_length. lia.
  Qed.

  Lemma all_inv {B} (x : option B) l ms : all (x :: l) = Some ms ->
    exists m r, x = Some m /\ all l = Some r /\ ms = m :: r.
  Proof. cbn. destruct x as [m|]; [|discriminate]. destruct (all l) as [r|]; [|discriminate]. intros H. inversion H. eauto. Qed.
  Lemma F2_len {A B} (R : A -> B -> Prop) l l' : Forall2 R l l' -> length l = length l'.
  Proof. induction 1; cbn; auto. Qed.

  Lemma flat_two l : Nat.even (length l) = true -> flat_map (fun p : ast * ast => [fst p; snd p]) (two_by_two l) = l.
  Proof.
    assert (H : forall n l, length l <= n -> Nat.even (length l) = true ->
              flat_map (fun p : ast * ast => [fst p; snd p]) (two_by_two l) = l).
    { clear. induction n as [|n IH]; intros [|a [|b r]] L E; cbn in *; try reflexivity; try lia; try discriminate.
      do 2 f_equal. apply IH; [lia|exact E]. }
    now apply (H (length l)).
  Qed.

  Lemma o1_done n sc bd o ms l : all (map (comp n sc) (map tree l)) = Some ms -> Forall2 (like bd) ms l ->
    exists m, o1 n sc o (map tree l) = Some m /\
      forall E, bound bd E -> meq (m E) (bind (mapM (eval pr E) l) (fun vs => prim (op pr o vs))).
  Proof.
    intros Ems F. exists (op1 pr o ms). unfold o1. rewrite Ems. split; [reflexivity|]. intros E B. now apply op1_like with bd.
  Qed.

  Lemma comp_compare n sc a l : comp (S n) sc (ACompare a l) =
    match comp n sc a, all (map (comp n sc) (map snd l)) with
    | Some m, Some ms => Some (fun E => bind (m E) (fun v => chain pr v (combine (map fst l) ms) E))
    | _, _ => None
    end.
  Proof. reflexivity. Qed.
  Lemma comp_bool n sc isor l : comp (S n) sc (ABool isor l) =
    match all (map (comp n sc) l) with Some (m :: ms) => Some (junction pr isor m ms) | _ => None end.
  Proof. reflexivity. Qed.
  Lemma comp_if n sc e t f : comp (S n) sc (AIf e t f) =
    match comp n sc e, comp n sc t, comp n sc f with
    | Some me, Some mt, Some mf =>
        Some (fun E => bind (me E) (fun v => bind (prim (truth pr v)) (fun b => if b then mt E else mf E)))
    | _, _, _ => None
    end.
  Proof. reflexivity. Qed.
  Definition gather n sc kk elts x it cond : option (env -> M V) :=
    match comp n sc it, all (map (comp n (x :: sc)) elts), comp_opt n (x :: sc) cond with
    | Some mi, Some ms, Some mc =>
        Some (fun E => bind (mi E) (fun v => bind (prim (iter pr v)) (fun i => collect pr kk i (each pr kk ms x mc E))))
    | _, _, _ => None
    end.
  Lemma comp_comp n sc k elts x it cond : k <> GGen -> comp (S n) sc (AComp k elts x it cond) =
    gather n sc (match k with GSet => KSet | GDict => KDict | _ => KList end) elts x it cond.
  Proof. intros H. destruct k; try reflexivity. congruence. Qed.
  Lemma comp_tuple n sc bd elts x it cond : scoped bd sc ->
    comp (S n) sc (call "tuple" [AComp GGen elts x it cond]) = gather n sc KTuple elts x it cond.
  Proof.
    intros S. cbn [Spec_Source.comp call]. rewrite (res_not_loc (T "tuple") sc bd S) by (cbn; tauto).
    rewrite Hres by (cbn; tauto). reflexivity.
  Qed.
  Lemma comp_sorted n sc bd elts x it cond e1 e2 fv : scoped bd sc -> glob (T "sorted") = Some fv ->
    comp (S n) sc (ACall (AName (T "sorted")) [AComp GGen elts x it cond] [(T "key", e1); (T "reverse", e2)]) =
    match comp n sc e1, comp n sc e2, comp n sc it, all (map (comp n (x :: sc)) elts), comp_opt n (x :: sc) cond with
    | Some m1, Some m2, Some mi, Some ms, Some mc =>
        Some (fun E => bind (mi E) (fun v => bind (prim (iter pr v)) (fun i =>
                bind (m1 E) (fun v1 => bind (m2 E) (fun v2 =>
                bind (collect pr KSrc i (each pr KSrc ms x mc E)) (fun l =>
                prim (op pr (OCall 1 [T "key"; T "reverse"]) [fv; l; v1; v2])))))))
    | _, _, _, _, _ => None
    end.
  Proof.
    intros S G. cbn [Spec_Source.comp]. rewrite (res_not_loc (T "sorted") sc bd S) by (cbn; tauto).
    rewrite Hres by (cbn; tauto). rewrite G. reflexivity.
  Qed.
  Lemma comp_add n sc bd s e : scoped bd sc -> comp (S n) sc (call "add_label_" [AStr s; e]) =
    match comp n sc e with
    | Some m => Some (fun E => bind (m E) (fun v => bind (set_label (key s) v) (fun _ => ret (litv pr LNone))))
    | None => None
    end.
  Proof.
    intros S. cbn [Spec_Source.comp call]. rewrite (res_not_loc (T "add_label_") sc bd S) by (cbn; tauto).
    rewrite Hres by (cbn; tauto). reflexivity.
  Qed.
  Lemma comp_get n sc bd s : scoped bd sc -> comp (S n) sc (call "get_by_label_" [AStr s]) =
    Some (fun _ => get_label pr (key s)).
  Proof.
    intros S. cbn [Spec_Source.comp call]. rewrite (res_not_loc (T "get_by_label_") sc bd S) by (cbn; tauto).
    rewrite Hres by (cbn; tauto). reflexivity.
  Qed.
  Lemma comp_helper n sc f fd args : mem f sc = false -> find_def tab f = Some fd -> is_generator fd = false ->
    length args = length (f_params fd) -> f_kwonly fd = [] ->
    comp (S n) sc (ACall (AName f) args []) =
    match all (map (comp n sc) args), exec pr (comp n (locals fd)) (f_body fd) with
    | Some ms, Some body => Some (fun E => bind (mapM (fun m => m E) ms) (fun vs => body (combine (f_params fd) vs)))
    | _, _ => None
    end.
  Proof.
    intros H1 H2 H3 H4 H5. cbn [Spec_Source.comp]. rewrite H1, H2, H3, H4, H5, Nat.eqb_refl. reflexivity.
  Qed.
  Lemma comp_items n sc bd k f fd args : scoped bd sc -> plain_kind k = true ->
    mem f sc = false -> find_def tab f = Some fd -> is_generator fd = true ->
    length args = length (f_params fd) -> f_kwonly fd = [] ->
    comp (S n) sc (ACall (AName (kind_text k)) [ACall (AName f) args []] []) =
    match all (map (comp n sc) args), produce pr (comp n (locals fd)) k (f_body fd) with
    | Some ms, Some body =>
        Some (fun E => bind (mapM (fun m => m E) ms) (fun vs => bind (prim1 (start pr k)) (fun acc =>
                bind (body (combine (f_params fd) vs) acc) (fun acc => prim1 (finish pr k acc)))))
    | _, _ => None
    end.
  Proof.
    intros S Hk H1 H2 H3 H4 H5.
    assert (HR : In (kind_text k) reserved) by (destruct k; cbn; try tauto; discriminate).
    cbn [Spec_Source.comp]. rewrite (res_not_loc _ _ _ S HR), (Hres _ HR), H1, H2, H3, H4, H5, Nat.eqb_refl.
    assert (HC : collector (kind_text k) = Some k) by (destruct k; try reflexivity; discriminate).
    assert (T1 : teqb (kind_text k) (T "add_label_") = false) by (destruct k; reflexivity).
    assert (T2 : teqb (kind_text k) (T "get_by_label_") = false) by (destruct k; reflexivity).
    rewrite T1, T2, HC. cbn [negb orb]. destruct (all _); reflexivity.
  Qed.

  Definition is_sort (o : opn) : bool := match o with OSortedList | OSortedTuple | OSortedDict => true | _ => false end.

  Lemma op_main o l : is_sort o = false -> Forall Main l -> Main (POp o l).
  Proof.
    intros Ho HM sc bd S Hs K. cbn [src] in Hs. apply andb_true_iff in Hs as [Hw Hs].
    assert (Hs' : forallb (src false bd) l = true) by (destruct o; try exact Hs; discriminate Ho). clear Hs.
    cbn [defs] in K. destruct (main_all l HM sc bd S Hs' K) as [n0 N].
    exists (Datatypes.S (Datatypes.S n0)). intros n Hn. destruct n as [|[|n]]; try lia.
    destruct (N (Datatypes.S n) ltac:(lia)) as (ms & Ems & F).
    pose proof (all_eager sc bd l S Hs' K) as Ea.
    unfold means. cbn [Spec_Tree.tree eval].
    destruct o; cbn [op_tree wf_op] in *; try discriminate Ho.
    - destruct l as [|a [|b [|]]]; try discriminate Hw.
      exact (o1_done _ _ _ OItem _ _ Ems F).
    - destruct l as [|a [|]]; try discriminate Hw. exact (o1_done _ _ _ (OAttr n1) _ _ Ems F).
    - destruct l as [|a [|b [|]]]; try discriminate Hw. destruct (bo_getattr _ _ Hb (litv pr LNone) (litv pr LNone)) as (fv & G & _).
      apply (named_call n sc bd "getattr" fv (map tree [a; b]) [] ms [a; b] (op pr OGetattr)); name_goals.
      intros vs w L. destruct vs as [|v1 [|v2 [|]]]; try discriminate L.
      destruct (bo_getattr _ _ Hb v1 v2) as (fv' & G' & Q). rewrite G in G'. inversion G'. apply Q.
    - apply Nat.eqb_eq in Hw. destruct (call_parts npos kws l Hw) as (P1 & P2 & P3).
      rewrite comp_call.
      + unfold gcall. rewrite P1, P2, P3. exact (o1_done _ _ _ _ _ _ Ems F).
      + destruct l as [|f l]; [discriminate Hw|]. cbn [map]. unfold nth_a. cbn [nth].
        destruct (tree f) eqn:Ef; try exact I. cbn [forallb] in Hs'. apply andb_true_iff in Hs' as [Hf _].
        destruct (tree_name _ _ Ef) as [->|(k & -> & <-)].
        * left. cbn [src] in Hf. apply mem_in. apply mem_in in Hf. now apply S.
        * right. destruct (Hglob k) as (_ & ? & ? & ?). auto.
      + destruct l as [|f l]; [discriminate Hw|]. cbn [map tl] in *. inversion Ea; subst. clear -H2.
        revert H2. generalize (map tree l). intros r Hr. revert npos. induction Hr; intros [|k]; cbn [firstn]; constructor; auto.
    - destruct l as [|a [|b [|]]]; try discriminate Hw. destruct (compares o).
      + unfold nth_a. cbn [map nth] in *. apply all_inv in Ems as (ma & r & Ea' & Er & ->).
        apply all_inv in Er as (mb & r' & Eb & Er' & ->). cbn in Er'. inversion Er'; subst r'.
        rewrite comp_compare. cbn [map snd fst all]. rewrite Ea', Eb. eexists. split; [reflexivity|].
        intros E B. inversion F as [|? ? ? ? La F2]; subst. inversion F2 as [|? ? ? ? Lb _]; subst.
        cbn [combine chain]. intros s. unfold bind. cbn [mapM]. unfold bind.
        rewrite (La E B s). destruct (eval pr E a s) as [s1 [v|x]]; [|reflexivity].
        rewrite (Lb E B s1). destruct (eval pr E b s1) as [s2 [w|x]]; [|reflexivity].
        cbn [ret]. destruct (prim _ s2) as [s3 [u|x]]; reflexivity.
      + exact (o1_done _ _ _ (OBin o) _ _ Ems F).
    - destruct l as [|a [|]]; try discriminate Hw. exact (o1_done _ _ _ ONot _ _ Ems F).
    - destruct l as [|a [|]]; try discriminate Hw. exact (o1_done _ _ _ ONeg _ _ Ems F).
    - destruct l as [|a [|b [|c [|]]]]; try discriminate Hw.
      destruct (bo_slice _ _ Hb (litv pr LNone) (litv pr LNone) (litv pr LNone)) as (fv & G & _).
      apply (named_call n sc bd "slice" fv (map tree [a; b; c]) [] ms [a; b; c] (op pr OSlice)); name_goals.
      intros vs w L. destruct vs as [|v1 [|v2 [|v3 [|]]]]; try discriminate L.
      destruct (bo_slice _ _ Hb v1 v2 v3) as (fv' & G' & Q). rewrite G in G'. inversion G'. apply Q.
    - exact (o1_done _ _ _ OTuple _ _ Ems F).
    - exact (o1_done _ _ _ OList _ _ Ems F).
    - exact (o1_done _ _ _ OSet _ _ Ems F).
    - assert (Q : comp (Datatypes.S (Datatypes.S n)) sc (ADict (two_by_two (map tree l))) =
                  o1 (Datatypes.S n) sc ODict (flat_map (fun p => [fst p; snd p]) (two_by_two (map tree l)))) by reflexivity.
      rewrite Q, flat_two by (now rewrite map_length). exact (o1_done _ _ _ ODict _ _ Ems F).
  Qed.

  (** *** leaves *)
  Lemma name_main x : Main (PName x).
  Proof.
    intros sc bd S Hs _. exists 1. intros [|n] Hn; [lia|]. cbn [src] in Hs. apply mem_in in Hs.
    eexists. split.
    - cbn [Spec_Tree.tree Spec_Source.comp]. assert (Hm : mem x sc = true) by (apply mem_in; now apply S).
      rewrite Hm. reflexivity.
    - intros E B. apply meq_refl.
  Qed.
  Lemma fixed_comp e sc bd : scoped bd sc -> fixed e = true -> exists v, (forall E, eval pr E e = ret v) /\
    forall n, 2 <= n -> exists m, comp n sc (tree e) = Some m /\ forall E, meq (m E) (ret v).
  Proof.
    intros S Hf. destruct e; try discriminate.
    - exists (litv pr l). split; [reflexivity|]. intros [|[|n]] Hn; try lia.
      destruct l as [|[]|z|t]; cbn [Spec_Tree.tree lit_tree];
        try (eexists; split; [reflexivity|intros E; apply meq_refl]).
      destruct (Z.ltb z 0) eqn:Ez.
      + eexists. split; [reflexivity|]. intros E st. unfold op1, bind, mapM, ret, prim. cbn.
        rewrite (bo_neg _ _ Hb). apply Z.ltb_lt in Ez. rewrite Z2N.id by lia. rewrite Z.opp_involutive.
        destruct st; reflexivity.
      + eexists. split; [reflexivity|]. intros E. apply Z.ltb_ge in Ez. rewrite Z2N.id by lia. apply meq_refl.
    - exists (globv pr g). split; [reflexivity|]. intros [|n] Hn; [lia|].
      destruct (Hglob g) as (G1 & G2 & G3 & G4). apply teqb_ne in G3, G4.
      eexists. cbn [Spec_Tree.tree Spec_Source.comp]. rewrite (glob_not_loc g sc bd S), G2, G3, G4, G1.
      split; [reflexivity|]. intros E. apply meq_refl.
  Qed.
  Lemma fixed_main e : fixed e = true -> Main e.
  Proof.
    intros Hf sc bd S _ _. destruct (fixed_comp e sc bd S Hf) as (v & Hv & Hn). exists 2. intros n Hn2.
    destruct (Hn n Hn2) as (m & Em & Lm). exists m. split; [exact Em|]. intros E _. rewrite Hv. apply Lm.
  Qed.
  Lemma lab_known_eq n : lab_known n = true -> key (label n) = n.
  Proof. unfold lab_known. destruct (lname_eq_dec _ _); [auto|discriminate]. Qed.
  Lemma get_main n : Main (PGet n).
  Proof.
    intros sc bd S Hs _. exists 1. intros [|k] Hk; [lia|]. eexists. split.
    - cbn [Spec_Tree.tree]. rewrite (comp_get _ _ bd) by exact S. reflexivity.
    - intros E _. cbn [src] in Hs. rewrite (lab_known_eq n Hs). apply meq_refl.
  Qed.
  Lemma add_main n e : Main e -> Main (PAdd n e).
  Proof.
    intros He sc bd S Hs K. cbn [src defs] in *. apply andb_true_iff in Hs as [H1 H2].
    destruct (He sc bd S H2 K) as [n0 N]. exists (Datatypes.S n0). intros [|k] Hk; [lia|].
    destruct (N k ltac:(lia)) as (m & Em & Lm). eexists. split.
    - cbn [Spec_Tree.tree]. rewrite (comp_add _ _ bd) by exact S. rewrite Em. reflexivity.
    - intros E B. cbn [eval]. rewrite (lab_known_eq n H1). apply bind_meq; [now apply Lm|]. intros. apply meq_refl.
  Qed.

  (** *** operators that do not evaluate everything *)
  Lemma junction_like isor bd E : bound bd E -> forall ms l m e, like bd m e -> Forall2 (like bd) ms l ->
    meq (junction pr isor m ms E) (boolM pr (eval pr E) isor (e :: l)).
  Proof.
    intros B. induction ms as [|m2 ms IH]; intros l m e Hm F; inversion F as [|? e2 ? l2 Hm2 F2]; subst.
    - cbn [junction boolM]. now apply Hm.
    - change (boolM pr (eval pr E) isor (e :: e2 :: l2)) with
        (bind (eval pr E e) (fun v => bind (prim (truth pr v)) (fun b =>
           if Bool.eqb b isor then ret v else boolM pr (eval pr E) isor (e2 :: l2)))).
      cbn [junction]. apply bind_meq; [now apply Hm|]. intros v. apply bind_meq; [apply meq_refl|].
      intros b. destruct (Bool.eqb b isor); [apply meq_refl|]. now apply IH.
  Qed.
  Lemma bool_main i l : Forall Main l -> Main (PBool i l).
  Proof.
    intros HM sc bd S Hs K. cbn [src defs] in *. apply andb_true_iff in Hs as [Hl Hs]. apply Nat.leb_le in Hl.
    destruct (main_all l HM sc bd S Hs K) as [n0 N]. exists (Datatypes.S n0). intros [|n] Hn; [lia|].
    destruct (N n ltac:(lia)) as (ms & Ems & F). inversion F as [|m e ms' l' Hm F2]; subst; [cbn in Hl; lia|].
    eexists. split.
    - cbn [Spec_Tree.tree]. rewrite comp_bool, Ems. reflexivity.
    - intros E B. now apply junction_like with bd.
  Qed.
  Lemma chain_like bd E : bound bd E -> forall ms l v, Forall2 (like bd) ms l ->
    meq (chain pr v (combine (map fst (map (fun b => (T "==", b)) (map tree l))) ms) E) (chainM pr (eval pr E) v l).
  Proof.
    intros B. induction ms as [|m ms IH]; intros l v F; inversion F as [|? e ? l2 Hm F2]; subst.
    - apply meq_refl.
    - cbn [map combine fst chain chainM]. apply bind_meq; [now apply Hm|]. intros w.
      apply bind_meq; [apply meq_refl|]. intros c. inversion F2 as [|m3 e3 ms3 l3 Hm3 F3]; subst.
      + apply meq_refl.
      + cbn [map combine fst]. apply bind_meq; [apply meq_refl|]. intros [|]; [|apply meq_refl]. exact (IH _ w F2).
  Qed.
  Lemma eqs_main l : Forall Main l -> Main (PEqs l).
  Proof.
    intros HM sc bd S Hs K. cbn [src defs] in *. apply andb_true_iff in Hs as [Hl Hs]. apply Nat.leb_le in Hl.
    destruct (main_all l HM sc bd S Hs K) as [n0 N]. exists (Datatypes.S n0). intros [|n] Hn; [lia|].
    destruct (N n ltac:(lia)) as (ms & Ems & F). destruct l as [|e l]; [cbn in Hl; lia|].
    cbn [map] in Ems. apply all_inv in Ems as (m & r & E1 & E2 & ->).
    inversion F as [|? ? ? ? Hm F2]; subst. eexists. split.
    - cbn [Spec_Tree.tree map]. rewrite comp_compare, E1.
      assert (Hsnd : map snd (map (fun b => (T "==", b)) (map tree l)) = map tree l).
      { clear. induction (map tree l) as [|a r IH]; [reflexivity|]. cbn [map snd]. now rewrite IH. }
      rewrite Hsnd, E2. reflexivity.
    - intros E B. cbn [eval eqsM]. apply bind_meq; [now apply Hm|]. intros v. now apply chain_like with bd.
  Qed.
  Lemma if_main c t f : Main c -> Main t -> Main f -> Main (PIf c t f).
  Proof.
    intros Hc Ht Hf sc bd S Hs K. cbn [src defs] in *. apply andb_true_iff in Hs as [Hs H3].
    apply andb_true_iff in Hs as [H1 H2]. apply known_app in K as [K1 K]. apply known_app in K as [K2 K3].
    destruct (Hc sc bd S H1 K1) as [n1 N1]. destruct (Ht sc bd S H2 K2) as [n2 N2]. destruct (Hf sc bd S H3 K3) as [n3 N3].
    exists (Datatypes.S (n1 + n2 + n3)). intros [|n] Hn; [lia|].
    destruct (N1 n ltac:(lia)) as (m1 & E1 & L1). destruct (N2 n ltac:(lia)) as (m2 & E2 & L2).
    destruct (N3 n ltac:(lia)) as (m3 & E3 & L3). eexists. split.
    - cbn [Spec_Tree.tree]. rewrite comp_if, E1, E2, E3. reflexivity.
    - intros E B. cbn [eval]. apply bind_meq; [now apply L1|]. intros v. apply bind_meq; [apply meq_refl|].
      intros [|]; auto.
  Qed.
  Lemma comp_none n sc : comp (S n) sc (AConst (T "None")) = Some (fun _ => ret (litv pr LNone)).
  Proof. reflexivity. Qed.
  Lemma attach_main a b : Main a -> Main b -> Main (PAttach a b).
  Proof.
    intros Ha Hb' sc bd S Hs K. cbn [src defs] in *. apply andb_true_iff in Hs as [H1 H2]. apply known_app in K as [K1 K2].
    destruct (Ha sc bd S H1 K1) as [n1 N1]. destruct (Hb' sc bd S H2 K2) as [n2 N2].
    exists (2 + n1 + n2). intros [|[|n]] Hn; try lia.
    destruct (N1 n ltac:(lia)) as (m1 & E1 & L1). destruct (N2 (Datatypes.S n) ltac:(lia)) as (m2 & E2 & L2).
    destruct n as [|n].
    { exfalso. clear -E1. discriminate E1. }
    eexists. split.
    - cbn [Spec_Tree.tree]. rewrite comp_bool. cbn [map all].
      rewrite comp_bool. cbn [map all]. rewrite comp_none, E1, E2. reflexivity.
    - intros E B s. cbn [junction eval]. unfold bind. rewrite (L1 E B s).
      destruct (eval pr E a s) as [s1 [v|x]]; [|reflexivity].
      unfold prim. destruct (Htests v (fst s1)) as [t Ht]. rewrite Ht. cbn [Bool.eqb].
      destruct t; cbn [Bool.eqb ret fst snd].
      + rewrite Hnone. cbn [Bool.eqb]. rewrite (L2 E B). destruct s1; reflexivity.
      + unfold ret. cbn [fst snd]. rewrite Ht. cbn [Bool.eqb]. rewrite (L2 E B). destruct s1; reflexivity.
  Qed.

  (** *** comprehensions *)
  Lemma scoped_more bd sc x : scoped bd sc -> loc x = true -> scoped (x :: bd) (x :: sc).
  Proof.
    intros [S1 S2] Hx. split.
    - intros y [<-|I]; [now left|right; auto].
    - intros y [<-|I]; auto.
  Qed.
  Lemma bound_more bd E x v : bound bd E -> bound (x :: bd) ((x, v) :: E).
  Proof.
    intros B y I. cbn [lookup]. destruct (text_eq_dec y x) as [->|Hne]; [eauto|]. destruct I as [->|I]; [congruence|auto].
  Qed.
  Lemma parts_comp k elts x it co : Forall Main elts -> Main it -> optPx Main co -> Parts (PComp k elts x it co).
  Proof.
    intros He Hi Hc sc bd S Hs K. cbn [src defs] in *.
    repeat (apply andb_true_iff in Hs as [Hs ?]). apply known_app in K as [K1 K]. apply known_app in K as [K2 K3].
    assert (S' : scoped (x :: bd) (x :: sc)) by now apply scoped_more.
    destruct (Hi sc bd S ltac:(assumption) K1) as [n1 N1].
    destruct (main_all elts He _ _ S' ltac:(assumption) K2) as [n2 N2].
    assert (N3 : exists n3, forall n, n3 <= n -> exists mc, comp_opt n (x :: sc) (opt_tree co) = Some mc /\ like_opt (x :: bd) mc co).
    { destruct co as [c|].
      - destruct (Hc _ _ S' ltac:(assumption) K3) as [n3 N3]. exists n3. intros n Hn.
        destruct (N3 n Hn) as (m & Em & Lm). exists (Some m). cbn [comp_opt opt_tree]. rewrite Em. split; [reflexivity|exact Lm].
      - exists 0. intros n _. exists None. split; [reflexivity|exact I]. }
    destruct N3 as [n3 N3]. exists (n1 + n2 + n3). intros n Hn.
    destruct (N1 n ltac:(lia)) as (mi & Emi & Lmi). destruct (N2 n ltac:(lia)) as (ms & Ems & Lms).
    destruct (N3 n ltac:(lia)) as (mc & Emc & Lmc). exists mi, ms, mc. repeat split; auto.
  Qed.
  Lemma each_like k ms elts x mc co bd E item acc : Forall2 (like (x :: bd)) ms elts -> like_opt (x :: bd) mc co -> bound bd E ->
    meq (each pr k ms x mc E item acc)
        (whenM pr (eval pr ((x, item) :: E)) co
          (bind (mapM (eval pr ((x, item) :: E)) elts) (fun vs => prim (push pr k acc vs))) (ret acc)).
  Proof.
    intros F Lc B. pose proof (bound_more bd E x item B) as B'. unfold each.
    assert (H : meq (bind (mapM (fun m : env -> M V => m ((x, item) :: E)) ms) (fun vs => prim (push pr k acc vs)))
                    (bind (mapM (eval pr ((x, item) :: E)) elts) (fun vs => prim (push pr k acc vs)))).
    { apply bind_meq; [now apply like_mapM with (x :: bd)|]. intros. apply meq_refl. }
    destruct mc as [c|], co as [c'|]; cbn [like_opt whenM] in *; try tauto.
    apply bind_meq; [now apply Lc|]. intros v. apply bind_meq; [apply meq_refl|]. intros [|]; [exact H|apply meq_refl].
  Qed.
  Lemma collect_meq k i b b' : (forall v a, meq (b v a) (b' v a)) -> meq (collect pr k i b) (collect pr k i b').
  Proof.
    intros H. apply bind_meq; [apply meq_refl|]. intros acc. apply bind_meq; [now apply iterate_meq|].
    intros. apply meq_refl.
  Qed.
  Lemma gather_like sc k elts x it co : Parts (PComp k elts x it co) -> forall bd, scoped bd sc ->
    src true bd (PComp k elts x it co) = true -> known (defs (PComp k elts x it co)) ->
    exists n0, forall n, n0 <= n -> exists m, gather n sc k (map tree elts) x (tree it) (opt_tree co) = Some m /\
      like bd m (PComp k elts x it co).
  Proof.
    intros P bd S Hs K. destruct (P sc bd S Hs K) as [n0 N]. exists n0. intros n' Hn.
    destruct (N n' Hn) as (mi & ms & mc & E1 & E2 & E3 & L1 & L2 & L3). unfold gather. rewrite E1, E2, E3.
    eexists. split; [reflexivity|]. intros E B. cbn [eval]. apply bind_meq; [now apply L1|]. intros v.
    apply bind_meq; [apply meq_refl|]. intros i. apply collect_meq. intros it' acc. now apply each_like with bd.
  Qed.
  Lemma src_inner bd k elts x it co : src false bd (PComp k elts x it co) = true -> src true bd (PComp k elts x it co) = true.
  Proof. cbn [src orb]. intros H. destruct (plain_kind k); [exact H|discriminate H]. Qed.
  Lemma comp_main k elts x it co : Parts (PComp k elts x it co) -> Main (PComp k elts x it co).
  Proof.
    intros P sc bd S Hs K. destruct (gather_like sc k elts x it co P bd S (src_inner _ _ _ _ _ _ Hs) K) as [n0 N].
    exists (Datatypes.S n0). intros [|n] Hn; [lia|]. destruct (N n ltac:(lia)) as (m & Em & Lm).
    exists m. split; [|exact Lm]. cbn [Spec_Tree.tree]. fold (opt_tree co).
    destruct k; cbn [comp_tree]; try discriminate Hs; try (rewrite comp_comp by discriminate; exact Em).
    now rewrite (comp_tuple _ _ bd).
  Qed.

  (** *** sorted *)
  Definition sorted_of (a k r : ast) : ast :=
    ACall (AName (T "sorted")) [a] [(T "key", k); (T "reverse", r)].
  Lemma pair_collect i ms x mc E bd elts co : length elts = 2 ->
    Forall2 (like (x :: bd)) ms elts -> like_opt (x :: bd) mc co -> bound bd E ->
    meq (collect pr KSrc i (each pr KSrc [op1 pr OTuple ms] x mc E))
        (bind (prim1 (start pr KSrcPair)) (fun acc =>
         bind (iterate (fun item acc => whenM pr (eval pr ((x, item) :: E)) co
                 (bind (mapM (eval pr ((x, item) :: E)) elts) (fun vs => prim (push pr KSrcPair acc vs))) (ret acc)) i acc)
         (fun acc => prim1 (finish pr KSrcPair acc)))).
  Proof.
    intros L F Lc B. unfold collect.
    apply bind_meq. { intros s. unfold prim1. now rewrite (bo_pair_start _ _ Hb). }
    intros acc. apply bind_meq.
    2:{ intros acc'. intros s. unfold prim1. now rewrite (bo_pair_finish _ _ Hb). }
    apply iterate_meq. intros item a. pose proof (bound_more bd E x item B) as B'. unfold each.
    assert (H : meq (bind (mapM (fun m : env -> M V => m ((x, item) :: E)) [op1 pr OTuple ms]) (fun vs => prim (push pr KSrc a vs)))
                    (bind (mapM (eval pr ((x, item) :: E)) elts) (fun vs => prim (push pr KSrcPair a vs)))).
    { cbn [mapM]. unfold op1. eapply meq_trans; [apply bind_assoc|]. eapply meq_trans; [apply bind_assoc|].
      eapply meq_trans.
      { apply bind_meq; [apply like_mapM with (x :: bd); eauto|]. intros vs. apply meq_refl. }
      apply bind_len. intros vs Hl. rewrite L in Hl. destruct vs as [|v1 [|v2 [|]]]; try discriminate Hl.
      apply meq_trans with (prim (and_then (op pr OTuple [v1; v2]) (fun t => push pr KSrc a [t]))).
      - apply meq_sym. eapply meq_trans; [apply prim_then|]. apply bind_meq; [apply meq_refl|]. intros t s. reflexivity.
      - apply prim_eq. intros w. symmetry. apply (bo_pair_push _ _ Hb). }
    destruct mc as [c|], co as [c'|]; cbn [like_opt whenM] in *; try tauto.
    apply bind_meq; [now apply Lc|]. intros v. apply bind_meq; [apply meq_refl|]. intros [|]; [exact H|apply meq_refl].
  Qed.

  Lemma src_true_false a bd : (forall k elts x it co, a <> PComp k elts x it co \/ plain_kind k = true) ->
    src true bd a = true -> src false bd a = true.
  Proof.
    intros H. destruct a; try (intros Q; exact Q). destruct (H k elts x a cond) as [Hn|Hp]; [congruence|].
    cbn [src orb]. now rewrite Hp.
  Qed.
  Lemma sort_eval a k r kv rv o E : (forall E, eval pr E k = ret kv) -> (forall E, eval pr E r = ret rv) ->
    meq (eval pr E (POp o [a; k; r])) (bind (eval pr E a) (fun l => prim (op pr o [l; kv; rv]))).
  Proof.
    intros Hk Hr. cbn [eval mapM]. rewrite Hk, Hr. eapply meq_trans; [apply bind_assoc|].
    apply bind_meq; [apply meq_refl|]. intros l s. reflexivity.
  Qed.
  Lemma sorted_call a k r : Main a -> Parts a -> fixed k = true -> fixed r = true ->
    forall sc bd, scoped bd sc -> src true bd a = true -> known (defs a) ->
    exists n0, forall n, n0 <= n -> exists m, comp n sc (sorted_of (tree a) (tree k) (tree r)) = Some m /\
      like bd m (POp OSortedList [a; k; r]).
  Proof.
    intros Ha Pa Hk Hr sc bd S Hs K.
    destruct (fixed_comp k sc bd S Hk) as (kv & Ek & Nk). destruct (fixed_comp r sc bd S Hr) as (rv & Er & Nr).
    destruct (bo_sorted _ _ Hb kv kv kv) as (fv & G & _).
    assert (Q : forall l kv rv w, op pr (OCall 1 [T "key"; T "reverse"]) [fv; l; kv; rv] w = op pr OSortedList [l; kv; rv] w).
    { intros l u v w. destruct (bo_sorted _ _ Hb l u v) as (fv' & G' & Q'). rewrite G in G'. inversion G'; subst. apply Q'. }
    assert (Plain : src false bd a = true -> exists n0, forall n, n0 <= n ->
              exists m, comp n sc (sorted_of (tree a) (tree k) (tree r)) = Some m /\ like bd m (POp OSortedList [a; k; r])).
    { intros Hf.
      destruct (main_all [a; k; r]) with (sc := sc) (bd := bd) as [n0 N]; auto.
      { repeat constructor; auto using fixed_main. }
      { cbn [forallb]. rewrite Hf. destruct k, r; try discriminate; reflexivity. }
      { cbn [flat_map]. intros f h I. apply K. destruct k, r; try discriminate; cbn [defs app] in I; now rewrite app_nil_r in I. }
      exists (2 + n0). intros [|[|n]] Hn; try lia. destruct (N (Datatypes.S n) ltac:(lia)) as (ms & Ems & F).
      destruct (named_call n sc bd "sorted" fv [tree a] [(T "key", tree k); (T "reverse", tree r)] ms [a; k; r] (op pr OSortedList))
        as (m & Em & Lm); name_goals.
      - constructor; [|constructor]. now apply tree_eager with bd.
      - intros vs w L. destruct vs as [|v1 [|v2 [|v3 [|]]]]; try discriminate L. apply Q.
      - exists m. split; [exact Em|]. exact Lm. }
    destruct (match a with PComp k _ _ _ _ => plain_kind k | _ => true end) eqn:Ep.
    { apply Plain. apply src_true_false; [|exact Hs]. intros k0 elts x it co.
      destruct a; try (left; discriminate).
      destruct (plain_kind k0) eqn:E0; [now right|]. left. intros Heq. inversion Heq; subst. congruence. }
    clear Plain. destruct a as [| | | | | | | | | |ck elts x it co| | |]; try discriminate Ep.
    destruct (Pa sc bd S Hs K) as [n0 N]. exists (3 + n0). intros [|n] Hn; [lia|].
    assert (Hw : wf_comp ck (length elts) = true).
    { clear -Hs. cbn [src] in Hs. repeat (apply andb_true_iff in Hs as [Hs ?]). assumption. }
    destruct (Nk n ltac:(lia)) as (m1 & E1 & L1). destruct (Nr n ltac:(lia)) as (m2 & E2 & L2).
    cbn [Spec_Tree.tree]. fold (opt_tree co). unfold sorted_of.
    destruct ck; try discriminate Ep; cbn [comp_tree]; rewrite (comp_sorted _ _ bd _ _ _ _ _ _ fv S G), E1, E2.
    - destruct (N n ltac:(lia)) as (mi & ms & mc & F1 & F2 & F3 & M1 & M2 & M3). rewrite F1, F2, F3.
      eexists. split; [reflexivity|]. intros E B. apply meq_sym. eapply meq_trans; [apply (sort_eval _ _ _ kv rv); auto|].
      apply meq_sym. cbn [eval]. eapply meq_trans; [|apply meq_sym, bind_assoc].
      apply bind_meq; [now apply M1|]. intros v. unfold comprehend. eapply meq_trans; [|apply meq_sym, bind_assoc].
      apply bind_meq; [apply meq_refl|]. intros i.
      eapply meq_trans; [apply bind_meq; [apply L1|intros v1; apply meq_refl]|]. eapply meq_trans; [apply bind_ret_l|].
      eapply meq_trans; [apply bind_meq; [apply L2|intros v1; apply meq_refl]|]. eapply meq_trans; [apply bind_ret_l|].
      apply bind_meq.
      + fold (collect pr KSrc i (fun item acc => whenM pr (eval pr ((x, item) :: E)) co
          (bind (mapM (eval pr ((x, item) :: E)) elts) (fun vs => prim (push pr KSrc acc vs))) (ret acc))).
        apply collect_meq. intros item acc. now apply each_like with bd.
      + intros l. apply prim_eq. intros w. apply Q.
    - destruct n as [|n]; [lia|].
      destruct (N (Datatypes.S n) ltac:(lia)) as (mi & ms & mc & F1 & _ & F3 & M1 & _ & M3).
      destruct (N n ltac:(lia)) as (_ & ms' & _ & _ & F2' & _ & _ & M2' & _).
      assert (F2 : all (map (comp (Datatypes.S n) (x :: sc)) [ATuple (map tree elts)]) = Some [op1 pr OTuple ms']).
      { cbn [map all]. assert (Q1 : comp (Datatypes.S n) (x :: sc) (ATuple (map tree elts)) = o1 n (x :: sc) OTuple (map tree elts)) by reflexivity.
        rewrite Q1. unfold o1. rewrite F2'. reflexivity. }
      rewrite F1, F2, F3.
      eexists. split; [reflexivity|]. intros E B. apply meq_sym. eapply meq_trans; [apply (sort_eval _ _ _ kv rv); auto|].
      apply meq_sym. cbn [eval]. eapply meq_trans; [|apply meq_sym, bind_assoc].
      apply bind_meq; [now apply M1|]. intros v. unfold comprehend. eapply meq_trans; [|apply meq_sym, bind_assoc].
      apply bind_meq; [apply meq_refl|]. intros i.
      eapply meq_trans; [apply bind_meq; [apply L1|intros v1; apply meq_refl]|]. eapply meq_trans; [apply bind_ret_l|].
      eapply meq_trans; [apply bind_meq; [apply L2|intros v1; apply meq_refl]|]. eapply meq_trans; [apply bind_ret_l|].
      apply bind_meq.
      + apply pair_collect with bd; auto. cbn [wf_comp] in Hw. now apply Nat.eqb_eq in Hw.
      + intros l. apply prim_eq. intros w. apply Q.
  Qed.

  Lemma over_sorted (nm : string) t o a k r kv rv sc bd n m : In (T nm) reserved ->
    T nm <> T "add_label_" -> T nm <> T "get_by_label_" -> scoped bd sc ->
    glob (T nm) = Some t ->
    (forall l w, op pr o [l; kv; rv] w = and_then (op pr OSortedList [l; kv; rv]) (fun l => op pr (OCall 1 []) [t; l]) w) ->
    (forall E, eval pr E k = ret kv) -> (forall E, eval pr E r = ret rv) ->
    comp (S n) sc (sorted_of (tree a) (tree k) (tree r)) = Some m -> like bd m (POp OSortedList [a; k; r]) ->
    exists m', comp (S (S n)) sc (call nm [sorted_of (tree a) (tree k) (tree r)]) = Some m' /\ like bd m' (POp o [a; k; r]).
  Proof.
    intros I N1 N2 S G Q Ek Er Em Lm. unfold call. rewrite comp_call.
    2:{ right. split; [now apply Hres|]. split; assumption. }
    2:{ constructor; [exact Logic.I|constructor]. }
    destruct (comp_res n sc bd (T nm) t S I N1 N2 G) as (m0 & E0 & L0).
    unfold gcall, o1. cbn [length map app all]. rewrite E0, Em. eexists. split; [reflexivity|].
    intros E B. unfold op1. cbn [mapM].
    eapply meq_trans; [apply bind_assoc|]. rewrite L0.
    eapply meq_trans; [apply bind_ret_l|]. eapply meq_trans; [apply bind_assoc|]. eapply meq_trans; [apply bind_assoc|].
    apply meq_sym. eapply meq_trans; [apply (sort_eval a k r kv rv); auto|]. apply meq_sym.
    apply meq_trans with (bind (bind (eval pr E a) (fun l => prim (op pr OSortedList [l; kv; rv])))
                               (fun v => prim (op pr (OCall 1 []) [t; v]))).
    { apply bind_meq.
      - eapply meq_trans; [now apply Lm|]. apply sort_eval; auto.
      - intros v s. reflexivity. }
    eapply meq_trans; [apply bind_assoc|]. apply bind_meq; [apply meq_refl|]. intros l.
    apply meq_sym. eapply meq_trans; [|apply prim_then]. apply prim_eq. intros w. apply Q.
  Qed.
  Lemma sort_main o l : is_sort o = true -> Forall Main l -> Forall Parts l -> Main (POp o l).
  Proof.
    intros Ho HM HP sc bd S Hs K. cbn [src] in Hs. apply andb_true_iff in Hs as [Hw Hs].
    assert (L3 : exists a k r, l = [a; k; r] /\ src true bd a = true /\ fixed k = true /\ fixed r = true).
    { destruct o; try discriminate Ho; cbn [wf_op] in Hw; destruct l as [|a [|k [|r [|]]]]; try discriminate Hw;
        apply andb_true_iff in Hs as [Hs1 Hs2]; cbn [forallb] in Hs2; apply andb_true_iff in Hs2 as [Hs2 Hs3];
        apply andb_true_iff in Hs3 as [Hs3 _]; exists a, k, r; repeat split; auto. }
    destruct L3 as (a & k & r & -> & Ha & Hk & Hr). inversion HM; subst. inversion HP; subst.
    assert (Ka : known (defs a)).
    { cbn [defs flat_map] in K. apply known_app in K. apply K. }
    destruct (sorted_call a k r ltac:(assumption) ltac:(assumption) Hk Hr sc bd S Ha Ka) as [n0 N].
    destruct (fixed_comp k sc bd S Hk) as (kv & Ek & _). destruct (fixed_comp r sc bd S Hr) as (rv & Er & _).
    exists (2 + n0). intros [|[|n]] Hn; try lia.
    destruct (N (Datatypes.S n) ltac:(lia)) as (m & Em & Lm). unfold means. cbn [Spec_Tree.tree].
    destruct o; try discriminate Ho; cbn [op_tree map]; unfold nth_a; cbn [nth]; fold (sorted_of (tree a) (tree k) (tree r)).
    - exact (N (Datatypes.S (Datatypes.S n)) ltac:(lia)).
    - destruct (bo_tuple _ _ Hb) as (t & G & Q).
      apply (over_sorted "tuple" t OSortedTuple a k r kv rv sc bd n m); name_goals.
    - destruct (bo_dict _ _ Hb) as (t & G & Q).
      apply (over_sorted "OrderedDict" t OSortedDict a k r kv rv sc bd n m); name_goals.
  Qed.

  (** *** helper functions *)
  Lemma helper_not_loc f fd sc bd : scoped bd sc -> find_def tab f = Some fd -> mem f sc = false.
  Proof.
    intros [_ S2] Hf. apply mem_not. intros I. apply S2, Hloc in I. destruct I as (_ & _ & I). congruence.
  Qed.
  Lemma scoped_self f l : plocal f l = true -> scoped l l.
  Proof. intros H. apply andb_true_iff in H as [H _]. rewrite forallb_forall in H. split; auto. Qed.
  Lemma bound_combine l (vs : list V) : length vs = length l -> bound l (combine l vs).
  Proof.
    revert vs. induction l as [|x l IH]; intros [|v vs] H y I; cbn in *; try discriminate; [tauto|].
    destruct (text_eq_dec y x) as [->|Hne]; [eauto|]. destruct I as [->|I]; [congruence|]. apply IH; auto.
  Qed.
  Lemma exec_default c a h : exec pr c [glob2; STry [SReturn a] [SReturn h]] =
    match c a, c h with
    | Some m, Some k => Some (fun (E : env) s => match m E s with
                                         | (s', Exc x) => if caught pr x then k E s' else (s', Exc x)
                                         | r => r
                                         end)
    | _, _ => None
    end.
  Proof. reflexivity. Qed.
  Lemma comp_local n sc x : mem x sc = true -> comp (S n) sc (AName x) =
    Some (fun E => match lookup E x with Some v => ret v | None => raise (name_error pr x) end).
  Proof. intros H. cbn [Spec_Source.comp]. now rewrite H. Qed.

  Lemma default_main f args body : Forall Main args -> Main body -> Main (PDefault f args body).
  Proof.
    intros Ha Hbody sc bd S Hs K. cbn [src defs] in *.
    apply andb_true_iff in Hs as [Hs Hp]. apply andb_true_iff in Hs as [Hs Hsb]. apply andb_true_iff in Hs as [Hl Hsa].
    apply known_app in K as [K1 K]. apply known_app in K as [K2 K3].
    set (over := Nat.eqb (length args) 3) in *.
    assert (Hf : find_def tab f = Some (hfunc (HDefault over body))) by (apply K3; now left).
    destruct (main_all args Ha sc bd S Hsa K1) as [n1 N1].
    destruct (Hbody _ _ (scoped_self _ _ Hp) Hsb K2) as [n2 N2].
    exists (2 + n1 + n2). intros [|[|n]] Hn; try lia.
    destruct (N1 (Datatypes.S n) ltac:(lia)) as (ms & Ems & F). destruct (N2 (Datatypes.S n) ltac:(lia)) as (m & Em & Lm).
    assert (Hlen : length args = length (default_params over)).
    { subst over. destruct args as [|a1 [|a2 [|a3 [|a4 r]]]]; try discriminate Hl; reflexivity. }
    unfold means. cbn [Spec_Tree.tree]. rewrite (comp_helper _ _ f (hfunc (HDefault over body))); auto.
    2:{ eapply helper_not_loc; eauto. }
    2:{ now rewrite map_length. }
    assert (EL : locals (hfunc (HDefault over body)) = default_params over) by (destruct over; reflexivity).
    rewrite EL. cbn [Proofs_Meaning.hfunc f_body f_params]. rewrite Ems, exec_default.
    rewrite Em, comp_local by (destruct over; reflexivity).
    eexists. split; [reflexivity|]. intros E B. cbn [eval].
    eapply meq_trans; [apply bind_meq; [apply like_mapM with bd; eauto|intros; apply meq_refl]|].
    apply bind_len. intros vs Hv. rewrite Hlen in Hv.
    assert (EE : combine (default_params over) vs = default_env vs /\
                 lookup (combine (default_params over) vs) (T "default_") = Some (default_of pr vs)).
    { destruct over; cbn in Hv; destruct vs as [|v1 [|v2 [|v3 [|]]]]; try discriminate Hv; split; reflexivity. }
    destruct EE as [EE1 EE2]. intros st. rewrite (Lm (combine (default_params over) vs) (bound_combine _ _ Hv) st).
    rewrite EE2, EE1. unfold or_default. destruct (eval pr (default_env vs) body st) as [st' [v|x]]; reflexivity.
  Qed.

  Lemma item_assigned ls : assigned (map (item_stmt gname pnum) ls) = [].
  Proof. induction ls as [|[[c|] e] ls IH]; cbn in *; auto. Qed.
  Lemma item_generator ls ps : ls <> [] -> is_generator (hfunc (HItems ps ls)) = true.
  Proof. destruct ls as [|[[c|] e] ls]; [congruence| |]; reflexivity. Qed.
  Lemma yield_like c k e m r n bd : c (tree e) = Some m -> like bd m e -> produce pr c k r = Some n ->
    exists y, produce pr c k (SYield (tree e) :: r) = Some y /\
      forall E acc, bound bd E -> meq (y E acc) (bind (eval pr E e) (fun v => bind (prim (push pr k acc [v])) (n E))).
  Proof.
    intros Em Lm En. cbn [produce]. rewrite Em, En. eexists. split; [reflexivity|].
    intros E acc B. apply bind_meq; [now apply Lm|]. intros. apply meq_refl.
  Qed.
  Lemma items_like k ls : Forall (fun c => optPx Main (fst c) /\ Main (snd c)) ls ->
    forall sc bd, scoped bd sc ->
    forallb (fun l => match fst l with Some c => src false bd c | None => true end && src false bd (snd l)) ls = true ->
    known (flat_map (fun l => defs (snd l) ++ match fst l with Some c => defs c | None => [] end) ls) ->
    exists n0, forall n, n0 <= n -> exists y, produce pr (comp n sc) k (map (item_stmt gname pnum) ls) = Some y /\
      forall E acc, bound bd E -> meq (y E acc) (linesM pr (eval pr E) k ls acc).
  Proof.
    induction 1 as [|[co e] ls [Hc He] _ IH]; intros sc bd S Hs K.
    - exists 0. intros n _. exists (fun _ acc => ret acc). split; [reflexivity|]. intros. apply meq_refl.
    - cbn [forallb flat_map fst snd] in *. apply andb_true_iff in Hs as [Hs1 Hs2]. apply andb_true_iff in Hs1 as [Hs0 Hs1].
      apply known_app in K as [K1 K2]. apply known_app in K1 as [K1 K0].
      destruct (He sc bd S Hs1 K1) as [n1 N1]. destruct (IH sc bd S Hs2 K2) as [n2 N2].
      assert (N3 : exists n3, forall n, n3 <= n -> match co with
                 | Some c => exists m, comp n sc (tree c) = Some m /\ like bd m c | None => True end).
      { destruct co as [c|]; [|exists 0; auto]. destruct (Hc sc bd S Hs0 K0) as [n3 N3]. exists n3. intros n Hn. exact (N3 n Hn). }
      destruct N3 as [n3 N3]. exists (n1 + n2 + n3). intros n Hn.
      destruct (N1 n ltac:(lia)) as (m & Em & Lm). destruct (N2 n ltac:(lia)) as (y & Ey & Ly). specialize (N3 n ltac:(lia)).
      destruct co as [c|].
      + destruct N3 as (mc & Ec & Lc). cbn [map item_stmt fst snd produce]. rewrite Ec, Ey, Em.
        eexists. split; [reflexivity|]. intros E acc B. cbn [linesM fst snd whenM].
        apply bind_meq; [now apply Lc|]. intros v. apply bind_meq; [apply meq_refl|]. intros [|]; [|now apply Ly].
        apply bind_meq; [now apply Lm|]. intros w. apply bind_meq; [apply meq_refl|]. intros acc'. now apply Ly.
      + cbn [map item_stmt fst snd produce]. rewrite Ey, Em.
        eexists. split; [reflexivity|]. intros E acc B. cbn [linesM fst snd whenM].
        apply bind_meq; [now apply Lm|]. intros w. apply bind_meq; [apply meq_refl|]. intros acc'. now apply Ly.
  Qed.
  Lemma items_main f k args ps ls : Forall Main args -> Forall (fun c => optPx Main (fst c) /\ Main (snd c)) ls ->
    Main (PItems f k args ps ls).
  Proof.
    intros Ha Hls sc bd S Hs K. cbn [src defs] in *.
    apply andb_true_iff in Hs as [Hs H6]. apply andb_true_iff in Hs as [Hs H5]. apply andb_true_iff in Hs as [Hs H4].
    apply andb_true_iff in Hs as [Hs H3]. apply andb_true_iff in Hs as [H1 H2]. apply Nat.eqb_eq in H2.
    apply known_app in K as [K1 K]. apply known_app in K as [K2 K3].
    assert (Hf : find_def tab f = Some (hfunc (HItems ps ls))) by (apply K3; now left).
    destruct (main_all args Ha sc bd S H3 K1) as [n1 N1].
    destruct (items_like k ls Hls _ _ (scoped_self _ _ H5) H6 K2) as [n2 N2].
    exists (1 + n1 + n2). intros [|n] Hn; [lia|].
    destruct (N1 n ltac:(lia)) as (ms & Ems & F). destruct (N2 n ltac:(lia)) as (y & Ey & Ly).
    unfold means. cbn [Spec_Tree.tree]. rewrite (comp_items _ _ bd k f (hfunc (HItems ps ls))); auto.
    2:{ eapply helper_not_loc; eauto. }
    2:{ apply item_generator. intros ->. discriminate H4. }
    2:{ rewrite map_length. exact H2. }
    assert (EL : locals (hfunc (HItems ps ls)) = T "data_" :: ps).
    { unfold locals. cbn [Proofs_Meaning.hfunc f_params f_kwonly f_body app]. rewrite item_assigned. now rewrite app_nil_r. }
    rewrite EL, Ems. cbn [Proofs_Meaning.hfunc f_body f_params]. rewrite Ey.
    eexists. split; [reflexivity|]. intros E B. cbn [eval].
    eapply meq_trans; [apply bind_meq; [apply like_mapM with bd; eauto|intros; apply meq_refl]|].
    apply bind_len. intros vs Hv. apply bind_meq; [apply meq_refl|]. intros acc.
    apply bind_meq; [|intros; apply meq_refl]. unfold helper_env. apply Ly. apply bound_combine. now rewrite Hv, H2.
  Qed.

  Lemma mut_assigned ss : assigned (map (mut_stmt gname pnum) ss ++ [SReturn dat]) = [].
  Proof. induction ss as [|[[] l] ss IH]; cbn in *; auto. Qed.
  Lemma data_like n sc bd : scoped bd sc -> In (T "data_") bd ->
    exists m, comp (S n) sc dat = Some m /\ like bd m (PName (T "data_")) /\
      forall E v, lookup E (T "data_") = Some v -> m E = ret v.
  Proof.
    intros S I. unfold dat. rewrite comp_local by (apply mem_in; now apply S).
    eexists. split; [reflexivity|]. split; [intros E B; apply meq_refl|]. intros E v ->. reflexivity.
  Qed.
  Lemma with_data E l v : lookup E (T "data_") = Some v ->
    meq (mapM (eval pr E) (PName (T "data_") :: l)) (bind (mapM (eval pr E) l) (fun vs => ret (v :: vs))).
  Proof. intros Hl. cbn [mapM eval]. rewrite Hl. intros s. reflexivity. Qed.
  Lemma data_call nm fv k l sc bd n ms : In (T nm) reserved -> T nm <> T "add_label_" -> T nm <> T "get_by_label_" ->
    scoped bd sc -> In (T "data_") bd -> Forall (eager sc) (map tree l) ->
    glob (T nm) = Some fv ->
    (forall vs w, length vs = S (length l) -> op pr (OCall (S (length l)) []) (fv :: vs) w = mut pr k vs w) ->
    all (map (comp (S n) sc) (map tree l)) = Some ms -> Forall2 (like bd) ms l ->
    exists m, comp (S (S n)) sc (call nm (dat :: map tree l)) = Some m /\
      forall E v, bound bd E -> lookup E (T "data_") = Some v ->
        meq (m E) (bind (mapM (eval pr E) l) (fun vs => prim (mut pr k (v :: vs)))).
  Proof.
    intros I N1 N2 S D Ea G Q Ems F. destruct (data_like n sc bd S D) as (md & Ed & Ld & _).
    destruct (named_call n sc bd nm fv (map tree (PName (T "data_") :: l)) [] (md :: ms) (PName (T "data_") :: l) (mut pr k))
      as (m & Em & Lm); auto.
    - constructor; [exact Logic.I|exact Ea].
    - cbn [map fst]. now rewrite app_nil_r.
    - cbn [map all]. change (tree (PName (T "data_"))) with dat. now rewrite Ed, Ems.
    - intros vs w L. cbn [map length fst]. rewrite map_length. now apply Q.
    - exists m. split; [exact Em|]. intros E v B Hv. eapply meq_trans; [now apply Lm|].
      eapply meq_trans; [apply bind_meq; [now apply with_data with (v := v)|intros; apply meq_refl]|].
      eapply meq_trans; [apply bind_assoc|]. apply bind_meq; [apply meq_refl|]. intros vs s. reflexivity.
  Qed.
  Definition tapped (sc bd : list text) (ss : list (mkind * list px)) (n : nat) : Prop :=
    exists y, exec pr (comp n sc) (map (mut_stmt gname pnum) ss ++ [SReturn dat]) = Some y /\
      forall E v, bound bd E -> lookup E (T "data_") = Some v ->
        meq (y E) (bind (stmtsM pr (eval pr E) v ss) (fun _ => ret v)).
  Lemma taps_like ss : Forall (fun s => Forall Main (snd s)) ss -> forall sc bd, scoped bd sc -> In (T "data_") bd ->
    forallb (fun s => stmt_ok s && forallb (src false bd) (snd s)) ss = true ->
    known (flat_map (fun s => flat_map defs (snd s)) ss) ->
    exists n0, forall n, n0 <= n -> tapped sc bd ss n.
  Proof.
    induction 1 as [|[k l] ss Hl _ IH]; intros sc bd S D Hs K.
    - exists 1. intros [|n] Hn; [lia|]. destruct (data_like n sc bd S D) as (m & Em & _ & Lm).
      exists m. split; [exact Em|]. intros E v B Hv. rewrite (Lm E v Hv). intros s. reflexivity.
    - cbn [forallb flat_map snd] in *. apply andb_true_iff in Hs as [Hs Hs2]. apply andb_true_iff in Hs as [Hs0 Hs1].
      apply known_app in K as [K1 K2]. destruct (IH sc bd S D Hs2 K2) as [n2 N2].
      destruct (main_all l Hl sc bd S Hs1 K1) as [n1 N1]. pose proof (all_eager sc bd l S Hs1 K1) as Ea.
      exists (3 + n1 + n2). intros [|[|n]] Hn; try lia.
      destruct (N2 (Datatypes.S (Datatypes.S n)) ltac:(lia)) as (y & Ey & Ly).
      destruct (N1 (Datatypes.S n) ltac:(lia)) as (ms & Ems & F).
      destruct (N1 (Datatypes.S (Datatypes.S n)) ltac:(lia)) as (ms' & Ems' & F').
      destruct (data_like (Datatypes.S n) sc bd S D) as (md & Ed & _ & Ld).
      assert (Rest : forall a q m, comp (Datatypes.S (Datatypes.S n)) sc a = Some m ->
                (forall E v, bound bd E -> lookup E (T "data_") = Some v -> meq (m E) (q E v)) ->
                (forall E v, bound bd E -> lookup E (T "data_") = Some v ->
                   meq (bind (q E v) (fun _ => bind (stmtsM pr (eval pr E) v ss) (fun _ => ret v)))
                       (bind (stmtsM pr (eval pr E) v ((k, l) :: ss)) (fun _ => ret v))) ->
                exists z, exec pr (comp (Datatypes.S (Datatypes.S n)) sc) (SExpr a :: map (mut_stmt gname pnum) ss ++ [SReturn dat]) = Some z /\
                  forall E v, bound bd E -> lookup E (T "data_") = Some v ->
                    meq (z E) (bind (stmtsM pr (eval pr E) v ((k, l) :: ss)) (fun _ => ret v))).
      { intros a q m Em Lm Hq. cbn [exec]. rewrite Em, Ey. eexists. split; [reflexivity|]. intros E v B Hv.
        eapply meq_trans; [|now apply Hq]. apply bind_meq; [now apply Lm|]. intros _. now apply Ly. }
      assert (Step : forall E v, (match k, l with MSetItem, [_; _] => False | _, _ => True end) ->
                meq (bind (bind (mapM (eval pr E) l) (fun vs => mutM pr k (v :: vs)))
                          (fun _ => bind (stmtsM pr (eval pr E) v ss) (fun _ => ret v)))
                    (bind (stmtsM pr (eval pr E) v ((k, l) :: ss)) (fun _ => ret v))).
      { intros E v Hk. apply meq_sym. cbn [stmtsM]. eapply meq_trans; [apply bind_assoc|].
        apply bind_meq; [|intros; apply meq_refl]. destruct k; try apply meq_refl.
        destruct l as [|? [|? [|]]]; try apply meq_refl. destruct Hk. }
      unfold tapped. cbn [map app].
      destruct k; cbn [stmt_ok fst snd] in Hs0.
      + destruct l as [|i [|e [|]]]; try discriminate Hs0. cbn [mut_stmt fst snd nth] in *.
        cbn [map] in Ems'. apply all_inv in Ems' as (mi & r & Ei & Er & ->). apply all_inv in Er as (me & r' & Ee & Er' & ->).
        cbn in Er'. inversion Er'; subst r'. inversion F' as [|? ? ? ? Li F2]; subst. inversion F2 as [|? ? ? ? Le _]; subst.
        cbn [exec]. rewrite Ed, Ei, Ee, Ey. eexists. split; [reflexivity|]. intros E v B Hv. cbn beta. rewrite (Ld E v Hv).
        cbn [stmtsM]. apply meq_sym. eapply meq_trans; [apply bind_assoc|]. eapply meq_trans; [apply bind_assoc|].
        apply bind_meq; [apply meq_sym; now apply Le|]. intros ve. eapply meq_trans; [apply bind_assoc|].
        apply meq_sym. eapply meq_trans; [apply bind_ret_l|]. apply bind_meq; [now apply Li|]. intros vi.
        cbn [mutM]. apply bind_meq; [apply meq_refl|]. intros _. now apply Ly.
      + destruct l as [|i [|e [|]]]; try discriminate Hs0. cbn [mut_stmt fst snd nth] in *.
        destruct (bo_setattr _ _ Hb (litv pr LNone) (litv pr LNone) (litv pr LNone)) as (fv & G & _).
        destruct (data_call "setattr" fv MSetAttr [i; e] sc bd n ms) as (m & Em & Lm); name_goals.
        { intros vs w L. destruct vs as [|v1 [|v2 [|v3 [|]]]]; try discriminate L.
          destruct (bo_setattr _ _ Hb v1 v2 v3) as (fv' & G' & Q). rewrite G in G'. inversion G'. apply Q. }
        apply (Rest _ (fun E v => bind (mapM (eval pr E) [i; e]) (fun vs => prim (mut pr MSetAttr (v :: vs)))) m Em Lm).
        intros E v B Hv. now apply Step.
      + destruct l as [|i [|]]; try discriminate Hs0. cbn [mut_stmt fst snd nth] in *.
        destruct (fixed_comp i sc bd S Hs0) as (iv & Ei & Ni).
        destruct (Ni (Datatypes.S n) ltac:(lia)) as (mi & Emi & Lmi).
        destruct n as [|n]; [lia|]. destruct (data_like n sc bd S D) as (md1 & Ed1 & _ & Ld1).
        assert (Eattr : comp (Datatypes.S (Datatypes.S n)) sc (AAttr dat (T "pop")) = Some (op1 pr (OAttr (T "pop")) [md1])).
        { assert (Q : comp (Datatypes.S (Datatypes.S n)) sc (AAttr dat (T "pop")) = o1 (Datatypes.S n) sc (OAttr (T "pop")) [dat]) by reflexivity.
          rewrite Q. unfold o1. cbn [map all]. rewrite Ed1. reflexivity. }
        assert (Ec : comp (Datatypes.S (Datatypes.S (Datatypes.S n))) sc (ACall (AAttr dat (T "pop")) [tree i] []) =
                     Some (op1 pr (OCall 1 []) [op1 pr (OAttr (T "pop")) [md1]; mi])).
        { rewrite comp_call; [|exact Logic.I|exact Ea]. unfold gcall, o1. cbn [length map app all]. now rewrite Eattr, Emi. }
        apply (Rest _ (fun E v => prim (mut pr MDelItem [v; iv])) _ Ec).
        * intros E v B Hv. unfold op1. cbn [mapM]. rewrite (Ld1 E v Hv).
          apply meq_trans with (bind (prim (op pr (OAttr (T "pop")) [v])) (fun m => prim (op pr (OCall 1 []) [m; iv]))).
          { intros s. unfold bind, ret. destruct (prim (op pr (OAttr (T "pop")) [v]) s) as [s1 [u|x]]; [|reflexivity].
            rewrite (Lmi E s1). reflexivity. }
          apply meq_sym. eapply meq_trans; [|apply prim_then]. apply prim_eq. intros w. apply (bo_pop _ _ Hb).
        * intros E v B Hv. eapply meq_trans; [|now apply Step]. apply bind_meq; [|intros; apply meq_refl].
          cbn [mapM]. rewrite Ei. intros s. reflexivity.
      + destruct l as [|i [|]]; try discriminate Hs0. cbn [mut_stmt fst snd nth] in *.
        destruct (bo_delattr _ _ Hb (litv pr LNone) (litv pr LNone)) as (fv & G & _).
        destruct (data_call "delattr" fv MDelAttr [i] sc bd n ms) as (m & Em & Lm); name_goals.
        { intros vs w L. destruct vs as [|v1 [|v2 [|]]]; try discriminate L.
          destruct (bo_delattr _ _ Hb v1 v2) as (fv' & G' & Q). rewrite G in G'. inversion G'. apply Q. }
        apply (Rest _ (fun E v => bind (mapM (eval pr E) [i]) (fun vs => prim (mut pr MDelAttr (v :: vs)))) m Em Lm).
        intros E v B Hv. now apply Step.
      + destruct l as [|i [|]]; try discriminate Hs0. cbn [mut_stmt fst snd nth] in *.
        cbn [map] in Ems'. apply all_inv in Ems' as (mi & r & Ei & Er & ->). inversion F' as [|? ? ? ? Li _]; subst.
        apply (Rest _ (fun E v => eval pr E i) mi Ei).
        * intros E v B Hv. now apply Li.
        * intros E v B Hv. eapply meq_trans; [|now apply Step]. cbn [mapM mutM]. intros s. unfold bind, ret.
          destruct (eval pr E i s) as [s1 [u|x]]; reflexivity.
  Qed.
  Lemma tap_main f args ps ss : Forall Main args -> Forall (fun s => Forall Main (snd s)) ss -> Main (PTap f args ps ss).
  Proof.
    intros Ha Hss sc bd S Hs K. cbn [src defs] in *.
    apply andb_true_iff in Hs as [Hs H4]. apply andb_true_iff in Hs as [Hs H3]. apply andb_true_iff in Hs as [H1 H2].
    apply Nat.eqb_eq in H1. apply known_app in K as [K1 K]. apply known_app in K as [K2 K3].
    assert (Hf : find_def tab f = Some (hfunc (HTap ps ss))) by (apply K3; now left).
    destruct (main_all args Ha sc bd S H2 K1) as [n1 N1].
    destruct (taps_like ss Hss _ _ (scoped_self _ _ H3) (or_introl eq_refl) H4 K2) as [n2 N2].
    exists (1 + n1 + n2). intros [|n] Hn; [lia|].
    destruct (N1 n ltac:(lia)) as (ms & Ems & F). destruct (N2 n ltac:(lia)) as (y & Ey & Ly).
    unfold means. cbn [Spec_Tree.tree]. rewrite (comp_helper _ _ f (hfunc (HTap ps ss))); auto.
    2:{ eapply helper_not_loc; eauto. }
    2:{ unfold is_generator. cbn [f_body Proofs_Meaning.hfunc]. apply no_yields. }
    2:{ rewrite map_length. exact H1. }
    assert (EL : locals (hfunc (HTap ps ss)) = T "data_" :: ps).
    { unfold locals. cbn [Proofs_Meaning.hfunc f_params f_kwonly f_body app]. rewrite mut_assigned. now rewrite app_nil_r. }
    rewrite EL, Ems. cbn [Proofs_Meaning.hfunc f_body f_params]. rewrite Ey.
    eexists. split; [reflexivity|]. intros E B. cbn [eval].
    eapply meq_trans; [apply bind_meq; [apply like_mapM with bd; eauto|intros; apply meq_refl]|].
    apply bind_len. intros vs Hv. rewrite H1 in Hv. unfold helper_env. apply Ly.
    - apply bound_combine. exact Hv.
    - destruct vs as [|v vs]; [discriminate Hv|]. reflexivity.
  Qed.

  Definition Both (e : px) : Prop := Main e /\ Parts e.
  Lemma both_main l : Forall Both l -> Forall Main l.
  Proof. induction 1 as [|e l [H _]]; constructor; auto. Qed.
  Lemma both_parts l : Forall Both l -> Forall Parts l.
  Proof. induction 1 as [|e l [_ H]]; constructor; auto. Qed.
  Lemma both_opt co : optPx Both co -> optPx Main co.
  Proof. destruct co as [c|]; [|auto]. intros [H _]. exact H. Qed.
  Lemma both_all : forall e, Both e.
  Proof.
    apply px_ind2.
    - intros x. split; [apply name_main|exact I].
    - intros l. split; [now apply fixed_main|exact I].
    - intros g. split; [now apply fixed_main|exact I].
    - intros o l F. split; [|exact I]. apply both_main in F as F1. apply both_parts in F as F2.
      destruct (is_sort o) eqn:Eo; [now apply sort_main|now apply op_main].
    - intros i l F. split; [|exact I]. apply bool_main. now apply both_main.
    - intros l F. split; [|exact I]. apply eqs_main. now apply both_main.
    - intros c t f [Hc _] [Ht _] [Hf _]. split; [|exact I]. now apply if_main.
    - intros a b [Ha _] [Hb' _]. split; [|exact I]. now apply attach_main.
    - intros n e [He _]. split; [|exact I]. now apply add_main.
    - intros n. split; [apply get_main|exact I].
    - intros k l x it co F [Hi _] Hc.
      assert (P : Parts (PComp k l x it co)) by (apply parts_comp; [now apply both_main|exact Hi|now apply both_opt]).
      split; [now apply comp_main|exact P].
    - intros f l b F [Hb' _]. split; [|exact I]. apply default_main; [now apply both_main|exact Hb'].
    - intros f k l ps ls F Fl. split; [|exact I]. apply items_main; [now apply both_main|].
      induction Fl as [|c ls [H1 [H2 _]] _ IH]; constructor; [split; [now apply both_opt|exact H2]|exact IH].
    - intros f l ps ss F Fs. split; [|exact I]. apply tap_main; [now apply both_main|].
      induction Fs as [|s ss H _ IH]; constructor; [now apply both_main|exact IH].
  Qed.
  Theorem all_main : forall e, Main e.
  Proof. intros e. apply both_all. Qed.
End Meaning.
