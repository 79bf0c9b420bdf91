(** The loop bodies of aggregations (Spec_AggProgram.v), run on the variables of the
    generated function (Spec_FuncRun.v), do what the model of the loops does. *)
From Coq Require Import String Ascii List NArith ZArith Bool Arith Lia.
From Verif Require Import Model_PyVal Model_Reducers Model_Aggregate Model_Code Spec_Syntax Spec_FuncText Spec_AggProgram Spec_FuncRun
  Proofs_FuncRun Proofs_RedRun Proofs_RedRun2.
From Verif Require Spec_Stmt Spec_Loop Proofs_Stmt Proofs_Steady Props_Loop.
Import ListNotations.
Notation cells := Model_Aggregate.state.

Lemma init_extra b E X X' : needs_extra b = false -> init_stmt b E X = init_stmt b E X'.
Proof. now destruct b. Qed.
Lemma reduce_extra b Z c E X X' : needs_extra b = false -> reduce_stmt b Z c E X = reduce_stmt b Z c E X'.
Proof. now destruct b. Qed.
(** without a dict to put the sums in, only None of initial[k] is left alone *)
Lemma dsn_none Z E X c : reduce_stmt DictSumOrNone Z None E X = Ok c -> c = None.
Proof.
  cbn [reduce_stmt set_item]. unfold lookup_default, cell_item. destruct X as [x|]; cbn [bind]; [|discriminate].
  repeat match goal with
  | |- context [match ?t with VNone => _ | _ => _ end] => destruct t; cbn [bind]; try discriminate
  | |- context [match ?t with Ok _ => _ | Err _ => _ end] => destruct t; cbn [bind]; try discriminate
  | |- context [bind ?t _] => destruct t; cbn [bind]; try discriminate
  | |- context [if ?t then _ else _] => destruct t; cbn [bind]; try discriminate
  end; intros H; injection H; auto.
Qed.

(** how the parts of a reduce are evaluated on a row *)
Record rparts : Type := mkParts { v_expr : res val; v_extras : list (res val); v_initial : option (res val) }.
Definition extra_val (r : rparts) : res val := match v_extras r with x :: _ => x | [] => Err IndexError end.
Fixpoint all_vals (l : list (res val)) : res (list val) :=
  match l with [] => Ok [] | x :: r => do v <- x; do vs <- all_vals r; Ok (v :: vs) end.

Section Sim.
  Variable globals : text -> option rv.
  Variable call : text -> list val -> res val.
  Variable classes : text -> option (list text).
  Variable outside : ast -> (ast -> option val) -> res val.
  Notation ev := (Spec_FuncRun.ev globals call outside).
  Notation right_side := (Spec_FuncRun.right_side globals call classes outside).
  Notation run_simple := (Spec_FuncRun.run_simple globals call classes outside).
  Notation run_stmt := (Spec_FuncRun.run_stmt globals call classes outside).
  Notation run_stmts := (Spec_FuncRun.run_stmts globals call classes outside).
  Notation steady := (steady globals call classes outside).
  Notation evs := (Proofs_Steady.evs globals call outside).

  Variable mode : bool.
  Variable n : nat.
  Variable reds : nat -> ared.
  (** the reduce of an accumulator *)
  Variable red_at : nat -> ared.
  Variable pl : nat -> place.
  Hypothesis PLI : forall i j, i < n -> j < n -> pl i = pl j -> i = j.
  Definition chk : place := PN (T "checksum_").
  Hypothesis PLD : forall j, j < n -> pl j <> dd.
  Hypothesis PLC : forall j, j < n -> pl j <> chk.
  Definition touched : list place := chk :: dd :: map pl (seq 0 n).
  Lemma touched_pl j : j < n -> In (pl j) touched.
  Proof. intros H. right. right. apply in_map, in_seq. lia. Qed.

  Definition miss (j : nat) : option val := match p_op (red_at j) with ABuiltin b => missing_of b | AFunc _ => None end.
  Definition ok (j : nat) (c : cell) : Prop :=
    match p_op (red_at j) with
    | ABuiltin b => cell_ok b c /\ (b = DictSumOrNone -> p_initial (red_at j) <> None -> c = None)
    | AFunc _ => True
    end.

  (** the state when the statements of the row begin *)
  Variable s0 : state.
  Hypothesis SL : forall j, j < n -> slot_at (slot mode j) (pl j) s0.
  Hypothesis NA : ~ In (PN (T "agg_data_")) touched.
  Hypothesis FF : factories_free s0.
  Hypothesis FT : forall x, In x (map T ["defaultdict"; "list"; "dict"; "int"]%string) -> ~ In (PN x) touched.
  Hypothesis NO : view s0 (PN (T "_none")) = Some OSent.
  Hypothesis NT : ~ In (PN (T "_none")) touched.

  Lemma slot_now j s : j < n -> frame touched s0 s -> slot_at (slot mode j) (pl j) s.
  Proof.
    intros J F. eapply slot_frame; [now apply SL|exact F|]. intros x E. unfold slot in E. destruct mode; [discriminate E|].
    cbn [name] in E. injection E as <-. exact NA.
  Qed.
  Lemma none_now s : frame touched s0 s -> view s (PN (T "_none")) = Some OSent.
  Proof. intros [_ F]. now rewrite F. Qed.
  Lemma free_now s : frame touched s0 s -> factories_free s.
  Proof. intros [_ F] x I. rewrite F by now apply FT. now apply FF. Qed.

  Definition inv (k : option object) (s : state) (st : cells) : Prop :=
    good s /\ frame touched s0 s /\ view s chk = k /\
    forall j, j < n -> view s (pl j) = Some (obj_for (miss j) (st j)) /\ ok j (st j).
  Definition sim (k : option object) (r : res (state * bool)) (m : res cells) : Prop :=
    match m with Err e => r = Err e | Ok st => exists s, r = Ok (s, false) /\ inv k s st end.

  Lemma inv_step k s st j c s' : j < n -> inv k s st -> done (pl j) s (miss j) c s' -> ok j c -> inv k s' (upd st j c).
  Proof.
    intros J (G & F & K & I) (G' & F' & V') O. split; [exact G'|]. split.
    { eapply frame_trans; [exact F|]. eapply frame_more; [|exact F']. intros q [<-|[<-|[]]]; [now apply touched_pl|right; now left]. }
    split.
    { rewrite <- K. apply F'. intros [X|[X|[]]]; [now apply (PLC j)|]. apply PN_inj in X. discriminate X. }
    intros i H. unfold upd. destruct (Nat.eqb i j) eqn:E.
    - apply Nat.eqb_eq in E. subst i. split; assumption.
    - apply Nat.eqb_neq in E. destruct (I i H) as [Iv Io]. split; [|exact Io]. rewrite <- Iv. apply F'.
      intros [X|[X|[]]]; [apply E; symmetry; now apply PLI|symmetry in X; now apply (PLD i)].
  Qed.

  (** *** one reduce *)
  (** the expressions of the reduce have these values whatever the accumulators are *)
  Record parts_ok (r : ared) (v : rparts) : Prop := mkPartsOk {
    po_expr : steady (p_expr r) (v_expr v) touched s0;
    po_extras : Forall2 (fun a x => steady a x touched s0) (p_extras r) (v_extras v);
    po_initial : match p_initial r, v_initial v with
                 | None, None => True
                 | Some a, Some x => steady a x touched s0 /\
                     forall t w k, frame touched s0 t -> Spec_FuncRun.item a w k t = do y <- py_getitem w k; Ok (y, t)
                 | _, _ => False
                 end;
    po_extra : match p_op r with ABuiltin b => needs_extra b = true -> p_extras r <> [] | AFunc f => True end;
    po_func : match p_op r with ABuiltin _ => True | AFunc f => forall s, frame touched s0 s -> is_global f s = true end }.
  (** the reduce of the model *)
  Record means (o : reduce_obj val) (row : val) (r : ared) (v : rparts) : Prop := mkMeans {
    me_red : match red o, p_op r with
             | Builtin b, ABuiltin b' => b = b'
             | Fun f, AFunc g => forall c e xs, f c e xs = call g (c :: e :: xs)
             | _, _ => False
             end;
    me_expr : expr o row = v_expr v;
    me_extras : map (fun f => f row) (extras o) = v_extras v;
    me_initial : initial o = v_initial v }.
  Lemma eval_all_vals l row : eval_all l row = all_vals (map (fun f : val -> res val => f row) l).
  Proof. induction l as [|f l IH]; cbn; [reflexivity|]. now rewrite IH. Qed.
  Lemma extra_means o row r v : means o row r v -> extra o row = extra_val v.
  Proof. intros M. unfold extra, extra_val. rewrite <- (me_extras _ _ _ _ M). now destruct (extras o). Qed.

  Lemma steady_at a x s D : steady a x touched s0 -> frame touched s0 s -> incl D touched -> steady a x D s.
  Proof. intros S F I t F'. apply S. eapply frame_trans; [exact F|]. eapply frame_more; eauto. Qed.
  Lemma incl_slot j : j < n -> incl [pl j; dd] touched.
  Proof. intros J q [<-|[<-|[]]]; [now apply touched_pl|right; now left]. Qed.

  Lemma evs_steady s l rs : frame touched s0 s -> Forall2 (fun a x => steady a x touched s0) l rs ->
    evs l s = do vs <- all_vals rs; Ok (map RVal vs, s).
  Proof.
    intros F. induction 1 as [|a x l rs S _ IH]; cbn [Proofs_Steady.evs all_vals]; [reflexivity|].
    destruct (S s F) as [-> _]. destruct x as [v|]; cbn [bind fst snd]; [|reflexivity]. rewrite IH.
    destruct (all_vals rs); reflexivity.
  Qed.
  Lemma items_steady s l rs : frame touched s0 s -> Forall2 (fun a x => steady a x touched s0) l rs ->
    Proofs_Steady.items globals call outside l s = do vs <- all_vals rs; Ok (vs, s).
  Proof.
    intros F. induction 1 as [|a x l rs S _ IH]; cbn [Proofs_Steady.items all_vals]; [reflexivity|].
    destruct (S s F) as [-> _]. destruct x as [v|]; cbn [bind fst snd item_of]; [|reflexivity]. rewrite IH.
    destruct (all_vals rs); reflexivity.
  Qed.
  Lemma args_vals vs : args_of (map RVal vs) = Ok vs.
  Proof. induction vs as [|v vs IH]; cbn; [reflexivity|]. now rewrite IH. Qed.
  Lemma right_call f a b l s : right_side (ACall (AName f) (a :: b :: l) []) s =
    do p <- ev (ACall (AName f) (a :: b :: l) []) s; Ok (object_of (fst p), snd p).
  Proof. cbn [Spec_FuncRun.right_side]. destruct a; reflexivity. Qed.

  (** V = f(...) *)
  Lemma set_run V p s e (m : option val) (r : res val) : good s -> slot_at V p s ->
    right_side e s = (do v <- r; Ok (OVal v None, s)) -> follows p s (run_stmts [set_to V e] s) None (do v <- r; Ok (Some v)).
  Proof.
    intros G S H. rewrite run_one. unfold set_to. rewrite run_simple_stmt.
    rewrite (slot_assign _ _ _ _ V p s e (do v <- r; Ok (OVal v None)) G S) by (rewrite H; now destruct r).
    destruct r as [v|]; cbn [bind follows]; [|reflexivity]. exists (put s p (OVal v None)). split; [reflexivity|].
    apply (done_put V p s G S None (Some v)).
  Qed.

  Section Member.
    Variables (o : reduce_obj val) (j : nat) (row : val) (v : rparts).
    Hypothesis J : j < n.
    Notation r := (red_at j).
    Hypothesis PO : parts_ok r v.
    Hypothesis ME : means o row r v.
    Notation V := (slot mode j).

    Lemma at_loc k s st : inv k s st -> exists l, loc_of s (pl j) = Some l /\ obj_at s l = obj_for (miss j) (st j).
    Proof.
      intros (_ & _ & _ & I). destruct (I j J) as [Iv _]. unfold view in Iv. destruct (loc_of s (pl j)) as [l|]; [|discriminate].
      exists l. cbn in Iv. injection Iv as Iv. auto.
    Qed.
    (** an additional argument the reducer does not use *)
    Lemma extra_steady b s : p_op r = ABuiltin b -> frame touched s0 s ->
      (forall D t, exists x, incl D touched -> frame touched s0 t -> steady (extra_of r) x D t) ->
      exists x, steady (extra_of r) x [pl j; dd] s /\ (needs_extra b = true -> x = extra_val v).
    Proof.
      intros B F C. unfold extra_of, extra_val in *. pose proof (po_extras _ _ PO) as H. pose proof (po_extra _ _ PO) as N. rewrite B in N.
      destruct H as [|a x la lx S _].
      - destruct (C [pl j; dd] s) as [x X]. exists x. split; [apply X; [now apply incl_slot|exact F]|]. intros E. now apply N in E.
      - exists x. split; [|reflexivity]. cbn [nth]. apply steady_at; auto. now apply incl_slot.
    Qed.
    Hypothesis CX : forall D t, exists x, incl D touched -> frame touched s0 t -> steady (extra_of r) x D t.

    Lemma follow_sim k s st q c : inv k s st -> follows (pl j) s q (miss j) c -> (forall c', c = Ok c' -> ok j c') ->
      sim k q (do c <- c; Ok (upd st j c)).
    Proof.
      intros I F O. destruct c as [c|e]; cbn in *; [|exact F]. destruct F as (s' & -> & D). exists s'. split; [reflexivity|].
      eapply inv_step; eauto.
    Qed.

    Lemma member_first k s st : inv k s st ->
      sim k (run_stmts (first_of V r) s) (do c <- run_init_cell o (st j) row; Ok (upd st j c)).
    Proof.
      intros I. destruct (at_loc k s st I) as (l & L & O). pose proof I as (G & F & _ & I'). destruct (I' j J) as [_ OK]. clear I'.
      pose proof (slot_now j s J F) as SV. pose proof (po_expr _ _ PO) as SE.
      pose proof (steady_at _ _ s [pl j; dd] SE F (incl_slot j J)) as SE'.
      unfold run_init_cell, first_of. pose proof (me_red _ _ _ _ ME) as MR. pose proof (me_initial _ _ _ _ ME) as MI.
      rewrite (me_expr _ _ _ _ ME), (extra_means _ _ _ _ ME). rewrite MI. unfold miss, ok in *.
      pose proof (po_initial _ _ PO) as PI.
      destruct (p_op r) as [b|f] eqn:OP; destruct (red o) as [b'|g] eqn:RED; try contradiction.
      - subst b'. destruct (extra_steady b s OP F CX) as (x & SX & XE). destruct OK as [CK DK].
        assert (XQ : needs_extra b = false \/ x = extra_val v) by (destruct (needs_extra b); auto).
        destruct (p_initial r) as [z|] eqn:IN; destruct (v_initial v) as [vz|]; try contradiction.
        + destruct PI as [SZ IZ]. replace (reduce_stmt b vz (st j) (v_expr v) (extra_val v)) with (reduce_stmt b vz (st j) (v_expr v) x).
          2:{ destruct XQ as [N| ->]; [now apply reduce_extra|reflexivity]. }
          apply (follow_sim k s); [exact I| |].
          * unfold miss. rewrite OP. eapply init_run; eauto.
            -- apply (steady_at _ _ s [pl j; dd] SZ F (incl_slot j J)).
            -- intros t w y Ft. apply IZ. eapply frame_trans; [exact F|]. eapply frame_more; [|exact Ft]. now apply incl_slot.
            -- intros E. apply DK; [exact E|discriminate].
          * intros c' E. unfold ok. rewrite OP, IN. split.
            -- destruct c' as [w|]; [|exact Logic.I]. eapply Props_Loop.shape_reduce; eauto.
            -- intros -> _. rewrite DK in E by (auto; discriminate). eapply dsn_none; eauto.
        + replace (do c' <- init_stmt b (v_expr v) (extra_val v); Ok match c' with Some _ => c' | None => st j end)
            with (do c' <- init_stmt b (v_expr v) x; Ok match c' with Some _ => c' | None => st j end).
          2:{ destruct XQ as [N| ->]; [now rewrite (init_extra b _ x (extra_val v))|reflexivity]. }
          apply (follow_sim k s); [exact I| |].
          * unfold miss. rewrite OP. eapply first_run; eauto. now apply free_now.
          * intros c' E. unfold ok. rewrite OP, IN. split; [|intros _ X; now elim X].
            destruct (init_stmt b (v_expr v) x) as [[w|]|] eqn:W; cbn in E; try discriminate E; injection E as <-; [|exact CK].
            cbn. eapply Props_Loop.shape_init; eauto.
      - unfold run_init. rewrite RED, MI.
        assert (XX : eval_all (extras o) row = all_vals (v_extras v)) by (rewrite eval_all_vals, (me_extras _ _ _ _ ME); reflexivity).
        rewrite (me_expr _ _ _ _ ME). pose proof (po_extras _ _ PO) as PX. pose proof (me_extras _ _ _ _ ME) as MX.
        assert (OKF : forall c', ok j c') by (intros c'; unfold ok; now rewrite OP).
        destruct (p_initial r) as [z|] eqn:IN; destruct (v_initial v) as [vz|]; try contradiction.
        + destruct PI as [SZ _]. rewrite XX.
          replace (do i' <- vz; do e <- v_expr v; do xs <- all_vals (v_extras v); do w <- g i' e xs; Ok (Some w))
            with (do w <- (do i' <- vz; do e <- v_expr v; do xs <- all_vals (v_extras v); g i' e xs); Ok (Some w)).
          2:{ destruct vz; [|reflexivity]. destruct (v_expr v); [|reflexivity]. cbn. now destruct (all_vals (v_extras v)). }
          apply (follow_sim k s); [exact I| |auto].
          unfold miss. rewrite OP. apply set_run; [exact None|exact G|exact SV|].
          rewrite right_call, Proofs_Steady.ev_call.
          pose proof (po_func _ _ PO) as PF. rewrite OP in PF. rewrite (PF s F).
          rewrite (evs_steady s (z :: p_expr r :: p_extras r) (vz :: v_expr v :: v_extras v) F) by (constructor; [exact SZ|constructor; [exact SE|exact PX]]).
          cbn [all_vals]. destruct vz as [i|]; [|reflexivity]. destruct (v_expr v) as [e|]; [|reflexivity]. cbn [bind].
          destruct (all_vals (v_extras v)) as [xs|]; [|reflexivity]. cbn [bind fst snd]. rewrite args_vals. cbn [bind]. rewrite MR.
          destruct (call f (i :: e :: xs)); reflexivity.
        + assert (NX : match extras o with [] => p_extras r = [] | _ => p_extras r <> [] end).
          { rewrite <- MX in PX. destruct (extras o); inversion PX; congruence. }
          destruct (extras o) as [|x0 xl] eqn:EX.
          * rewrite NX. apply (follow_sim k s); [exact I| |auto]. unfold miss. rewrite OP.
            apply set_run; [exact None|exact G|exact SV|]. apply (proj2 (SE s F)).
          * rewrite XX.
            replace (do e <- v_expr v; do xs <- all_vals (v_extras v); Ok (Some (VTuple (e :: xs))))
              with (do w <- (do e <- v_expr v; do xs <- all_vals (v_extras v); Ok (VTuple (e :: xs))); Ok (Some w)).
            2:{ destruct (v_expr v); [|reflexivity]. cbn. now destruct (all_vals (v_extras v)). }
            apply (follow_sim k s); [exact I| |auto]. unfold miss. rewrite OP.
            destruct (p_extras r) as [|a la] eqn:PE; [now elim NX|].
            apply set_run; [exact None|exact G|exact SV|].
            change (right_side (ATuple (p_expr r :: a :: la)) s) with (do p <- ev (ATuple (p_expr r :: a :: la)) s; Ok (object_of (fst p), snd p)).
            rewrite Proofs_Steady.ev_tuple.
            rewrite (items_steady s (p_expr r :: a :: la) (v_expr v :: v_extras v) F) by (constructor; [exact SE|exact PX]).
            cbn [all_vals]. destruct (v_expr v) as [e|]; [|reflexivity]. cbn [bind].
            destruct (all_vals (v_extras v)) as [xs|]; reflexivity.
    Qed.

    Lemma member_next k s st : inv k s st ->
      sim k (run_stmts (next_of V r) s) (do c <- run_two_cell o (st j) row; Ok (upd st j c)).
    Proof.
      intros I. destruct (at_loc k s st I) as (l & L & O). pose proof I as (G & F & _ & I'). destruct (I' j J) as [IV OK]. clear I'.
      pose proof (slot_now j s J F) as SV. pose proof (po_expr _ _ PO) as SE.
      pose proof (steady_at _ _ s [pl j; dd] SE F (incl_slot j J)) as SE'.
      pose proof (me_red _ _ _ _ ME) as MR. pose proof (po_extras _ _ PO) as PX.
      assert (XX : eval_all (extras o) row = all_vals (v_extras v)) by (rewrite eval_all_vals, (me_extras _ _ _ _ ME); reflexivity).
      unfold miss, ok in *. unfold next_of.
      destruct (p_op r) as [b|f] eqn:OP; destruct (red o) as [b'|g] eqn:RED; try contradiction.
      - subst b'. destruct (extra_steady b s OP F CX) as (x & SX & XE). destruct OK as [CK DK].
        assert (XQ : needs_extra b = false \/ x = extra_val v) by (destruct (needs_extra b); auto).
        assert (E2 : run_two_cell o (st j) row =
          reduce_stmt b (Ok (match st j with Some w => w | None => sentinel end)) (st j) (v_expr v) x).
        { unfold run_two_cell, run_two. rewrite RED, (me_expr _ _ _ _ ME), (extra_means _ _ _ _ ME).
          destruct (st j); (destruct XQ as [N| ->]; [now apply reduce_extra|reflexivity]). }
        rewrite E2. apply (follow_sim k s); [exact I| |].
        + unfold miss. rewrite OP. eapply next_run; eauto.
        + intros c' E. unfold ok. rewrite OP. split.
          * destruct c' as [w|]; [|exact Logic.I]. eapply Props_Loop.shape_reduce; eauto.
          * intros -> NI. rewrite DK in E by auto. eapply dsn_none; eauto.
      - assert (OKF : forall c', ok j c') by (intros c'; unfold ok; now rewrite OP).
        assert (E2 : run_two_cell o (st j) row =
          do w <- (do e <- v_expr v; do xs <- all_vals (v_extras v); g (match st j with Some w => w | None => sentinel end) e xs); Ok (Some w)).
        { unfold run_two_cell, run_two. rewrite RED, (me_expr _ _ _ _ ME), XX.
          destruct (st j); (destruct (v_expr v); [|reflexivity]; cbn; now destruct (all_vals (v_extras v))). }
        rewrite E2. apply (follow_sim k s); [exact I| |auto].
        unfold miss. rewrite OP. apply set_run; [exact None|exact G|exact SV|].
        rewrite right_call, Proofs_Steady.ev_call.
        pose proof (po_func _ _ PO) as PF. rewrite OP in PF. rewrite (PF s F).
        cbn [Proofs_Steady.evs]. rewrite (slot_ev globals call outside V (pl j) s _ SV IV).
        replace (rv_of (obj_for None (st j))) with (Ok (match st j with Some w => RVal w | None => RSent end)) by (now destruct (st j)).
        cbn [bind fst snd].
        pose proof (evs_steady s (p_expr r :: p_extras r) (v_expr v :: v_extras v) F) as EV. cbn [Proofs_Steady.evs] in EV. rewrite EV by (constructor; [exact SE|exact PX]).
        cbn [all_vals]. destruct (v_expr v) as [e|]; [|reflexivity]. cbn [bind].
        destruct (all_vals (v_extras v)) as [xs|]; [|reflexivity]. cbn [bind fst snd args_of map]. rewrite args_vals. rewrite MR.
        destruct (st j) as [w|]; cbn [bind arg_of args_of fst snd].
        + destruct (call f (w :: e :: xs)); reflexivity.
        + unfold sentinel. destruct (call f (VObj 0 :: e :: xs)); reflexivity.
    Qed.
  End Member.

  (** *** the reduces of a block *)
  Variable row : val.
  Variable sem : string -> val -> res bool.
  Definition member_ok (m : @member val) : Prop :=
    m_var m < n /\ red_at (m_var m) = reds (m_bit m) /\
    (exists v, parts_ok (reds (m_bit m)) v /\ means (obj (m_item m)) row (reds (m_bit m)) v) /\
    (forall D t, exists x, incl D touched -> frame touched s0 t -> steady (extra_of (reds (m_bit m))) x D t).
  Lemma firsts_run k l : Forall member_ok l -> forall s st, inv k s st ->
    sim k (run_stmts (firsts mode reds l) s) (exec_inits l st row).
  Proof.
    induction 1 as [|m l (J & RA & (v & PO & ME) & CX) _ IH]; intros s st I; cbn [firsts flat_map exec_inits].
    - exists s. split; [reflexivity|exact I].
    - rewrite run_app. rewrite <- RA in *. pose proof (member_first (obj (m_item m)) (m_var m) row v J PO ME CX k s st I) as S.
      unfold slot_of. destruct (run_init_cell (obj (m_item m)) (st (m_var m)) row) as [c|e]; cbn [bind sim] in S |- *.
      + destruct S as (s' & -> & I'). cbn [bind fst snd]. exact (IH s' _ I').
      + rewrite S. reflexivity.
  Qed.
  Lemma nexts_run k l : Forall member_ok l -> forall s st, inv k s st ->
    sim k (run_stmts (nexts mode reds l) s) (exec_twos l st row).
  Proof.
    induction 1 as [|m l (J & RA & (v & PO & ME) & CX) _ IH]; intros s st I; cbn [nexts flat_map exec_twos].
    - exists s. split; [reflexivity|exact I].
    - rewrite run_app. rewrite <- RA in *. pose proof (member_next (obj (m_item m)) (m_var m) row v J PO ME CX k s st I) as S.
      unfold slot_of. destruct (run_two_cell (obj (m_item m)) (st (m_var m)) row) as [c|e]; cbn [bind sim] in S |- *.
      + destruct S as (s' & -> & I'). cbn [bind fst snd]. exact (IH s' _ I').
      + rewrite S. reflexivity.
  Qed.

  (** *** blocks *)
  Definition cond_ok (b : @block val) : Prop :=
    match p_cond (reds (m_bit (bhead b))) with
    | None => test sem b row = Ok true
    | Some c => exists x, steady c x touched s0 /\ test sem b row = (do v <- x; Ok (truthy v))
    end.
  Definition block_ok (b : @block val) : Prop := cond_ok b /\ Forall member_ok (members b).
  Lemma guarded_run b body s : cond_ok b -> frame touched s0 s ->
    run_stmts (guarded reds b body) s = do go <- test sem b row; if (go : bool) then run_stmts body s else Ok (s, false).
  Proof.
    unfold cond_ok, guarded. destruct (p_cond (reds (m_bit (bhead b)))) as [c|].
    - intros (x & S & ->) F. rewrite run_one, run_if1. destruct (S s F) as [-> _]. destruct x as [v|]; [|reflexivity]. cbn [bind fst snd is_true].
      destruct (truthy v); [reflexivity|]. apply run_nil.
    - intros -> _. reflexivity.
  Qed.
  Lemma slot_is o k s st j : (o = "is" \/ o = "is not")%string -> inv k s st -> j < n ->
    ev (cmp o (slot mode j) (name "_none")) s =
    Ok (RVal (VBool (Bool.eqb (match st j with None => true | Some _ => false end) (String.eqb o "is"))), s).
  Proof.
    intros O (G & F & _ & I) J. destruct (I j J) as [IV _]. pose proof (slot_now j s J F) as SV.
    rewrite ev_cmp by (destruct O as [-> | ->]; reflexivity); rewrite (slot_ev globals call outside (slot mode j) (pl j) s _ SV IV).
    replace (rv_of (obj_for (miss j) (st j))) with (Ok (match st j with Some w => RVal w | None => RSent end)) by (now destruct (st j)).
    cbn [bind fst snd]. rewrite (slot_ev globals call outside (name "_none") (PN (T "_none")) s OSent eq_refl (none_now s F)).
    cbn [bind fst snd rv_of]. destruct O as [-> | ->]; destruct (st j); reflexivity.
  Qed.
  Lemma block_run k b s st : mode = false -> block_ok b -> inv k s st ->
    sim k (run_stmts (block_stmts mode reds b) s) (exec_block sem b st row).
  Proof.
    intros M [C A] I. pose proof I as (_ & F & _). unfold block_stmts, exec_block. rewrite (guarded_run b _ s C F).
    destruct (test sem b row) as [[]|e]; cbn [bind]; [|exists s; now split|reflexivity].
    assert (J : m_var (bhead b) < n) by (inversion A; subst; apply H1).
    rewrite run_one, run_if1. unfold slot_of. rewrite (slot_is "is" k s st _ (or_introl eq_refl) I J).
    cbn [bind fst snd is_true truthy]. replace (checksum_stmts mode b) with (@nil stmt) by (unfold checksum_stmts; now rewrite M). rewrite app_nil_r.
    destruct (st (m_var (bhead b))).
    - change (Bool.eqb false ("is" =? "is")%string) with false. cbv iota. now apply nexts_run.
    - change (Bool.eqb true ("is" =? "is")%string) with true. cbv iota. now apply firsts_run.
  Qed.
  Lemma blocks_run k bs : mode = false -> Forall block_ok bs -> forall s st, inv k s st ->
    sim k (run_stmts (body_stmts mode reds bs) s) (exec_blocks sem bs st row).
  Proof.
    intros M. induction 1 as [|b bs B _ IH]; intros s st I; cbn [body_stmts flat_map exec_blocks].
    - exists s. now split.
    - rewrite run_app. pose proof (block_run k b s st M B I) as S.
      destruct (exec_block sem b st row) as [st'|e]; cbn [bind sim] in S |- *.
      + destruct S as (s' & -> & I'). cbn [bind fst snd]. exact (IH s' _ I').
      + rewrite S. reflexivity.
  Qed.
  Lemma later_run k bs : Forall block_ok bs -> forall s st, inv k s st ->
    sim k (run_stmts (later_body mode reds bs) s) (exec_no_init sem bs st row).
  Proof.
    induction 1 as [|b bs [C A] _ IH]; intros s st I; cbn [later_body flat_map exec_no_init].
    - exists s. now split.
    - rewrite run_app. unfold later_stmts. pose proof I as (_ & F & _). rewrite (guarded_run b _ s C F).
      destruct (test sem b row) as [[]|e]; cbn [bind]; [| |reflexivity].
      + pose proof (nexts_run k (members b) A s st I) as S. destruct (exec_twos (members b) st row) as [st'|e]; cbn [bind sim] in S |- *.
        * destruct S as (s' & -> & I'). cbn [bind fst snd]. exact (IH s' _ I').
        * rewrite S. reflexivity.
      + cbn [bind fst snd]. exact (IH s st I).
  Qed.

  (** *** the checksum *)
  Definition counted (c : N) : option object := Some (OVal (VInt (Z.of_N c)) None).
  Variable expected : N.
  Hypothesis EX : mode = true -> view s0 (PN (T "expected_checksum_")) = counted expected.
  Hypothesis ET : ~ In (PN (T "expected_checksum_")) touched.
  Lemma lor_of_N a b : Z.lor (Z.of_N a) (Z.of_N b) = Z.of_N (N.lor a b).
  Proof. destruct a, b; reflexivity. Qed.
  Lemma eq_of_N a b : py_eq (VInt (Z.of_N a)) (VInt (Z.of_N b)) = N.eqb a b.
  Proof.
    unfold py_eq. cbn. destruct (N.eqb_spec a b) as [-> |H]; [apply Z.eqb_refl|]. apply Z.eqb_neq. intros X. apply H. now apply N2Z.inj.
  Qed.
  Lemma cmp_eq x y : compare (T "==") x y = needs x (fun a => needs y (fun b => Ok (py_eq a b))).
  Proof. reflexivity. Qed.
  Lemma or_run c f s st : inv (counted c) s st ->
    exists s', run_simple (Spec_Stmt.SOr (name "checksum_") (ANum f)) s = Ok (s', false) /\ inv (counted (N.lor c f)) s' st.
  Proof.
    intros (G & F & K & I). cbn [Spec_FuncRun.run_simple].
    assert (L : exists l, loc_of s chk = Some l /\ obj_at s l = OVal (VInt (Z.of_N c)) None).
    { unfold view, counted in K. destruct (loc_of s chk) as [l|]; [|discriminate]. cbn in K. injection K as K. eauto. }
    destruct L as (l & L & O).
    rewrite (slot_change globals call outside (name "checksum_") chk s _ l eq_refl L). rewrite O.
    rewrite ev_num. cbn [bind fst snd needs Spec_Stmt.bit_or on]. rewrite lor_of_N.
    assert (ND : chk <> dd) by (intros X; apply PN_inj in X; discriminate X).
    assert (NS : obj_at s l <> OSent) by (rewrite O; discriminate).
    pose proof (frame_store s l (OVal (VInt (Z.of_N (N.lor c f))) None) chk G ND L NS) as FS.
    eexists. split; [reflexivity|]. split; [eapply good_store; eauto|]. split.
    { eapply frame_trans; [exact F|]. eapply frame_more; [|exact FS]. intros q [<-|[<-|[]]]; [now left|right; now left]. }
    split; [now apply view_store_same|]. intros j J. destruct (I j J) as [IV IO]. split; [|exact IO]. rewrite <- IV. apply FS.
    intros [X|[X|[]]]; symmetry in X; [now apply (PLC j)|now apply (PLD j)].
  Qed.
  Definition simA (r : res (state * bool)) (m : res (cells * N * bool)) : Prop :=
    match m with
    | Err e => r = Err e
    | Ok (st, c, br) => exists s, r = Ok (s, br) /\ inv (counted c) s st
    end.
  Lemma agg_run bs : mode = true -> Forall block_ok bs -> forall s st c, inv (counted c) s st ->
    simA (run_stmts (body_stmts mode reds bs) s) (exec_agg sem bs expected st c row).
  Proof.
    intros M. induction 1 as [|b bs [C A] _ IH]; intros s st c I; cbn [body_stmts flat_map exec_agg].
    - exists s. now split.
    - rewrite run_app. pose proof I as (_ & F & _). unfold block_stmts. rewrite (guarded_run b _ s C F).
      destruct (test sem b row) as [[]|e]; cbn [bind]; [| |reflexivity].
      2:{ cbn [fst snd]. exact (IH s st c I). }
      assert (J : m_var (bhead b) < n) by (inversion A; subst; apply H1).
      rewrite run_one, run_if1. unfold slot_of. rewrite (slot_is "is" _ s st _ (or_introl eq_refl) I J).
      cbn [bind fst snd is_true truthy].
      destruct (st (m_var (bhead b))) eqn:HD;
        [change (Bool.eqb false ("is" =? "is")%string) with false|change (Bool.eqb true ("is" =? "is")%string) with true]; cbv iota.
      + pose proof (nexts_run _ (members b) A s st I) as S. destruct (exec_twos (members b) st row) as [st'|e]; cbn [bind sim] in S |- *.
        * destruct S as (s' & -> & I'). cbn [bind fst snd]. exact (IH s' _ c I').
        * rewrite S. reflexivity.
      + rewrite run_app. pose proof (firsts_run _ (members b) A s st I) as S. destruct (exec_inits (members b) st row) as [st'|e]; cbn [bind sim] in S |- *.
        2:{ rewrite S. reflexivity. }
        destruct S as (s' & -> & I'). cbn [bind fst snd]. replace (checksum_stmts mode b) with
          [if_ (cmp "is not" (slot_of mode (bhead b)) (name "_none"))
             [Spec_Stmt.Simple (Spec_Stmt.SOr (name "checksum_") (ANum (flag b)));
              if_ (cmp "==" (name "checksum_") (name "expected_checksum_")) [Spec_Stmt.Simple Spec_Stmt.SBreak] []] []]
          by (unfold checksum_stmts; now rewrite M).
        rewrite run_one, run_if1. unfold slot_of. rewrite (slot_is "is not" _ s' st' _ (or_intror eq_refl) I' J).
        cbn [bind fst snd is_true truthy].
        destruct (st' (m_var (bhead b))) as [w|].
        2:{ change (Bool.eqb true ("is not" =? "is")%string) with false. cbv iota. rewrite run_nil. exact (IH s' st' c I'). }
        destruct (or_run c (flag b) s' st' I') as (s2 & R2 & I2).
        change (Bool.eqb false ("is not" =? "is")%string) with true. cbv iota.
        rewrite run_cons, run_simple_stmt, R2. cbn [bind fst snd]. rewrite run_one, run_if1.
        pose proof I2 as (_ & F2 & K2 & _).
        rewrite ev_cmp by reflexivity; rewrite (slot_ev globals call outside (name "checksum_") chk s2 _ eq_refl K2). cbn [bind fst snd rv_of].
        assert (E2 : view s2 (PN (T "expected_checksum_")) = counted expected) by (rewrite <- EX by exact M; now apply F2).
        rewrite (slot_ev globals call outside (name "expected_checksum_") (PN (T "expected_checksum_")) s2 _ eq_refl E2). cbn [bind fst snd rv_of].
        rewrite cmp_eq. cbn [needs bind fst snd]. rewrite eq_of_N.
        destruct (N.eqb (N.lor c (flag b)) expected); cbn [is_true truthy bind].
        * rewrite run_one. cbn. exists s2. now split.
        * rewrite run_nil. cbn [bind fst snd]. exact (IH s2 st' _ I2).
  Qed.
End Sim.
