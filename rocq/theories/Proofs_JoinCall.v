(** Calling the function of a join, and its pairs one by one. *)
From Coq Require Import String Ascii List NArith ZArith Bool Arith Lia.
From Verif Require Proofs_Code.
From Verif Require Import Model_PyVal Model_Join Model_Labels Model_JoinLazy Model_Code Model_Source Model_JoinText Model_JoinFuncs Spec_Tree Spec_Syntax Spec_Source Spec_JoinLazy Spec_GenRun Spec_JoinText Proofs_Join Proofs_GenRun Proofs_JoinCond Proofs_JoinSource Proofs_JoinScope Proofs_JoinRows Proofs_JoinSim Proofs_JoinSimLeft Proofs_JoinStages.
From Verif Require Proofs_JoinWorld.
Import ListNotations.

Lemma var_app_none l l' z : var_at l z = None -> var_at (l ++ l') z = var_at l' z.
Proof. induction l as [|[y v] l IH]; [reflexivity|]. cbn [app var_at]. destruct (teqb z y); [discriminate|exact IH]. Qed.
Lemma var_app_some l l' z v : var_at l z = Some v -> var_at (l ++ l') z = Some v.
Proof. induction l as [|[y w] l IH]; [discriminate|]. cbn [app var_at]. destruct (teqb z y); auto. Qed.
Lemma var_combine (g : text -> pv) ps z : In z ps -> var_at (combine ps (map Some (map g ps))) z = Some (Some (g z)).
Proof.
  induction ps as [|p ps IH]; intros I; [destruct I|]. cbn [map combine var_at]. unfold teqb. destruct (text_eq_dec z p) as [->|NE]; [reflexivity|].
  destruct I as [->|I]; [contradiction|auto].
Qed.
Lemma fst_combine {A B} (l : list A) (l' : list B) : incl (map fst (combine l l')) l.
Proof. revert l'. induction l as [|a l IH]; intros [|b l']; cbn; intros z Z; try contradiction. destruct Z as [->|Z]; [now left|right; now apply IH in Z]. Qed.

Section Call.
  Variable N : jnames.
  Variable h : Model_Join.how.
  Variable cond : option jx.
  Variable opr : text -> list val -> res val.
  Hypothesis CL : clean N cond.
  Hypothesis TX : match cond with Some e => textual e = true | None => True end.
  Notation globals := (module_globals N).
  Notation gfuns := (module_gfuns N h).
  Notation indexers := (module_indexers N h cond opr).
  Notation op := (jop opr).
  Notation nexts := (nexts globals opr gfuns indexers).
  Notation takes := (takes globals opr gfuns indexers).
  Notation calls := (calls globals opr gfuns indexers).

  Lemma cond_args_in a : In a (cond_args cond) <-> In a (all_args cond).
  Proof.
    unfold cond_args, all_args. destruct cond as [e|]; [|reflexivity]. unfold sorted_args. rewrite Proofs_Code.in_sort, nodup_In. cbn [flat_map]. now rewrite app_nil_r.
  Qed.
  Variable fd : func.
  Variable gl : list text.
  Hypothesis FP : f_params fd = T "left" :: T "right" :: cond_args cond.
  Hypothesis FK : f_kwonly fd = [].
  Hypothesis FB : f_body fd = SGlobal gl :: body_stmts N h cond.

  Lemma body_names : incl (assigned (f_body fd)) (stage_names N).
  Proof.
    rewrite FB. unfold body_stmts, pipe_stmts, left_stmts, stage_names. cbn [assigned flat_map app]. fold (assigned).
    intros z Z. destruct (pre (cs_of h cond)); [destruct (how' h)|]; cbn in Z; try contradiction.
    destruct (left_hash (cs_of h cond)), (lfilters h cond); cbn in *; tauto.
  Qed.
  Lemma not_gen : is_generator fd = false.
  Proof.
    unfold is_generator. rewrite FB. unfold body_stmts, pipe_stmts, left_stmts. destruct (pre (cs_of h cond)); [destruct (how' h)|]; cbn; try reflexivity.
    destruct (left_hash (cs_of h cond)), (lfilters h cond); reflexivity.
  Qed.

  Theorem call_runs x m args ls0 : call_args cond x m args -> exists m1,
    match jcall_out op h cond x ls0 with
    | (_, CRaise e) => calls fd args m m1 (Err e)
    | (_, CValue _) => calls fd args m m1 (Ok (Coll []))
    | (ls, CGenerator (y, s)) => y = x /\ exists it, calls fd args m m1 (Ok it) /\ behaves N h cond opr x it m1 s ls
    end.
  Proof.
    intros (lv & rv & -> & GL & RA & DI).
    set (g := fun a => Val (c_inputs x (string_of_list_ascii (map ascii_of_N a)))).
    set (vs := combine (f_params fd) (map Some (lv :: rv :: map g (cond_args cond))) ++ map (fun z => (z, None)) (assigned (f_body fd))).
    set (f := nframes m). set (m0 := snd (new_frame m (mkFrame vs [] None))).
    assert (FR : frames m0 f = mkFrame vs [] None) by (unfold m0, f; cbn; apply at_same).
    assert (VS : vs = (T "left", Some lv) :: (T "right", Some rv) :: combine (cond_args cond) (map Some (map g (cond_args cond))) ++ map (fun z => (z, None)) (assigned (f_body fd))).
    { unfold vs. rewrite FP. reflexivity. }
    pose proof CL as (ND & _ & DA & DF).
    assert (R0 : In (T "left") (reserved N)) by (change (T "left") with (res_at N 0); apply res_in; lia).
    assert (R1 : In (T "right") (reserved N)) by (change (T "right") with (res_at N 1); apply res_in; lia).
    assert (ST : incl (stage_names N) (reserved N)) by (intros z Z; unfold reserved; apply in_app_iff; right; apply in_app_iff; now right).
    assert (NONE : forall z, z <> T "left" -> z <> T "right" -> ~ In z (all_args cond) -> ~ In z (stage_names N) -> look m0 [f] z = None).
    { intros z A B C D. cbn [look]. rewrite FR. cbn [vars]. rewrite VS. cbn [var_at]. rewrite !teqb_neq by assumption. rewrite var_app_none.
      - rewrite var_none; [reflexivity|]. rewrite map_map. cbn [fst]. rewrite map_id. intros X. apply D. now apply body_names.
      - apply var_none. intros X. apply fst_combine in X. apply C. now apply cond_args_in. }
    assert (GV : given N cond x f lv rv m0).
    { split; [|split; [|split; [|exact DI]]].
      - split; [unfold f; cbn; lia|]. split; [split; [|split]|split].
        + intros a I. cbn [look]. rewrite FR. cbn [vars]. rewrite VS. cbn [var_at].
          rewrite teqb_neq by (intros X; apply (proj1 (DA _ I)); now rewrite X). rewrite teqb_neq by (intros X; apply (proj1 (DA _ I)); now rewrite X).
          rewrite var_app_some with (v := Some (g (T a))).
          * unfold g. now rewrite T_back.
          * apply var_combine. now apply cond_args_in.
        + intros z I. apply NONE.
          * intros ->. now apply (DF _ I). * intros ->. now apply (DF _ I). * intros X. now apply (proj2 (DA _ X)). * intros X. now apply (DF _ I), ST.
        + intros z I. pose proof (machine_in N z I) as IR. unfold machine in I. apply in_map_iff in I as (j & <- & I). apply NONE.
          * change (T "left") with (res_at N 0). apply (res_neq N cond CL); cbn in I; lia.
          * change (T "right") with (res_at N 1). apply (res_neq N cond CL); cbn in I; lia.
          * intros X. now apply (proj1 (DA _ X)).
          * intros X. unfold stage_names in X. apply in_map_iff in X as (k & E & K). apply in_seq in K. rewrite (pipe_name N k) in E by lia. symmetry in E. revert E. apply (res_neq N cond CL); cbn in I; lia.
        + cbn [look]. rewrite FR. cbn [vars]. rewrite VS. cbn [var_at]. now rewrite teqb_refl.
        + cbn [look]. rewrite FR. cbn [vars]. rewrite VS. cbn [var_at]. rewrite teqb_neq, teqb_refl; [reflexivity|]. change (T "left") with (res_at N 0). change (T "right") with (res_at N 1). apply (res_neq N cond CL); lia.
      - unfold right_arg. destruct (c_once x); [|exact RA]. exact RA.
      - exact GL. }
    destruct (body_runs N h cond opr CL TX x f lv rv m0 ls0 GV) as (m1 & B). exists m1.
    assert (CALL : forall r, execs N h cond opr f (body_stmts N h cond) m0 m1 r -> calls fd (lv :: rv :: map g (cond_args cond)) m m1 r).
    { intros r E. apply (execs_global N h cond opr f gl) in E. destruct E as [K E]. exists K. intros n LE. unfold call_of. rewrite FK, not_gen.
      replace (Nat.eqb _ _) with true by (symmetry; apply Nat.eqb_eq; rewrite FP; cbn [length]; now rewrite map_length). cbn [andb negb].
      change (exec globals opr gfuns indexers n f (f_body fd) m0 = Some (m1, r)). rewrite FB. now apply E. }
    destruct (jcall_out op h cond x ls0) as [ls [v|[y s]|e]]; [now apply CALL| |now apply CALL].
    destruct B as (-> & it & B1 & B2). split; [reflexivity|]. exists it. split; [now apply CALL|exact B2].
  Qed.

  (** the pairs *)
  Lemma behaves_takes x it ps : forall n m s ls o, behaves N h cond opr x it m s ls ->
    Proofs_JoinWorld.nexts op h cond (c_inputs x) (S n) s ls = yields ps ++ [o] ->
    exists g, as_out o = Some g /\ takes (S n) it m (map as_item ps ++ [g]).
  Proof.
    induction ps as [|p ps IH]; intros n m s ls o (inv & I & ST) E; destruct (ST m s ls I) as (m' & r & NX & OC); cbn [Proofs_JoinWorld.nexts] in E;
      destruct (next_pair op h cond (c_inputs x) s ls) as [ls' [v s'| |e]]; cbn [outcome yields map app] in *.
    - destruct OC as ([a b] & -> & -> & I'). destruct n as [|n]; [|cbn [Proofs_JoinWorld.nexts] in E; destruct (next_pair op h cond (c_inputs x) s' ls') as [? [| |]]; discriminate E].
      injection E as <-. eexists. split; [reflexivity|]. cbn [map app takes]. eauto.
    - injection E as <- E. destruct n as [|n]; [|discriminate E]. eexists. split; [reflexivity|]. subst r. cbn [map app takes]. eauto.
    - injection E as <- E. destruct n as [|n]; [|discriminate E]. eexists. split; [reflexivity|]. subst r. cbn [map app takes]. eauto.
    - destruct OC as (q & -> & -> & I'). injection E as -> E. destruct n as [|n]; [destruct ps; discriminate E|].
      destruct (IH n m' s' ls' o (ex_intro _ inv (conj I' ST)) E) as (g & G & TK). exists g. split; [exact G|]. cbn [map app]. cbn [Spec_GenRun.takes]. exists m'. split; [destruct p; exact NX|exact TK].
    - discriminate E.
    - discriminate E.
  Qed.
  Lemma no_next_coll l m s ls x : ~ behaves N h cond opr x (Coll l) m s ls.
  Proof. intros (inv & I & ST). destruct (ST m s ls I) as (m' & r & [K NX] & _). specialize (NX (S K) ltac:(lia)). discriminate NX. Qed.

  Notation run := (Model_Labels.run (jcall_out op h cond) (jresume op h cond) jclose).
  Notation outs ops := (snd (run Model_Labels.world0 ops)).
  Notation outs_from w ops := (snd (run w ops)).
  Theorem call_takes x m args : call_args cond x m args -> exists m1 r, calls fd args m m1 r /\
    match r with
    | Err e => outs [Call x] = [ORaise e]
    | Ok (Coll l) => l = [] /\ outs [Call x] = [OValue LEmpty]
    | Ok it => outs [Call x] = [OGenerator] /\
        forall n ps o, outs (Call x :: repeat (Next 0) (S n)) = OGenerator :: yields ps ++ [o] ->
        exists g, as_out o = Some g /\ takes (S n) it m1 (map as_item ps ++ [g])
    end.
  Proof.
    intros A. destruct (call_runs x m args (@nil _) A) as (m1 & C). exists m1.
    assert (V : forall l v, jcall_out op h cond x (@nil _) = (l, CValue v) -> v = LEmpty).
    { intros l v. unfold jcall_out. destruct (ev_all _ _ _) as [[|]|]; try congruence. destruct (left_hash _); [discriminate|]. destruct (index_passing _ _ _ _); discriminate. }
    assert (RUN : forall l, outs (Call x :: l) = match jcall_out op h cond x [] with
      | (ls, CValue v) => OValue v :: outs_from (mkW (clear_labels ls) []) l
      | (ls, CRaise e) => ORaise e :: outs_from (mkW (clear_labels ls) []) l
      | (ls, CGenerator s) => OGenerator :: outs_from (mkW ls [Unstarted s]) l end).
    { intros l. cbn [Model_Labels.run Model_Labels.step store gens world0 fst]. destruct (jcall_out op h cond x []) as [ls [v|[y s]|e]]; cbn [app fst]; 
      match goal with |- context [Model_Labels.run _ _ _ ?w l] => destruct (run w l) as [w1 xs] eqn:R end; cbn [snd]; f_equal; exact (eq_sym (f_equal snd R)). }
    destruct (jcall_out op h cond x (@nil _)) as [ls [v|[y s]|e]] eqn:J.
    - exists (Ok (Coll [])). split; [exact C|]. split; [reflexivity|]. rewrite RUN. now rewrite (V _ _ eq_refl).
    - destruct C as (-> & it & C & B). exists (Ok it). split; [exact C|].
      assert (NC : forall l, it <> Coll l) by (intros l ->; now apply no_next_coll in B).
      match goal with |- match it with Obj _ => ?Q | _ => _ end => assert (Q0 : Q); [|destruct it; try exact Q0; now destruct (NC l)] end.
      split; [now rewrite RUN|]. intros n ps o. rewrite RUN. intros E. apply (f_equal (@tl _)) in E. unfold tl in E.
      pose proof (Proofs_JoinWorld.run_nexts op h cond (S n) (mkW ls [Unstarted (x, s)]) 0 x s ltac:(now left)) as RN.
      rewrite E in RN. eapply behaves_takes; [exact B|]. symmetry. exact RN.
    - exists (Err e). split; [exact C|now rewrite RUN].
  Qed.
End Call.
