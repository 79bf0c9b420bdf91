(** C49: conversions compiled in several threads at the same time. *)
From Coq Require Import String List Bool Arith Lia.
From Verif Require Import Model_Heap Spec_Heap Proofs_Heap Model_Compile Spec_Compile Proofs_Compile.
Import ListNotations.

Section C49.
  Context {P : Type}.
  Variable gen : heap P -> nat -> bool -> string -> option string.
  Variable pipe_name : string -> string.

  (** Every schedule: conversions that share no stage with an input link, and whose
      code does not depend on the input links of each other's stages, are compiled as if each thread were
      alone ([gen_converter] of Model_Heap.v); a thread that gets 5 turns per stage
      and one more is done; and when all have succeeded every object is as before.
      Missing from the full property: conversions that share stages. *)
  Theorem C49_compiling_in_threads_partial (h : heap P) (roots : list nat) (idss : list (list nat))
      (schedule : list nat) h' ts' :
    Forall2 (stages_are h) roots idss -> apart h idss -> unseen gen h idss ->
    interleave gen pipe_name schedule h (map called roots) = (h', ts') ->
    (forall k root t, nth_error roots k = Some root -> nth_error ts' k = Some t ->
       (forall lines, t = Compiled lines -> gen_converter gen pipe_name h root = Code h lines) /\
       (t = Raised -> exists h1, gen_converter gen pipe_name h root = GenError h1) /\
       (forall ids, stages_are h root ids -> 5 * length ids + 1 <= turns schedule k ->
          t = Raised \/ exists lines, t = Compiled lines)) /\
    ((forall t, In t ts' -> exists lines, t = Compiled lines) -> h' = h).
  Proof.
    intros F A U E. pose proof (start_inv gen pipe_name h idss roots F) as I.
    destruct (interleave_inv gen pipe_name h idss A U schedule _ _ _ _ I E) as [I' C]. split.
    - intros k root t Hr Ht.
      assert (exists ids, nth_error idss k = Some ids /\ stages_are h root ids) as (ids & Hi & S).
      { clear -F Hr. revert k Hr. induction F; intros [|k] Hr; try discriminate; cbn in *; [injection Hr as <-; eauto|eauto]. }
      pose proof (i_t _ _ _ _ _ _ I' k t ids Ht Hi) as T.
      rewrite (stages_are_sequential gen pipe_name h root ids S). split; [|split].
      + intros lines ->. exact T.
      + intros ->. destruct T as (i & _ & T). eauto.
      + intros ids' S' L. rewrite <- (stages_are_det _ _ _ S _ S') in L.
        assert (Hc : nth_error (map called roots) k = Some (called root)) by (rewrite nth_error_map, Hr; reflexivity).
        specialize (C k (called root) ids t Hc Hi Ht). cbn [cost called length] in C.
        assert (cost ids t = 0) by lia. destruct t; cbn in H; try lia; eauto.
    - intros D. eapply done_heap; eauto. intros a t Ht. apply D. eapply nth_error_In; eauto.
  Qed.



  (** In particular a conversion that is not a pipe may be compiled by any number
      of threads at once. *)
  Corollary C49_single_stage (h : heap P) (root : nat) (o : obj P) (n : nat) (schedule : list nat) h' ts' :
    nth_error h root = Some o -> pred o = None ->
    interleave gen pipe_name schedule h (map called (repeat root n)) = (h', ts') ->
    forall k t lines, nth_error ts' k = Some t -> t = Compiled lines ->
      gen_converter gen pipe_name h root = Code h lines.
  Proof.
    intros Ho Hp E k t lines Ht Hl.
    assert (F : Forall2 (stages_are h) (repeat root n) (repeat [root] n)).
    { clear E. induction n; cbn; constructor; auto. eapply only; eauto. }
    assert (R : forall a ids x, nth_error (repeat [root] n) a = Some ids -> In x ids -> x = root).
    { intros a ids x Ha Hx. apply nth_error_In, repeat_spec in Ha. subst. destruct Hx as [|[]]; auto. }
    destruct (C49_compiling_in_threads_partial h (repeat root n) (repeat [root] n) schedule h' ts' F) as [K _]; auto.
    - intros a b ids ids' x o' _ Ha _ Hx _ Ho'. rewrite (R _ _ _ Ha Hx) in Ho'. congruence.
    - intros a ids x Ha Hx h1 h2 S single input. f_equal. apply heap_ext. intros j.
      destruct (S j) as [?|[[(o' & p & Ho' & Hp') (b & ids' & _ & Hb & Hj)] _]]; auto.
      rewrite (R _ _ _ Hb Hj) in Ho'. congruence.
    - destruct (nth_error (repeat root n) k) as [r|] eqn:Hr.
      + destruct (K k r t Hr Ht) as [K1 _]. apply nth_error_In, repeat_spec in Hr. subst r. auto.
      + exfalso. assert (L : length ts' = n).
        { clear -E. assert (G : forall sched h1 ts1 h2 ts2, interleave gen pipe_name sched h1 ts1 = (h2, ts2) -> length ts2 = length ts1).
          { induction sched as [|x sched IH]; cbn; intros h1 ts1 h2 ts2 Q; [congruence|].
            destruct (nth_error ts1 x); [|eauto]. destruct (step gen pipe_name h1 t). apply IH in Q. now rewrite length_put in Q. }
          apply G in E. rewrite E, map_length, repeat_length. reflexivity. }
        apply nth_error_None in Hr. rewrite repeat_length in Hr.
        assert (k < length ts') by (apply nth_error_Some; congruence). lia.
  Qed.
End C49.

(** A case that meets the hypotheses: two pipes of two stages with a common first
    stage; the code of a stage is made of the payloads of its whole chain. *)
Fixpoint chain_code (n : nat) (h : heap string) (i : nat) (input : string) : string :=
  match n, nth_error h i with
  | S m, Some o => (payload o ++ "(" ++ match pred o with Some p => chain_code m h p input | None => input end ++ ")")%string
  | _, _ => ""%string
  end.
Definition cgen (h : heap string) (i : nat) (_ : bool) (input : string) : option string := Some (chain_code 10 h i input).
Definition shared : heap string := [mkObj None [] "f"; mkObj (Some 0) [] "g"; mkObj (Some 0) [] "k"]%string.
Definition own_code (h : heap string) (i : nat) (_ : bool) (input : string) : option string :=
  match nth_error h i with Some o => Some (payload o ++ "(" ++ input ++ ")")%string | None => None end.
Example C49_case :
  Forall2 (stages_are shared) [1; 2] [[1; 0]; [2; 0]] /\ apart shared [[1; 0]; [2; 0]] /\
  unseen own_code shared [[1; 0]; [2; 0]] /\
  snd (interleave own_code (fun s => s ++ "'")%string
        [0;1; 0;1; 1;0; 1;1;0; 0;0;1;1;0; 0;1;1;0; 0;1;1;0] shared (map called [1; 2])) =
    [Compiled ["f(data_)"; "g(data_')"]; Compiled ["f(data_)"; "k(data_')"]]%string.
Proof.
  split; [|split; [|split]].
  - repeat constructor; (eapply after; [reflexivity..|]; eapply only; reflexivity).
  - intros [|[|[|]]] [|[|[|]]] ids ids' k o D Ha Hb Hk Hk' Ho; cbn in Ha, Hb; try discriminate; try congruence;
      injection Ha as <-; injection Hb as <-; cbn in Hk, Hk'; intuition; subst; try discriminate; cbn in Ho; injection Ho as <-; reflexivity.
  - intros a ids k Ha Hk h1 h2 S single input. unfold own_code. destruct (S k) as [->|[_ E]]; auto.
    destruct (nth_error h1 k), (nth_error h2 k); cbn in E; try discriminate; auto.
    injection E as _ E. now rewrite E.
  - vm_compute. reflexivity.
Qed.

(** The property is false for threads that compile the same pipe f().pipe(g()).
    While one of them generates the last stage, the other one finds it without
    input: its converter applies g to the data. *)
Definition fg : heap string := [mkObj None [] "f"; mkObj (Some 0) [] "g"]%string.
Theorem C49_same_pipe_refuted :
  exists schedule h' lines,
    gen_converter own_code (fun s => s ++ "'")%string fg 1 = Code fg ["f(data_)"; "g(data_')"]%string /\
    interleave own_code (fun s => s ++ "'")%string schedule fg (map called [1; 1]) = (h', [Compiled lines; Compiled ["g(data_)"]])%string /\
    lines = ["f(data_)"; "g(data_')"]%string /\ h' = fg.
Proof.
  exists [0;0; 0;0;0;0; 0;0; 1; 0;0;0; 1;1;1;1;1]. eexists _, _. split; [reflexivity|].
  split; [vm_compute; reflexivity|]. split; reflexivity.
Qed.
(** ... and a thread that reads the link while it is cleared restores "no input":
    afterwards the conversion object itself has lost its first stage for good. *)
Theorem C49_link_lost_refuted :
  exists schedule h' l1 l2,
    interleave own_code (fun s => s ++ "'")%string schedule fg (map called [1; 1]) = (h', [Compiled l1; Compiled l2]) /\
    pipeline fg 1 ["g"; "f"]%string /\ pipeline h' 1 ["g"]%string /\
    gen_converter own_code (fun s => s ++ "'")%string h' 1 = Code h' ["g(data_)"]%string.
Proof.
  exists [0;0;1;1; 0;0;0;0;1;1;1;1; 0;0;1;0;0;1;1;1;0;1]. eexists _, _, _. split; [vm_compute; reflexivity|].
  split; [|split].
  - change "g"%string with (payload (mkObj (Some 0) [] "g"%string)).
    eapply more_stages; [reflexivity..|].
    change "f"%string with (payload (mkObj None [] "f"%string)). eapply one_stage; reflexivity.
  - change "g"%string with (payload (mkObj None [] "g"%string)). eapply one_stage; reflexivity.
  - vm_compute. reflexivity.
Qed.

(** A thread that compiles a conversion containing the pipe meets the same gap:
    h(f().pipe(g())) is compiled as h(g()). *)
Definition nested_code (h : heap string) (i : nat) (single : bool) (input : string) : option string :=
  match nth_error h i with
  | Some o => if String.eqb (payload o) "h" then Some ("h(" ++ chain_code 10 h 1 input ++ ")")%string
              else own_code h i single input
  | None => None
  end.
Theorem C49_nested_refuted :
  let heap0 := (fg ++ [mkObj None [] "h"%string])%list in
  exists schedule h' lines,
    gen_converter nested_code (fun s => s ++ "'")%string heap0 2 = Code heap0 ["h(g(f(data_)))"]%string /\
    interleave nested_code (fun s => s ++ "'")%string schedule heap0 (map called [1; 2]) =
      (h', [Compiled lines; Compiled ["h(g(data_))"]])%string.
Proof.
  exists [0;0; 0;0;0;0; 0;0; 1;1;1;1;1;1; 0;0;0]. eexists _, _. split; [reflexivity|]. vm_compute. reflexivity.
Qed.

Print Assumptions C49_compiling_in_threads_partial.
Print Assumptions C49_single_stage.
Print Assumptions C49_same_pipe_refuted.
Print Assumptions C49_link_lost_refuted.
Print Assumptions C49_nested_refuted.
