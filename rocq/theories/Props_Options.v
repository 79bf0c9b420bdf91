(** Property theorems C04, C05, C06 (option contexts). *)
From Coq Require Import String List Bool Arith Lia.
From Verif Require Import Model_Options Spec_Options Proofs_Options.
Import ListNotations.
Local Open Scope string_scope.

(** C04 (part 1).  For every properly nested program with at most two blocks
    open at a time - any number of blocks one after another, any assignments
    and to_defaults calls to any of the option objects, at any point - all
    reads give what a stack of option maps gives; in particular leaving a
    block restores what was visible before it. *)
Theorem C04_contexts_refine_stack_partial :
  forall (Val : Type) (defaults : list (string * Val)) (ops : list (op Val)),
    NoDup (map fst defaults) ->
    nested (fun n => In n (map fst defaults)) 2 0 ops ->
    snd (run defaults ops tls0) = snd (srun (assoc defaults) ops s0).
Proof. intros; apply refine_lemma; assumption. Qed.
Print Assumptions C04_contexts_refine_stack_partial.

(** C04 (part 2).  At any depth and in any state, a block whose body opens no
    further block leaves the current option object as it was. *)
Theorem C04_leaf_block_restores_partial :
  forall (Val : Type) (defaults : list (string * Val)) (s : tls) (body : list (op Val)),
    Forall no_block body ->
    options (fst (run defaults (Enter :: body ++ [Exit])%list s)) = options s.
Proof. intros; apply leaf_restores; assumption. Qed.
Print Assumptions C04_leaf_block_restores_partial.

(** C04 as stated is false: with three nested blocks the options of the
    outermost block are gone after the second one ends. *)
Theorem C04_restore_refuted :
  exists (defaults : list (string * nat)) (ops : list (op nat)),
    NoDup (map fst defaults) /\
    nested (fun n => In n (map fst defaults)) 3 0 ops /\
    snd (run defaults ops tls0) <> snd (srun (assoc defaults) ops s0).
Proof.
  exists [("max_pipe_length", 100)],
    [Enter; Assign 0 "max_pipe_length" 500; Enter; Enter; Exit; Exit;
     Read "max_pipe_length"].
  split; [repeat constructor; intuition|]. split; [simpl; intuition|].
  vm_compute. discriminate.
Qed.
Print Assumptions C04_restore_refuted.

(** C05.  After any history, entering a block makes every declared option have
    the value that was visible before; the option object of the new block is a
    new one; and changing one option object changes no other. *)
Theorem C05_inherit_inwards_no_leak :
  forall (Val : Type) (defaults : list (string * Val)) (ops : list (op Val)),
    let s := fst (run defaults ops tls0) in
    (forall n, In n (map fst defaults) ->
       get_option_value defaults (enter defaults s) n = get_option_value defaults s n) /\
    options (enter defaults s) = Some (length (objs s)) /\
    (forall h n v j, h <> j ->
       obj (fst (step defaults (Assign h n v) s)) j = obj s j) /\
    (forall h n j, h <> j ->
       obj (fst (step defaults (ToDefaults h n) s)) j = obj s j) /\
    (forall h n v n', h < length (objs s) -> In n' (map fst defaults) ->
       getattr defaults (obj (fst (step defaults (Assign h n v) s)) h) n' =
       if string_dec n' n then Some v else getattr defaults (obj s h) n').
Proof.
  intros Val defaults ops s.
  assert (B : bounded s) by (apply run_bounded, bounded0).
  split; [intros n Hn; apply enter_inherits; [assumption|apply B]|].
  split; [reflexivity|]. split; [|split].
  - intros h n v j Hne. unfold obj. simpl. rewrite nth_update.
    destruct (Nat.eqb_spec h j); [contradiction|reflexivity].
  - intros h n j Hne. unfold obj. simpl. rewrite nth_update.
    destruct (Nat.eqb_spec h j); [contradiction|reflexivity].
  - intros h n v n' Hh Hn'. unfold obj. simpl. rewrite nth_update.
    rewrite Nat.eqb_refl, (proj2 (Nat.ltb_lt _ _) Hh). apply getattr_setattr.
Qed.
Print Assumptions C05_inherit_inwards_no_leak.

(** C06.  Whatever the schedule of operations on all (thread, context class)
    slots, what is read on one slot is what its own operations read when run
    alone. *)
Theorem C06_threads_do_not_interfere :
  forall (Val Slot : Type) (slot_eq : forall a b : Slot, {a = b} + {a <> b})
         (defaults : Slot -> list (string * Val))
         (sched : list (Slot * op Val)) (t : Slot),
    proj slot_eq t (snd (wrun slot_eq defaults sched world0)) =
    snd (run (defaults t) (proj slot_eq t sched) tls0).
Proof.
  intros. pose proof (interleave slot_eq defaults sched world0 t) as H.
  destruct (wrun slot_eq defaults sched world0) as [w' out].
  change (world0 t) with (@tls0 Val) in H.
  destruct (run (defaults t) (proj slot_eq t sched) tls0). apply H.
Qed.
Print Assumptions C06_threads_do_not_interfere.

(** Concrete instances. *)
Example C04_instance :
  let defaults := [("debug", 0); ("max_pipe_length", 100)] in
  let ops := [Enter; Assign 0 "debug" 1; Enter; Read "debug"; Assign 1 "debug" 2;
              Read "debug"; Exit; Read "debug"; Enter; ToDefaults 2 None;
              Read "debug"; Exit; Read "debug"; Exit; Read "debug"] in
  nested (fun n => In n (map fst defaults)) 2 0 ops /\
  snd (run defaults ops tls0) =
    [Some 1; Some 2; Some 1; Some 0; Some 1; Some 0].
Proof. split; [simpl; intuition|reflexivity]. Qed.
Example C06_instance :
  snd (wrun Nat.eq_dec (fun _ => [("debug", 0)])
    [(1, Enter); (2, Enter); (1, Assign 0 "debug" 5); (2, Read "debug");
     (2, Exit); (1, Read "debug")] world0) = [(2, Some 0); (1, Some 5)].
Proof. reflexivity. Qed.
