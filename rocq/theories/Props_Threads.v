(** C50: compiled converters called from several threads at the same time. *)
From Coq Require Import String List Bool Arith Lia.
From Verif Require Import Model_Threads Spec_Threads Proofs_Threads.
Import ListNotations.
Local Open Scope string_scope.

(** Every schedule of any number of calls, where calls of the same converter
    do not use labels: every call that is over gave what it gives by itself
    (value or exception), and left the labels of its converter empty.
    Missing from the full property: labels in overlapping calls of one converter. *)
Theorem C50_calls_in_threads_partial (V E : Type) (key_error : string -> E) (calls : list (nat * @prog V E))
    (schedule : list nat) :
  own_labels calls ->
  forall k c p r, nth_error calls k = Some (c, p) ->
    nth_error (snd (run key_error schedule (start calls))) k = Some (c, Done r) ->
    gives (fun _ => None) p r /\ fst (run key_error schedule (start calls)) c = [].
Proof.
  intros O k c p r Hc Ht.
  pose proof (run_inv key_error calls O schedule _ (start_inv calls)) as I.
  exact (i_t _ _ I k c p (Done r) Hc Ht).
Qed.

(** ... and every call is over after a number of its own steps that does not depend on
    how the calls are scheduled: no call waits for another. *)
Theorem C50_calls_end_partial (V E : Type) (key_error : string -> E) (calls : list (nat * @prog V E)) :
  own_labels calls ->
  forall k c p, nth_error calls k = Some (c, p) ->
    exists n, forall schedule, n <= count_occ Nat.eq_dec schedule k ->
      exists r, nth_error (snd (run key_error schedule (start calls))) k = Some (c, Done r).
Proof. intros O k c p Hc. exact (start_ends key_error calls O k c p Hc). Qed.

(** Two calls of converter 0, which has no labels, and one of converter 1, which
    stores the label "a" and returns it. *)
Definition echo (x : nat) : @prog nat string :=
  Put "a" x (Work (Get "a" (fun v => match v with Some v => Ret v | None => Raise "KeyError" end))).
Definition plain (x : nat) : @prog nat string := Work (Ret x).
Ltac inv_gives := repeat match goal with H : gives _ _ _ |- _ => cbn in H; inversion H; subst; clear H end.
Example C50_case :
  let calls := [(0, plain 5); (1, echo 7); (0, plain 6)] in
  own_labels calls /\
  snd (run (fun n => n) [0;1;2;0;1;2;2;1;0;1;1;1;1;1] (start calls)) =
    [(0, Done (Value 5)); (1, Done (Value 7)); (0, Done (Value 6))].
Proof.
  split; [|vm_compute; reflexivity].
  intros [|[|[|[|]]]] [|[|[|[|]]]] c p q D Ha Hb; cbn in Ha, Hb; try discriminate; try congruence;
    inversion Ha; inversion Hb; subst; try discriminate; split; repeat constructor.
Qed.

(** False for one converter with labels: of two simultaneous calls with 7 and 8, the
    one with 7 returns 8 ... *)
Theorem C50_labels_refuted : exists schedule,
  snd (run (fun n => n) schedule (start [(0, echo 7); (0, echo 8)])) =
    [(0, Done (Value 8)); (0, Done (Value 8))] /\
  gives (fun _ => None) (echo 7) (Value 7) /\ ~ gives (fun _ => None) (echo 7) (Value 8).
Proof.
  exists [0;1;1;0;1;0;0;0;0;0;0;1;1]. split; [vm_compute; reflexivity|]. split.
  - repeat constructor.
  - unfold echo. intros G. inv_gives.
Qed.
(** ... or raises KeyError because the other call, ending first, has deleted the labels ... *)
Theorem C50_label_deleted_refuted : exists schedule,
  snd (run (fun n => "KeyError") schedule (start [(0, echo 7); (0, echo 8)])) =
    [(0, Done (Exception "KeyError")); (0, Done (Value 8))].
Proof. exists [0;1;1;1;1;1;1;1;1;0;0;0;0]. vm_compute. reflexivity. Qed.
(** ... or has its result replaced by the KeyError of the clean-up itself, when both
    delete the same label. *)
Theorem C50_cleanup_refuted : exists schedule,
  snd (run (fun n => "KeyError") schedule (start [(0, echo 7); (0, echo 7)])) =
    [(0, Done (Value 7)); (0, Done (Exception "KeyError"))] /\
  ~ gives (fun _ => None) (echo 7) (Exception "KeyError").
Proof.
  exists [0;1;0;1;0;1;0;1;0;1;0;1;0;0;1]. split; [vm_compute; reflexivity|].
  unfold echo. intros G. inv_gives.
Qed.

Print Assumptions C50_calls_in_threads_partial.
Print Assumptions C50_calls_end_partial.
Print Assumptions C50_labels_refuted.
Print Assumptions C50_label_deleted_refuted.
Print Assumptions C50_cleanup_refuted.
