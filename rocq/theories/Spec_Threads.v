(** What a call gives when nothing else runs, and which calls have labels of
    their own. *)
From Coq Require Import String List.
From Verif Require Import Model_Threads.
Import ListNotations.

Section Spec.
  Context {V E : Type}.

  (** The result of a call by itself: a read label is the value stored last
      under that name. *)
  Inductive gives : (string -> option V) -> @prog V E -> @result V E -> Prop :=
  | gives_value L v : gives L (Ret v) (Value v)
  | gives_error L e : gives L (Raise e) (Exception e)
  | gives_work L p r : gives L p r -> gives L (Work p) r
  | gives_put L n v p r : gives (fun m => if String.eqb m n then Some v else L m) p r -> gives L (Put n v p) r
  | gives_get L n k r : gives L (k (L n)) r -> gives L (Get n k) r.

  Inductive without_labels : @prog V E -> Prop :=
  | wl_ret v : without_labels (Ret v)
  | wl_raise e : without_labels (Raise e)
  | wl_work p : without_labels p -> without_labels (Work p).

  (** Calls of the same converter at the same time do not use labels. *)
  Definition own_labels (calls : list (nat * @prog V E)) : Prop :=
    forall a b c p q, a <> b -> nth_error calls a = Some (c, p) -> nth_error calls b = Some (c, q) ->
      without_labels p /\ without_labels q.
End Spec.
