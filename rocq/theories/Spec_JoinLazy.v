(** Vocabulary for C56: calls of a join, what taking pairs from it looks like. *)
From Coq Require Import String List ZArith Bool.
From Verif Require Import Model_PyVal Model_Join Model_Labels Model_JoinLazy.
Import ListNotations.

(** The rows of the side that is read row by row: the right one with how="right". *)
Definition driving (h : Model_Join.how) (left right : list robj) : list robj := match h with Right => right | _ => left end.
Definition indexed (h : Model_Join.how) (left right : list robj) : list robj := match h with Right => left | _ => right end.
Definition is_iterator (k : kind) : bool := match k with OneShot => true | Reiterable => false end.
(** A call of the join on [left] and [right]; the side that is read row by row goes on
    with [more], rows or exceptions. *)
Definition call_of (h : Model_Join.how) (kl kr : kind) (left right : list robj) (inputs : string -> val) (more : list (res robj)) : jcall :=
  mkCall (map Ok (driving h left right) ++ more) (indexed h left right)
         (is_iterator match h with Right => kl | _ => kr end) inputs.
(** The part of a pair that comes from that side. *)
Definition driving_part (h : Model_Join.how) (p : robj * robj) : robj := match h with Right => snd p | _ => fst p end.
(** What has not been read of it. *)
Definition unread (s : gstate) : list (res robj) :=
  match s with GOuter u _ | GInner u _ _ _ _ => u | GTail _ _ => [] end.

Definition yields (ps : list (robj * robj)) : list (out lab exc) := map (fun p => OYield (LPair p)) ps.
