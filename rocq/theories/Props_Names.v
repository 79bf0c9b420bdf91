(** Property theorems C07, C08 (generated names, embedded objects). *)
From Coq Require Import String Ascii ZArith Bool List Lia.
From Verif Require Import Model_Names Spec_Names Proofs_Names.
Import ListNotations.
Local Open Scope string_scope.

(** C07.  For every history of requests in one compilation and every outcome of
    the random generator: two answered requests get the same name iff they
    have the same prefix and the same hash, every name properly extends its
    prefix, and a request is refused only if all ten names it tried were
    taken. *)
Theorem C07_names_unique_and_stable :
  forall (reqs : list request),
    let ns := snd (gen_names reqs names0) in
    length ns = length reqs /\
    (forall i j r r' n n',
       nth_error reqs i = Some r -> nth_error reqs j = Some r' ->
       nth_error ns i = Some (Some n) -> nth_error ns j = Some (Some n') ->
       (n = n' <-> r_prefix r = r_prefix r' /\ r_hash r = r_hash r')) /\
    (forall i r n, nth_error reqs i = Some r -> nth_error ns i = Some (Some n) ->
       exists s, n = r_prefix r ++ s /\ s <> "") /\
    (forall i r, nth_error reqs i = Some r -> nth_error ns i = Some None ->
       let st := fst (gen_names (firstn i reqs) names0) in
       all_taken 10 0 (r_prefix r) (generated st) (r_rnd r)).
Proof.
  intros reqs ns. destruct (gen_names_lemma reqs) as (H1 & H2 & H3).
  split; [exact H1|]. split; [exact H2|]. split; [exact H3|].
  intros i r. exact (gen_names_fail reqs i r names0 ninv0).
Qed.
Print Assumptions C07_names_unique_and_stable.

(** C08, exact behaviour: in a compilation that succeeds, the reference
    generated for an object resolves at run time to the LAST embedded object
    that has the same name prefix and the same hash. *)
Theorem C08_reference_resolves_to_last_same_key :
  forall (Obj : Type) (prefix_of : Obj -> string) (hash_of : Obj -> Z)
         (objs1 : list (Obj * picks)) (o : Obj) (rnd : picks) (objs2 : list (Obj * picks)),
    let '(globals, ns) := embed prefix_of hash_of (objs1 ++ (o, rnd) :: objs2)%list names0 [] in
    ~ In None ns ->
    exists nm, nth_error ns (length objs1) = Some (Some nm) /\
               sassoc globals nm = Some (last_same prefix_of hash_of o objs2 o).
Proof. intros. exact (embed_lemma prefix_of hash_of objs1 o rnd objs2). Qed.
Print Assumptions C08_reference_resolves_to_last_same_key.

(** C08 holds whenever no two different embedded objects share prefix and
    hash. *)
Theorem C08_embedded_objects_partial :
  forall (Obj : Type) (prefix_of : Obj -> string) (hash_of : Obj -> Z)
         (objs : list (Obj * picks)),
    (forall a b, In a (map fst objs) -> In b (map fst objs) ->
       prefix_of a = prefix_of b -> hash_of a = hash_of b -> a = b) ->
    let '(globals, ns) := embed prefix_of hash_of objs names0 [] in
    ~ In None ns ->
    forall i o rnd, nth_error objs i = Some (o, rnd) ->
      exists nm, nth_error ns i = Some (Some nm) /\ sassoc globals nm = Some o.
Proof.
  intros Obj prefix_of hash_of objs Hinj.
  destruct (embed prefix_of hash_of objs names0 []) as [g ns] eqn:E.
  intros Hok i o rnd Hi. apply nth_error_split in Hi as (l1 & l2 & -> & <-).
  pose proof (embed_lemma prefix_of hash_of l1 o rnd l2) as L. cbv zeta in L.
  rewrite E in L. destruct (L Hok) as (nm & N1 & N2). exists nm. split; auto.
  rewrite N2. f_equal. apply last_same_id; auto.
  intros x Hx S. apply same_key_spec in S as [S1 S2]. symmetry.
  apply Hinj; auto; rewrite map_app, in_app_iff; simpl; auto.
Qed.
Print Assumptions C08_embedded_objects_partial.

(** C08 as stated is false: c.naive(-1.0) and c.naive(-2.0) in one converter -
    the floats have the same hash, so both references resolve to -2.0. *)
Theorem C08_embedded_objects_refuted :
  exists (rnd : picks),
    let '(globals, ns) :=
      embed pyobj_prefix pyobj_hash [(PyFloat (-1), rnd); (PyFloat (-2), rnd)] names0 [] in
    exists nm, ns = [Some nm; Some nm] /\ sassoc globals nm = Some (PyFloat (-2)).
Proof. exists (fun _ => ("a", "b")%char). vm_compute. eexists. split; reflexivity. Qed.
Print Assumptions C08_embedded_objects_refuted.

(** ... and two closures made by the same def. *)
Theorem C08_closures_refuted :
  exists (rnd : picks),
    let '(globals, ns) :=
      embed pyobj_prefix pyobj_hash
        [(PyClosure "add" 77 1, rnd); (PyClosure "add" 77 2, rnd)] names0 [] in
    exists nm, ns = [Some nm; Some nm] /\ sassoc globals nm = Some (PyClosure "add" 77 2).
Proof. exists (fun _ => ("a", "b")%char). vm_compute. eexists. split; reflexivity. Qed.
Print Assumptions C08_closures_refuted.

(** Concrete instances. *)
Example C07_instance :
  let rnd : picks := fun _ => ("a", "b")%char in
  snd (gen_names [mkReq "v" 5 rnd; mkReq "v" 6 rnd; mkReq "v" 5 rnd; mkReq "i" 5 rnd] names0)
  = [Some "v_ab"; Some "v_ab_ab"; Some "v_ab"; Some "i_ab"].
Proof. reflexivity. Qed.
Example C08_instance :
  let rnd : picks := fun _ => ("a", "b")%char in
  let objs := [(PyFloat 1, rnd); (PyFloat 2, rnd); (PyClosure "f" 9 0, rnd)] in
  (forall a b, In a (map fst objs) -> In b (map fst objs) ->
     pyobj_prefix a = pyobj_prefix b -> pyobj_hash a = pyobj_hash b -> a = b) /\
  ~ In None (snd (embed pyobj_prefix pyobj_hash objs names0 [])).
Proof.
  split.
  - simpl. intros a b Ha Hb.
    destruct Ha as [<-|[<-|[<-|[]]]], Hb as [<-|[<-|[<-|[]]]]; vm_compute; congruence.
  - vm_compute. intuition discriminate.
Qed.
