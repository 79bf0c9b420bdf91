(** What labels, defaults and conditionals promise. *)
From Coq Require Import String List ZArith NArith Bool Arith.
From Verif Require Import Model_Code Model_Eval Spec_Frag Spec_Eval Spec_Converter.
Import ListNotations.

Section Api.
  Context {V W X : Type}.
  Variable pr : prims V W X.
  Variable args : list (text * V).

  (** the result of [m], or [d] when it fails with a caught exception *)
  Definition or_else {B} (m : @M V W X B) (d : B) : @M V W X B :=
    fun s => match m s with
             | (s', Val u) => (s', Val u)
             | (s', Exc x) => if caught pr x then (s', Val d) else (s', Exc x)
             end.

  (** Every label in the order given: the conversion applied to the labelled value
      [u], stored under the name. *)
  Fixpoint store (l : list (text * cv)) (u : V) : @M V W X unit :=
    match l with
    | [] => ret tt
    | (n, c) :: r =>
        bind (den pr args c u) (fun x => bind (set_label (U n) x) (fun _ => store r u))
    end.
  (** a.pipe(b, label_input=li, label_output=lo) *)
  Definition labelled_pipe (a b : cv) (li lo : list (text * cv)) (v : V) : @M V W X V :=
    bind (den pr args a v) (fun u =>
    bind (store li u) (fun _ =>
    bind (den pr args b u) (fun r =>
    bind (store lo r) (fun _ => ret r)))).
  (** a.pipe(f, *xs, **kw, label_input=li, label_output=lo) for a function f:
      the labels of [li] are stored from the value [u] of [a], then the further
      arguments are evaluated on the input of [a], then f(u, *xs, **kw). *)
  Definition labelled_call (a : cv) (f : nat) (xs : list cv) (kw : list (text * cv)) (li lo : list (text * cv)) (v : V) : @M V W X V :=
    bind (den pr args a v) (fun u =>
    bind (store li u) (fun _ =>
    bind (mapM (fun c => den pr args c v) xs) (fun us =>
    bind (mapM (fun c => den pr args c v) (map snd kw)) (fun ks =>
    bind (prim (op pr (OCall (S (length xs)) (map fst kw)) (globv pr f :: u :: us ++ ks))) (fun r =>
    bind (store lo r) (fun _ => ret r)))))).
End Api.

(** Same outcome and effects; and, when there is a value, the same labels given by
    the user (an exception ends the call, and with it the labels). *)
Definition same_user {V W X B} (r r' : @st V W * out X B) : Prop :=
  fst (fst r) = fst (fst r') /\ snd r = snd r' /\
  forall b, snd r = Val b -> forall t, snd (fst r) (U t) = snd (fst r') (U t).

(** Label names a conversion reads. *)
Fixpoint label_uses (c : cv) : list lname :=
  let opt (o : option cv) := match o with Some c => label_uses c | None => [] end in
  match c with
  | CThis | CLit _ | CGlob _ | CArg _ => []
  | CLabel n => [n]
  | COp _ l | CBool _ l | CEqs l => flat_map label_uses l
  | CAttr a n => label_uses a ++ label_uses n
  | CIf _ c t f => opt c ++ opt t ++ opt f
  | CDefault _ s idx d => opt s ++ flat_map label_uses idx ++ label_uses d
  | CComp _ elts cond => flat_map label_uses elts ++ opt cond
  | CItems _ lines => flat_map (fun l => opt (fst l) ++ label_uses (snd l)) lines
  | CCache n c ls => label_uses c ++ flat_map (fun l => label_uses (snd l)) ls
  | CPipe a b => label_uses a ++ label_uses b
  | CTap o ms => label_uses o ++ flat_map (fun m => flat_map label_uses (snd m)) ms
  end.

(** a conversion that reads only labels the user named *)
Definition userly (c : cv) : Prop := forall n, In n (label_uses c) -> exists t, n = U t.
(** A dict of labels as a user writes it: different names, and the conversions do
    not read or set the labels of this very dict.  [honest]: a conversion is
    c.this() or is not of the form "something piped into c.this()". *)
Definition honest (c : cv) : bool := match c with CPipe _ CThis => false | _ => true end.
Definition labels_ok (l : list (text * cv)) : Prop :=
  NoDup (map fst l) /\ forallb (fun p => honest (snd p)) l = true /\
  forall n c, In (n, c) l -> forall m, In m (map fst l) ->
    ~ In (U m) (label_uses c) /\ ~ In (U m) (writes c).
