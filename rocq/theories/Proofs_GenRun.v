(** Running generators (Spec_GenRun.v): steps with as much fuel as it takes, what a step
    leaves alone, loops over sources. *)
From Coq Require Import String Ascii List NArith ZArith Bool Arith Lia.
From Verif Require Import Model_PyVal Model_Join Model_Code Spec_Syntax Spec_Source Spec_GenRun.
Import ListNotations.

Lemma teqb_refl x : teqb x x = true.
Proof. unfold teqb. destruct (text_eq_dec x x); congruence. Qed.
Lemma teqb_neq x y : x <> y -> teqb x y = false.
Proof. unfold teqb. destruct (text_eq_dec x y); congruence. Qed.
Lemma at_same {A} (f : nat -> A) i x : at_ f i x i = x.
Proof. unfold at_. now rewrite Nat.eqb_refl. Qed.
Lemma at_other {A} (f : nat -> A) i x j : j <> i -> at_ f i x j = f j.
Proof. unfold at_. intros H. apply Nat.eqb_neq in H. now rewrite H. Qed.

Lemma put_put l x v w : put_var (put_var l x v) x w = put_var l x w.
Proof.
  induction l as [|[y u] l IH]; cbn [put_var].
  - now rewrite teqb_refl.
  - destruct (teqb x y) eqn:E; cbn [put_var]; rewrite E; [reflexivity|]. now rewrite IH.
Qed.
Lemma var_put l x v : var_at (put_var l x v) x = Some (Some v).
Proof.
  induction l as [|[y u] l IH]; cbn [put_var var_at].
  - now rewrite teqb_refl.
  - destruct (teqb x y) eqn:E; cbn [var_at]; rewrite E; auto.
Qed.
Lemma var_put_other l x y v : y <> x -> var_at (put_var l x v) y = var_at l y.
Proof.
  intros NE. induction l as [|[z u] l IH]; cbn [put_var var_at].
  - now rewrite (teqb_neq y x NE).
  - destruct (teqb x z) eqn:E; cbn [var_at].
    + unfold teqb in E. destruct (text_eq_dec x z); [subst z|discriminate]. now rewrite (teqb_neq y x NE).
    + now rewrite IH.
Qed.

(** *** what a step leaves alone *)
(** [F], [I]: the frames and iterators that may change; [cl]: the label that may *)
Record keeps (cl : string) (F I : list nat) (m m' : mem) : Prop := {
  k_nf : nframes m <= nframes m';
  k_ni : niters m <= niters m';
  k_frames : forall f, f < nframes m -> ~ In f F -> frames m' f = frames m f;
  k_iters : forall i, i < niters m -> ~ In i I -> iters m' i = iters m i;
  k_labels : forall k, k <> cl -> label_of (labels m') k = label_of (labels m) k }.
Lemma keeps_refl cl F I m : keeps cl F I m m.
Proof. constructor; auto. Qed.
Lemma keeps_trans cl F I m1 m2 m3 : keeps cl F I m1 m2 -> keeps cl F I m2 m3 -> keeps cl F I m1 m3.
Proof.
  intros A B. constructor.
  - pose proof (k_nf _ _ _ _ _ A). pose proof (k_nf _ _ _ _ _ B). lia.
  - pose proof (k_ni _ _ _ _ _ A). pose proof (k_ni _ _ _ _ _ B). lia.
  - intros f L N. rewrite (k_frames _ _ _ _ _ B); auto; [now apply A|]. pose proof (k_nf _ _ _ _ _ A). lia.
  - intros f L N. rewrite (k_iters _ _ _ _ _ B); auto; [now apply A|]. pose proof (k_ni _ _ _ _ _ A). lia.
  - intros k N. rewrite (k_labels _ _ _ _ _ B); auto. now apply A.
Qed.
(** new frames and iterators need not be listed *)
Lemma keeps_drop cl F I F' I' m m' :
  keeps cl F' I' m m' -> (forall f, In f F' -> f < nframes m -> In f F) -> (forall i, In i I' -> i < niters m -> In i I) -> keeps cl F I m m'.
Proof. intros K HF HI. constructor; try apply K; auto. - intros f L N. apply K; auto. - intros i L N. apply K; auto. Qed.
(** ... and the sets *)
Definition leaves (cl : string) (F I : list nat) (m m' : mem) : Prop :=
  keeps cl F I m m' /\ sets m' = sets m /\ nsets m' = nsets m.
Lemma leaves_refl cl F I m : leaves cl F I m m.
Proof. split; [apply keeps_refl|auto]. Qed.
Lemma leaves_trans cl F I m1 m2 m3 : leaves cl F I m1 m2 -> leaves cl F I m2 m3 -> leaves cl F I m1 m3.
Proof. intros (A & B & C) (D & E & G). split; [now apply keeps_trans with m2|]. split; congruence. Qed.
Lemma leaves_drop cl F I F' I' m m' :
  leaves cl F' I' m m' -> (forall f, In f F' -> f < nframes m -> In f F) -> (forall i, In i I' -> i < niters m -> In i I) -> leaves cl F I m m'.
Proof. intros (A & B) X Y. split; [|exact B]. now apply keeps_drop with F' I'. Qed.
Lemma leaves_weaken cl F I F' I' m m' : leaves cl F I m m' -> incl F F' -> incl I I' -> leaves cl F' I' m m'.
Proof. intros K X Y. apply leaves_drop with F I; auto. Qed.
Lemma leaves_frame cl F I m g f : In g F -> leaves cl F I m (set_frame m g f).
Proof. intros G. split; [|auto]. constructor; auto. intros f' L N. cbn. apply at_other. congruence. Qed.
Lemma leaves_todo cl F I m g c : In g F -> leaves cl F I m (set_todo m g c).
Proof. apply leaves_frame. Qed.
Lemma leaves_var cl F I m g x v : In g F -> leaves cl F I m (set_var m g x v).
Proof. apply leaves_frame. Qed.
Lemma leaves_iter cl F I m i l : In i I -> leaves cl F I m (set_iter m i l).
Proof. intros G. split; [|auto]. constructor; auto. intros f' L N. cbn. apply at_other. congruence. Qed.
Lemma leaves_new_frame cl F I m f : leaves cl F I m (snd (new_frame m f)).
Proof. split; [|auto]. constructor; cbn; auto; try lia. intros f' L N. apply at_other. lia. Qed.
Lemma leaves_new_iter cl F I m l : leaves cl F I m (snd (new_iter m l)).
Proof. split; [|auto]. constructor; cbn; auto; try lia. intros f' L N. apply at_other. lia. Qed.
Lemma leaves_label cl F I m v : leaves cl F I m (set_labels m ((cl, v) :: labels m)).
Proof. split; [|auto]. constructor; auto. intros k N. cbn. destruct (String.eqb cl k) eqn:E; auto. apply String.eqb_eq in E. congruence. Qed.

Section Steps.
  Variable globals : text -> option pv.
  Variable opr : text -> list val -> res val.
  Variable gfuns : text -> option gfun.
  Variable indexers : text -> option (list val -> list (val * list robj) -> robj -> res (list (val * list robj))).
  Notation eval := (eval globals opr gfuns indexers).
  Notation run := (run globals opr gfuns indexers).
  Notation next := (next globals opr gfuns indexers).
  Notation nexts := (nexts globals opr gfuns indexers).
  Notation call_of := (call_of globals opr gfuns indexers).

  Definition runs (f : nat) (code : list kont) (m m' : mem) (o : gout) : Prop :=
    exists N, forall n, N <= n -> run n f code m = Some (m', o).
  Definition evals (sc : list nat) (a : ast) (m m' : mem) (r : res pv) : Prop :=
    exists N, forall n, N <= n -> eval (next n) (each_of (next n) n) sc a m = Some (m', r).
  (** an expression that takes nothing from iterators *)
  Definition gives (sc : list nat) (a : ast) (m m' : mem) (r : res pv) : Prop :=
    forall nx each, eval nx each sc a m = Some (m', r).
  Lemma gives_evals sc a m m' r : gives sc a m m' r -> evals sc a m m' r.
  Proof. intros G. exists 0. intros n _. apply G. Qed.

  (** *** next *)
  Lemma nexts_iter_item i o l m : iters m i = Ok o :: l -> nexts (Iter i) m (set_iter m i l) (GItem (Obj o)).
  Proof. intros E. exists 0. intros n _. unfold Spec_GenRun.next, next_of. now rewrite E. Qed.
  Lemma nexts_iter_fail i e l m : iters m i = Err e :: l -> nexts (Iter i) m (set_iter m i l) (GFail e).
  Proof. intros E. exists 0. intros n _. unfold Spec_GenRun.next, next_of. now rewrite E. Qed.
  Lemma nexts_iter_end i m : iters m i = [] -> nexts (Iter i) m m GEnd.
  Proof. intros E. exists 0. intros n _. unfold Spec_GenRun.next, next_of. now rewrite E. Qed.
  Lemma nexts_gen g c m m' o : todo (frames m g) = Some c -> runs g c (set_todo m g None) m' o -> nexts (Gen g) m m' o.
  Proof. intros E [N H]. exists N. intros n L. unfold Spec_GenRun.next, next_of. rewrite E. now apply H. Qed.

  (** *** run *)
  Lemma runs_nil f m : runs f [] m (set_todo m f (Some [])) GEnd.
  Proof. exists 1. intros n L. destruct n; [lia|]. reflexivity. Qed.
  Ltac step N n := destruct n as [|n]; [lia|]; cbn [Spec_GenRun.run]; fold (next n) in *.
  Lemma runs_assign f x a k m m1 v m' o :
    evals (f :: around (frames m f)) a m m1 (Ok v) -> runs f k (set_var m1 f x v) m' o ->
    runs f (KDo (GAssign x a) :: k) m m' o.
  Proof.
    intros [N1 E] [N2 R]. exists (S (N1 + N2)). intros n L. step N n.
    change (next_of (run n)) with (next n). rewrite E by lia. apply R. lia.
  Qed.
  Lemma runs_expr f a k m m1 v m' o :
    evals (f :: around (frames m f)) a m m1 (Ok v) -> runs f k m1 m' o ->
    runs f (KDo (GExpr a) :: k) m m' o.
  Proof.
    intros [N1 E] [N2 R]. exists (S (N1 + N2)). intros n L. step N n.
    change (next_of (run n)) with (next n). rewrite E by lia. apply R. lia.
  Qed.
  Lemma runs_if f c t e k m m1 v m' o :
    evals (f :: around (frames m f)) c m m1 (Ok v) -> runs f (map KDo (if truth m1 v then t else e) ++ k) m1 m' o ->
    runs f (KDo (GIf c t e) :: k) m m' o.
  Proof.
    intros [N1 E] [N2 R]. exists (S (N1 + N2)). intros n L. step N n.
    change (next_of (run n)) with (next n). rewrite E by lia. apply R. lia.
  Qed.
  Lemma runs_if_fail f c t e k m m1 x :
    evals (f :: around (frames m f)) c m m1 (Err x) ->
    runs f (KDo (GIf c t e) :: k) m (set_todo m1 f (Some [])) (GFail x).
  Proof.
    intros [N1 E]. exists (S N1). intros n L. step N n.
    change (next_of (run n)) with (next n). rewrite E by lia. reflexivity.
  Qed.
  Lemma runs_for f xs a b k m m1 v it m2 m' o :
    evals (f :: around (frames m f)) a m m1 (Ok v) -> iter_of m1 v = Some (it, m2) ->
    runs f (KLoop xs it b :: k) m2 m' o -> runs f (KDo (GFor xs a b) :: k) m m' o.
  Proof.
    intros [N1 E] I [N2 R]. exists (S (N1 + N2)). intros n L. step N n.
    change (next_of (run n)) with (next n). rewrite E by lia. rewrite I. apply R. lia.
  Qed.
  Lemma runs_for_fail f xs a b k m m1 x :
    evals (f :: around (frames m f)) a m m1 (Err x) ->
    runs f (KDo (GFor xs a b) :: k) m (set_todo m1 f (Some [])) (GFail x).
  Proof.
    intros [N1 E]. exists (S N1). intros n L. step N n.
    change (next_of (run n)) with (next n). rewrite E by lia. reflexivity.
  Qed.
  Lemma runs_yield f a k m m1 v :
    evals (f :: around (frames m f)) a m m1 (Ok v) ->
    runs f (KDo (GYield a) :: k) m (set_todo m1 f (Some k)) (GItem v).
  Proof.
    intros [N1 E]. exists (S N1). intros n L. step N n.
    change (next_of (run n)) with (next n). rewrite E by lia. reflexivity.
  Qed.
  Lemma runs_yield_fail f a k m m1 x :
    evals (f :: around (frames m f)) a m m1 (Err x) ->
    runs f (KDo (GYield a) :: k) m (set_todo m1 f (Some [])) (GFail x).
  Proof.
    intros [N1 E]. exists (S N1). intros n L. step N n.
    change (next_of (run n)) with (next n). rewrite E by lia. reflexivity.
  Qed.
  Lemma runs_from f a k m m1 v it m2 m' o :
    evals (f :: around (frames m f)) a m m1 (Ok v) -> iter_of m1 v = Some (it, m2) ->
    runs f (KFrom it :: k) m2 m' o -> runs f (KDo (GFrom a) :: k) m m' o.
  Proof.
    intros [N1 E] I [N2 R]. exists (S (N1 + N2)). intros n L. step N n.
    change (next_of (run n)) with (next n). rewrite E by lia. rewrite I. apply R. lia.
  Qed.
  Lemma runs_from_item f it k m m1 v : nexts it m m1 (GItem v) -> runs f (KFrom it :: k) m (set_todo m1 f (Some (KFrom it :: k))) (GItem v).
  Proof. intros [N1 E]. exists (S N1). intros n L. step N n. change (next_of (run n)) with (next n). rewrite E by lia. reflexivity. Qed.
  Lemma runs_from_end f it k m m1 m' o : nexts it m m1 GEnd -> runs f k m1 m' o -> runs f (KFrom it :: k) m m' o.
  Proof. intros [N1 E] [N2 R]. exists (S (N1 + N2)). intros n L. step N n. change (next_of (run n)) with (next n). rewrite E by lia. apply R. lia. Qed.
  Lemma runs_from_fail f it k m m1 e : nexts it m m1 (GFail e) -> runs f (KFrom it :: k) m (set_todo m1 f (Some [])) (GFail e).
  Proof. intros [N1 E]. exists (S N1). intros n L. step N n. change (next_of (run n)) with (next n). rewrite E by lia. reflexivity. Qed.
  Lemma runs_loop_item f xs it b k m m1 v m2 m' o : nexts it m m1 (GItem v) -> assign m1 f xs v = Some m2 ->
    runs f (map KDo b ++ KLoop xs it b :: k) m2 m' o -> runs f (KLoop xs it b :: k) m m' o.
  Proof. intros [N1 E] A [N2 R]. exists (S (N1 + N2)). intros n L. step N n. change (next_of (run n)) with (next n). rewrite E by lia. rewrite A. apply R. lia. Qed.
  Lemma runs_loop_end f xs it b k m m1 m' o : nexts it m m1 GEnd -> runs f k m1 m' o -> runs f (KLoop xs it b :: k) m m' o.
  Proof. intros [N1 E] [N2 R]. exists (S (N1 + N2)). intros n L. step N n. change (next_of (run n)) with (next n). rewrite E by lia. apply R. lia. Qed.
  Lemma runs_loop_fail f xs it b k m m1 e : nexts it m m1 (GFail e) -> runs f (KLoop xs it b :: k) m (set_todo m1 f (Some [])) (GFail e).
  Proof. intros [N1 E]. exists (S N1). intros n L. step N n. change (next_of (run n)) with (next n). rewrite E by lia. reflexivity. Qed.
End Steps.
