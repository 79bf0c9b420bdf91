(** The statements of the built-in reducers, read as Python text and run, do what
    the functions of Model_Reducers.v do. *)
From Coq Require Import String Ascii List NArith ZArith Bool Arith.
From Verif Require Import Model_PyVal Model_Reducers Model_Code Model_AggText Spec_Syntax Spec_Stmt Spec_Loop Proofs_PyVal.
Import ListNotations.

Lemma dfind_put_new {V} (d : list (val * V)) k m : dfind d k = None -> hashable k = true -> dfind (dput d k m) k = Some m.
Proof.
  induction d as [|[k' v'] d IH]; cbn; intros H K; [rewrite py_eq_refl; auto|].
  destruct (py_eq k' k) eqn:Q; [discriminate|]. cbn. rewrite Q. auto.
Qed.
Lemma dput_put_new {V} (d : list (val * V)) k m v : dfind d k = None -> hashable k = true -> dput (dput d k m) k v = dput d k v.
Proof.
  induction d as [|[k' v'] d IH]; cbn; intros H K; [rewrite py_eq_refl; auto|].
  destruct (py_eq k' k) eqn:Q; [discriminate|]. cbn. rewrite Q. f_equal. auto.
Qed.

Ltac norm1 :=
  cbv -[py_add py_lt py_eq hashable truthy is_none py_getitem py_in vmem vadd dput dfind Z.lor Z.eqb];
  cbn [is_none truthy dfind dput vadd vmem existsb andb orb negb py_getitem py_in].
Ltac norm := norm1; norm1.
Ltac crush1 :=
  match goal with
  | |- ?a = ?a => reflexivity
  | H : dfind ?d ?k = None |- context [dfind (dput ?d ?k _) ?k] => rewrite (dfind_put_new _ _ _ H) by assumption
  | H : dfind ?d ?k = None |- context [dput (dput ?d ?k _) ?k _] => rewrite (dput_put_new _ _ _ _ H) by assumption
  | H : is_none (VInt _) = true |- _ => discriminate H
  | H : is_none ?e = _ |- context [is_none ?e] => rewrite H
  | H : truthy ?e = _ |- context [truthy ?e] => rewrite H
  | H : hashable ?e = _ |- context [hashable ?e] => rewrite H
  | H : dfind ?e ?f = _ |- context [dfind ?e ?f] => rewrite H
  | H : py_in ?e ?f = _ |- context [py_in ?e ?f] => rewrite H
  | H : py_getitem ?e ?f = _ |- context [py_getitem ?e ?f] => rewrite H
  | H : py_lt ?e ?f = _ |- context [py_lt ?e ?f] => rewrite H
  | H : py_add ?e ?f = _ |- context [py_add ?e ?f] => rewrite H
  | |- context [is_none ?e] => destruct (is_none e) eqn:?
  | |- context [truthy ?e] => destruct (truthy e) eqn:?
  | |- context [hashable ?e] => destruct (hashable e) eqn:?
  | |- context [match dfind ?a ?b with _ => _ end] => destruct (dfind a b) eqn:?
  | |- context [match py_in ?a ?b with _ => _ end] => destruct (py_in a b) as [[|]|] eqn:?
  | |- context [match py_getitem ?a ?b with _ => _ end] => destruct (py_getitem a b) eqn:?
  | |- context [match py_lt ?a ?b with _ => _ end] => destruct (py_lt a b) as [[|]|] eqn:?
  | |- context [match py_add ?a ?b with _ => _ end] => destruct (py_add a b) eqn:?
  | |- context [if Z.eqb ?a ?b then _ else _] => destruct (Z.eqb a b) eqn:?
  | |- context [match ?a with VNone => _ | _ => _ end] => destruct a
  end; norm.

(** *** the statements of a reducer *)
Definition cs (E X I C : res val) (flag : Z) : list (text * res val) :=
  [(T "e_", E); (T "x_", X); (T "z_", I); (T "c_", C); (T "flag_", Ok (VInt flag))].
Definition st0 (b : builtin) (c : cell) (n m : Z) : state := start (combine var_names (objects_of b c n m)).
(** where the four variables are, and what they refer to *)
Definition view (s : state) : list (option nat) * bool * list object :=
  let at_ x := assoc (names s) x in
  let o x := match at_ x with Some l => obj_at s l | None => Sentinel end in
  (map at_ (tl var_names),
   match at_ var with Some 0 => true | Some (S (S (S (S _)))) => true | _ => false end,
   map o var_names).
Definition fine (b : builtin) (c : cell) (n m : Z) : list (option nat) * bool * list object :=
  ([Some 1; Some 2; Some 3], true, objects_of b c n m).
Definition init_of (b : builtin) (i : option text) : list stmt :=
  match read_text 0 (reduce_initial (code b None i) var) with Some l => l | None => [] end.
Definition two_of (b : builtin) : list stmt :=
  match read_text 0 (reduce_two (code b None None) var) with Some l => l | None => [] end.
Ltac open_stmts :=
  match goal with |- context [run_stmts _ ?a _] => let r := eval vm_compute in a in
    replace a with r by (vm_compute; reflexivity) end.

Definition cell_ok (b : builtin) (c : cell) : Prop := match c with None => True | Some v => shape b v end.

Lemma init_runs b E X I C f n m :
  (do p <- run_stmts (cs E X I C f) (init_of b None) (st0 b None n m); Ok (view (fst p), snd p))
  = do c <- init_stmt b E X; Ok (fine b c n m, false).
Proof.
  destruct b; open_stmts; destruct E as [e|]; destruct X as [x|]; norm; repeat crush1.
Qed.
Lemma first_runs b E X I C f n m :
  (do p <- run_stmts (cs E X I C f) (init_of b (Some (T "z_"))) (st0 b None n m); Ok (view (fst p), snd p))
  = do c <- reduce_stmt b I None E X; Ok (fine b c n m, false).
Proof.
  destruct b; open_stmts; destruct E as [e|]; destruct X as [x|]; destruct I as [i|]; norm; repeat crush1.
Qed.
Lemma two_runs b c E X I C f n m : shape b c ->
  (do p <- run_stmts (cs E X I C f) (two_of b) (st0 b (Some c) n m); Ok (view (fst p), snd p))
  = do c' <- reduce_stmt b (Ok c) (Some c) E X; Ok (fine b c' n m, false).
Proof.
  intros K. destruct b; cbn in K; try (match type of K with ex _ => destruct K as [d ->] end); open_stmts;
  destruct E as [e|]; destruct X as [x|]; norm; repeat crush1.
Qed.
