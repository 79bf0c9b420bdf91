(** What tap promises (C26): the mutations one after the other. *)
From Coq Require Import String List ZArith NArith Bool Arith.
From Verif Require Import Model_Code Model_Eval Spec_Eval.
Import ListNotations.

Section Tap.
  Context {V W X : Type}.
  Variable pr : prims V W X.
  Variable args : list (text * V).
  Notation den := (den pr args).
  Notation st := (@st V W).

  (** c.Mut.set_item(n, v), set_attr(n, v), del_item(n), del_attr(n), custom(c) *)
  Definition shape (m : mkind * list cv) : Prop :=
    match m with
    | ((MSetItem | MSetAttr), [_; _]) | ((MDelItem | MDelAttr | MCustom), [_]) => True
    | _ => False
    end.

  (** Conversions evaluated one after the other on [u], and what the last state
      and the values (or the exception) are. *)
  Inductive vals (u : V) : list cv -> st -> st -> list V -> Prop :=
  | V_nil s : vals u [] s s []
  | V_cons c l s s1 s2 x xs : den c u s = (s1, Val x) -> vals u l s1 s2 xs -> vals u (c :: l) s s2 (x :: xs).
  Inductive vals_fail (u : V) : list cv -> st -> st -> X -> Prop :=
  | F_here c l s s1 e : den c u s = (s1, Exc e) -> vals_fail u (c :: l) s s1 e
  | F_later c l s s1 s2 x e : den c u s = (s1, Val x) -> vals_fail u l s1 s2 e -> vals_fail u (c :: l) s s2 e.

  (** The mutation [m] of [u] succeeds, taking the state [s] to [s'].  In
      [u[n] = v] Python evaluates [v] first. *)
  Inductive mutates (u : V) : mkind * list cv -> st -> st -> Prop :=
  | M_set_item n v s s1 xn xv w r : vals u [v; n] s s1 [xv; xn] ->
      mut pr MSetItem [u; xn; xv] (fst s1) = (w, Val r) -> mutates u (MSetItem, [n; v]) s (w, snd s1)
  | M_set_attr n v s s1 xn xv w r : vals u [n; v] s s1 [xn; xv] ->
      mut pr MSetAttr [u; xn; xv] (fst s1) = (w, Val r) -> mutates u (MSetAttr, [n; v]) s (w, snd s1)
  | M_del_item n s s1 xn w r : vals u [n] s s1 [xn] ->
      mut pr MDelItem [u; xn] (fst s1) = (w, Val r) -> mutates u (MDelItem, [n]) s (w, snd s1)
  | M_del_attr n s s1 xn w r : vals u [n] s s1 [xn] ->
      mut pr MDelAttr [u; xn] (fst s1) = (w, Val r) -> mutates u (MDelAttr, [n]) s (w, snd s1)
  | M_custom c s s1 x : vals u [c] s s1 [x] -> mutates u (MCustom, [c]) s s1.
  (** It raises [e], in the state [s']. *)
  Inductive mutation_fails (u : V) : mkind * list cv -> st -> st -> X -> Prop :=
  | MF_operands k l s s1 e : vals_fail u (match k with MSetItem => rev l | _ => l end) s s1 e ->
      mutation_fails u (k, l) s s1 e
  | MF_set_item n v s s1 xn xv w e : vals u [v; n] s s1 [xv; xn] ->
      mut pr MSetItem [u; xn; xv] (fst s1) = (w, Exc e) -> mutation_fails u (MSetItem, [n; v]) s (w, snd s1) e
  | MF_set_attr n v s s1 xn xv w e : vals u [n; v] s s1 [xn; xv] ->
      mut pr MSetAttr [u; xn; xv] (fst s1) = (w, Exc e) -> mutation_fails u (MSetAttr, [n; v]) s (w, snd s1) e
  | MF_del_item n s s1 xn w e : vals u [n] s s1 [xn] ->
      mut pr MDelItem [u; xn] (fst s1) = (w, Exc e) -> mutation_fails u (MDelItem, [n]) s (w, snd s1) e
  | MF_del_attr n s s1 xn w e : vals u [n] s s1 [xn] ->
      mut pr MDelAttr [u; xn] (fst s1) = (w, Exc e) -> mutation_fails u (MDelAttr, [n]) s (w, snd s1) e.

  (** All mutations succeed, each starting where the previous one ended. *)
  Inductive mutates_all (u : V) : list (mkind * list cv) -> st -> st -> Prop :=
  | A_nil s : mutates_all u [] s s
  | A_cons m l s s1 s2 : mutates u m s s1 -> mutates_all u l s1 s2 -> mutates_all u (m :: l) s s2.
End Tap.
