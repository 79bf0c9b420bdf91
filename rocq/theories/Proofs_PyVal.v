From Coq Require Import String List ZArith Bool Lia.
From Verif Require Import Model_PyVal.
Import ListNotations.

Section ValInd.
  Variable Q : val -> Prop.
  Hypothesis HNone : Q VNone.
  Hypothesis HBool : forall b, Q (VBool b).
  Hypothesis HInt : forall z, Q (VInt z).
  Hypothesis HStr : forall s, Q (VStr s).
  Hypothesis HTuple : forall l, Forall Q l -> Q (VTuple l).
  Hypothesis HList : forall l, Forall Q l -> Q (VList l).
  Hypothesis HSet : forall l, Forall Q l -> Q (VSet l).
  Hypothesis HDict : forall l, Forall (fun kv => Q (fst kv) /\ Q (snd kv)) l -> Q (VDict l).
  Hypothesis HObj : forall n, Q (VObj n).
  Fixpoint val_ind' (v : val) : Q v :=
    let all := fix all (l : list val) : Forall Q l :=
      match l with [] => Forall_nil _ | x :: r => Forall_cons _ (val_ind' x) (all r) end in
    let alld := fix alld (l : list (val * val)) : Forall (fun kv => Q (fst kv) /\ Q (snd kv)) l :=
      match l with
      | [] => Forall_nil _
      | x :: r => Forall_cons x (conj (val_ind' (fst x)) (val_ind' (snd x))) (alld r)
      end in
    match v with
    | VNone => HNone | VBool b => HBool b | VInt z => HInt z | VStr s => HStr s
    | VTuple l => HTuple l (all l) | VList l => HList l (all l)
    | VSet l => HSet l (all l) | VDict l => HDict l (alld l) | VObj n => HObj n
    end.
End ValInd.

(** Hashable values are equal iff they have the same normal form. *)
Fixpoint norm (v : val) : val :=
  match v with
  | VBool b => VInt (if b then 1 else 0)
  | VTuple l => VTuple (map norm l)
  | _ => v
  end.

Fixpoint list_eq (l m : list val) : bool :=
  match l, m with
  | [], [] => true
  | x :: l', y :: m' => py_eq x y && list_eq l' m'
  | _, _ => false
  end.
Lemma py_eq_tuple l m : py_eq (VTuple l) (VTuple m) = list_eq l m.
Proof. revert m. induction l; destruct m; simpl; auto. Qed.

Lemma hashable_tuple l : hashable (VTuple l) = true <-> Forall (fun x => hashable x = true) l.
Proof. simpl. rewrite Forall_forall, forallb_forall. reflexivity. Qed.

Lemma py_eq_norm a : forall b, hashable a = true -> hashable b = true ->
  (py_eq a b = true <-> norm a = norm b).
Proof.
  induction a using val_ind'; intros c Ha Hc; try discriminate; destruct c as [|b'|z'|s'|m|m|m|m|n'];
    try discriminate; try (simpl; split; congruence);
    try (simpl; rewrite ?Z.eqb_eq; split; congruence).
  - simpl. rewrite String.eqb_eq. split; congruence.
  - rewrite py_eq_tuple. simpl norm.
    assert (E : list_eq l m = true <-> map norm l = map norm m).
    { apply hashable_tuple in Ha, Hc. revert m Hc. induction l as [|x l IH]; intros [|y m] Hc; simpl; try (split; congruence).
      inversion H; inversion Ha; inversion Hc; subst. rewrite andb_true_iff, H2, IH by auto.
      split; [intros [-> ->]; auto|intros E; injection E; auto]. }
    rewrite E. split; congruence.
  - simpl. rewrite Nat.eqb_eq. split; congruence.
Qed.

Lemma py_eq_refl a : hashable a = true -> py_eq a a = true.
Proof. intros H. apply py_eq_norm; auto. Qed.
Lemma py_eq_sym a b : hashable a = true -> hashable b = true -> py_eq a b = py_eq b a.
Proof.
  intros Ha Hb. destruct (py_eq a b) eqn:E; destruct (py_eq b a) eqn:F; auto.
  - apply py_eq_norm in E; auto. symmetry in E. apply py_eq_norm in E; auto. congruence.
  - apply py_eq_norm in F; auto. symmetry in F. apply py_eq_norm in F; auto. congruence.
Qed.
Lemma py_eq_trans a b c : hashable a = true -> hashable b = true -> hashable c = true ->
  py_eq a b = true -> py_eq b c = true -> py_eq a c = true.
Proof. intros Ha Hb Hc E F. apply py_eq_norm in E, F; auto. apply py_eq_norm; auto. congruence. Qed.
Lemma py_eq_subst a b c : hashable a = true -> hashable b = true -> hashable c = true ->
  py_eq a b = true -> py_eq a c = py_eq b c.
Proof.
  intros Ha Hb Hc E. destruct (py_eq a c) eqn:F, (py_eq b c) eqn:G; auto.
  - rewrite py_eq_sym in E by auto. rewrite (py_eq_trans b a c) in G; auto.
  - rewrite (py_eq_trans a b c) in F; auto.
Qed.
Lemma py_eq_subst_r a b c : hashable a = true -> hashable b = true -> hashable c = true ->
  py_eq a b = true -> py_eq c a = py_eq c b.
Proof. intros. rewrite (py_eq_sym c a), (py_eq_sym c b) by auto. apply py_eq_subst; auto. Qed.

(** strings and integers are totally ordered by < *)
Lemma str_lt_irrefl s : str_lt s s = false.
Proof. induction s; simpl; auto. rewrite Ascii.eqb_refl; auto. Qed.
Lemma str_lt_trans s : forall t u, str_lt s t = true -> str_lt t u = true -> str_lt s u = true.
Proof.
  induction s as [|c s IH]; intros [|d t] [|e u]; simpl; try discriminate; auto.
  destruct (Ascii.eqb_spec c d) as [->|n1], (Ascii.eqb_spec d e) as [->|n2].
  - intros; eauto.
  - destruct (Ascii.eqb_spec d e); congruence.
  - destruct (Ascii.eqb_spec c e); congruence.
  - destruct (Ascii.eqb_spec c e) as [->|n3]; rewrite !N.ltb_lt; try lia.
Qed.
Lemma N_of_ascii_inj c d : Ascii.N_of_ascii c = Ascii.N_of_ascii d -> c = d.
Proof. intros H. rewrite <- (Ascii.ascii_N_embedding c), <- (Ascii.ascii_N_embedding d). congruence. Qed.
Lemma str_lt_total s : forall t, str_lt s t = false -> str_lt t s = false -> s = t.
Proof.
  induction s as [|c s IH]; intros [|d t]; simpl; try discriminate; auto.
  destruct (Ascii.eqb_spec c d) as [->|n1].
  - rewrite Ascii.eqb_refl. intros; f_equal; auto.
  - destruct (Ascii.eqb_spec d c) as [->|n2]; [congruence|].
    rewrite !N.ltb_ge. intros. destruct n1. apply N_of_ascii_inj. lia.
Qed.

(** dicts *)
Section D.
  Context {V : Type}.
  Definition keys_ok (d : list (val * V)) : Prop := Forall (fun kv => hashable (fst kv) = true) d.

  Lemma dput_keys_ok (d : list (val * V)) k v : keys_ok d -> hashable k = true -> keys_ok (dput d k v).
  Proof.
    induction d as [|[k' v'] d IH]; simpl; intros H Hk; [repeat constructor; auto|].
    inversion H; subst. destruct (py_eq k' k); constructor; auto. apply IH; auto.
  Qed.
  Lemma dfind_dput (d : list (val * V)) k v q : keys_ok d -> hashable k = true -> hashable q = true ->
    dfind (dput d k v) q = if py_eq k q then Some v else dfind d q.
  Proof.
    induction d as [|[k' v'] d IH]; simpl; intros H Hk Hq; auto.
    inversion H; subst. simpl in *. destruct (py_eq k' k) eqn:E; simpl.
    - rewrite (py_eq_subst k' k q) by auto. destruct (py_eq k q); auto.
    - rewrite IH by auto. destruct (py_eq k' q) eqn:F; auto.
      destruct (py_eq k q) eqn:G; auto.
      rewrite (py_eq_sym k q) in G by auto. rewrite (py_eq_trans k' q k) in E; auto; discriminate.
  Qed.
  Lemma dfind_subst (d : list (val * V)) k q : keys_ok d -> hashable k = true -> hashable q = true ->
    py_eq k q = true -> dfind d k = dfind d q.
  Proof.
    intros H Hk Hq E. induction H as [|[k' v'] d Hk' H IH]; simpl in *; auto.
    rewrite (py_eq_subst_r k q k') by auto. destruct (py_eq k' q); auto.
  Qed.
End D.
