From Coq Require Import String List ZArith Bool Lia.
From Verif Require Import Model_PyVal Proofs_PyVal Model_Join Spec_Join Proofs_Join.
Import ListNotations.

Definition isT (r : res bool) : bool := match r with Ok b => b | Err _ => false end.
Lemma isT_true r : isT r = true <-> r = Ok true.
Proof. destruct r as [[|]|]; simpl; split; congruence. Qed.

Lemma filter_rows_spec p l :
  match filter_rows p l with
  | Ok l' => l' = filter (fun x => isT (p x)) l /\ (forall x, In x l -> exists b, p x = Ok b)
  | Err _ => exists x e, In x l /\ p x = Err e
  end.
Proof.
  induction l as [|x r IH]; simpl; [split; auto; contradiction|].
  destruct (p x) as [b|e] eqn:Px; simpl; [|exists x, e; auto].
  destruct (filter_rows p r) as [l'|e]; simpl.
  - destruct IH as [-> A]. split; [destruct b; auto|]. intros y [<-|Hy]; eauto.
  - destruct IH as (y & e' & Hy & E). exists y, e'. auto.
Qed.
Lemma filter_rows_ok p l : (forall x, In x l -> exists b, p x = Ok b) -> filter_rows p l = Ok (filter (fun x => isT (p x)) l).
Proof.
  intros H. pose proof (filter_rows_spec p l) as S. destruct (filter_rows p l).
  - destruct S as [-> _]. auto.
  - destruct S as (x & e' & Hx & E). destruct (H x Hx). congruence.
Qed.

Definition bucket (d : list (val * list robj)) q := match dfind d q with Some rs => rs | None => [] end.
Definition key_is (key : robj -> res val) q (r : robj) : bool := match key r with Ok k => py_eq k q | Err _ => false end.
Definition key_good (key : robj -> res val) (r : robj) : Prop := exists k, key r = Ok k /\ hashable k = true.

Lemma index_rows_spec key l : forall d, keys_ok d ->
  match index_rows key l d with
  | Ok d' => (forall x, In x l -> key_good key x) /\ keys_ok d' /\
             forall q, hashable q = true -> bucket d' q = bucket d q ++ filter (key_is key q) l
  | Err _ => exists x, In x l /\ ~ key_good key x
  end.
Proof.
  induction l as [|r l IH]; intros d Kd; simpl.
  - split; [contradiction|]. split; auto. intros. rewrite app_nil_r; auto.
  - destruct (key r) as [k|e] eqn:Kr; simpl.
    + unfold need_hash. destruct (hashable k) eqn:Hk; simpl.
      * set (d1 := dput d k _). assert (K1 : keys_ok d1) by (apply dput_keys_ok; auto).
        specialize (IH d1 K1). destruct (index_rows key l d1) as [d'|e].
        -- destruct IH as (A & B & C). split; [|split; auto].
           ++ intros x [<-|Hx]; auto. exists k; auto.
           ++ intros q Hq. rewrite (C q Hq). unfold bucket at 1, d1. rewrite dfind_dput by auto.
              unfold key_is at 2. rewrite Kr. destruct (py_eq k q) eqn:E; auto.
              fold (bucket d k). unfold bucket. rewrite (dfind_subst d k q) by auto.
              rewrite <- app_assoc. reflexivity.
        -- destruct IH as (x & Hx & N). exists x. auto.
      * exists r. split; auto. intros (k' & E & H'). congruence.
    + exists r. split; auto. intros (k' & E & H'). congruence.
Qed.

Definition cands (key : robj -> res val) (s : source) (x : robj) : list robj :=
  match s with
  | Buckets d => match key x with Ok k => bucket d k | Err _ => [] end
  | Again l => l
  | Once l => match l with Ok rows => rows | Err _ => [] end
  end.
Definition src_ok (key : robj -> res val) (s : source) (x : robj) : Prop :=
  match s with Buckets _ => key_good key x | Again _ => True | Once l => exists rows, l = Ok rows end.

Lemma take_spec key s x :
  match take key s x with
  | Ok (rows, s') => rows = cands key s x /\ src_ok key s x /\ (match s with Once _ => True | _ => s' = s end)
  | Err _ => ~ src_ok key s x
  end.
Proof.
  destruct s as [d|l|l]; simpl; auto.
  - destruct (key x) as [k|e] eqn:K; simpl.
    + unfold need_hash. destruct (hashable k) eqn:H; simpl.
      * repeat split; auto.  exists k; auto.
      * intros (k' & E & H'). congruence.
    + intros (k' & E & H'). congruence.
  - destruct l; simpl; eauto. intros (r & Q). discriminate.
Qed.

Lemma matches_spec key test ls : forall s,
  (match s with Once _ => length ls <= 1 | _ => True end) ->
  match matches key test s ls with
  | Ok m => m = map (fun x => (x, filter (fun y => isT (test x y)) (cands key s x))) ls /\
            (forall x, In x ls -> src_ok key s x)
  | Err _ => exists x, In x ls /\ (~ src_ok key s x \/ exists y e, In y (cands key s x) /\ test x y = Err e)
  end.
Proof.
  induction ls as [|x ls IH]; intros s OS; simpl; [split; auto; contradiction|].
  pose proof (take_spec key s x) as T. destruct (take key s x) as [[rows s']|e]; cbn [bind]; [|exists x; auto].
  destruct T as (-> & OK & S'). cbn [fst snd].
  pose proof (filter_rows_spec (test x) (cands key s x)) as F.
  destruct (filter_rows (test x) (cands key s x)) as [ms|e]; cbn [bind].
  - destruct F as (-> & _).
    assert (G : (exists l, s = Once l) \/ s' = s) by (destruct s; eauto).
    destruct G as [(l & ->)|G].
    + destruct ls; [|simpl in OS; lia]. simpl. split; [auto|]. intros z [<-|[]]; auto.
    + subst s'. specialize (IH s).
      assert (OS' : match s with Once _ => length ls <= 1 | _ => True end) by (destruct s; simpl in *; auto; lia).
      specialize (IH OS'). destruct (matches key test s ls) as [m|e]; simpl.
      * destruct IH as (-> & A). split; auto. intros z [<-|Hz]; auto.
      * destruct IH as (z & Hz & Q). exists z. auto.
  - destruct F as (y & e' & Hy & E). exists x. split; auto. right. eauto.
Qed.

Lemma filter_filter {A} (f g : A -> bool) l : filter f (filter g l) = filter (fun x => g x && f x) l.
Proof. induction l; simpl; auto. destruct (g a); simpl; [destruct (f a); simpl|]; congruence. Qed.

(** * Placement of the parts *)
Definition key_part (l : list jx) (a b : jx) : Prop :=
  (In (JEq [a; b]) l \/ In (JEq [b; a]) l) /\
  dep_left a = true /\ dep_right a = false /\ dep_left b = false /\ dep_right b = true.
Definition placed (h : how) (c : conds) (l : list jx) : Prop :=
  (forall q, In q (left_collection c ++ left_row c) -> In q l /\ only_left q = true) /\
  (forall q, In q (right_collection c ++ right_row c) -> In q l /\ only_right q = true) /\
  (forall q, In q (pre c) -> In q l /\ input_only q = true) /\
  (forall q, In q (inner_loop c) -> In q l /\ is_key q = false) /\
  Forall2 (key_part l) (left_hash c) (right_hash c) /\
  (existsb is_key l = true -> left_hash c <> []) /\
  (left_join h = true -> left_collection c = []) /\
  (right_join h = true -> right_collection c = []) /\
  (left_join h = false -> left_row c = []) /\
  (right_join h = false -> right_row c = []).

Lemma key_part_app l m a b : key_part l a b -> key_part (l ++ m) a b.
Proof. intros ([H|H] & Q); split; auto; [left|right]; apply in_or_app; auto. Qed.
Lemma F2_key_app l m x y : Forall2 (key_part l) x y -> Forall2 (key_part (l ++ m)) x y.
Proof. induction 1; constructor; auto. apply key_part_app; auto. Qed.

Lemma not_key_snoc l e : is_key e = false -> existsb is_key (l ++ [e]) = true -> existsb is_key l = true.
Proof. rewrite existsb_app. simpl. intros ->. rewrite !orb_false_r. auto. Qed.

Lemma in_snoc_l {A} (x : A) l e : In x l -> In x (l ++ [e]).
Proof. intros; apply in_or_app; auto. Qed.
Lemma in_snoc_e {A} (l : list A) e : In e (l ++ [e]).
Proof. apply in_or_app; simpl; auto. Qed.
Local Hint Resolve in_snoc_l in_snoc_e F2_key_app : core.

Ltac placed_tac :=
  unfold placed; cbn [left_hash right_hash left_collection left_row right_collection right_row pre inner_loop];
  repeat match goal with |- _ /\ _ => split end; auto;
  try solve [let q := fresh in let Hq := fresh in intros q Hq; rewrite ?in_app_iff in Hq; simpl in Hq;
    repeat match type of Hq with _ \/ _ => destruct Hq as [Hq|Hq] end; subst; try contradiction; auto;
    match goal with H : forall q, In q _ -> In q _ /\ _ |- _ =>
       solve [destruct (H q ltac:(rewrite ?in_app_iff; tauto)); auto] end];
  try solve [intros; congruence];
  try solve [let K := fresh in intros K; apply not_key_snoc in K; auto].

Lemma placed_left h c l e : placed h c l -> is_key e = false -> only_left e = true -> placed h (add_left h c e) (l ++ [e]).
Proof.
  intros (A & B & C & D & E & F & G & H & I & J) K O. unfold add_left. destruct (left_join h) eqn:LJ; placed_tac.
Qed.
Lemma placed_right h c l e : placed h c l -> is_key e = false -> only_right e = true -> placed h (add_right h c e) (l ++ [e]).
Proof.
  intros (A & B & C & D & E & F & G & H & I & J) K O. unfold add_right. destruct (right_join h) eqn:LJ; placed_tac.
Qed.
Lemma placed_pre h c l e : placed h c l -> is_key e = false -> input_only e = true -> placed h (add_pre c e) (l ++ [e]).
Proof.
  intros (A & B & C & D & E & F & G & H & I & J) K O. unfold add_pre. placed_tac.
Qed.
Lemma placed_inner h c l e : placed h c l -> is_key e = false -> placed h (add_inner c e) (l ++ [e]).
Proof.
  intros (A & B & C & D & E & F & G & H & I & J) K. unfold add_inner. placed_tac.
Qed.
Lemma placed_hash h c l e a b : placed h c l -> key_part (l ++ [e]) a b -> placed h (add_hash c a b) (l ++ [e]).
Proof.
  intros (A & B & C & D & E & F & G & H & I & J) K. unfold add_hash. placed_tac.
  - apply Forall2_app; auto.
  - intros _ Q. destruct (left_hash c); discriminate.
Qed.

Lemma placed_ok h cond : proper cond -> placed h (from_condition h cond) (cond_parts cond).
Proof.
  apply from_parts.
  - unfold placed, no_conds; simpl. repeat split; try contradiction; auto; try constructor; discriminate.
  - intros c l e K P. unfold consume_other.
    destruct (dep_left e) eqn:L, (dep_right e) eqn:R.
    + apply placed_inner; auto.
    + apply placed_left; auto. unfold only_left. rewrite L, R; auto.
    + apply placed_right; auto. unfold only_right. rewrite L, R; auto.
    + apply placed_pre; auto. unfold input_only. rewrite L, R; auto.
  - intros c l args P. unfold consume_eq. destruct args as [|a [|b [|x r]]]; try (apply placed_inner; auto; fail).
    destruct ((dep_left a && dep_right a) || (dep_left b && dep_right b)) eqn:B.
    { apply placed_inner; auto. simpl. unfold two_sided. destruct (dep_left a), (dep_right a), (dep_left b), (dep_right b); auto; discriminate. }
    destruct ((dep_left a || dep_left b) && (dep_right a || dep_right b)) eqn:T.
    + destruct (dep_left a) eqn:La.
      * apply placed_hash; auto. unfold key_part. split; [left; auto|].
        destruct (dep_right a), (dep_left b), (dep_right b); auto; discriminate.
      * apply placed_hash; auto. unfold key_part. split; [right; auto|].
        destruct (dep_right a), (dep_left b), (dep_right b); auto; discriminate.
    + assert (K : is_key (JEq [a; b]) = false).
      { simpl. unfold two_sided. destruct (dep_left a), (dep_right a), (dep_left b), (dep_right b); auto; discriminate. }
      destruct (dep_left a || dep_left b) eqn:L.
      * apply placed_left; auto. unfold only_left. simpl. destruct (dep_left a), (dep_right a), (dep_left b), (dep_right b); auto; discriminate.
      * destruct (dep_right a || dep_right b) eqn:R.
        -- apply placed_right; auto. unfold only_right. simpl. destruct (dep_left a), (dep_right a), (dep_left b), (dep_right b); auto; discriminate.
        -- apply placed_pre; auto. unfold input_only. simpl. destruct (dep_left a), (dep_right a), (dep_left b), (dep_right b); auto; discriminate.
Qed.

Lemma closed_parts e : closed e = true -> forall p, In p (parts e) -> closed p = true.
Proof.
  induction e using jx_ind'; intros C p Hp; simpl in Hp; try (destruct Hp as [<-|[]]; exact C).
  simpl in C. rewrite forallb_forall in C. rewrite Forall_forall in H.
  apply in_flat_map in Hp as (q & Hq & Hp). eauto.
Qed.
Lemma closed_cond cond p : proper cond -> In p (cond_parts cond) -> closed p = true.
Proof. destruct cond as [e|]; simpl; [|contradiction]. intros [C _]. apply closed_parts; auto. Qed.

Section Core.
  Variable op : string -> list val -> res val.
  Variable inputs : string -> val.
  Local Notation R1 := (on_row inputs).
  Local Notation P2 := (on_pair inputs).

  Lemma ev_list_spec E l : forall vs, ev_list op E l = Ok vs -> Forall2 (fun a v => ev op E a = Ok v) l vs.
  Proof.
    induction l as [|a r IH]; simpl; intros vs Q; [injection Q as <-; constructor|].
    destruct (ev op E a) eqn:Ea; simpl in Q; [|discriminate].
    destruct (ev_list op E r) eqn:Er; simpl in Q; [|discriminate]. injection Q as <-. constructor; auto.
  Qed.

  Lemma agree_lists x y lh rh us vs :
    Forall2 (fun a v => ev op (R1 x) a = Ok v) lh us -> Forall2 (fun a v => ev op (R1 y) a = Ok v) rh vs ->
    Forall (fun v => hashable v = true) us -> Forall (fun v => hashable v = true) vs ->
    (list_eq vs us = true -> Forall2 (agreeS op inputs x y) lh rh) /\
    (Forall2 (agreeW op inputs x y) lh rh -> list_eq vs us = true).
  Proof.
    intros F. revert rh vs. induction F as [|a u lh us Ha F IH]; intros rh vs G Hu Hv.
    - destruct G; simpl; split; intros Q; auto; try discriminate. inversion Q.
    - destruct G as [|b v rh vs Hb G]; simpl; [split; intros Q; [discriminate|inversion Q]|].
      inversion Hu; inversion Hv; subst. destruct (IH rh vs G) as [I1 I2]; auto. split.
      + intros Q. apply andb_true_iff in Q as [Q1 Q2]. constructor; auto.
        exists u, v. repeat split; auto. rewrite py_eq_sym; auto.
      + intros Q. inversion Q as [|? ? ? ? (u' & v' & E1 & E2 & E3) Q2]; subst. apply andb_true_iff. split; auto.
        rewrite Ha in E1. rewrite Hb in E2. injection E1 as <-. injection E2 as <-.
        destruct E3; auto. rewrite py_eq_sym; auto.
  Qed.

  Lemma key_agree lh rh x y kx ky : length lh = length rh ->
    ev_key op (R1 x) lh = Ok kx -> ev_key op (R1 y) rh = Ok ky -> hashable kx = true -> hashable ky = true ->
    (py_eq ky kx = true -> Forall2 (agreeS op inputs x y) lh rh) /\
    (Forall2 (agreeW op inputs x y) lh rh -> py_eq ky kx = true).
  Proof.
    intros L Ex Ey Hx Hy.
    assert (C : (exists a b, lh = [a] /\ rh = [b]) \/
                (exists us vs, ev_list op (R1 x) lh = Ok us /\ ev_list op (R1 y) rh = Ok vs /\ kx = VTuple us /\ ky = VTuple vs)).
    { destruct lh as [|a [|a' lh]], rh as [|b [|b' rh]]; try discriminate L; [right| |right]; eauto.
      - simpl in *. exists [], []. repeat split; auto; congruence.
      - unfold ev_key in Ex, Ey.
        destruct (ev_list op (R1 x) (a :: a' :: lh)) as [us|]; [|discriminate].
        destruct (ev_list op (R1 y) (b :: b' :: rh)) as [vs|]; [|discriminate].
        cbn [bind] in *. exists us, vs. repeat split; auto; congruence. }
    destruct C as [(a & b & -> & ->)|(us & vs & Eu & Ev & -> & ->)].
    - simpl in Ex, Ey. destruct (agree_lists x y [a] [b] [kx] [ky]) as [I1 I2]; auto.
      simpl in *. rewrite andb_true_r in *. auto.
    - rewrite py_eq_tuple. apply agree_lists; try (apply ev_list_spec; auto); apply hashable_tuple; auto.
  Qed.

  Lemma core (lh : list jx) key_l key_r rfp (again : bool) rs ls test (H : robj -> robj -> bool) s m :
    match lh with
    | [] => Ok (if again then Again rs else Once (filter_rows rfp rs))
    | _ => do rows <- filter_rows rfp rs; do d <- index_rows key_r rows []; Ok (Buckets d)
    end = Ok s ->
    matches key_l test s ls = Ok m ->
    (lh = [] -> again = true \/ length ls <= 1) ->
    (again = true -> forall y, In y rs -> rfp y = Ok true) ->
    (forall x y, In x ls -> In y rs ->
       (lh <> [] -> key_good key_l x /\ (rfp y = Ok true -> key_good key_r y)) ->
       H x y = isT (rfp y) && (match lh with [] => true | _ => match key_l x with Ok k => key_is key_r k y | Err _ => false end end)
               && isT (test x y)) ->
    m = map (fun x => (x, filter (H x) rs)) ls.
  Proof.
    intros Es Em OS AG HH.
    assert (OS' : match s with Once _ => length ls <= 1 | _ => True end).
    { destruct lh as [|a lh].
      - destruct again; injection Es as <-; auto. destruct OS; auto; discriminate.
      - destruct (filter_rows rfp rs); cbn [bind] in Es; [|discriminate].
        destruct (index_rows key_r a0 []); cbn [bind] in Es; [|discriminate]. injection Es as <-. auto. }
    pose proof (matches_spec key_l test ls s OS') as MS. rewrite Em in MS. destruct MS as [-> SO].
    apply map_ext_in. intros x Hx. f_equal. specialize (SO x Hx).
    destruct lh as [|a lh].
    - destruct again; injection Es as <-; cbn [cands].
      + apply filter_ext_in. intros y Hy. rewrite HH by (auto; congruence). rewrite AG by auto. auto.
      + destruct SO as (rows & E). rewrite E. pose proof (filter_rows_spec rfp rs) as F. rewrite E in F. destruct F as [-> _].
        rewrite filter_filter. apply filter_ext_in. intros y Hy. rewrite HH by (auto; congruence). rewrite andb_true_r. auto.
    - pose proof (filter_rows_spec rfp rs) as F. destruct (filter_rows rfp rs) as [rows|]; cbn [bind] in Es; [|discriminate].
      destruct F as [-> _].
      pose proof (index_rows_spec key_r (filter (fun x => isT (rfp x)) rs) [] (Forall_nil _)) as IS.
      destruct (index_rows key_r (filter (fun x => isT (rfp x)) rs) []) as [d|]; cbn [bind] in Es; [|discriminate].
      injection Es as <-. destruct IS as (KG & _ & BK).
      cbn [src_ok] in SO. destruct SO as (k & Ek & Hk). cbn [cands]. rewrite Ek, BK by auto. unfold bucket at 1. cbn [dfind app].
      rewrite filter_filter, filter_filter. apply filter_ext_in. intros y Hy.
      rewrite HH; auto.
      + rewrite Ek. rewrite andb_assoc. auto.
      + intros _. split; [exists k; auto|]. intros Q. apply KG. apply filter_In. split; auto. rewrite Q; auto.
  Qed.

  Lemma core_ok (lh : list jx) key_l key_r rfp (again : bool) rs ls test :
    (lh = [] -> again = true \/ length ls <= 1) ->
    (forall y, In y rs -> exists b, rfp y = Ok b) ->
    (lh <> [] -> forall x, In x ls -> key_good key_l x) ->
    (lh <> [] -> forall y, In y rs -> key_good key_r y) ->
    (forall x y, In x ls -> In y rs -> exists b, test x y = Ok b) ->
    exists s m,
    match lh with
    | [] => Ok (if again then Again rs else Once (filter_rows rfp rs))
    | _ => do rows <- filter_rows rfp rs; do d <- index_rows key_r rows []; Ok (Buckets d)
    end = Ok s /\ matches key_l test s ls = Ok m.
  Proof.
    intros OS RF KL KR TS.
    assert (FR := filter_rows_ok rfp rs RF). rewrite FR.
    assert (G : exists s, match lh with
      | [] => Ok (if again then Again rs else Once (Ok (filter (fun x => isT (rfp x)) rs)))
      | _ => do rows <- Ok (filter (fun x => isT (rfp x)) rs); do d <- index_rows key_r rows []; Ok (Buckets d)
      end = Ok s /\ (match s with Once _ => length ls <= 1 | _ => True end) /\ (forall x, In x ls -> src_ok key_l s x) /\
      (forall x y, In x ls -> In y (cands key_l s x) -> In y rs)).
    { destruct lh as [|a lh].
      - destruct again; eexists; (split; [reflexivity|]); cbn [src_ok cands]; repeat split; eauto.
        + destruct OS; auto; discriminate.
        + intros x y Hx Hy. apply filter_In in Hy. tauto.
      - cbn [bind].
        pose proof (index_rows_spec key_r (filter (fun x => isT (rfp x)) rs) [] (Forall_nil _)) as IS.
        destruct (index_rows key_r (filter (fun x => isT (rfp x)) rs) []) as [d|].
        + destruct IS as (_ & _ & BK). eexists. split; [reflexivity|]. split; auto. split.
          * intros x Hx. apply KL; auto; discriminate.
          * intros x y Hx Hy. cbn [cands] in Hy. destruct (KL ltac:(discriminate) x Hx) as (k & Ek & Hk). rewrite Ek, BK in Hy by auto.
            unfold bucket in Hy. cbn [dfind app] in Hy. apply filter_In in Hy as [Hy _]. apply filter_In in Hy as [Hy _]. auto.
        + destruct IS as (x & Hx & N). apply filter_In in Hx as [Hx _]. destruct N. apply KR; auto; discriminate. }
    destruct G as (s & Es & O & SO & CS). exists s.
    pose proof (matches_spec key_l test ls s O) as MS. destruct (matches key_l test s ls) as [m|e].
    - exists m. auto.
    - destruct MS as (x & Hx & [N|(y & e' & Hy & E)]); [destruct N; auto|].
      destruct (TS x y Hx (CS x y Hx Hy)). congruence.
  Qed.

  (** The condition in terms of the stages of the join. *)
  Lemma ev_all_isT E l : isT (ev_all op E l) = true <-> Forall (fun e => ev_bool op E e = Ok true) l.
  Proof. rewrite isT_true. apply ev_all_true. Qed.

  Lemma holds_stages h cond x y : proper cond ->
    let c := from_condition h cond in
    ev_all op (on_nothing inputs) (pre c) = Ok true ->
    (left_hash c <> [] -> key_good (fun x => ev_key op (R1 x) (left_hash c)) x /\
       (ev_all op (R1 y) (right_collection c) = Ok true -> key_good (fun y => ev_key op (R1 y) (right_hash c)) y)) ->
    holds op inputs cond x y =
      isT (ev_all op (R1 x) (left_collection c)) && isT (ev_all op (R1 y) (right_collection c)) &&
      (match left_hash c with [] => true | _ => match ev_key op (R1 x) (left_hash c) with
         Ok k => key_is (fun y => ev_key op (R1 y) (right_hash c)) k y | Err _ => false end end) &&
      isT (ev_all op (P2 x y) (left_row c ++ right_row c ++ inner_loop c)).
  Proof.
    intros PR c PRE KG. pose proof (placed_ok h cond PR) as PL. fold c in PL.
    destruct PL as (A & B & C & D & E & F & G).
    assert (LEN : length (left_hash c) = length (right_hash c)) by (clear - E; induction E; simpl; auto).
    assert (LR : Forall (fun p => ev_bool op (P2 x y) p = Ok true) (left_row c) <-> Forall (fun p => ev_bool op (R1 x) p = Ok true) (left_row c)).
    { rewrite !Forall_forall. split; intros Q p Hp; (destruct (A p) as [Hi O]; [apply in_or_app; auto|]);
        apply andb_true_iff in O as [_ O]; apply negb_true_iff in O; specialize (Q p Hp);
        apply (evb_left op inputs p x y (closed_cond cond p PR Hi) O); auto. }
    assert (RR : Forall (fun p => ev_bool op (P2 x y) p = Ok true) (right_row c) <-> Forall (fun p => ev_bool op (R1 y) p = Ok true) (right_row c)).
    { rewrite !Forall_forall. split; intros Q p Hp; (destruct (B p) as [Hi O]; [apply in_or_app; auto|]);
        apply andb_true_iff in O as [_ O]; apply negb_true_iff in O; specialize (Q p Hp);
        apply (evb_right op inputs p x y (closed_cond cond p PR Hi) O); auto. }
    apply eq_true_iff_eq. rewrite !andb_true_iff, !ev_all_isT, !Forall_app, LR, RR. split.
    - intros HO. apply (split_W op inputs h cond x y PR) in HO. fold c in HO. destruct HO as (S1 & S2 & S3 & S4 & S5).
      rewrite Forall_app in S2, S3. repeat split; try tauto.
      destruct (left_hash c) eqn:EL; auto. rewrite <- EL in *.
      destruct KG as [(k & Ek & Hk) KR]; [rewrite EL; discriminate|].
      destruct KR as (k' & Ek' & Hk'); [apply ev_all_true; tauto|].
      rewrite Ek. unfold key_is. rewrite Ek'. apply (key_agree _ _ x y k k' LEN Ek Ek' Hk Hk'); auto.
    - intros (((H1 & H2) & H3) & H4 & H5 & H6). apply (split_S op inputs h cond x y PR). fold c.
      repeat split; rewrite ?Forall_app; try tauto; [|apply ev_all_true; auto].
      destruct (left_hash c) eqn:EL.
      + destruct (right_hash c); [constructor|discriminate].
      + rewrite <- EL in *.
        destruct KG as [(k & Ek & Hk) KR]; [rewrite EL; discriminate|].
        destruct KR as (k' & Ek' & Hk'); [apply ev_all_true; tauto|].
        rewrite Ek in H3. unfold key_is in H3. rewrite Ek' in H3. apply (key_agree _ _ x y k k' LEN Ek Ek' Hk Hk'); auto.
  Qed.
End Core.
