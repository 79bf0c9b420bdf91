(** A check of statements: every object they change was made by them.  [sound]: what
    the check accepts changes no object that was there before.  Used for the loop
    bodies of aggregations (Props_Own.v). *)
From Coq Require Import String Ascii List NArith ZArith Bool Arith Lia.
From Verif Require Import Model_Code Spec_Syntax Spec_Stmt Spec_PyHeap.
Import ListNotations.

(** what a variable, item or attribute may hold: anything; values that are no
    containers; tuples; containers made by the statements, with items as given;
    instances made by the statements *)
Inductive sty : Type :=
| TAny | TImm | TTup | TBox (item : sty) | TInst (fs : list (text * sty)).

Fixpoint sty_eqb (a b : sty) : bool :=
  match a, b with
  | TAny, TAny | TImm, TImm | TTup, TTup => true
  | TBox i, TBox j => sty_eqb i j
  | TInst l, TInst m =>
      (fix go (l m : list (text * sty)) : bool :=
         match l, m with
         | [], [] => true
         | (n, a) :: l, (k, b) :: m => same_text n k && sty_eqb a b && go l m
         | _, _ => false
         end) l m
  | _, _ => false
  end.
Lemma same_text_eq s : forall t, same_text s t = true -> s = t.
Proof.
  induction s as [|a s IH]; intros [|b t]; cbn; try discriminate; auto.
  rewrite andb_true_iff, N.eqb_eq. intros [-> H]. f_equal. auto.
Qed.
Lemma same_text_refl s : same_text s s = true.
Proof. induction s; cbn; [reflexivity|]. now rewrite N.eqb_refl. Qed.
Fixpoint sty_eqb_eq (a : sty) : forall b, sty_eqb a b = true -> a = b.
Proof.
  destruct a as [| | |i|l]; intros [| | |j|m]; cbn; try discriminate; try (intros _; reflexivity).
  - intros H. f_equal. apply (sty_eqb_eq i j H).
  - intros H. f_equal. revert m H. induction l as [|[n a] l IH]; intros [|[k b] m]; cbn; try discriminate; [reflexivity|].
    rewrite !andb_true_iff. intros [[H1 H2] H3]. rewrite (same_text_eq _ _ H1), (sty_eqb_eq a b H2), (IH m H3). reflexivity.
Qed.

Notation imm := scalar.

(** *** the check *)
Section Check.
  Variable ops : pyops.
  (** the type of what a code gives; [None]: not a code *)
  Variable cty : text -> option sty.
  Variable vars : list (text * sty).

  Definition name_ty (n : text) : option sty :=
    match cty n with Some t => Some t | None => assoc vars n end.
  Fixpoint infer (a : ast) : option sty :=
    match a with
    | AName n => name_ty n
    | ASub a _ => match infer a with Some (TBox i) => Some i | Some TTup => Some TAny | _ => None end
    | AAttr a n => match infer a with Some (TInst fs) => assoc fs n | _ => None end
    | _ => None
    end.
  Definition boxed (t : option sty) : bool :=
    match t with Some (TBox _) | Some TTup => true | _ => false end.
  Definition insted (t : option sty) : bool := match t with Some (TInst _) => true | _ => false end.
  Fixpoint safe (a : ast) : bool :=
    match a with
    | AName n => match name_ty n with Some _ => true | None => false end
    | ANum _ => true
    | AConst c => same_text c (T "None")
    | ABin o a b => same_text o (T "+") && safe a && safe b
    | ACompare a [(_, b)] => safe a && safe b
    | ABool _ l => forallb safe l
    | ASub a i => safe a && safe i && boxed (infer a)
    | AAttr a n => safe a && insted (infer a)
    | ATuple l | AList l | ASet l => forallb safe l
    | ADict l => forallb (fun p => safe (fst p) && safe (snd p)) l
    | ACall (AName f) [AName g] [] =>
        same_text f (T "defaultdict") && match factory_named g with Some _ => true | None => false end
    | _ => false
    end.
  Definition fac_ok (f : factory) (t : sty) : bool :=
    match f, t with
    | _, TAny => true
    | FInt, TImm => true
    | (FList | FDict), TBox _ => true
    | FInst l, TInst fs =>
        (fix go (l : list text) (fs : list (text * sty)) : bool :=
           match l, fs with
           | [], [] => true
           | n :: l, (m, _) :: fs => same_text n m && go l fs
           | _, _ => false
           end) l fs
    | _, _ => false
    end.
  (** the value of [a] may be held by something of type [t] *)
  Fixpoint check (t : sty) (a : ast) {struct t} : bool :=
    safe a &&
    (match infer a with Some u => sty_eqb u t | None => false end ||
     match t with
     | TAny => true
     | TImm => match a with
               | ANum _ | AConst _ => true
               | ABool _ l => forallb (fun a => match a with
                                                | ANum _ => true
                                                | AName n => match name_ty n with Some TImm => true | _ => false end
                                                | _ => false end) l
               | _ => false end
     | TTup => match a with ATuple _ => true | _ => false end
     | TBox i =>
         match a with
         | AList l => forallb (check i) l
         | ASet _ => true
         | ADict l => forallb (fun p => check i (snd p)) l
         | ACall (AName _) [AName g] [] => match factory_named g with Some f => fac_ok f i | None => false end
         | _ => false
         end
     | TInst _ => false
     end).
  (** something of this type may be given the value of [x] *)
  Definition place (t : ast) : option sty :=
    match t with
    | AName n => match cty n with Some _ => None | None => assoc vars n end
    | ASub a i => if safe a && safe i then match infer a with Some (TBox i) => Some i | _ => None end else None
    | AAttr a n => if safe a then match infer a with Some (TInst fs) => assoc fs n | _ => None end else None
    | _ => None
    end.
  Definition ok_simple (s : simple_stmt) : bool :=
    match s with
    | SPass | SBreak => true
    | SAssign (t :: ts) x =>
        match place t with
        | Some ty => check ty x && forallb (fun t => match place t with Some ty' => sty_eqb ty' ty | None => false end) ts
        | None => false
        end
    | SAssign [] _ => false
    | SAdd t x | SOr t x => match place t with Some TImm => safe x | _ => false end
    | SExpr (ACall (AAttr a m) [x] []) =>
        safe a && match infer a with Some (TBox i) => check i x | _ => false end
    | SExpr _ => false
    end.
  Fixpoint ok_stmt (s : stmt) : bool :=
    match s with
    | Simple s => ok_simple s
    | If l other =>
        (fix go (l : list (ast * list stmt)) : bool :=
           match l with
           | [] => true
           | (c, b) :: r => safe c && forallb ok_stmt b && go r
           end) l && forallb ok_stmt other
    end.

  (** *** types of objects *)
  Definition styping : Type := list (option sty).
  Definition vok (S : styping) (t : sty) (v : hval) : Prop :=
    match t with
    | TAny => True
    | TImm => imm v
    | TTup => match v with HTup _ | HSent => True | _ => False end
    | TBox _ | TInst _ => v = HSent \/ exists a, v = HRef a /\ nth_error S a = Some (Some t)
    end.
  Definition ook (S : styping) (t : sty) (o : hobj) : Prop :=
    match t, o with
    | TBox i, OList l => Forall (vok S i) l
    | TBox i, OSet l => True
    | TBox i, ODict d f => Forall (fun p => vok S i (snd p)) d /\ match f with Some f => fac_ok f i = true | None => True end
    | TInst fs, OInst l => Forall2 (fun f p => fst f = fst p /\ vok S (snd f) (snd p)) fs l
    | _, _ => False
    end.

  Variable before : heap.
  Record hok (S : styping) (h : heap) : Prop := mkHok {
    hok_len : length S = length h;
    hok_obj : forall a t, nth_error S a = Some (Some t) -> exists o, nth_error h a = Some o /\ ook S t o;
    hok_old : forall a, a < length before -> nth_error S a = Some None;
    hok_pre : firstn (length before) h = before }.
  Definition ext (S S' : styping) : Prop := exists new, S' = S ++ new.
  Definition eok (S : styping) (e : env) : Prop :=
    forall n t v, assoc vars n = Some t -> cty n = None -> assoc e n = Some v -> vok S t v.

  Lemma ext_refl S : ext S S.
  Proof. exists []. now rewrite app_nil_r. Qed.
  Lemma ext_trans A B C : ext A B -> ext B C -> ext A C.
  Proof. intros [x ->] [y ->]. exists (x ++ y). now rewrite app_assoc. Qed.
  Lemma ext_nth S S' a t : ext S S' -> nth_error S a = Some t -> nth_error S' a = Some t.
  Proof. intros [n ->] H. rewrite nth_error_app1; [auto|]. apply nth_error_Some. congruence. Qed.
  Lemma vok_ext S S' t v : ext S S' -> vok S t v -> vok S' t v.
  Proof. intros X. destruct t; cbn; auto; intros [->|(a & -> & H)]; [now left|right; eauto using ext_nth|now left|right; eauto using ext_nth]. Qed.
  Lemma ook_ext S S' t o : ext S S' -> ook S t o -> ook S' t o.
  Proof.
    intros X. destruct t, o; cbn; auto.
    - intros H. eapply Forall_impl; [|exact H]. eauto using vok_ext.
    - intros [H F]. split; [|auto]. eapply Forall_impl; [|exact H]. cbn. eauto using vok_ext.
    - intros H. induction H as [|? ? ? ? [H1 H2] _ IH]; constructor; auto. split; [auto|eauto using vok_ext].
  Qed.
  Lemma eok_ext S S' e : ext S S' -> eok S e -> eok S' e.
  Proof. intros X H n t v H1 H2 H3. eapply vok_ext; [exact X|]. eapply H; eauto. Qed.

  (** new objects, of a known type or not *)
  Lemma hok_new S h l : hok S h -> hok (S ++ map (fun _ => None) l) (h ++ l).
  Proof.
    intros [L O D P]. split.
    - rewrite !app_length, map_length. lia.
    - intros a t H. destruct (lt_dec a (length S)) as [Ha|Ha].
      + rewrite nth_error_app1 in H by auto. destruct (O _ _ H) as (o & H1 & H2). exists o. split.
        * rewrite nth_error_app1; [auto|]. lia.
        * eapply ook_ext; [|exact H2]. eexists; reflexivity.
      + rewrite nth_error_app2 in H by lia. apply nth_error_In in H. apply in_map_iff in H. destruct H as (? & ? & _). discriminate.
    - intros a Ha. eapply ext_nth; [eexists; reflexivity|]. auto.
    - rewrite firstn_app. assert (length before <= length h).
      { rewrite <- P. rewrite firstn_length. lia. }
      replace (length before - length h) with 0 by lia. cbn. rewrite app_nil_r. auto.
  Qed.
  Lemma hok_alloc S h t o : hok S h -> ook (S ++ [Some t]) t o -> hok (S ++ [Some t]) (h ++ [o]).
  Proof.
    intros [L O D P] Ho. split.
    - rewrite !app_length. cbn. lia.
    - intros a u H. destruct (lt_dec a (length S)) as [Ha|Ha].
      + rewrite nth_error_app1 in H by auto. destruct (O _ _ H) as (o' & H1 & H2). exists o'. split.
        * rewrite nth_error_app1; [auto|]. lia.
        * eapply ook_ext; [|exact H2]. eexists; reflexivity.
      + rewrite nth_error_app2 in H by lia. exists o. destruct (a - length S) as [|k] eqn:E; cbn in H.
        * injection H as <-. split; [|auto]. rewrite nth_error_app2 by lia. replace (a - length h) with 0 by lia. reflexivity.
        * destruct k; discriminate.
    - intros a Ha. eapply ext_nth; [eexists; reflexivity|]. auto.
    - rewrite firstn_app. assert (length before <= length h).
      { rewrite <- P. rewrite firstn_length. lia. }
      replace (length before - length h) with 0 by lia. cbn. rewrite app_nil_r. auto.
  Qed.
  Lemma set_nth_error {B} (l : list B) : forall n b k, nth_error (set_nth l n b) k =
    if n =? k then match nth_error l n with Some _ => Some b | None => None end else nth_error l k.
  Proof.
    induction l as [|x l IH]; intros [|n] b [|k]; cbn; auto; try (destruct (n =? k); reflexivity); apply IH.
  Qed.
  Lemma set_nth_len {B} (l : list B) : forall n b, length (set_nth l n b) = length l.
  Proof. induction l; intros [|n] b; cbn; auto. Qed.
  Lemma set_nth_firstn {B} (l : list B) : forall n b k, k <= n -> firstn k (set_nth l n b) = firstn k l.
  Proof.
    induction l as [|x l IH]; intros [|n] b [|k] H; cbn; auto; try lia.
    f_equal. apply IH. lia.
  Qed.
  (** an object of a known type may be changed *)
  Lemma hok_set S h a t o : hok S h -> nth_error S a = Some (Some t) -> ook S t o -> hok S (set_nth h a o).
  Proof.
    intros [L O D P] Ha Ho. split.
    - rewrite set_nth_len. auto.
    - intros b u H. rewrite set_nth_error. destruct (Nat.eqb_spec a b) as [->|N].
      + rewrite Ha in H. injection H as <-. destruct (O _ _ Ha) as (o' & -> & _). eauto.
      + auto.
    - auto.
    - rewrite set_nth_firstn; [auto|]. destruct (le_lt_dec (length before) a) as [|l]; [auto|].
      apply D in l. congruence.
  Qed.

  (** *** computations *)
  (** [Q]: what holds of the result *)
  Definition good {A} (S : styping) (Q : styping -> A -> Prop) (m : act A) : Prop :=
    exists S', ext S S' /\ hok S' (snd m) /\ match fst m with Some a => Q S' a | None => True end.
  Lemma good_done {A} S (Q : styping -> A -> Prop) a h : hok S h -> Q S a -> good S Q (done a h).
  Proof. intros. exists S. split; [apply ext_refl|]. auto. Qed.
  Lemma good_raise {A} S (Q : styping -> A -> Prop) h : hok S h -> good S Q (raise h).
  Proof. intros. exists S. split; [apply ext_refl|]. cbn. auto. Qed.
  Lemma good_then {A B} S (P : styping -> A -> Prop) (Q : styping -> B -> Prop) m k : good S P m ->
    (forall S' a h, ext S S' -> hok S' h -> P S' a -> good S' Q (k a h)) -> good S Q (andthen m k).
  Proof.
    intros (S1 & X1 & H1 & P1) K. unfold andthen. destruct m as [[a|] h]; cbn [fst snd] in *.
    - destruct (K S1 a h X1 H1 P1) as (S2 & X2 & H2 & P2). exists S2. split; [eapply ext_trans; eauto|]. auto.
    - exists S1. cbn. auto.
  Qed.
  Lemma good_impl {A} S (P Q : styping -> A -> Prop) m : good S P m ->
    (forall S' a, ext S S' -> P S' a -> Q S' a) -> good S Q m.
  Proof. intros (S1 & X & H & P1) K. exists S1. split; [auto|]. split; [auto|]. destruct (fst m); auto. Qed.
  Definition anyv (S : styping) (v : hval) : Prop := True.
  Lemma good_made {A} S (Q : styping -> A -> Prop) r h : hok S h -> (forall a, r = Some a -> Q S a) -> good S Q (made r h).
  Proof. intros H K. destruct r as [a|]; cbn; [apply good_done; auto|apply good_raise; auto]. Qed.
  Lemma good_adding S r h (Q : styping -> hval -> Prop) : hok S h ->
    (forall new v, r = Some (new, v) -> forall S', ext S S' -> Q S' v) -> good S Q (adding r h).
  Proof.
    intros H K. destruct r as [[new v]|]; cbn; [|apply good_raise; auto].
    exists (S ++ map (fun _ => None) new). assert (ext S (S ++ map (fun _ => None) new)) by (eexists; reflexivity).
    split; [auto|]. split; [now apply hok_new|]. cbn. eauto.
  Qed.
  Lemma good_alloc S h t o : hok S h -> ook S t o -> vok S t HSent -> (exists i, t = TBox i) \/ (exists i, t = TInst i) ->
    good S (fun S v => vok S t v) (alloc o h).
  Proof.
    intros H Ho _ Ht. exists (S ++ [Some t]). assert (X : ext S (S ++ [Some t])) by (eexists; reflexivity).
    split; [auto|]. split; cbn.
    - apply hok_alloc; auto. eapply ook_ext; eauto.
    - assert (nth_error (S ++ [Some t]) (length h) = Some (Some t)).
      { rewrite nth_error_app2 by (rewrite (hok_len _ _ H); lia). rewrite (hok_len _ _ H), Nat.sub_diag. reflexivity. }
      destruct Ht as [[i ->]|[i ->]]; cbn; right; eauto.
  Qed.
  Lemma good_alloc_any S h o : hok S h -> good S anyv (alloc o h).
  Proof.
    intros H. exists (S ++ [None]). split; [eexists; reflexivity|]. split; cbn; [|exact I].
    apply (hok_new S h [o] H).
  Qed.
  Lemma good_make S f t h : hok S h -> fac_ok f t = true -> good S (fun S v => vok S t v) (make f h).
  Proof.
    intros H F. destruct t as [| | |i|fs].
    - destruct f; cbn; try (apply good_alloc_any; auto). apply good_done; cbn; auto.
    - destruct f; try discriminate. apply good_done; cbn; auto.
    - destruct f; discriminate.
    - destruct f; try discriminate; cbn [make]; apply good_alloc; cbn; auto; left; eauto.
    - destruct f; try discriminate. cbn [make]. apply good_alloc; cbn [ook vok]; auto; [|right; eauto].
      revert fs F. induction attributes as [|n l IH]; intros [|[m t] fs] F; try discriminate; cbn [map]; constructor.
      + cbn in F |- *. apply andb_true_iff in F. split; [symmetry; apply same_text_eq; tauto|].
        destruct t; cbn; auto.
      + apply IH. cbn in F. apply andb_true_iff in F. tauto.
  Qed.

  (** *** containers *)
  Lemma Forall_nth {B} (P : B -> Prop) l i x : Forall P l -> nth_error l i = Some x -> P x.
  Proof. intros H E. apply nth_error_In in E. rewrite Forall_forall in H. auto. Qed.
  Lemma find_key_ok S i h d k x : Forall (fun p => vok S i (snd p)) d -> find_key ops h d k = Some (Some x) -> vok S i x.
  Proof.
    induction 1 as [|[k' v] d Hv _ IH]; cbn; [discriminate|].
    destruct (op_eq ops h k' k) as [[]|]; try discriminate; auto. intros [= <-]. auto.
  Qed.
  Lemma put_key_ok S i h d k x : Forall (fun p => vok S i (snd p)) d -> vok S i x ->
    forall d', put_key ops h d k x = Some d' -> Forall (fun p => vok S i (snd p)) d'.
  Proof.
    intros Hd Hx. induction Hd as [|[k' v] d Hv Hd IH]; cbn; intros d'.
    - intros [= <-]. repeat constructor. auto.
    - destruct (op_eq ops h k' k) as [[]|]; try discriminate.
      + intros [= <-]. constructor; auto.
      + destruct (put_key ops h d k x) as [d2|]; cbn; [|discriminate]. intros [= <-]. constructor; auto.
  Qed.
  (** [v] is something the statements made, of this type *)
  Lemma box_obj S h i v : hok S h -> vok S (TBox i) v ->
    v = HSent \/ exists a o, v = HRef a /\ nth_error S a = Some (Some (TBox i)) /\ nth_error h a = Some o /\ ook S (TBox i) o.
  Proof. intros H [->|(a & -> & Ha)]; [now left|right]. destruct (hok_obj _ _ H _ _ Ha) as (o & H1 & H2). eauto 6. Qed.
  Lemma get_item_box S h i v k : hok S h -> vok S (TBox i) v -> good S (fun S x => vok S i x) (get_item ops v k h).
  Proof.
    intros H Hv. destruct (box_obj _ _ _ _ H Hv) as [->|(a & o & -> & Ha & E & O)]; cbn [get_item]; [now apply good_raise|].
    rewrite E. destruct o as [l|l|d f|l|n]; cbn in O; try contradiction.
    - destruct (position (length l) k); [|now apply good_raise]. apply good_made; auto. intros x Hx. eapply Forall_nth; eauto.
    - now apply good_raise.
    - destruct O as [O F]. destruct (op_hash ops h k); [|now apply good_raise].
      destruct (find_key ops h d k) as [[x|]|] eqn:K; [| |now apply good_raise].
      + apply good_done; auto. eapply find_key_ok; eauto.
      + destruct f as [f|]; [|now apply good_raise].
        eapply good_then; [apply good_make; eauto|]. cbn. intros S' x h' X H' Hx.
        apply good_done; auto. eapply hok_set; eauto using ext_nth. cbn. split; [|auto].
        apply Forall_app. split; [|repeat constructor; auto]. eapply Forall_impl; [|exact O]. cbn. eauto using vok_ext.
  Qed.
  Lemma get_item_tup S h v k : hok S h -> vok S TTup v -> good S anyv (get_item ops v k h).
  Proof.
    intros H Hv. destruct v; cbn in Hv; try contradiction; cbn [get_item]; [|now apply good_raise].
    destruct (position (length l) k);[|now apply good_raise]. apply good_made; [auto|intros; exact I].
  Qed.
  Definition unitv (S : styping) (u : unit) : Prop := True.
  Lemma set_nth_Forall {B} (P : B -> Prop) l : forall n b, Forall P l -> P b -> Forall P (set_nth l n b).
  Proof. induction l as [|x l IH]; intros [|n] b Hl Hb; cbn; auto; inversion Hl; subst; constructor; auto. Qed.
  Lemma set_item_box S h i v k x : hok S h -> vok S (TBox i) v -> vok S i x -> good S unitv (set_item ops v k x h).
  Proof.
    intros H Hv Hx. destruct (box_obj _ _ _ _ H Hv) as [->|(a & o & -> & Ha & E & O)]; cbn [set_item]; [now apply good_raise|].
    rewrite E. destruct o as [l|l|d f|l|n]; cbn in O; try contradiction.
    - destruct (position (length l) k) as [j|]; [|now apply good_raise].
      destruct (j <? length l); [|now apply good_raise]. apply good_done; [|exact I].
      eapply hok_set; eauto. cbn. apply set_nth_Forall; auto.
    - now apply good_raise.
    - destruct O as [O F]. destruct (op_hash ops h k); [|now apply good_raise].
      destruct (put_key ops h d k x) as [d'|] eqn:K; [|now apply good_raise].
      apply good_done; [|exact I]. eapply hok_set; eauto. cbn. split; [|auto]. eapply put_key_ok; eauto.
  Qed.
  Lemma call_method_box S h i v m x : hok S h -> vok S (TBox i) v -> vok S i x -> good S unitv (call_method ops v m x h).
  Proof.
    intros H Hv Hx. destruct (box_obj _ _ _ _ H Hv) as [->|(a & o & -> & Ha & E & O)]; cbn [call_method]; [now apply good_raise|].
    rewrite E. destruct o as [l|l|d f|l|n]; cbn in O; try contradiction.
    - destruct (same_text m (T "append")); [|now apply good_raise].
      apply good_done; [|exact I]. eapply hok_set; eauto. cbn. apply Forall_app. split; auto.
    - destruct (same_text m (T "add")); [|now apply good_raise].
      destruct (op_hash ops h x); [|now apply good_raise].
      destruct (member ops h l x) as [[]|]; [now apply good_done| |now apply good_raise].
      apply good_done; [|exact I]. eapply hok_set; eauto.
    - now apply good_raise.
  Qed.
  Lemma assoc_inst S fs l n t v : Forall2 (fun f p => fst f = fst p /\ vok S (snd f) (snd p)) fs l ->
    assoc fs n = Some t -> assoc l n = Some v -> vok S t v.
  Proof.
    induction 1 as [|[m u] [m' w] fs l [E V] _ IH]; cbn in *; [discriminate|]. subst m'.
    destruct (same_text n m); [|auto]. intros [= ->] [= ->]. auto.
  Qed.
  Lemma put_inst S fs l n t v : Forall2 (fun f p => fst f = fst p /\ vok S (snd f) (snd p)) fs l ->
    assoc fs n = Some t -> vok S t v ->
    Forall2 (fun f p => fst f = fst p /\ vok S (snd f) (snd p)) fs (put_attr l n v).
  Proof.
    intros H Ha Hv. induction H as [|[m u] [m' w] fs l [E V] H IH]; cbn in *; [constructor|]. subst m'.
    destruct (same_text n m) eqn:N; constructor; cbn; auto. injection Ha as ->. auto.
  Qed.
  Lemma inst_obj S h fs v : hok S h -> vok S (TInst fs) v ->
    v = HSent \/ exists a l, v = HRef a /\ nth_error S a = Some (Some (TInst fs)) /\ nth_error h a = Some (OInst l)
      /\ Forall2 (fun f p => fst f = fst p /\ vok S (snd f) (snd p)) fs l.
  Proof.
    intros H [->|(a & -> & Ha)]; [now left|right]. destruct (hok_obj _ _ H _ _ Ha) as (o & H1 & H2).
    destruct o; cbn in H2; try contradiction. eauto 8.
  Qed.
  Lemma get_attr_inst S h fs v n t : hok S h -> vok S (TInst fs) v -> assoc fs n = Some t ->
    good S (fun S x => vok S t x) (get_attr v n h).
  Proof.
    intros H Hv Hn. destruct (inst_obj _ _ _ _ H Hv) as [->|(a & l & -> & Ha & E & O)]; cbn [get_attr]; [now apply good_raise|].
    rewrite E. apply good_made; auto. intros x Hx. eapply assoc_inst; eauto.
  Qed.
  Lemma set_attr_inst S h fs v n t x : hok S h -> vok S (TInst fs) v -> assoc fs n = Some t -> vok S t x ->
    good S unitv (set_attr v n x h).
  Proof.
    intros H Hv Hn Hx. destruct (inst_obj _ _ _ _ H Hv) as [->|(a & l & -> & Ha & E & O)]; cbn [set_attr]; [now apply good_raise|].
    rewrite E. destruct (assoc l n); [|now apply good_raise]. apply good_done; [|exact I].
    eapply hok_set; eauto. cbn. eapply put_inst; eauto.
  Qed.

  (** *** expressions *)
  (** adding something to a value that is no container gives such a value *)
  Hypothesis add_imm : forall h v w new x, imm v -> op_add ops h v w = Some (new, x) -> imm x.
  Variable codes : row.
  Hypothesis codes_ok : forall n, match codes n, cty n with
    | Some c, Some t => t = TAny \/ t = TImm /\ forall h new v, c h = Some (new, v) -> imm v
    | None, None => True
    | _, _ => False
    end.

  Section Expr.
    Variable e : env.
    Local Notation ev := (eval ops codes e).
    Definition evals : list ast -> heap -> act (list hval) := fix evals l h :=
      match l with
      | [] => done [] h
      | a :: r => andthen (ev a h) (fun v h => andthen (evals r h) (fun vs h => done (v :: vs) h))
      end.
    Definition evalps : list (ast * ast) -> heap -> act (list (hval * hval)) := fix evalps l h :=
      match l with
      | [] => done [] h
      | (a, b) :: r =>
          andthen (ev a h) (fun k h => andthen (ev b h) (fun v h =>
          andthen (evalps r h) (fun vs h => done ((k, v) :: vs) h)))
      end.
    Definition evbool (isor : bool) : list ast -> heap -> act hval := fix go l h :=
      match l with
      | [] => raise h
      | [a] => ev a h
      | a :: r => andthen (ev a h) (fun v h =>
          match op_true ops h v with
          | Some t => if Bool.eqb t isor then done v h else go r h
          | None => raise h
          end)
      end.

    (** the value, of the type inferred *)
    Definition typed (a : ast) (S : styping) (v : hval) : Prop :=
      match infer a with Some t => vok S t v | None => True end.
    Definition fine (a : ast) : Prop := forall S h, hok S h -> eok S e -> safe a = true -> good S (typed a) (ev a h).
    Lemma good_any {A} S (P : styping -> A -> Prop) (Q : styping -> A -> Prop) m : (forall S a, Q S a) -> good S P m -> good S Q m.
    Proof. intros HQ H. eapply good_impl; [exact H|]. auto. Qed.
    Section Lists.
      (** what is known of the values *)
      Variable R : ast -> styping -> hval -> Prop.
      Hypothesis R_ext : forall a S S' v, ext S S' -> R a S v -> R a S' v.
      Definition gives (a : ast) : Prop := forall S h, hok S h -> eok S e -> good S (R a) (ev a h).
      Lemma evals_good l : Forall gives l -> forall S h, hok S h -> eok S e ->
        good S (fun S vs => Forall2 (fun a v => R a S v) l vs) (evals l h).
      Proof.
        induction 1 as [|a l Ha _ IH]; intros S h H E; cbn in *; [apply good_done; auto|].
        eapply good_then; [apply Ha; auto|].
        intros S1 v h1 X1 H1 T1. eapply good_then; [apply IH; eauto using eok_ext|].
        intros S2 vs h2 X2 H2 T2. apply good_done; auto. constructor; eauto.
      Qed.
      Lemma evalps_good l : Forall (fun p => fine (fst p) /\ safe (fst p) = true /\ gives (snd p)) l ->
        forall S h, hok S h -> eok S e ->
        good S (fun S vs => Forall2 (fun p v => R (snd p) S (snd v)) l vs) (evalps l h).
      Proof.
        induction 1 as [|[a b] l (Ha & Hs & Hb) _ IH]; intros S h H E; cbn in *; [apply good_done; auto|].
        eapply good_then; [apply Ha; auto|]. intros S0 k h0 X0 H0 _.
        eapply good_then; [apply Hb; eauto using eok_ext|].
        intros S1 v h1 X1 H1 T1. eapply good_then; [apply IH; eauto using eok_ext|].
        intros S2 vs h2 X2 H2 T2. apply good_done; auto. constructor; auto. cbn. eauto.
      Qed.
      Lemma evbool_good isor l : Forall gives l -> forall S h, hok S h -> eok S e ->
        good S (fun S v => exists a, In a l /\ R a S v) (evbool isor l h).
      Proof.
        induction 1 as [|a l Ha Hl IH]; intros S h H E; [now apply good_raise|].
        destruct l as [|b l].
        - cbn. eapply good_impl; [apply Ha; auto|]. cbn. eauto.
        - change (evbool isor (a :: b :: l) h) with (andthen (ev a h) (fun v h =>
            match op_true ops h v with
            | Some t => if Bool.eqb t isor then done v h else evbool isor (b :: l) h
            | None => raise h
            end)).
          eapply good_then; [apply Ha; auto|]. intros S1 v h1 X1 H1 T1.
          destruct (op_true ops h1 v) as [t|]; [|now apply good_raise]. destruct (Bool.eqb t isor).
          + apply good_done; auto. exists a. split; [now left|auto].
          + eapply good_impl; [apply IH; eauto using eok_ext|]. cbn. intros S2 w _ (c & Hc & Tc). exists c. split; [now right|auto].
      Qed.
    End Lists.
    Lemma typed_ext a S S' v : ext S S' -> typed a S v -> typed a S' v.
    Proof. unfold typed. destruct (infer a); eauto using vok_ext. Qed.
    Lemma safe_gives l : Forall fine l -> forallb safe l = true -> Forall (gives typed) l.
    Proof.
      induction 1 as [|a l Ha _ IH]; cbn; intros H; constructor; apply andb_true_iff in H as [H1 H2]; auto.
      intros S h ? ?. auto.
    Qed.
    Lemma safe_gives_pairs l : Forall (fun p => fine (fst p) /\ fine (snd p)) l ->
      forallb (fun p => safe (fst p) && safe (snd p)) l = true ->
      Forall (fun p => fine (fst p) /\ safe (fst p) = true /\ gives typed (snd p)) l.
    Proof.
      induction 1 as [|a l [Ha Hb] _ IH]; cbn; intros H; constructor; apply andb_true_iff in H as [H1 H2]; auto.
      apply andb_true_iff in H1 as [H0 H1]. repeat split; auto. intros S h ? ?. auto.
    Qed.
    Lemma typed_none a S v : infer a = None -> typed a S v.
    Proof. unfold typed. now intros ->. Qed.

    Fixpoint fine_all (a : ast) : fine a.
    Proof.
      destruct a as [n|n|s|c|o a|o a b|a l|a|isor l|c a b|a i|a n|f args kws|l|l|l|l|k l x it cond|e2 x2 i2 y2 j2 c2];
        intros S h H E Hs; cbn [safe] in Hs; try discriminate.
      - (* a name *)
        cbn [eval]. unfold typed. cbn [infer]. unfold name_ty in *. specialize (codes_ok n).
        destruct (codes n) as [c|], (cty n) as [t|] eqn:Ct; try contradiction.
        + apply good_adding; auto. intros new v Hc S' X. destruct codes_ok as [->|[-> K]]; cbn; [exact I|eauto].
        + apply good_made; auto. intros v Hv. destruct (assoc vars n) as [t|] eqn:Va; [|discriminate]. eapply E; eauto.
      - apply good_done; auto. exact I.
      - cbn [eval]. rewrite Hs. apply good_done; auto. exact I.
      - cbn [eval]. rewrite !andb_true_iff in Hs. destruct Hs as [[-> Ha] Hb].
        eapply good_then; [apply (fine_all a); auto|]. intros S1 v h1 X1 H1 _.
        eapply good_then; [apply (fine_all b); eauto using eok_ext|]. intros S2 w h2 X2 H2 _.
        apply good_adding; auto. intros. exact I.
      - destruct l as [|[o b] [|]]; try discriminate. cbn [eval]. rewrite andb_true_iff in Hs. destruct Hs as [Ha Hb].
        eapply good_then; [apply (fine_all a); auto|]. intros S1 v h1 X1 H1 _.
        eapply good_then; [apply (fine_all b); eauto using eok_ext|]. intros S2 w h2 X2 H2 _.
        apply good_made; auto. intros. exact I.
      - change (ev (ABool isor l) h) with (evbool isor l h). eapply good_any; [|apply (evbool_good typed); auto using safe_gives].
        + intros; apply typed_none; reflexivity.
        + apply safe_gives; [|auto]. clear Hs. induction l as [|a l IH]; constructor; [apply fine_all|apply IH].
      - cbn [eval]. rewrite !andb_true_iff in Hs. destruct Hs as [[Ha Hi] B].
        eapply good_then; [apply (fine_all a); auto|]. intros S1 v h1 X1 H1 T1.
        eapply good_then; [apply (fine_all i); eauto using eok_ext|]. intros S2 k h2 X2 H2 _.
        unfold typed in *. cbn [infer]. destruct (infer a) as [[| | |t|]|]; try discriminate.
        + eapply good_any; [|apply get_item_tup; eauto using vok_ext]. intros; exact I.
        + apply get_item_box; eauto using vok_ext.
      - cbn [eval]. rewrite !andb_true_iff in Hs. destruct Hs as [Ha B].
        eapply good_then; [apply (fine_all a); auto|]. intros S1 v h1 X1 H1 T1.
        unfold typed in *. cbn [infer]. destruct (infer a) as [[| | |t|fs]|]; try discriminate.
        destruct (assoc fs n) as [t|] eqn:F; [eapply get_attr_inst; eauto|].
        destruct (inst_obj _ _ _ _ H1 T1) as [->|(b & l & -> & Hb & Eb & O)]; cbn [get_attr]; [now apply good_raise|].
        rewrite Eb. apply good_made; auto.
      - destruct f as [f| | | | | | | | | | | | | | | | | |]; try discriminate.
        destruct args as [|[g| | | | | | | | | | | | | | | | | |] [|]]; try discriminate.
        destruct kws; try discriminate. cbn [eval]. apply andb_true_iff in Hs as [-> Hs].
        destruct (factory_named g); [|discriminate]. eapply good_any; [|apply good_alloc_any; auto]. intros; exact I.
      - change (ev (ATuple l) h) with (andthen (evals l h) (fun vs h => done (HTup vs) h)).
        eapply good_then; [apply (evals_good typed typed_ext); auto|].
        + apply safe_gives; [|auto]. clear Hs. induction l as [|a l IH]; constructor; [apply fine_all|apply IH].
        + intros S1 vs h1 X1 H1 _. apply good_done; auto. exact I.
      - change (ev (AList l) h) with (andthen (evals l h) (fun vs h => alloc (OList vs) h)).
        eapply good_then; [apply (evals_good typed typed_ext); auto|].
        + apply safe_gives; [|auto]. clear Hs. induction l as [|a l IH]; constructor; [apply fine_all|apply IH].
        + intros S1 vs h1 X1 H1 _. eapply good_any; [|apply good_alloc_any; auto]. intros; exact I.
      - change (ev (ASet l) h) with (andthen (evals l h) (fun vs h =>
          match set_of ops h vs [] with Some s => alloc (OSet s) h | None => raise h end)).
        eapply good_then; [apply (evals_good typed typed_ext); auto|].
        + apply safe_gives; [|auto]. clear Hs. induction l as [|a l IH]; constructor; [apply fine_all|apply IH].
        + intros S1 vs h1 X1 H1 _. destruct (set_of ops h1 vs []); [|now apply good_raise].
          eapply good_any; [|apply good_alloc_any; auto]. intros; exact I.
      - change (ev (ADict l) h) with (andthen (evalps l h) (fun vs h =>
          match dict_of ops h vs [] with Some d => alloc (ODict d None) h | None => raise h end)).
        eapply good_then; [apply (evalps_good typed typed_ext); auto|].
        + apply safe_gives_pairs; [|auto]. clear Hs. induction l as [|[a b] l IH]; constructor; [split; apply fine_all|apply IH].
        + intros S1 vs h1 X1 H1 _. destruct (dict_of ops h1 vs []); [|now apply good_raise].
          eapply good_any; [|apply good_alloc_any; auto]. intros; exact I.
    Qed.
    Lemma fine_list l : Forall fine l.
    Proof. induction l; constructor; auto using fine_all. Qed.
    (** *** values that fit *)
    Definition fits (t : sty) (a : ast) (S : styping) (v : hval) : Prop := vok S t v.
    Lemma fits_ext t a S S' v : ext S S' -> fits t a S v -> fits t a S' v.
    Proof. apply vok_ext. Qed.
    Lemma check_safe t a : check t a = true -> safe a = true.
    Proof. destruct t; cbn [check]; intros H; apply andb_true_iff in H; tauto. Qed.
    Lemma dict_of_ok S i h l : forall acc, Forall (fun p => vok S i (snd p)) l -> Forall (fun p => vok S i (snd p)) acc ->
      forall d, dict_of ops h l acc = Some d -> Forall (fun p => vok S i (snd p)) d.
    Proof.
      induction l as [|[k v] l IH]; cbn; intros acc Hl Ha d; [intros [= <-]; auto|].
      inversion Hl as [|? ? Hv Hl']; subst. destruct (op_hash ops h k); [|discriminate].
      destruct (put_key ops h acc k v) as [acc'|] eqn:P; [|discriminate]. apply IH; [auto|].
      exact (put_key_ok S i h acc k v Ha Hv acc' P).
    Qed.
    Lemma check_ok t : forall a S h, hok S h -> eok S e -> check t a = true -> good S (fits t a) (ev a h).
    Proof.
      induction t as [| | |i IH|fs]; intros a S h H E C; pose proof (check_safe _ _ C) as Hs; cbn [check] in C;
        rewrite Hs in C; cbn [andb] in C; apply orb_true_iff in C as [C|C];
        try (destruct (infer a) as [u|] eqn:I; [|discriminate]; apply sty_eqb_eq in C; subst u;
             eapply good_impl; [apply fine_all; auto|]; unfold typed; rewrite I; auto).
      - eapply good_any; [|apply fine_all; auto]. intros; exact I.
      - destruct a as [n|n|s|c|o a|o a b|a l|a|isor l|c a b|a i|a n|f args kws|l|l|l|l|k l x it cond|e2 x2 i2 y2 j2 c2]; try discriminate.
        + apply good_done; auto. exact I.
        + cbn in Hs |- *. rewrite Hs. apply good_done; auto. exact I.
        + change (ev (ABool isor l) h) with (evbool isor l h).
          eapply good_impl; [apply (evbool_good (fun _ S v => vok S TImm v)); auto|].
          * cbn [safe] in Hs. clear H E. induction l as [|a l IHl]; constructor.
            -- cbn [forallb] in C, Hs. apply andb_true_iff in C as [C _]. apply andb_true_iff in Hs as [Hs _].
               intros S1 h1 H1 E1. destruct a; try discriminate.
               ++ eapply good_impl; [apply fine_all; auto|]. unfold typed. cbn [infer].
                  destruct (name_ty x) as [[]|]; try discriminate; auto.
               ++ apply good_done; auto. exact I.
            -- cbn [forallb] in C, Hs. apply andb_true_iff in C as [_ C]. apply andb_true_iff in Hs as [_ Hs]. auto.
          * cbn. intros S' v _ (x & _ & Hx). exact Hx.
      - destruct a; try discriminate. change (ev (ATuple l) h) with (andthen (evals l h) (fun vs h => done (HTup vs) h)).
        eapply good_then; [apply (evals_good typed typed_ext); auto|].
        + apply safe_gives; [apply fine_list|exact Hs].
        + intros S1 vs h1 X1 H1 _. apply good_done; auto. exact I.
      - destruct a; try discriminate.
        + destruct a; try discriminate. destruct args as [|[g| | | | | | | | | | | | | | | | | |] [|]]; try discriminate.
          destruct kws; try discriminate. cbn [eval]. cbn [safe] in Hs. apply andb_true_iff in Hs as [-> Hs].
          destruct (factory_named g) as [f|]; [|discriminate].
          apply good_alloc; cbn; auto. left; eauto.
        + change (ev (AList l) h) with (andthen (evals l h) (fun vs h => alloc (OList vs) h)).
          eapply good_then; [apply (evals_good (fits i) (fits_ext i)); auto|].
          * clear - IH C. induction l as [|a l IHl]; constructor; cbn in C; apply andb_true_iff in C as [C1 C2]; auto.
            intros S h H E. apply IH; auto.
          * intros S1 vs h1 X1 H1 F. apply good_alloc; cbn; auto; [|left; eauto].
            clear - F. induction F; constructor; auto.
        + change (ev (ASet l) h) with (andthen (evals l h) (fun vs h =>
            match set_of ops h vs [] with Some s => alloc (OSet s) h | None => raise h end)).
          eapply good_then; [apply (evals_good typed typed_ext); auto|].
          * apply safe_gives; [apply fine_list|exact Hs].
          * intros S1 vs h1 X1 H1 _. destruct (set_of ops h1 vs []); [|now apply good_raise].
            apply good_alloc; cbn; auto. left; eauto.
        + change (ev (ADict l) h) with (andthen (evalps l h) (fun vs h =>
            match dict_of ops h vs [] with Some d => alloc (ODict d None) h | None => raise h end)).
          eapply good_then; [apply (evalps_good (fits i) (fits_ext i)); auto|].
          * cbn [safe] in Hs. clear - IH C Hs add_imm codes_ok.
            induction l as [|[a b] l IHl]; constructor; cbn in C, Hs; apply andb_true_iff in C as [C1 C2];
              apply andb_true_iff in Hs as [Hs1 Hs2]; auto.
            cbn. apply andb_true_iff in Hs1 as [Hs0 Hs1]. repeat split; auto using fine_all.
            intros S h H E. apply IH; auto.
          * intros S1 vs h1 X1 H1 F. destruct (dict_of ops h1 vs []) as [d|] eqn:D; [|now apply good_raise].
            apply good_alloc; cbn; auto; [|left; eauto]. split; [|exact I].
            eapply dict_of_ok; [| |exact D]; [|constructor]. clear - F. induction F; constructor; auto.
      - discriminate.
    Qed.
  End Expr.

  (** *** statements *)
  Definition env_ok (S : styping) (e : env) : Prop := eok S e.
  Definition res_ok (S : styping) (p : env * bool) : Prop := eok S (fst p).
  Lemma eok_put S e n t v : eok S e -> assoc vars n = Some t -> vok S t v -> eok S ((n, v) :: e).
  Proof.
    intros E Hn Hv m u w Hm Hc Ha. cbn in Ha. destruct (same_text m n) eqn:M.
    - injection Ha as <-. apply same_text_eq in M as ->. congruence.
    - eapply E; eauto.
  Qed.
  Lemma assign_to_ok t v ty S e h : hok S h -> eok S e -> place t = Some ty -> vok S ty v ->
    good S env_ok (assign_to ops codes t v e h).
  Proof.
    intros H E P V. destruct t as [n| | | | | | | | | |a i|a n| | | | | | |]; cbn [place] in P; try discriminate; cbn [assign_to].
    - destruct (cty n); [discriminate|]. apply good_done; auto. eapply eok_put; eauto.
    - destruct (safe a) eqn:Sa; [|discriminate]. destruct (safe i) eqn:Si; [|discriminate]. cbn [andb] in P.
      destruct (infer a) as [[| | |u|]|] eqn:I; try discriminate. injection P as ->.
      eapply good_then; [apply (fine_all e a); auto|]. intros S1 w h1 X1 H1 T1.
      eapply good_then; [apply (fine_all e i); eauto using eok_ext|]. intros S2 k h2 X2 H2 _.
      unfold typed in T1. rewrite I in T1.
      eapply good_then; [eapply set_item_box; [eauto|eapply vok_ext; [exact X2|exact T1]|]|].
      + eapply vok_ext; [eapply ext_trans; [exact X1|exact X2]|exact V].
      + intros S3 [] h3 X3 H3 _. apply good_done; auto. unfold env_ok. eauto using eok_ext, ext_trans.
    - destruct (safe a) eqn:Sa; [|discriminate].
      destruct (infer a) as [[| | | |fs]|] eqn:I; try discriminate.
      eapply good_then; [apply (fine_all e a); auto|]. intros S1 w h1 X1 H1 T1.
      unfold typed in T1. rewrite I in T1.
      eapply good_then; [eapply set_attr_inst; eauto using vok_ext|].
      intros S3 [] h3 X3 H3 _. apply good_done; auto. unfold env_ok. eauto using eok_ext, ext_trans.
  Qed.
  Lemma assign_all_ok v ts : forall S e h, hok S h -> eok S e ->
    Forall (fun t => exists ty, place t = Some ty /\ vok S ty v) ts -> good S env_ok (assign_all ops codes ts v e h).
  Proof.
    induction ts as [|t ts IH]; intros S e h H E F; cbn [assign_all]; [apply good_done; auto|].
    inversion F as [|? ? (ty & P & V) F']; subst. eapply good_then; [eapply assign_to_ok; eauto|].
    intros S1 e1 h1 X1 H1 E1. apply IH; auto. eapply Forall_impl; [|exact F']. cbn. intros x (tx & Px & Vx). eauto using vok_ext.
  Qed.
  Lemma in_place_add_ok S v w h : hok S h -> imm v -> good S (fun S x => vok S TImm x) (in_place_add ops v w h).
  Proof.
    intros H V. destruct v; cbn in V; try contradiction; cbn [in_place_add];
      try (apply good_adding; [auto|intros new x Hx S' _; cbn; eapply add_imm; [|exact Hx]; exact I]); now apply good_raise.
  Qed.
  Lemma in_place_or_ok S v w h : hok S h -> good S (fun S x => vok S TImm x) (in_place_or v w h).
  Proof. intros H. destruct v; try now apply good_raise. destruct w; try now apply good_raise. apply good_done; auto. exact I. Qed.
  Lemma augment_ok f t x S e h : hok S h -> eok S e -> place t = Some TImm -> safe x = true ->
    (forall S v w h, hok S h -> imm v -> good S (fun S x => vok S TImm x) (f v w h)) ->
    good S env_ok (augment ops codes f t x e h).
  Proof.
    intros H E P Hx F. destruct t as [n| | | | | | | | | |a i|a n| | | | | | |]; cbn [place] in P; try discriminate; cbn [augment].
    - destruct (cty n) eqn:Cn; [discriminate|].
      eapply good_then; [apply (fine_all e (AName n)); auto|].
      { cbn. unfold name_ty. rewrite Cn, P. reflexivity. }
      intros S1 v h1 X1 H1 T1. unfold typed in T1. cbn [infer] in T1. unfold name_ty in T1. rewrite Cn, P in T1.
      eapply good_then; [apply (fine_all e x); eauto using eok_ext|]. intros S2 w h2 X2 H2 _.
      eapply good_then; [apply F; auto|]. intros S3 u h3 X3 H3 U.
      apply good_done; auto. eapply eok_put; eauto using eok_ext, ext_trans.
    - destruct (safe a) eqn:Sa; [|discriminate]. destruct (safe i) eqn:Si; [|discriminate]. cbn [andb] in P.
      destruct (infer a) as [[| | |u|]|] eqn:I; try discriminate. injection P as ->.
      eapply good_then; [apply (fine_all e a); auto|]. intros S1 c h1 X1 H1 T1.
      unfold typed in T1. rewrite I in T1.
      eapply good_then; [apply (fine_all e i); eauto using eok_ext|]. intros S2 k h2 X2 H2 _.
      eapply good_then; [apply get_item_box; eauto using vok_ext|]. intros S3 v h3 X3 H3 V.
      eapply good_then; [apply (fine_all e x); eauto using eok_ext|]. intros S4 w h4 X4 H4 _.
      eapply good_then; [apply F; auto|]. intros S5 u h5 X5 H5 U.
      eapply good_then; [eapply set_item_box; [eauto| |exact U]|].
      + eapply vok_ext; [|exact T1]. eauto using ext_trans.
      + intros S6 [] h6 X6 H6 _. apply good_done; auto. unfold env_ok. eapply eok_ext; [|exact E]. eauto 8 using ext_trans.
    - destruct (safe a) eqn:Sa; [|discriminate].
      destruct (infer a) as [[| | | |fs]|] eqn:I; try discriminate.
      eapply good_then; [apply (fine_all e a); auto|]. intros S1 c h1 X1 H1 T1.
      unfold typed in T1. rewrite I in T1.
      eapply good_then; [eapply get_attr_inst; eauto|]. intros S3 v h3 X3 H3 V.
      eapply good_then; [apply (fine_all e x); eauto using eok_ext, ext_trans|]. intros S4 w h4 X4 H4 _.
      eapply good_then; [apply F; auto|]. intros S5 u h5 X5 H5 U.
      eapply good_then; [eapply set_attr_inst; [eauto| |eauto|exact U]|].
      + eapply vok_ext; [|exact T1]. eauto using ext_trans.
      + intros S6 [] h6 X6 H6 _. apply good_done; auto. unfold env_ok. eapply eok_ext; [|exact E]. eauto 8 using ext_trans.
  Qed.
  Lemma on_ok S m : good S env_ok m -> good S res_ok (on m).
  Proof. intros H. eapply good_then; [exact H|]. intros S' e h X Hh He. apply good_done; auto. Qed.
  Lemma simple_ok s S e h : hok S h -> eok S e -> ok_simple s = true -> good S res_ok (exec_simple ops codes s e h).
  Proof.
    intros H E O. destruct s as [| |ts x|t x|t x|x]; cbn [ok_simple exec_simple] in *.
    - apply good_done; auto.
    - apply good_done; auto.
    - destruct ts as [|t ts]; [discriminate|]. destruct (place t) as [ty|] eqn:P; [|discriminate].
      apply andb_true_iff in O as [Hx Ht]. apply on_ok.
      eapply good_then; [apply (check_ok e ty x); auto|]. intros S1 v h1 X1 H1 V.
      apply assign_all_ok; eauto using eok_ext. constructor; [eauto|].
      rewrite forallb_forall in Ht. rewrite Forall_forall. intros t' Hin. specialize (Ht _ Hin).
      destruct (place t') as [ty'|]; [|discriminate]. apply sty_eqb_eq in Ht as ->. eauto.
    - destruct (place t) as [[]|] eqn:P; try discriminate. apply on_ok. apply augment_ok; auto.
      intros. apply in_place_add_ok; auto.
    - destruct (place t) as [[]|] eqn:P; try discriminate. apply on_ok. apply augment_ok; auto.
      intros. apply in_place_or_ok; auto.
    - destruct x; try discriminate. destruct x; try discriminate. destruct args as [|y [|]]; try discriminate.
      destruct kws; try discriminate. apply andb_true_iff in O as [Ha O].
      destruct (infer x) as [[| | |i|]|] eqn:I; try discriminate. apply on_ok.
      eapply good_then; [apply (fine_all e x); auto|]. intros S1 v h1 X1 H1 T1. unfold typed in T1. rewrite I in T1.
      eapply good_then; [apply (check_ok e i y); eauto using eok_ext|]. intros S2 w h2 X2 H2 V.
      eapply good_then; [eapply call_method_box; eauto using vok_ext|]. intros S3 [] h3 X3 H3 _.
      apply good_done; auto. unfold env_ok. eauto using eok_ext, ext_trans.
  Qed.

  Definition execs : list stmt -> env -> heap -> act (env * bool) := fix execs l e h :=
    match l with
    | [] => done (e, false) h
    | s :: r => andthen (exec ops codes s e h) (fun p h => if (snd p : bool) then done p h else execs r (fst p) h)
    end.
  Definition branches (other : list stmt) (e : env) : list (ast * list stmt) -> heap -> act (env * bool) := fix go l h :=
    match l with
    | [] => execs other e h
    | (c, b) :: r =>
        andthen (eval ops codes e c h) (fun v h =>
        match op_true ops h v with
        | Some true => execs b e h
        | Some false => go r h
        | None => raise h
        end)
    end.
  Lemma execs_eq l : forall e h, execs l e h = exec_all ops codes l e h.
  Proof. induction l as [|s l IH]; intros e h; cbn; [reflexivity|]. destruct (exec ops codes s e h) as [[[e1 []]|] h1]; cbn; auto. Qed.
  Definition stmt_fine (s : stmt) : Prop := forall S e h, hok S h -> eok S e -> ok_stmt s = true -> good S res_ok (exec ops codes s e h).
  Lemma execs_ok l : Forall stmt_fine l -> forall S e h, hok S h -> eok S e -> forallb ok_stmt l = true -> good S res_ok (execs l e h).
  Proof.
    induction 1 as [|s l Hs _ IH]; intros S e h H E O; cbn in *; [apply good_done; auto|].
    apply andb_true_iff in O as [O1 O2]. eapply good_then; [apply Hs; auto|].
    intros S1 [e1 []] h1 X1 H1 E1; cbn [fst snd] in *; [apply good_done; auto|]. apply IH; auto.
  Qed.
  Fixpoint stmt_ok (s : stmt) : stmt_fine s.
  Proof.
    destruct s as [s|l other]; intros S e h H E O; cbn [ok_stmt] in O.
    - cbn [exec]. apply simple_ok; auto.
    - change (exec ops codes (If l other) e h) with (branches other e l h).
      apply andb_true_iff in O as [Ol Oo].
      assert (Fo : Forall stmt_fine other).
      { clear Oo. induction other as [|s r IH]; constructor; [apply stmt_ok|apply IH]. }
      revert S h H E. induction l as [|[c b] r IH]; intros S h H E; cbn [branches]; [apply execs_ok; auto|].
      rewrite !andb_true_iff in Ol. destruct Ol as [[Oc Ob] Or].
      assert (Fb : Forall stmt_fine b).
      { clear Ob. induction b as [|s q IHq]; constructor; [apply stmt_ok|apply IHq]. }
      eapply good_then; [apply (fine_all e c); auto|]. intros S1 v h1 X1 H1 _.
      destruct (op_true ops h1 v) as [[]|]; [| |now apply good_raise].
      + apply execs_ok; eauto using eok_ext.
      + apply IH; eauto using eok_ext.
  Qed.
  Lemma all_ok l S e h : hok S h -> eok S e -> forallb ok_stmt l = true -> good S res_ok (exec_all ops codes l e h).
  Proof.
    intros H E O. rewrite <- execs_eq. apply execs_ok; auto. clear O. induction l; constructor; auto using stmt_ok.
  Qed.
End Check.

(** *** loops *)
Section Loops.
  Variable ops : pyops.
  Variable cty : text -> option sty.
  Variable vars : list (text * sty).
  Variable before : heap.
  Hypothesis add_imm : forall h v w new x, imm v -> op_add ops h v w = Some (new, x) -> imm x.
  Definition row_ok (codes : row) : Prop := forall n, match codes n, cty n with
    | Some c, Some t => t = TAny \/ t = TImm /\ forall h new v, c h = Some (new, v) -> imm v
    | None, None => True
    | _, _ => False
    end.
  Definition rest_ok (S : styping) (p : env * list row) : Prop := eok cty vars S (fst p) /\ Forall row_ok (snd p).
  Lemma rows_ok body : forallb (ok_stmt cty vars) body = true -> forall rows S e h, Forall row_ok rows ->
    hok before S h -> eok cty vars S e -> good before S rest_ok (exec_rows ops body rows e h).
  Proof.
    intros O rows. induction rows as [|r rows IH]; intros S e h R H E; cbn [exec_rows]; [apply good_done; auto; split; auto|].
    inversion R as [|? ? Rr Rs]; subst. eapply good_then; [apply (all_ok ops cty vars before add_imm r Rr body); auto|].
    intros S1 [e1 []] h1 X1 H1 E1; cbn [fst snd] in *; [apply good_done; auto; split; auto|]. apply IH; auto.
  Qed.
  Lemma two_loops_ok body body2 rows S e h :
    forallb (ok_stmt cty vars) body = true -> forallb (ok_stmt cty vars) body2 = true -> Forall row_ok rows ->
    hok before S h -> eok cty vars S e -> good before S (eok cty vars) (exec_two_loops ops body body2 rows e h).
  Proof.
    intros O O2 R H E. eapply good_then; [apply (rows_ok body); auto|]. intros S1 [e1 r1] h1 X1 H1 [E1 R1]. cbn [fst snd] in *.
    eapply good_then; [apply (rows_ok body2); auto|]. intros S2 [e2 r2] h2 X2 H2 [E2 R2]. apply good_done; auto.
  Qed.
  Lemma good_unchanged {A} S (Q : styping -> A -> Prop) m : good before S Q m -> unchanged before (snd m).
  Proof.
    intros (S' & _ & [_ _ _ P] & _). exists (skipn (length before) (snd m)).
    rewrite <- P at 1. symmetry. apply firstn_skipn.
  Qed.
  (** at the start nothing was made *)
  Lemma hok_start : hok before (map (fun _ => None) before) before.
  Proof.
    split.
    - now rewrite map_length.
    - intros a t H. rewrite nth_error_map in H. destruct (nth_error before a); discriminate.
    - intros a H. rewrite nth_error_map. destruct (nth_error before a) eqn:E; [reflexivity|].
      apply nth_error_None in E. lia.
    - apply firstn_all.
  Qed.
  Lemma hok_start1 t o : ook (map (fun _ => None) before ++ [Some t]) t o ->
    hok before (map (fun _ => None) before ++ [Some t]) (before ++ [o]).
  Proof. apply hok_alloc, hok_start. Qed.
End Loops.
