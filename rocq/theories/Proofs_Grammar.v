(** The parser of Spec_Syntax as inference rules. *)
From Coq Require Import String Ascii List NArith Bool Arith Lia.
From Verif Require Import Model_Code Spec_Syntax Proofs_Syntax.
Import ListNotations.

Definition P (l : nat) (ts : list token) (a : ast) (r : list token) : Prop :=
  exists n, parse n l ts = Some (a, r).
Definition PTrail (a : ast) (ts : list token) (b : ast) (r : list token) : Prop :=
  exists n, trailers (parse n) n a ts = Some (b, r).
Definition PAtom (ts : list token) (a : ast) (r : list token) : Prop :=
  exists n, atom (parse n) n ts = Some (a, r).
Definition PMore (cl : token) (acc : list ast) (ts : list token) (l : list ast) (r : list token) : Prop :=
  exists n, more (parse n) n cl acc ts = Some (l, r).
Definition PPairs (acc : list (ast * ast)) (ts : list token) (l : list (ast * ast)) (r : list token) : Prop :=
  exists n, more_pairs (parse n) n acc ts = Some (l, r).
Definition PArgs (pos : list ast) (kws : list (text * ast)) (ts : list token)
           (l : list ast) (ks : list (text * ast)) (r : list token) : Prop :=
  exists n, call_args (parse n) n pos kws ts = Some ((l, ks), r).
Definition PFor (ts : list token) (x : text) (it : ast) (c : option ast) (r : list token) : Prop :=
  exists n, comp_for (parse n) ts = Some ((x, it, c), r).
Definition PCmp (acc : list (text * ast)) (ts : list token) (l : list (text * ast)) (r : list token) : Prop :=
  exists n, cmp_loop (parse n) n acc ts = Some (l, r).
Definition PBools (o : bool) (acc : list ast) (ts : list token) (l : list ast) (r : list token) : Prop :=
  exists n, bool_loop (parse n) n o acc ts = Some (l, r).

Lemma P_le n m l ts x : n <= m -> parse n l ts = Some x -> parse m l ts = Some x.
Proof. intros L H. exact (parse_le n m L l ts x H). Qed.
Lemma T_le n m a ts x : n <= m -> trailers (parse n) n a ts = Some x -> trailers (parse m) m a ts = Some x.
Proof. intros L H. exact (trailers_mono _ _ (parse_le n m L) n m a ts L x H). Qed.
Lemma A_le n m ts x : n <= m -> atom (parse n) n ts = Some x -> atom (parse m) m ts = Some x.
Proof. intros L H. exact (atom_mono _ _ (parse_le n m L) n m ts L x H). Qed.
Lemma M_le n m cl acc ts x : n <= m -> more (parse n) n cl acc ts = Some x -> more (parse m) m cl acc ts = Some x.
Proof. intros L H. exact (more_mono _ _ (parse_le n m L) n m cl acc ts L x H). Qed.
Lemma MP_le n m acc ts x : n <= m -> more_pairs (parse n) n acc ts = Some x -> more_pairs (parse m) m acc ts = Some x.
Proof. intros L H. exact (more_pairs_mono _ _ (parse_le n m L) n m acc ts L x H). Qed.
Lemma CA_le n m a k ts x : n <= m -> call_args (parse n) n a k ts = Some x -> call_args (parse m) m a k ts = Some x.
Proof. intros L H. exact (call_args_mono _ _ (parse_le n m L) n m a k ts L x H). Qed.
Lemma F_le n m ts x : n <= m -> comp_for (parse n) ts = Some x -> comp_for (parse m) ts = Some x.
Proof. intros L H. exact (comp_for_mono _ _ (parse_le n m L) ts x H). Qed.
Lemma C_le n m acc ts x : n <= m -> cmp_loop (parse n) n acc ts = Some x -> cmp_loop (parse m) m acc ts = Some x.
Proof. intros L H. exact (cmp_loop_mono _ _ (parse_le n m L) n m acc ts L x H). Qed.
Lemma B_le n m o acc ts x : n <= m -> bool_loop (parse n) n o acc ts = Some x -> bool_loop (parse m) m o acc ts = Some x.
Proof. intros L H. exact (bool_loop_mono _ _ (parse_le n m L) n m o acc ts L x H). Qed.
Lemma L_le n m l a ts x : n <= m -> bin_loop (parse n) n l a ts = Some x -> bin_loop (parse m) m l a ts = Some x.
Proof. intros L H. exact (bin_loop_mono _ _ (parse_le n m L) n m l a ts L x H). Qed.

Ltac up m :=
  repeat match goal with
  | H : parse ?n _ _ = Some _ |- _ => lazymatch n with m => fail | _ => apply (P_le n m) in H; [|lia] end
  | H : trailers (parse ?n) _ _ _ = Some _ |- _ => lazymatch n with m => fail | _ => apply (T_le n m) in H; [|lia] end
  | H : atom (parse ?n) _ _ = Some _ |- _ => lazymatch n with m => fail | _ => apply (A_le n m) in H; [|lia] end
  | H : more (parse ?n) _ _ _ _ = Some _ |- _ => lazymatch n with m => fail | _ => apply (M_le n m) in H; [|lia] end
  | H : more_pairs (parse ?n) _ _ _ = Some _ |- _ => lazymatch n with m => fail | _ => apply (MP_le n m) in H; [|lia] end
  | H : call_args (parse ?n) _ _ _ _ = Some _ |- _ => lazymatch n with m => fail | _ => apply (CA_le n m) in H; [|lia] end
  | H : comp_for (parse ?n) _ = Some _ |- _ => lazymatch n with m => fail | _ => apply (F_le n m) in H; [|lia] end
  | H : cmp_loop (parse ?n) _ _ _ = Some _ |- _ => lazymatch n with m => fail | _ => apply (C_le n m) in H; [|lia] end
  | H : bool_loop (parse ?n) _ _ _ _ = Some _ |- _ => lazymatch n with m => fail | _ => apply (B_le n m) in H; [|lia] end
  | H : bin_loop (parse ?n) _ _ _ _ = Some _ |- _ => lazymatch n with m => fail | _ => apply (L_le n m) in H; [|lia] end
  end.

(** *** where an expression of level [k] ends *)
Definition power (t : token) : option nat :=
  match t with
  | LPar | LBr | Dot => Some 13
  | TBin o => if teqb o (T "**") then Some 12
              else if Nat.eqb (bin_level o) 0 then if is_comparison o then Some 4 else None
              else Some (bin_level o)
  | KIn | KIs | KNot => Some 4
  | KAnd => Some 2 | KOr => Some 1 | KIf => Some 0
  | _ => None
  end.
(** tokens at which an expression of level [k] ends *)
Definition stops (k : nat) (ts : list token) : Prop :=
  match ts with
  | [] => True
  | t :: _ => match power t with Some b => b < k | None => True end
  end.
Lemma stops_le k k' ts : k <= k' -> stops k ts -> stops k' ts.
Proof. destruct ts as [|t ts]; cbn; auto. destruct (power t); auto. lia. Qed.

Lemma bin_level_cases o : bin_level o = 0 \/ 5 <= bin_level o <= 10.
Proof.
  unfold bin_level. repeat match goal with |- context [if ?b then _ else _] => destruct b end; lia.
Qed.
Lemma bin_not_pow o : bin_level o <> 0 -> teqb o (T "**") = false.
Proof.
  intros H. unfold teqb. destruct (text_eq_dec o (T "**")) as [->|]; auto. exfalso. apply H. reflexivity.
Qed.
Lemma cmp_not_pow o : is_comparison o = true -> teqb o (T "**") = false /\ bin_level o = 0.
Proof.
  unfold is_comparison. intros H. apply existsb_exists in H as (x & I & E).
  unfold teqb in E. destruct (text_eq_dec o x) as [->|]; [|discriminate].
  cbn [map In] in I. destruct I as [<-|[<-|[<-|[<-|[<-|[<-|[]]]]]]]; split; reflexivity.
Qed.

Lemma stops_trailers a ts : stops 13 ts -> PTrail a ts a ts.
Proof.
  intros H. exists 1. destruct ts as [|t ts]; [reflexivity|].
  destruct t; cbn [trailers]; try reflexivity; cbn in H; lia.
Qed.

(** one level down *)
Lemma bin_stop n l a r : 5 <= l -> stops l r -> bin_loop (parse (S n)) (S n) l a r = Some (a, r).
Proof.
  intros L St. cbn [bin_loop]. destruct r as [|t r]; [reflexivity|]. destruct t; try reflexivity.
  destruct (Nat.eqb (bin_level o) l) eqn:E; [|reflexivity].
  apply Nat.eqb_eq in E. exfalso. cbn [stops power] in St.
  rewrite bin_not_pow in St by lia. destruct (Nat.eqb (bin_level o) 0) eqn:Z.
  - apply Nat.eqb_eq in Z. lia.
  - lia.
Qed.
Lemma descend k ts a r :
  k <= 12 -> P (S k) ts a r -> stops k r ->
  (k = 3 -> match ts with KNot :: _ => False | _ => True end) ->
  (k = 11 -> match ts with TBin _ :: _ => False | _ => True end) ->
  P k ts a r.
Proof.
  intros L [n H] St N U. exists (S (S n)). cbn [parse].
  assert (H' : parse (S n) (S k) ts = Some (a, r)) by (apply (P_le n); auto; lia).
  clear H. change (level (parse n) n) with (parse (S n)).
  destruct k as [|k].
  { cbn [level]. rewrite H'. cbn [pbind]. destruct r as [|t r]; auto. destruct t; auto. cbn in St. lia. }
  destruct k as [|k].
  { cbn [level]. rewrite H'. cbn [pbind bool_loop].
    destruct r as [|t r]; [reflexivity|]. destruct t; try reflexivity. cbn in St. lia. }
  destruct k as [|k].
  { cbn [level]. rewrite H'. cbn [pbind bool_loop].
    destruct r as [|t r]; [reflexivity|]. destruct t; try reflexivity. cbn in St. lia. }
  destruct k as [|k].
  { cbn [level]. specialize (N eq_refl). destruct ts as [|t ts]; auto. destruct t; auto. contradiction. }
  destruct k as [|k].
  { cbn [level]. rewrite H'. cbn [pbind cmp_loop].
    destruct r as [|t r]; [reflexivity|]. destruct t; try reflexivity; try (cbn in St; lia).
    cbn [comparison_op]. destruct (is_comparison o) eqn:E; [|reflexivity].
    exfalso. cbn [stops power] in St. destruct (cmp_not_pow _ E) as [E1 E2].
    rewrite E1, E2, E in St. cbn in St. lia. }
  do 6 (destruct k as [|k];
    [cbn [level]; rewrite H'; cbn [pbind]; apply bin_stop; [lia|exact St]|]).
  destruct k as [|k].
  { cbn [level]. specialize (U eq_refl). destruct ts as [|t ts]; auto. destruct t; auto. contradiction. }
  destruct k as [|k]; [|lia].
  cbn [level]. rewrite H'. cbn [pbind]. destruct r as [|t r]; auto. destruct t; auto.
  destruct (teqb o (T "**")) eqn:E; auto. exfalso. cbn [stops power] in St. rewrite E in St. lia.
Qed.

(** down from level [j] to level [k] *)
Lemma descends j k ts a r :
  k <= j -> j <= 13 -> P j ts a r -> stops k r ->
  match ts with KNot :: _ => j <= 3 \/ 3 < k | _ => True end ->
  match ts with TBin _ :: _ => j <= 11 | _ => True end ->
  P k ts a r.
Proof.
  intros L J H St N U.
  assert (G : forall d, d <= j - k -> P (j - d) ts a r).
  { induction d as [|d IH]; intros D; [rewrite Nat.sub_0_r; exact H|].
    apply descend; try lia.
    - replace (S (j - S d)) with (j - d) by lia. apply IH. lia.
    - apply (stops_le k); auto. lia.
    - intros E. destruct ts as [|t ts]; auto. destruct t; auto. lia.
    - intros E. destruct ts as [|t ts]; auto. destruct t; auto. lia. }
  specialize (G (j - k)). replace (j - (j - k)) with k in G by lia. apply G. lia.
Qed.

(** *** primaries *)
Lemma p_primary ts a r b r' : PAtom ts a r -> PTrail a r b r' -> P 13 ts b r'.
Proof.
  intros [n H] [m K]. exists (S (n + m)). cbn [parse level]. up (n + m). rewrite H. exact K.
Qed.
Lemma a_name x r : PAtom (TName x :: r) (AName x) r. Proof. exists 0. reflexivity. Qed.
Lemma a_num x r : PAtom (TNum x :: r) (ANum x) r. Proof. exists 0. reflexivity. Qed.
Lemma a_const x r : PAtom (TConst x :: r) (AConst x) r. Proof. exists 0. reflexivity. Qed.
Lemma a_str x r : PAtom (TStr x :: r) (AStr x) r. Proof. exists 0. reflexivity. Qed.
Lemma P_start (t : token) :
  (forall p k r, atom p k (t :: r) = None) ->
  match t with KNot | TBin _ => False | _ => True end ->
  forall n l r, parse n l (t :: r) = None.
Proof.
  intros A N n. induction n as [|n IH]; intros l r; [reflexivity|].
  cbn [parse].
  do 14 (destruct l as [|l];
    [cbn [level]; try rewrite IH; try rewrite A; try reflexivity;
     destruct t; try contradiction; try rewrite IH; reflexivity|]).
  cbn [level]. rewrite A. reflexivity.
Qed.
Lemma P_not_close t l r a r' : In t [RPar; RBr; RBrace; Comma; Colon; KFor] -> ~ P l (t :: r) a r'.
Proof.
  intros I [n H]. rewrite P_start in H; [discriminate| |];
  destruct I as [<-|[<-|[<-|[<-|[<-|[<-|[]]]]]]]; auto.
Qed.

Lemma P_nil n l : parse n l [] = None.
Proof.
  revert l; induction n as [|n IH]; intros l; [reflexivity|]. cbn [parse].
  do 14 (destruct l as [|l]; [cbn [level]; rewrite ?IH; reflexivity|]). reflexivity.
Qed.
(** an expression starts with a token that opens one *)
Definition opens (t : token) : bool :=
  match t with RPar | RBr | RBrace | Comma | Colon | KFor | Assign => false | _ => true end.
Lemma P_head l ts a r : P l ts a r -> exists t ts', ts = t :: ts' /\ opens t = true.
Proof.
  intros [n H]. destruct ts as [|t ts]; [rewrite P_nil in H; discriminate|].
  exists t, ts. split; [reflexivity|].
  destruct (opens t) eqn:E; [reflexivity|].
  rewrite P_start in H; [discriminate| |]; destruct t; try discriminate E; auto.
Qed.
Ltac head H := let t := fresh "t" in let E := fresh "E" in
  pose proof (P_head _ _ _ _ H) as (t & ? & -> & E);
  destruct H as [? H].

Lemma a_paren ts a r : P 0 ts a (RPar :: r) -> PAtom (LPar :: ts) a r.
Proof. intros H. head H. eexists. unfold atom. destruct t; try discriminate E; rewrite H; reflexivity. Qed.
Lemma a_tuple ts e ts' l r :
  P 0 ts e (Comma :: ts') -> PMore RPar [e] (Comma :: ts') l r -> PAtom (LPar :: ts) (ATuple l) r.
Proof.
  intros H [m K]. head H. exists (x0 + m). up (x0 + m).
  unfold atom. destruct t; try discriminate E; rewrite H; cbn [pbind]; rewrite K; reflexivity.
Qed.
Lemma a_gen ts e ts' x it c r :
  P 0 ts e (KFor :: ts') -> PFor (KFor :: ts') x it c (RPar :: r) ->
  PAtom (LPar :: ts) (AComp GGen [e] x it c) r.
Proof.
  intros H [m K]. head H. exists (x1 + m). up (x1 + m).
  unfold atom. destruct t; try discriminate E; rewrite H; cbn [pbind]; rewrite K; reflexivity.
Qed.
Lemma a_gen2 ts e ts' x it ts2 y it2 c r :
  P 0 ts e (KFor :: ts') -> PFor (KFor :: ts') x it None (KFor :: ts2) -> PFor (KFor :: ts2) y it2 c (RPar :: r) ->
  PAtom (LPar :: ts) (AComp2 e x it y it2 c) r.
Proof.
  intros H [m K] [m2 K2]. head H. exists (x1 + m + m2). up (x1 + m + m2).
  unfold atom. destruct t; try discriminate E; rewrite H; cbn [pbind]; rewrite K; cbn [pbind gen_rest]; rewrite K2; reflexivity.
Qed.
Lemma a_nil r : PAtom (LBr :: RBr :: r) (AList []) r. Proof. exists 0. reflexivity. Qed.
Lemma a_list ts e ts' l r :
  P 0 ts e ts' -> PMore RBr [e] ts' l r -> PAtom (LBr :: ts) (AList l) r.
Proof.
  intros H [m K]. head H. exists (x0 + m). up (x0 + m).
  assert (N : match ts' with KFor :: _ => False | _ => True end).
  { destruct ts' as [|u us]; auto. destruct u; auto. destruct (x0 + m); discriminate K. }
  unfold atom. destruct t; try discriminate E; rewrite H; cbn [pbind];
  destruct ts' as [|u us]; try contradiction; try destruct u; try contradiction; rewrite K; reflexivity.
Qed.
Lemma a_listcomp ts e ts' x it c r :
  P 0 ts e (KFor :: ts') -> PFor (KFor :: ts') x it c (RBr :: r) ->
  PAtom (LBr :: ts) (AComp GList [e] x it c) r.
Proof.
  intros H [m K]. head H. exists (x1 + m). up (x1 + m).
  unfold atom. destruct t; try discriminate E; rewrite H; cbn [pbind]; rewrite K; reflexivity.
Qed.
Lemma a_dict0 r : PAtom (LBrace :: RBrace :: r) (ADict []) r. Proof. exists 0. reflexivity. Qed.
Lemma a_set ts e ts' l r :
  P 0 ts e ts' -> PMore RBrace [e] ts' l r -> PAtom (LBrace :: ts) (ASet l) r.
Proof.
  intros H [m K]. head H. exists (x0 + m). up (x0 + m).
  assert (N : match ts' with KFor :: _ | Colon :: _ => False | _ => True end).
  { destruct ts' as [|u us]; auto. destruct u; auto; destruct (x0 + m); discriminate K. }
  unfold atom. destruct t; try discriminate E; rewrite H; cbn [pbind];
  destruct ts' as [|u us]; try contradiction; try destruct u; try contradiction; rewrite K; reflexivity.
Qed.
Lemma a_setcomp ts e ts' x it c r :
  P 0 ts e (KFor :: ts') -> PFor (KFor :: ts') x it c (RBrace :: r) ->
  PAtom (LBrace :: ts) (AComp GSet [e] x it c) r.
Proof.
  intros H [m K]. head H. exists (x1 + m). up (x1 + m).
  unfold atom. destruct t; try discriminate E; rewrite H; cbn [pbind]; rewrite K; reflexivity.
Qed.
Lemma a_dict ts e ts' v ts2 l r :
  P 0 ts e (Colon :: ts') -> P 0 ts' v ts2 -> PPairs [(e, v)] ts2 l r -> PAtom (LBrace :: ts) (ADict l) r.
Proof.
  intros H [n I] [m K]. head H. exists (x0 + n + m). up (x0 + n + m).
  assert (N : match ts2 with KFor :: _ => False | _ => True end).
  { destruct ts2 as [|u us]; auto. destruct u; auto; destruct (x0 + n + m); discriminate K. }
  unfold atom. destruct t; try discriminate E; rewrite H; cbn [pbind]; rewrite I; cbn [pbind];
  destruct ts2 as [|u us]; try contradiction; try destruct u; try contradiction; rewrite K; reflexivity.
Qed.
Lemma a_dictcomp ts e ts' v ts2 x it c r :
  P 0 ts e (Colon :: ts') -> P 0 ts' v (KFor :: ts2) -> PFor (KFor :: ts2) x it c (RBrace :: r) ->
  PAtom (LBrace :: ts) (AComp GDict [e; v] x it c) r.
Proof.
  intros H [n I] [m K]. head H. exists (x1 + n + m). up (x1 + n + m).
  unfold atom. destruct t; try discriminate E; rewrite H; cbn [pbind]; rewrite I; cbn [pbind]; rewrite K; reflexivity.
Qed.

(** *** displays *)
Lemma m_end cl acc r : In cl [RPar; RBr; RBrace] -> PMore cl acc (cl :: r) acc r.
Proof. intros [<-|[<-|[<-|[]]]]; exists 1; reflexivity. Qed.
Lemma m_comma_end cl acc r : In cl [RPar; RBr; RBrace] -> PMore cl acc (Comma :: cl :: r) acc r.
Proof. intros [<-|[<-|[<-|[]]]]; exists 1; reflexivity. Qed.
Ltac upto m H := match type of H with parse ?n _ _ = _ => apply (P_le n m) in H; [|lia] end.
Lemma m_more cl acc ts e ts' l r :
  P 0 ts e ts' -> PMore cl (acc ++ [e]) ts' l r -> PMore cl acc (Comma :: ts) l r.
Proof.
  intros H [m K]. head H. exists (S (x0 + m)). upto (S (x0 + m)) H. apply (M_le m (x0 + m)) in K; [|lia].
  cbn [more].
  assert (C : is_close cl t = false) by (destruct cl, t; try discriminate E; reflexivity).
  rewrite C. rewrite H. cbn [pbind].
  revert K. apply more_mono; [apply parse_le; lia|lia].
Qed.
Lemma mp_end acc r : PPairs acc (RBrace :: r) acc r. Proof. exists 1. reflexivity. Qed.
Lemma mp_more acc ts a ts' b ts2 l r :
  P 0 ts a (Colon :: ts') -> P 0 ts' b ts2 -> PPairs (acc ++ [(a, b)]) ts2 l r -> PPairs acc (Comma :: ts) l r.
Proof.
  intros H [n I] [m K]. head H. exists (S (x0 + n + m)).
  upto (S (x0 + n + m)) H. upto (S (x0 + n + m)) I. apply (MP_le m (x0 + n + m)) in K; [|lia].
  cbn [more_pairs]. apply (more_pairs_mono _ _ (parse_S _) _ _ _ _ (le_n _)) in K.
  destruct t; try discriminate E; rewrite H; cbn [pbind]; rewrite I; cbn [pbind]; exact K.
Qed.

(** *** calls *)
Lemma c_end pos kws r : PArgs pos kws (RPar :: r) pos kws r. Proof. exists 1. reflexivity. Qed.
(** the text is not a keyword argument *)
Definition positional (ts : list token) : Prop :=
  match ts with TName _ :: Assign :: _ => False | _ => True end.
Lemma c_pos_last pos ts e r : positional ts -> P 0 ts e (RPar :: r) -> PArgs pos [] ts (pos ++ [e]) [] r.
Proof.
  intros N H. head H. exists (S x0). upto (S x0) H. cbn [call_args].
  destruct t; try discriminate E; try (rewrite H; reflexivity).
  destruct x as [|u us]; [rewrite H; reflexivity|].
  destruct u; try (rewrite H; reflexivity). contradiction.
Qed.
Lemma c_pos pos ts e ts' l ks r :
  positional ts -> P 0 ts e (Comma :: ts') -> PArgs (pos ++ [e]) [] ts' l ks r -> PArgs pos [] ts l ks r.
Proof.
  intros N H [m K]. head H. exists (S (x0 + m)). upto (S (x0 + m)) H. apply (CA_le m (x0 + m)) in K; [|lia].
  apply (call_args_mono _ _ (parse_S _) _ _ _ _ _ (le_n _)) in K.
  cbn [call_args].
  destruct t; try discriminate E; try (rewrite H; exact K).
  destruct x as [|u us]; [rewrite H; exact K|].
  destruct u; try (rewrite H; exact K). contradiction.
Qed.
Lemma c_gen ts e ts' x it c r :
  positional ts -> P 0 ts e (KFor :: ts') -> PFor (KFor :: ts') x it c (RPar :: r) ->
  PArgs [] [] ts [AComp GGen [e] x it c] [] r.
Proof.
  intros N H [m K]. head H. exists (S (x1 + m)). upto (S (x1 + m)) H. apply (F_le m (S (x1 + m))) in K; [|lia].
  cbn [call_args].
  destruct t; try discriminate E; try (rewrite H; cbn [pbind]; rewrite K; reflexivity).
  destruct x0 as [|u us]; [rewrite H; cbn [pbind]; rewrite K; reflexivity|].
  destruct u; try (rewrite H; cbn [pbind]; rewrite K; reflexivity). contradiction.
Qed.
Lemma c_kw_last pos kws x ts e r :
  existsb (fun kw => teqb x (fst kw)) kws = false ->
  P 0 ts e (RPar :: r) -> PArgs pos kws (TName x :: Assign :: ts) pos (kws ++ [(x, e)]) r.
Proof.
  intros N [n H]. exists (S n). upto (S n) H. cbn [call_args]. rewrite N, H. reflexivity.
Qed.
Lemma c_kw pos kws x ts e ts' l ks r :
  existsb (fun kw => teqb x (fst kw)) kws = false ->
  P 0 ts e (Comma :: ts') -> PArgs pos (kws ++ [(x, e)]) ts' l ks r ->
  PArgs pos kws (TName x :: Assign :: ts) l ks r.
Proof.
  intros N [n H] [m K]. exists (S (n + m)). upto (S (n + m)) H. apply (CA_le m (n + m)) in K; [|lia].
  apply (call_args_mono _ _ (parse_S _) _ _ _ _ _ (le_n _)) in K.
  cbn [call_args]. rewrite N, H. exact K.
Qed.

(** *** trailers *)
Lemma t_sub a ts i ts' b r : P 0 ts i (RBr :: ts') -> PTrail (ASub a i) ts' b r -> PTrail a (LBr :: ts) b r.
Proof.
  intros [n H] [m K]. exists (S (n + m)). upto (S (n + m)) H. apply (T_le m (n + m)) in K; [|lia].
  apply (trailers_mono _ _ (parse_S _) _ _ _ _ (le_n _)) in K.
  cbn [trailers]. rewrite H. exact K.
Qed.
Lemma t_attr a x ts b r : PTrail (AAttr a x) ts b r -> PTrail a (Dot :: TName x :: ts) b r.
Proof.
  intros [m K]. exists (S m).
  apply (trailers_mono _ _ (parse_S _) _ _ _ _ (le_n _)) in K. cbn [trailers]. exact K.
Qed.
Lemma t_call a ts l ks ts' b r :
  PArgs [] [] ts l ks ts' -> PTrail (ACall a l ks) ts' b r -> PTrail a (LPar :: ts) b r.
Proof.
  intros [n H] [m K]. exists (S (n + m)).
  apply (CA_le n (n + m)) in H; [|lia]. apply (T_le m (n + m)) in K; [|lia].
  apply (call_args_mono _ _ (parse_S _) _ _ _ _ _ (le_n _)) in H.
  apply (trailers_mono _ _ (parse_S _) _ _ _ _ (le_n _)) in K.
  cbn [trailers]. rewrite H. exact K.
Qed.

(** *** comprehensions *)
Lemma f_for x ts it r :
  P 1 ts it r -> match r with KIf :: _ => False | _ => True end -> PFor (KFor :: TName x :: KIn :: ts) x it None r.
Proof.
  intros [n H] N. exists n. cbn [comp_for target pbind]. rewrite H. cbn [pbind].
  destruct r as [|t r]; auto. destruct t; auto. contradiction.
Qed.
Lemma f_for2 x y ts it r :
  P 1 ts it r -> match r with KIf :: _ => False | _ => True end ->
  PFor (KFor :: TName x :: Comma :: TName y :: KIn :: ts) (x ++ T ", " ++ y) it None r.
Proof.
  intros [n H] N. exists n. cbn [comp_for target pbind]. rewrite H. cbn [pbind].
  destruct r as [|t r]; auto. destruct t; auto. contradiction.
Qed.
Lemma f_for_if x ts it ts' c r :
  P 1 ts it (KIf :: ts') -> P 1 ts' c r -> PFor (KFor :: TName x :: KIn :: ts) x it (Some c) r.
Proof.
  intros [n H] [m K]. exists (n + m). up (n + m). cbn [comp_for target pbind]. rewrite H. cbn [pbind]. rewrite K. reflexivity.
Qed.

(** *** operators *)
Lemma o_if ts t ts' c ts2 f r :
  P 1 ts t (KIf :: ts') -> P 1 ts' c (KElse :: ts2) -> P 0 ts2 f r -> P 0 ts (AIf c t f) r.
Proof.
  intros [n H] [m K] [o I]. exists (S (n + m + o)). up (n + m + o). cbn [parse level].
  rewrite H. cbn [pbind]. rewrite K. cbn [pbind]. rewrite I. reflexivity.
Qed.
Lemma b_end (o : bool) acc r : stops (if o then 1 else 2) r -> PBools o acc r acc r.
Proof.
  intros H. exists 1. cbn [bool_loop]. destruct o, r as [|t r]; auto; destruct t; auto; cbn in H; lia.
Qed.
Lemma b_more (o : bool) acc ts e ts' l r :
  P (if o then 2 else 3) ts e ts' -> PBools o (acc ++ [e]) ts' l r ->
  PBools o acc ((if o then KOr else KAnd) :: ts) l r.
Proof.
  intros [n H] [m K]. exists (S (n + m)). upto (S (n + m)) H. apply (B_le m (n + m)) in K; [|lia].
  apply (bool_loop_mono _ _ (parse_S _) _ _ _ _ _ (le_n _)) in K.
  cbn [bool_loop]. destruct o; rewrite H; exact K.
Qed.
Lemma o_bool (o : bool) ts a ts' l r :
  P (if o then 2 else 3) ts a ts' -> PBools o [a] ts' l r -> P (if o then 1 else 2) ts (of_bool o l) r.
Proof.
  intros [n H] [m K]. exists (S (n + m)). up (n + m). cbn [parse].
  destruct o; cbn [level]; rewrite H; cbn [pbind]; rewrite K; reflexivity.
Qed.
Lemma o_not ts a r : P 3 ts a r -> P 3 (KNot :: ts) (ANot a) r.
Proof. intros [n H]. exists (S n). cbn [parse level]. rewrite H. reflexivity. Qed.
Lemma cmp_end acc r : stops 4 r -> PCmp acc r acc r.
Proof.
  intros St. exists 1. cbn [cmp_loop].
  destruct r as [|t r]; [reflexivity|]. destruct t; try reflexivity; try (cbn in St; lia).
  cbn [comparison_op]. destruct (is_comparison o) eqn:E; [|reflexivity].
  exfalso. cbn [stops power] in St. destruct (cmp_not_pow _ E) as [E1 E2].
  rewrite E1, E2, E in St. cbn in St. lia.
Qed.
Lemma cmp_more acc ts o ts' e ts2 l r :
  comparison_op ts = Some (o, ts') -> P 5 ts' e ts2 -> PCmp (acc ++ [(o, e)]) ts2 l r -> PCmp acc ts l r.
Proof.
  intros O [n H] [m K]. exists (S (n + m)). upto (S (n + m)) H. apply (C_le m (n + m)) in K; [|lia].
  apply (cmp_loop_mono _ _ (parse_S _) _ _ _ _ (le_n _)) in K.
  cbn [cmp_loop]. rewrite O, H. exact K.
Qed.
Lemma o_cmp ts a ts' l r : P 5 ts a ts' -> PCmp [] ts' l r -> P 4 ts (of_compare a l) r.
Proof.
  intros [n H] [m K]. exists (S (n + m)). up (n + m). cbn [parse level]. rewrite H. cbn [pbind]. rewrite K. reflexivity.
Qed.
Lemma o_unary o ts a r : is_unary o = true -> P 11 ts a r -> P 11 (TBin o :: ts) (AUnary o a) r.
Proof. intros O [n H]. exists (S n). cbn [parse level]. rewrite O, H. reflexivity. Qed.
Lemma o_bin o ts a ts' b r :
  bin_level o <> 0 -> P (S (bin_level o)) ts a (TBin o :: ts') -> P (S (bin_level o)) ts' b r ->
  stops (bin_level o) r -> P (bin_level o) ts (ABin o a b) r.
Proof.
  intros O [n H] [m K] St. exists (S (S (S (n + m)))). up (S (S (n + m))).
  destruct (bin_level_cases o) as [E|E]; [lia|].
  assert (G : pbind (parse (S (S (n + m))) (S (bin_level o)) ts)
                    (fun a r => bin_loop (parse (S (S (n + m)))) (S (S (n + m))) (bin_level o) a r) = Some (ABin o a b, r)).
  { rewrite H. cbn [pbind]. cbn [bin_loop]. rewrite Nat.eqb_refl, K. cbn [pbind].
    apply (bin_loop_mono _ _ (parse_S (S (n + m))) (S (n + m)) (S (n + m)) _ _ _ (le_n _)).
    apply bin_stop; [lia|exact St]. }
  remember (S (S (n + m))) as q. remember (bin_level o) as l. clear - G E.
  cbn [parse]. do 5 (destruct l as [|l]; [lia|]). do 6 (destruct l as [|l]; [exact G|]). lia.
Qed.
