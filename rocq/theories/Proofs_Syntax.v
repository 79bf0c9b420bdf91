(** Proofs about the parser of Spec_Syntax: more fuel never changes the result,
    and rules for each construct. *)
From Coq Require Import String Ascii List NArith Bool Arith Lia.
From Verif Require Import Model_Code Spec_Syntax.
Import ListNotations.

(** *** fuel *)
Definition imp {A} (o o' : option A) : Prop := forall x, o = Some x -> o' = Some x.
Lemma imp_refl {A} (o : option A) : imp o o. Proof. intros x H; exact H. Qed.
Lemma imp_none {A} (o : option A) : imp None o. Proof. intros x H; discriminate H. Qed.
Lemma imp_pbind {A B} (r r' : parsed A) (k k' : A -> list token -> parsed B) :
  imp r r' -> (forall a ts, imp (k a ts) (k' a ts)) -> imp (pbind r k) (pbind r' k').
Proof.
  intros H K x. unfold pbind. destruct r as [[a ts]|]; [|discriminate].
  rewrite (H _ eq_refl). apply K.
Qed.
Definition finer (p p' : nat -> list token -> parsed ast) : Prop := forall l ts, imp (p l ts) (p' l ts).

Ltac mono :=
  first
    [ apply imp_refl
    | apply imp_none
    | assumption
    | match goal with H : finer _ _ |- imp (_ ?l ?ts) (_ ?l ?ts) => apply H end
    | match goal with IH : _ |- _ => apply IH; solve [auto with arith] end
    | apply imp_pbind; [mono | intros; mono]
    | match goal with |- imp (match ?x with _ => _ end) _ => destruct x; mono end
    | match goal with |- imp (let (_, _) := ?x in _) _ => destruct x; mono end ].

Section Mono.
  Variables p p' : nat -> list token -> parsed ast.
  Hypothesis F : finer p p'.
  Lemma comp_for_mono ts : imp (comp_for p ts) (comp_for p' ts).
  Proof. unfold comp_for. mono. Qed.
  Lemma more_mono k k' cl acc ts : k <= k' -> imp (more p k cl acc ts) (more p' k' cl acc ts).
  Proof.
    revert k' acc ts; induction k as [|k IH]; intros k' acc ts L; [apply imp_none|].
    destruct k' as [|k']; [lia|]. apply le_S_n in L. cbn [more]. mono.
  Qed.
  Lemma more_pairs_mono k k' acc ts : k <= k' -> imp (more_pairs p k acc ts) (more_pairs p' k' acc ts).
  Proof.
    revert k' acc ts; induction k as [|k IH]; intros k' acc ts L; [apply imp_none|].
    destruct k' as [|k']; [lia|]. apply le_S_n in L. cbn [more_pairs]. mono.
  Qed.
  Lemma call_args_mono k k' pos kws ts :
    k <= k' -> imp (call_args p k pos kws ts) (call_args p' k' pos kws ts).
  Proof.
    revert k' pos kws ts; induction k as [|k IH]; intros k' pos kws ts L; [apply imp_none|].
    destruct k' as [|k']; [lia|]. apply le_S_n in L. cbn [call_args].
    pose proof comp_for_mono as CF.
    destruct ts as [|t ts].
    { destruct kws; mono. }
    assert (G : imp
      (match kws with
            | _ :: _ => None
            | [] =>
                pbind (p 0 (t :: ts)) (fun e r =>
                match r with
                | Comma :: r => call_args p k (pos ++ [e]) kws r
                | RPar :: r => Some ((pos ++ [e], kws), r)
                | KFor :: _ =>
                    match pos with
                    | [] => pbind (comp_for p r) (fun f r =>
                              let '(x, it, c) := f in
                              match r with
                              | RPar :: r => Some (([AComp GGen [e] x it c], kws), r)
                              | _ => None
                              end)
                    | _ => None
                    end
                | _ => None
                end)
            end)
      (match kws with
            | _ :: _ => None
            | [] =>
                pbind (p' 0 (t :: ts)) (fun e r =>
                match r with
                | Comma :: r => call_args p' k' (pos ++ [e]) kws r
                | RPar :: r => Some ((pos ++ [e], kws), r)
                | KFor :: _ =>
                    match pos with
                    | [] => pbind (comp_for p' r) (fun f r =>
                              let '(x, it, c) := f in
                              match r with
                              | RPar :: r => Some (([AComp GGen [e] x it c], kws), r)
                              | _ => None
                              end)
                    | _ => None
                    end
                | _ => None
                end)
            end)) by (clear - IH L F CF; mono).
    destruct t; try exact G; [|apply imp_refl].
    destruct ts as [|u ts]; [exact G|]. destruct u; try exact G.
    clear G. mono.
  Qed.
  Lemma trailers_mono k k' a ts : k <= k' -> imp (trailers p k a ts) (trailers p' k' a ts).
  Proof.
    revert k' a ts; induction k as [|k IH]; intros k' a ts L; [apply imp_none|].
    destruct k' as [|k']; [lia|]. apply le_S_n in L. cbn [trailers].
    pose proof (call_args_mono k k') as CA. mono.
  Qed.
  Lemma gen_rest_mono e x it c ts : imp (gen_rest p e x it c ts) (gen_rest p' e x it c ts).
  Proof. unfold gen_rest. pose proof comp_for_mono as CF. mono. Qed.
  Lemma atom_mono k k' ts : k <= k' -> imp (atom p k ts) (atom p' k' ts).
  Proof.
    intros L. unfold atom. pose proof comp_for_mono as CF. pose proof gen_rest_mono as GR.
    pose proof (fun cl acc ts => more_mono k k' cl acc ts L) as MM.
    pose proof (fun acc ts => more_pairs_mono k k' acc ts L) as MP.
    mono.
  Qed.
  Lemma bin_loop_mono k k' l a ts : k <= k' -> imp (bin_loop p k l a ts) (bin_loop p' k' l a ts).
  Proof.
    revert k' a ts; induction k as [|k IH]; intros k' a ts L; [apply imp_none|].
    destruct k' as [|k']; [lia|]. apply le_S_n in L. cbn [bin_loop]. mono.
  Qed.
  Lemma cmp_loop_mono k k' acc ts : k <= k' -> imp (cmp_loop p k acc ts) (cmp_loop p' k' acc ts).
  Proof.
    revert k' acc ts; induction k as [|k IH]; intros k' acc ts L; [apply imp_none|].
    destruct k' as [|k']; [lia|]. apply le_S_n in L. cbn [cmp_loop]. mono.
  Qed.
  Lemma bool_loop_mono k k' o acc ts : k <= k' -> imp (bool_loop p k o acc ts) (bool_loop p' k' o acc ts).
  Proof.
    revert k' acc ts; induction k as [|k IH]; intros k' acc ts L; [apply imp_none|].
    destruct k' as [|k']; [lia|]. apply le_S_n in L. cbn [bool_loop]. mono.
  Qed.
  Lemma level_mono k k' l ts : k <= k' -> imp (level p k l ts) (level p' k' l ts).
  Proof.
    intros L.
    pose proof (fun a ts => trailers_mono k k' a ts L) as H1.
    pose proof (fun ts => atom_mono k k' ts L) as H2.
    pose proof (fun l a ts => bin_loop_mono k k' l a ts L) as H3.
    pose proof (fun acc ts => cmp_loop_mono k k' acc ts L) as H4.
    pose proof (fun o acc ts => bool_loop_mono k k' o acc ts L) as H5.
    do 14 (destruct l as [|l]; [cbn [level]; mono|]). cbn [level]; mono.
  Qed.
End Mono.

Lemma parse_S n : finer (parse n) (parse (S n)).
Proof.
  induction n as [|n IH]; intros l ts; [apply imp_none|].
  cbn [parse]. apply level_mono; [exact IH|lia].
Qed.
Lemma parse_le n m : n <= m -> finer (parse n) (parse m).
Proof.
  induction 1 as [|m _ IH]; intros l ts; [apply imp_refl|].
  intros x H. apply parse_S, IH, H.
Qed.

(** what a text reads as is unique *)
Lemma reads_unique t a b : reads t a -> reads t b -> a = b.
Proof.
  intros (ts & n & E & H) (ts' & m & E' & H'). rewrite E in E'. injection E' as <-.
  apply (parse_le n (n + m)) in H; [|lia]. apply (parse_le m (n + m)) in H'; [|lia].
  rewrite H in H'. injection H' as <-. reflexivity.
Qed.
