(** Specification of option contexts: a stack of option maps. *)
From Coq Require Import String List Bool Arith.
From Verif Require Import Model_Options.
Import ListNotations.

Section Spec.
  Context {Val : Type}.
  Variable default : string -> option Val.   (* class-level defaults *)

  (** Every executed with statement owns a map from option names to values;
      the stack lists the currently open blocks, innermost first. *)
  Record sstate : Type := mkS { maps : list (string -> option Val); stack : list nat }.
  Definition s0 : sstate := mkS [] [].

  Definition smap (s : sstate) (i : nat) : string -> option Val := nth i (maps s) default.
  Definition visible (s : sstate) : string -> option Val :=
    match stack s with
    | i :: _ => smap s i
    | [] => default
    end.
  Fixpoint upd (l : list (string -> option Val)) (i : nat)
           (f : (string -> option Val) -> string -> option Val) :=
    match l, i with
    | [], _ => []
    | x :: r, 0 => f x :: r
    | x :: r, S i' => x :: upd r i' f
    end.
  Definition sstep (o : op Val) (s : sstate) : sstate * list (option Val) :=
    match o with
    | Enter => (mkS (maps s ++ [visible s]) (length (maps s) :: stack s), [])
    | Exit => (mkS (maps s) (tl (stack s)), [])
    | Assign h n v =>
        (mkS (upd (maps s) h
                (fun m n' => if string_dec n' n then Some v else m n')) (stack s), [])
    | ToDefaults h (Some n) =>
        (mkS (upd (maps s) h
                (fun m n' => if string_dec n' n then default n else m n')) (stack s), [])
    | ToDefaults h None => (mkS (upd (maps s) h (fun _ => default)) (stack s), [])
    | Read n => (s, [visible s n])
    end.
  Fixpoint srun (ops : list (op Val)) (s : sstate) : sstate * list (option Val) :=
    match ops with
    | [] => (s, [])
    | o :: r =>
        let '(s1, out1) := sstep o s in
        let '(s2, out2) := srun r s1 in
        (s2, out1 ++ out2)
    end.

  (** Properly nested programs that never have more than [d] blocks open,
      starting with [k] open ones; only declared options are touched. *)
  Fixpoint nested (declared : string -> Prop) (d k : nat) (ops : list (op Val)) : Prop :=
    match ops with
    | [] => True
    | Enter :: r => S k <= d /\ nested declared d (S k) r
    | Exit :: r => match k with 0 => False | S k' => nested declared d k' r end
    | Assign _ n _ :: r => declared n /\ nested declared d k r
    | ToDefaults _ (Some n) :: r => declared n /\ nested declared d k r
    | ToDefaults _ None :: r => nested declared d k r
    | Read n :: r => declared n /\ nested declared d k r
    end.
  Definition no_block (o : op Val) : Prop :=
    match o with Enter | Exit => False | _ => True end.
End Spec.

(** The operations a schedule performs on one slot, and what was read there. *)
Section Proj.
  Context {Slot A : Type}.
  Variable slot_eq : forall a b : Slot, {a = b} + {a <> b}.
  Fixpoint proj (t : Slot) (l : list (Slot * A)) : list A :=
    match l with
    | [] => []
    | (t', a) :: r => if slot_eq t' t then a :: proj t r else proj t r
    end.
End Proj.
