(** Compiled converters called from several threads:
    /repo/src/convtools/base.py:70-87 (_ConverterCallable.__call__), 503-513 (one
    label dict per converter, shared by all its calls).  Definitions only.

    The body of the compiled function is any program that stores and reads
    labels; storing, reading, testing, listing and deleting are single steps
    (each is one operation of a built-in dict).  Calls that return generators
    are in Model_Labels.v. *)
From Coq Require Import String List Bool Arith.
Import ListNotations.

Section Threads.
  Context {V E : Type}.
  Variable key_error : string -> E.

  (** What one call does: [Work] stands for any step without labels. *)
  Inductive prog : Type :=
  | Ret (v : V)
  | Raise (e : E)
  | Work (p : prog)
  | Put (name : string) (v : V) (p : prog)              (* add_label_(name, v) *)
  | Get (name : string) (k : option V -> prog).         (* get_by_label_(name); None: KeyError *)

  Inductive result : Type := Value (v : V) | Exception (e : E).

  Definition dict := list (string * V).
  Fixpoint find (n : string) (d : dict) : option V :=
    match d with [] => None | (m, v) :: r => if String.eqb n m then Some v else find n r end.
  Fixpoint store (n : string) (v : V) (d : dict) : dict :=
    match d with
    | [] => [(n, v)]
    | (m, w) :: r => if String.eqb n m then (m, v) :: r else (m, w) :: store n v r
    end.
  Fixpoint delete (n : string) (d : dict) : dict :=
    match d with [] => [] | (m, w) :: r => if String.eqb n m then r else (m, w) :: delete n r end.

  Inductive thread : Type :=
  | Body (p : prog)                                      (* :73 *)
  | Testing (r : result)                                 (* :82-85: if labels_ *)
  | Listing (r : result)                                 (* :86: list(labels_) *)
  | Deleting (keys : list string) (r : result)           (* :86-87 *)
  | Done (r : result).

  Definition step (d : dict) (t : thread) : dict * thread :=
    match t with
    | Body (Ret v) => (d, Testing (Value v))
    | Body (Raise e) => (d, Testing (Exception e))
    | Body (Work p) => (d, Body p)
    | Body (Put n v p) => (store n v d, Body p)
    | Body (Get n k) => (d, Body (k (find n d)))
    | Testing r => (d, match d with [] => Done r | _ => Listing r end)
    | Listing r => (d, Deleting (map fst d) r)
    | Deleting [] r => (d, Done r)
    | Deleting (n :: ks) r =>
        match find n d with
        | Some _ => (delete n d, Deleting ks r)
        | None => (d, Done (Exception (key_error n)))    (* del labels_[key] raises in the finally block *)
        end
    | Done _ => (d, t)
    end.

  (** Several threads, each inside a call of the converter with the given number;
      [labels c] is the dict of converter [c]. *)
  Definition world : Type := ((nat -> dict) * list (nat * thread))%type.
  Definition set_dict (labels : nat -> dict) (c : nat) (d : dict) : nat -> dict :=
    fun c' => if Nat.eqb c c' then d else labels c'.
  Fixpoint put_thread (l : list (nat * thread)) (k : nat) (t : nat * thread) : list (nat * thread) :=
    match l, k with
    | [], _ => []
    | _ :: r, O => t :: r
    | x :: r, S j => x :: put_thread r j t
    end.
  Fixpoint run (schedule : list nat) (w : world) : world :=
    match schedule with
    | [] => w
    | k :: r =>
        run r (match nth_error (snd w) k with
               | None => w
               | Some (c, t) =>
                   let '(d, t') := step (fst w c) t in
                   (set_dict (fst w) c d, put_thread (snd w) k (c, t'))
               end)
    end.
  (** All calls start with the labels empty. *)
  Definition start (calls : list (nat * prog)) : world :=
    (fun _ => [], map (fun c => (fst c, Body (snd c))) calls).
End Threads.
