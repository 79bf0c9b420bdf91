(** Outputs of a group_by with marked places, and what it means for the group
    keys to be recognisable in them. *)
From Coq Require Import String Ascii List ZArith NArith Bool Arith.
From Verif Require Import Model_Code Model_Eval.
Import ListNotations.

(** Place number [i] is a character that no Python source contains: a number
    above the last code point. *)
Definition beyond : N := 1114112.
Definition place (i : nat) : N := (beyond + N.of_nat i)%N.
Definition is_place (c : N) : bool := N.leb beyond c.
Definition number (c : N) : nat := N.to_nat (c - beyond).
Definition place_of (x : text) : option nat :=
  match x with [c] => if is_place c then Some (number c) else None | _ => None end.

(** [s] with the expression [f i] written at the places number [i]. *)
Fixpoint plug (f : nat -> px) (s : px) : px :=
  match s with
  | PName x => match place_of x with Some i => f i | None => s end
  | PLit _ | PGlob _ | PGet _ => s
  | POp o l => POp o (map (plug f) l)
  | PBool b l => PBool b (map (plug f) l)
  | PEqs l => PEqs (map (plug f) l)
  | PIf c t e => PIf (plug f c) (plug f t) (plug f e)
  | PAttach a b => PAttach (plug f a) (plug f b)
  | PAdd n e => PAdd n (plug f e)
  | PComp k elts x it cond =>
      PComp k (map (plug f) elts) x (plug f it)
            (match cond with Some c => Some (plug f c) | None => None end)
  | PDefault h args b => PDefault h (map (plug f) args) b
  | PItems h k args ps ls => PItems h k (map (plug f) args) ps ls
  | PTap h args ps ss => PTap h (map (plug f) args) ps ss
  end.

(** The same for text. *)
Definition write (f : nat -> text) (t : text) : text :=
  flat_map (fun c => if is_place c then f (number c) else [c]) t.

Definition unicode (t : text) : Prop := Forall (fun c => is_place c = false) t.

Section Texts.
  Variable srepr : text -> text.
  Variable gname : nat -> text.
  Variable pnum : list nat -> nat.

  Definition op_texts (o : opn) : list text :=
    match o with OAttr n => [n] | OCall _ kws => kws | OBin b => [b] | _ => [] end.
  (** The names and constants in an expression, places apart. *)
  Fixpoint texts (s : px) : list text :=
    match s with
    | PName x => match place_of x with Some _ => [] | None => [x] end
    | PLit l => [lit_text srepr l]
    | PGlob g => [gname g]
    | POp o l => op_texts o ++ flat_map texts l
    | PBool _ l | PEqs l => flat_map texts l
    | PIf c t e => texts c ++ texts t ++ texts e
    | PAttach a b => texts a ++ texts b
    | PAdd n e => label_text pnum n :: texts e
    | PGet n => [label_text pnum n]
    | PComp _ elts x it cond =>
        x :: flat_map texts elts ++ texts it ++
        match cond with Some c => texts c | None => [] end
    | PDefault h args _ | PItems h _ args _ _ | PTap h args _ _ => h :: flat_map texts args
    end.
End Texts.

(** [p] disagrees with [t], or [t] ends, before [p] ends and before a place of [t]. *)
Fixpoint differs (p t : text) : bool :=
  match p, t with
  | [], _ => false
  | _ :: _, [] => true
  | a :: p', c :: t' => negb (is_place c) && (negb (N.eqb a c) || differs p' t')
  end.

(** The first [n] codes can be told apart in [t]: where [t] has the place number
    [i], only code [i] can be read. *)
Fixpoint told_apart (n : nat) (code : nat -> text) (t : text) : bool :=
  match t with
  | [] => true
  | c :: r =>
      (if is_place c
       then forallb (fun k => Nat.eqb k (number c) || differs (code k) (code (number c) ++ r)) (seq 0 n)
       else true) && told_apart n code r
  end.

(** The places an expression has. *)
Fixpoint places (s : px) : list nat :=
  match s with
  | PName x => match place_of x with Some i => [i] | None => [] end
  | PLit _ | PGlob _ | PGet _ => []
  | POp _ l | PBool _ l | PEqs l => flat_map places l
  | PIf c t e => places c ++ places t ++ places e
  | PAttach a b => places a ++ places b
  | PAdd _ e => places e
  | PComp _ elts _ it cond =>
      flat_map places elts ++ places it ++ match cond with Some c => places c | None => [] end
  | PDefault _ args _ | PItems _ _ args _ _ | PTap _ args _ _ => flat_map places args
  end.

(** The variables of the comprehensions in an expression (outside of helper
    functions, which have their own scope). *)
Fixpoint loop_vars (s : px) : list text :=
  match s with
  | PName _ | PLit _ | PGlob _ | PGet _ => []
  | POp _ l | PBool _ l | PEqs l => flat_map loop_vars l
  | PIf c t e => loop_vars c ++ loop_vars t ++ loop_vars e
  | PAttach a b => loop_vars a ++ loop_vars b
  | PAdd _ e => loop_vars e
  | PComp _ elts x it cond =>
      x :: flat_map loop_vars elts ++ loop_vars it ++
      match cond with Some c => loop_vars c | None => [] end
  | PDefault _ args _ | PItems _ _ args _ _ | PTap _ args _ _ => flat_map loop_vars args
  end.

(** *** Outputs whose keys can be recognised *)
Section Output.
  Variable srepr : text -> text.
  Variable gname : nat -> text.
  Variable pnum : list nat -> nat.
  Notation print := (print srepr gname pnum).

  (** [e] is the code of an output: the expression [s] with the codes [code i] of
      the [n] group keys at its places [0 .. n-1]; its other places stand for
      further uses of the row.
      - a code is [row_] followed by something ([row_['a']], [row_.a], [row_]);
      - [row_] is written nowhere else in [e]: not after the beginning of a code,
        not in a constant, not in a name;
      - the codes of the keys can be told apart from what is written at the places. *)
  Record output (n : nat) (code : nat -> px) (s e : px) : Prop := {
    out_plug : e = plug code s;
    out_unicode : Forall unicode (texts srepr gname pnum s);
    out_codes : forall i, starts (T "row_") (print (code i)) = true /\ unicode (print (code i));
    out_row : contains (T "row_")
                (print (plug (fun i => PName (0%N :: skipn 4 (print (code i)))) s)) = false;
    out_apart : told_apart n (fun i => print (code i)) (print s) = true
  }.
End Output.

(** Outputs that are handled as a whole or item by item: neither a collection
    with optional items nor a collection that something is piped into; the items
    of a dict come in pairs.  A constant as the whole output is refused earlier
    (AssertionError, aggregations.py:975-979). *)
Definition plain_output (c : cv) : Prop :=
  match c with
  | COp ODict l => Nat.Even (length l)
  | CPipe _ (COp (ODict | OList | OTuple | OSet) _) | CItems _ _ | CPipe _ (CItems _ _) => False
  | CLit _ | CGlob _ => False
  | _ => True
  end.

(** *** The key values of a group *)
Section Group.
  Context {V W X : Type}.
  Variable pr : prims V W X.

  (** [key i] is the value of key [i] of [n] keys; the variable [signature_] holds
      the value of the only key, or the tuple of all of them. *)
  Definition holds_keys (n : nat) (key : nat -> V) (signature : V) : Prop :=
    (n = 1 -> signature = key 0) /\
    (n <> 1 -> forall i, i < n -> forall w,
       op pr OItem [signature; litv pr (LInt (Z.of_nat i))] w = (w, Val (key i))).

  (** [E'] says what the places stand for; [E] has [signature_] instead. *)
  Record group_env (n : nat) (key : nat -> V) (E E' : list (text * V)) : Prop := {
    ge_signature : exists sv, lookup E (T "signature_") = Some sv /\ holds_keys n key sv;
    ge_places : forall i, i < n -> lookup E' [place i] = Some (key i);
    ge_rest : forall y, place_of y = None -> lookup E' y = lookup E y
  }.
End Group.
