(** Model of option objects and option contexts,
    /repo/src/convtools/utils.py:69-128.  Definitions only. *)
From Coq Require Import String List Bool Arith.
Import ListNotations.

Section Options.
  Context {Val : Type}.

  (** An instance __dict__: attribute name -> value, latest assignment first. *)
  Definition inst := list (string * Val).

  Fixpoint assoc (d : inst) (n : string) : option Val :=
    match d with
    | [] => None
    | (n', v) :: d' => if string_dec n n' then Some v else assoc d' n
    end.

  (** [_option_attrs] of the options class (utils.py:75-82): declared option
      names with their class-level defaults.  The class attribute itself is
      never reassigned by this code, so it doubles as the class dict. *)
  Variable defaults : inst.

  (** getattr on an option object: instance dict, then class (AttributeError
      is [None]). *)
  Definition getattr (o : inst) (n : string) : option Val :=
    match assoc o n with
    | Some v => Some v
    | None => assoc defaults n
    end.

  Definition setattr (o : inst) (n : string) (v : Val) : inst := (n, v) :: o.

  (** BaseOptions.clone, utils.py:88-92: a fresh instance with every declared
      attribute copied.  (getattr cannot fail here: the names are declared.) *)
  Definition clone (o : inst) : inst :=
    fold_left (fun acc nv =>
                 match getattr o (fst nv) with
                 | Some v => setattr acc (fst nv) v
                 | None => acc
                 end) defaults [].

  (** BaseOptions.to_defaults, utils.py:94-99; [None] resets all options.
      A KeyError for an undeclared name leaves the object unchanged. *)
  Definition to_defaults (o : inst) (name : option string) : inst :=
    match name with
    | Some n =>
        match assoc defaults n with
        | Some v => setattr o n v
        | None => o
        end
    | None => fold_left (fun acc nv => setattr acc (fst nv) (snd nv)) defaults o
    end.

  (** What one thread sees of one context class: the option objects created so
      far (object id = creation index), and the two thread-local slots
      [_ctx.options] and [_ctx.prev_options] (absent and None coincide because
      the code reads them with a None default, utils.py:112, 125). *)
  Record tls : Type := mkTls {
    objs : list inst;
    options : option nat;
    prev_options : option nat
  }.
  Definition tls0 : tls := mkTls [] None None.

  Definition obj (s : tls) (i : nat) : inst := nth i (objs s) [].

  (** BaseCtx.__enter__, utils.py:111-117 (option objects are truthy). *)
  Definition enter (s : tls) : tls :=
    let prev := options s in
    let o := match prev with
             | Some i => clone (obj s i)
             | None => []                      (* self.options_cls() *)
             end in
    mkTls (objs s ++ [o]) (Some (length (objs s))) prev.

  (** BaseCtx.__exit__, utils.py:119-121; also run when the block raises. *)
  Definition exit (s : tls) : tls :=
    mkTls (objs s) (prev_options s) None.

  (** BaseCtx.get_option_value, utils.py:123-128. *)
  Definition get_option_value (s : tls) (n : string) : option Val :=
    match options s with
    | Some i => getattr (obj s i) n
    | None => assoc defaults n
    end.

  Fixpoint update_nth (l : list inst) (i : nat) (f : inst -> inst) : list inst :=
    match l, i with
    | [], _ => []
    | x :: r, 0 => f x :: r
    | x :: r, S i' => x :: update_nth r i' f
    end.

  (** What a user program does: with-blocks, assignments to the object bound
      by the [h]-th executed with statement (also after the block ended),
      to_defaults calls on it, and reads of the current option value. *)
  Inductive op : Type :=
  | Enter
  | Exit
  | Assign (h : nat) (n : string) (v : Val)
  | ToDefaults (h : nat) (n : option string)
  | Read (n : string).

  Definition step (o : op) (s : tls) : tls * list (option Val) :=
    match o with
    | Enter => (enter s, [])
    | Exit => (exit s, [])
    | Assign h n v =>
        (mkTls (update_nth (objs s) h (fun o => setattr o n v))
           (options s) (prev_options s), [])
    | ToDefaults h n =>
        (mkTls (update_nth (objs s) h (fun o => to_defaults o n))
           (options s) (prev_options s), [])
    | Read n => (s, [get_option_value s n])
    end.

  Fixpoint run (ops : list op) (s : tls) : tls * list (option Val) :=
    match ops with
    | [] => (s, [])
    | o :: r =>
        let '(s1, out1) := step o s in
        let '(s2, out2) := run r s1 in
        (s2, out1 ++ out2)
    end.
End Options.
Arguments op : clear implicits.

(** Several threads and several context classes: every (thread, class) pair
    has its own slots (threading.local per class, BaseCtxMeta utils.py:69-72). *)
Section Threads.
  Context {Val Slot : Type}.
  Variable slot_eq : forall a b : Slot, {a = b} + {a <> b}.
  Variable defaults : Slot -> list (string * Val).

  Definition world := Slot -> @tls Val.
  Definition world0 : world := fun _ => tls0.

  (** One scheduled step: the operation [o] performed on slot [t]. *)
  Definition wstep (t : Slot) (o : op Val) (w : world) : world * list (Slot * option Val) :=
    let '(s, out) := step (defaults t) o (w t) in
    ((fun t' => if slot_eq t t' then s else w t'), map (fun v => (t, v)) out).

  Fixpoint wrun (sched : list (Slot * op Val)) (w : world)
    : world * list (Slot * option Val) :=
    match sched with
    | [] => (w, [])
    | (t, o) :: r =>
        let '(w1, out1) := wstep t o w in
        let '(w2, out2) := wrun r w1 in
        (w2, out1 ++ out2)
    end.
End Threads.
