(** Which conversions a theorem about generated code covers.  All of these are
    syntactic conditions on the conversion a user writes. *)
From Coq Require Import String List ZArith NArith Bool Arith.
From Verif Require Import Model_Code.
Import ListNotations.

(** The number of operands each operation takes. *)
Definition wf_op (o : opn) (n : nat) : bool :=
  match o with
  | OItem | OGetattr | OBin _ => Nat.eqb n 2
  | OAttr _ | ONot | ONeg => Nat.eqb n 1
  | OCall np kws => Nat.eqb n (S (np + length kws))
  | OSlice | OSortedList | OSortedTuple | OSortedDict => Nat.eqb n 3
  | OTuple | OSet => negb (Nat.eqb n 0)      (* see C23 for the empty ones *)
  | OList => true
  | ODict => Nat.even n
  end.
Definition wf_comp (k : ckind) (n : nat) : bool :=
  match k with
  | KList | KTuple | KSet | KSrc => Nat.eqb n 1
  | KDict | KSrcPair => Nat.eqb n 2
  end.

Definition optb {B} (f : B -> bool) (o : option B) : bool :=
  match o with Some b => f b | None => true end.

(** The conversion does not look at its input. *)
Fixpoint free (c : cv) : bool :=
  match c with
  | CLit _ | CGlob _ | CArg _ | CLabel _ => true
  | COp _ l | CBool _ l | CEqs l => forallb free l
  | CAttr a n => free a && free n
  | CCache _ c _ => free c
  | CPipe a _ => free a
  | CTap o _ => free o
  | _ => false
  end.

Definition nopipe (c : cv) : bool := match c with CPipe _ _ => false | _ => true end.
(** The code of the conversion mentions the code of its input. *)
Fixpoint uses (c : cv) : bool :=
  match c with
  | CThis => true
  | COp o l => wf_op o (length l) && existsb uses l
  | CBool _ l | CEqs l => existsb uses l
  | CAttr a _ => uses a
  | CIf _ co _ _ => match co with None => true | Some c => nopipe c || uses c end
  | CDefault _ _ _ _ | CComp _ _ _ | CItems _ _ => true
  | CCache _ c _ => uses c
  | CPipe a b => uses a && uses b
  | CTap o _ => uses o
  | _ => false
  end.

Definition const (c : cv) : bool :=
  match c with CLit _ | CGlob _ => true | _ => false end.
(** Conversions whose code is a name, a constant or a label. *)
Definition atom (c : cv) : bool :=
  match c with CThis | CLit _ | CGlob _ | CArg _ | CLabel _ => true | _ => false end.

(** The conversion evaluates its input exactly once, before anything else that
    can have an effect: [this.item(0)], [f(this, 1)], [this > 5 and ...] (the
    rest not looking at the input), comprehensions, ... *)
Fixpoint lin (c : cv) : bool :=
  match c with
  | CThis => true
  | COp _ l =>
      (fix go (l : list cv) : bool :=
         match l with
         | [] => false
         | c :: r => (lin c && forallb free r) || (const c && go r)
         end) l
  | CAttr a n => lin a && free n
  | CBool _ l | CEqs l =>
      match l with [] => false | a :: r => lin a && forallb free r end
  | CIf nc co _ _ => negb nc && match co with None => true | Some c => lin c end
  | CDefault _ self _ d => match self with None | Some CThis => free d | _ => false end
  | CComp _ _ _ | CItems _ _ => true
  | CCache _ c _ => lin c
  | CPipe a b => lin a && lin b
  | CTap o _ => lin o
  | _ => false
  end.

(** The conversion evaluates its input at least once whenever it returns. *)
Fixpoint strict (c : cv) : bool :=
  match c with
  | CThis => true
  | COp _ l => existsb strict l
  | CAttr a _ => strict a
  | CBool _ l => match l with [] => false | a :: _ => strict a end
  | CEqs l => match l with a :: b :: _ => strict a || strict b | _ => false end
  | CIf _ co _ _ => match co with None => true | Some c => strict c end
  | CDefault _ _ _ _ | CComp _ _ _ | CItems _ _ => true
  | CCache _ c _ => strict c
  | CPipe a b => match a with
                 | CThis => strict b
                 | CLit _ | CGlob _ | CArg _ | CLabel _ => false
                 | _ => strict a
                 end
  | CTap o _ => strict o
  | _ => false
  end.

(** The code of the conversion is more than a name, a constant or a label. *)
Fixpoint compound (c : cv) : bool :=
  match c with
  | CPipe a b => match b with CThis => compound a | _ => compound b end
  | _ => negb (atom c)
  end.

(** Labels the conversion sets. *)
Fixpoint writes (c : cv) : list lname :=
  let opt (o : option cv) := match o with Some c => writes c | None => [] end in
  match c with
  | CThis | CLit _ | CGlob _ | CLabel _ | CArg _ => []
  | COp _ l | CBool _ l | CEqs l => flat_map writes l
  | CAttr a n => writes a ++ writes n
  | CIf _ c t f => opt c ++ opt t ++ opt f
  | CDefault _ s idx d => opt s ++ flat_map writes idx ++ writes d
  | CComp _ elts cond => flat_map writes elts ++ opt cond
  | CItems _ lines => flat_map (fun l => opt (fst l) ++ writes (snd l)) lines
  | CCache n c ls => n :: writes c ++ map fst ls ++ flat_map (fun l => writes (snd l)) ls
  | CPipe a b => writes a ++ writes b
  | CTap o ms => writes o ++ flat_map (fun m => flat_map writes (snd m)) ms
  end.

Definition user_name (n : lname) : bool := match n with P _ => false | _ => true end.
Definition in_names (n : lname) (l : list lname) : bool :=
  existsb (fun m => if lname_eq_dec n m then true else false) l.

Section Frag.
  (** [pt]: truth tests are assumed to have no effect and not to fail. *)
  Variable pt : bool.

  (** [x]: the code of the input may be other than a plain name; [fed]: that input
      is itself the value piped into the conversion (Model_Code.gen). *)
  Fixpoint frag (fed x : bool) (c : cv) {struct c} : bool :=
    let here := negb (fed && x) || uses c || pt in
    match c with
    | CThis => true
    | CLit _ | CGlob _ | CArg _ => here
    | CLabel n => here && user_name n
    | COp o l => here && wf_op o (length l) && forallb (frag false x) l
    | CAttr a n => here && frag false x a && frag false x n
    | CBool _ l | CEqs l => here && Nat.leb 2 (length l) && forallb (frag false x) l
    | CIf nc co t f =>
        here && optb (frag true x) co && optb (frag true x) t && optb (frag true x) f &&
        (* a piped value is cached while the condition is evaluated *)
        (negb x || nc || optb strict co)
    | CDefault _ self idx d =>
        optb (frag false x) self && frag false x d && forallb (frag false false) idx &&
        (* the helper function does not receive input arguments *)
        forallb (fun i => match args_of i with [] => true | _ => false end) idx
    | CComp k elts co =>
        wf_comp k (length elts) && forallb (frag false false) elts && optb (frag false false) co
    | CItems _ lines =>
        forallb (fun l => optb (frag false false) (fst l) && frag false false (snd l)) lines
    | CCache n c ls =>
        here && frag false x c && forallb (fun l => frag false true (snd l)) ls &&
        user_name n && forallb (fun l => user_name (fst l)) ls &&
        negb (in_names n (map fst ls ++ flat_map (fun l => writes (snd l)) ls))
    | CPipe a b =>
        match a with
        | CThis => frag false x b && (negb x || uses b || pt)
        | CLit _ | CGlob _ | CArg _ =>
            negb (fed && x) && frag false true b && (uses b || pt)
        | CLabel n => negb (fed && x) && user_name n && frag false true b && lin b
        | _ => frag fed x a && lin b && frag false true b && compound a
        end
    | CTap o ms =>
        here && frag false x o && forallb (fun m => forallb (frag false false) (snd m)) ms
    end.
End Frag.
