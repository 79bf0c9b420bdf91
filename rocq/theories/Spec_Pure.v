(** C15: what "the called functions are free of side effects" means, and which
    conversions the theorems cover. *)
From Coq Require Import String List ZArith NArith Bool Arith.
From Verif Require Import Model_Code Model_Eval Spec_Frag.
Import ListNotations.

Section Pure.
  Context {V W X : Type}.

  (** Iterating has no effect and gives the same items each time. *)
  Inductive quiet : iterator V W X -> Prop :=
  | Q_stop next : (forall w, next w = (w, IStop)) -> quiet (It next)
  | Q_fail next x : (forall w, next w = (w, IFail x)) -> quiet (It next)
  | Q_yield next v rest : (forall w, next w = (w, IYield v rest)) -> quiet rest -> quiet (It next).

  (** Calls, lookups, operators, ... neither change the world nor depend on it:
      the result (value or exception) is a function of the operands.  Truth tests
      in addition do not raise. *)
  Record pure (pr : prims V W X) : Prop := {
    pure_op : forall o vs, exists r, forall w, op pr o vs w = (w, r);
    pure_truth : forall v, exists b, forall w, truth pr v w = (w, Val b);
    pure_iter : forall v, exists r, (forall w, iter pr v w = (w, r)) /\ (forall i, r = Val i -> quiet i);
    pure_start : forall k, exists v, forall w, start pr k w = (w, v);
    pure_push : forall k acc vs, exists r, forall w, push pr k acc vs w = (w, r);
    pure_finish : forall k acc, exists v, forall w, finish pr k acc w = (w, v)
  }.
End Pure.

(** The conversion evaluates its input whenever it returns. *)
Fixpoint demands (c : cv) : bool :=
  match c with
  | CThis => true
  | COp _ l => existsb demands l
  | CAttr a n => demands a || demands n
  | CBool _ l => match l with [] => false | a :: _ => demands a end
  | CEqs l => match l with a :: b :: _ => demands a || demands b | [a] => demands a | [] => false end
  | CIf _ co _ _ => match co with None => true | Some c => demands c end
  | CDefault _ _ _ _ | CComp _ _ _ | CItems _ _ => true
  | CPipe a b => demands a && demands b
  | _ => false
  end.

(** Any nesting of anything but labels and mutations, the input mentioned any
    number of times, except:
    - a condition of c.if_ on a piped value has to look at that value (first
      operand of and/or), because it is stored while the condition runs;
    - keys of lookups with a default are constants.
    [x]: the input may be something other than a variable. *)
Fixpoint plain (x : bool) (c : cv) : bool :=
  match c with
  | CThis | CLit _ | CGlob _ | CArg _ => true
  | COp _ l | CBool _ l | CEqs l => forallb (plain x) l
  | CAttr a n => plain x a && plain x n
  | CIf nc co t f =>
      optb (plain x) co && optb (plain x) t && optb (plain x) f &&
      (negb x || nc || optb demands co)
  | CDefault _ self idx d => optb (plain x) self && plain x d && forallb const idx
  | CComp _ elts co => forallb (plain false) elts && optb (plain false) co
  | CItems _ lines => forallb (fun l => optb (plain false) (fst l) && plain false (snd l)) lines
  | CPipe a b => plain x a && plain (match a with CThis => x | _ => true end) b
  | CLabel _ | CCache _ _ _ | CTap _ _ => false
  end.
