(** What the theorems about the source text of converters assume: Python's
    builtins, the names in use, and which conversions are covered. *)
From Coq Require Import String Ascii List NArith ZArith Bool Arith.
From Verif Require Import Model_Code Model_Eval Spec_Frag Spec_Syntax Spec_Source Model_Source.
Import ListNotations.

(** Names of Python builtins and module globals that generated code uses. *)
Definition reserved : list text :=
  map T ["add_label_"; "get_by_label_"; "getattr"; "setattr"; "delattr"; "slice"; "sorted"; "tuple"; "list";
         "set"; "dict"; "OrderedDict"]%string.

(** Facts about Python used.  Model_Eval has one primitive for [getattr(a, b)],
    one for [sorted(a, key=k, reverse=r)] and so on; read as source text, these
    are calls of the values of the names getattr, sorted ... *)
Section World.
  Context {V W X : Type}.
  Variable pr : prims V W X.
  Variable glob : text -> option V.
  Notation step := (W -> W * out X V).
  Definition and_then (f : step) (g : V -> step) : step :=
    fun w => match f w with (w', Val v) => g v w' | (w', Exc x) => (w', Exc x) end.
  (** the global [x] is bound, and calling it with these arguments does [f] *)
  Definition callable (x : string) (vs : list V) (kws : list text) (f : step) : Prop :=
    exists fv, glob (T x) = Some fv /\
      forall w, op pr (OCall (length vs - length kws) kws) (fv :: vs) w = f w.

  Record builtins_ok : Prop := {
    bo_getattr : forall a n, callable "getattr" [a; n] [] (op pr OGetattr [a; n]);
    bo_setattr : forall a n v, callable "setattr" [a; n; v] [] (mut pr MSetAttr [a; n; v]);
    bo_delattr : forall a n, callable "delattr" [a; n] [] (mut pr MDelAttr [a; n]);
    bo_slice : forall a b c, callable "slice" [a; b; c] [] (op pr OSlice [a; b; c]);
    bo_sorted : forall a k r, callable "sorted" [a; k; r] [T "key"; T "reverse"] (op pr OSortedList [a; k; r]);
    bo_tuple : exists t, glob (T "tuple") = Some t /\ forall a k r w,
      op pr OSortedTuple [a; k; r] w =
      and_then (op pr OSortedList [a; k; r]) (fun l => op pr (OCall 1 []) [t; l]) w;
    bo_dict : exists t, glob (T "OrderedDict") = Some t /\ forall a k r w,
      op pr OSortedDict [a; k; r] w =
      and_then (op pr OSortedList [a; k; r]) (fun l => op pr (OCall 1 []) [t; l]) w;
    (* x.pop(i) looks up the method, then calls it *)
    bo_pop : forall d i w, mut pr MDelItem [d; i] w =
      and_then (op pr (OAttr (T "pop")) [d]) (fun m => op pr (OCall 1 []) [m; i]) w;
    (* -5 is the integer 5 negated *)
    bo_neg : forall n w, op pr ONeg [litv pr (LInt (Z.of_N n))] w = (w, Val (litv pr (LInt (- Z.of_N n)%Z)));
    (* the pairs (k, v) of a sorted dict are tuples *)
    bo_pair_start : forall w, start pr KSrcPair w = start pr KSrc w;
    bo_pair_finish : forall a w, finish pr KSrcPair a w = finish pr KSrc a w;
    bo_pair_push : forall acc a b w, push pr KSrcPair acc [a; b] w =
      and_then (op pr OTuple [a; b]) (fun t => push pr KSrc acc [t]) w
  }.
End World.

(** *** names *)
(** Every name in the generated code has one role: local variables (parameters,
    variables of comprehensions and pipes, input arguments), objects put into the
    globals, helper functions, the converter, builtins. *)
Inductive role : Type := Local | Object | Helper | Converter | Builtin.
Definition role_eqb (a b : role) : bool :=
  match a, b with
  | Local, Local | Object, Object | Helper, Helper | Converter, Converter | Builtin, Builtin => true
  | _, _ => false
  end.
(** [name]: the name of the converter; [args]: the input arguments of the conversion *)
Record names_apart (gname : nat -> text) (pname : text -> text) (hname : list nat -> text) (tname : text -> text)
       (name : text) (args : list text) (role_of : text -> role) : Prop := {
  na_params : forall x, In x (map T ["data_"; "self_"; "obj_"; "default_"]%string) -> role_of x = Local;
  na_p : forall t, role_of (pname t) = Local;
  na_t : forall t, role_of (tname t) = Local;
  na_args : forall x, In x args -> role_of x = Local;
  na_reserved : forall x, In x reserved -> role_of x = Builtin;
  na_g : forall g, role_of (gname g) = Object;
  na_h : forall q, role_of (hname q) = Helper;
  na_name : role_of name = Converter
}.

(** *** conversions *)
Definition plain_kind (k : ckind) : bool := match k with KSrc | KSrcPair => false | _ => true end.
(** Mutations get the operands they need; what is removed by del_item is a constant. *)
Definition mutation_ok (m : mkind * list cv) : bool :=
  match fst m, snd m with
  | MSetItem, [_; _] | MSetAttr, [_; _] | MDelAttr, [_] | MCustom, [_] => true
  | MDelItem, [i] => const i
  | _, _ => false
  end.
(** Operations get the operands they need; key and reverse of a sort are
    constants; generators ([KSrc]) occur only directly under a sort ([under]);
    indices with a default do not mention input arguments (base.py:1308-1339
    puts their code into a function that does not get them). *)
Fixpoint sourced (under : bool) (c : cv) {struct c} : bool :=
  match c with
  | CThis | CLit _ | CGlob _ | CArg _ | CLabel _ => true
  | COp o l =>
      wf_op o (length l) &&
      match o with
      | OSortedList | OSortedTuple | OSortedDict =>
          match l with a :: r => sourced true a && forallb const r | [] => false end
      | _ => forallb (sourced false) l
      end
  | CAttr a n => sourced false a && sourced false n
  | CBool _ l | CEqs l => Nat.leb 2 (length l) && forallb (sourced false) l
  | CIf _ co t f => optb (sourced false) co && optb (sourced false) t && optb (sourced false) f
  | CDefault _ self idx d =>
      optb (sourced false) self && sourced false d &&
      forallb (fun i => sourced false i && match args_of i with [] => true | _ => false end) idx
  | CComp k elts co =>
      (under || plain_kind k) && wf_comp k (length elts) && forallb (sourced false) elts && optb (sourced false) co
  | CItems k lines =>
      plain_kind k && negb (Nat.eqb (length lines) 0) &&
      forallb (fun l => optb (sourced false) (fst l) && sourced false (snd l)) lines
  | CCache _ c ls => sourced false c && forallb (fun l => sourced false (snd l)) ls
  | CPipe a b => sourced false a && sourced false b
  | CTap o ms =>
      sourced false o && forallb (fun m => mutation_ok m && forallb (sourced false) (snd m)) ms
  end.
(** the labels a conversion uses *)
Fixpoint labels_in (c : cv) : list lname :=
  let opt (o : option cv) := match o with Some c => labels_in c | None => [] end in
  match c with
  | CThis | CLit _ | CGlob _ | CArg _ => []
  | CLabel n => [n]
  | COp _ l | CBool _ l | CEqs l => flat_map labels_in l
  | CAttr a n => labels_in a ++ labels_in n
  | CIf _ c t f => opt c ++ opt t ++ opt f
  | CDefault _ s idx d => opt s ++ flat_map labels_in idx ++ labels_in d
  | CComp _ elts cond => flat_map labels_in elts ++ opt cond
  | CItems _ lines => flat_map (fun l => opt (fst l) ++ labels_in (snd l)) lines
  | CCache n c ls => n :: labels_in c ++ flat_map (fun l => fst l :: labels_in (snd l)) ls
  | CPipe a b => labels_in a ++ labels_in b
  | CTap o ms => labels_in o ++ flat_map (fun m => flat_map labels_in (snd m)) ms
  end.
