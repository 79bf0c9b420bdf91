(** Generator expressions run next() by next(): what Python makes of a function
    that ends with [return (e for x in it if c)], and what a generator
    comprehension says next() gives.  Expressions mean what Spec_Source.v says. *)
From Coq Require Import String Ascii List NArith ZArith Bool Arith.
From Verif Require Import Model_Code Model_Eval Spec_Syntax Spec_Source Spec_Frag Spec_Eval Spec_Converter.
Import ListNotations.

(** *** Python *)
Section Running.
  Context {V W X : Type}.
  Variable pr : prims V W X.
  Notation M := (@M V W X).
  Notation env := (list (text * V)).
  Notation iterator := (iterator V W X).

  (** The generator object of (e for x in it if c).  The iterator of [it] is made
      when the generator is; [e] and [c] are evaluated for one value of x at a time. *)
  Record generator : Type := { source : iterator; item : V -> M V; test : option (V -> M V) }.

  (** next(): [Some (v, i)]: yields v, [i] is what is left of the source;
      [None]: StopIteration. *)
  Fixpoint advance (item : V -> M V) (test : option (V -> M V)) (i : iterator) : M (option (V * iterator)) :=
    match i with
    | It next => fun s =>
        let '(w, r) := next (fst s) in
        match r with
        | IStop => ((w, snd s), Val None)
        | IFail x => ((w, snd s), Exc x)
        | IYield v rest =>
            let out := bind (item v) (fun u => ret (Some (u, rest))) in
            match test with
            | None => out (w, snd s)
            | Some t => bind (t v) (fun c => bind (prim (truth pr c)) (fun b =>
                          if b then out else advance item test rest)) (w, snd s)
            end
        end
    end.

  (** The statements of a function that returns a generator expression; [c sc]:
      the meaning of expressions where the names [sc] are local. *)
  Fixpoint exec_generator (c : list text -> ast -> option (env -> M V)) (sc : list text) (b : list stmt)
    : option (env -> M generator) :=
    match b with
    | SGlobal _ :: r => exec_generator c sc r
    | SAssign x a :: r =>
        match c sc a, exec_generator c sc r with
        | Some m, Some k => Some (fun E => bind (m E) (fun v => k ((x, v) :: E)))
        | _, _ => None
        end
    | SReturn (AComp GGen [e] x it co) :: _ =>
        match c sc it, c (x :: sc) e,
              match co with None => Some None | Some a => option_map Some (c (x :: sc) a) end with
        | Some mi, Some me, Some mc =>
            Some (fun E => bind (mi E) (fun v => bind (prim (iter pr v)) (fun i => ret
                   {| source := i; item := fun u => me ((x, u) :: E);
                      test := option_map (fun m u => m ((x, u) :: E)) mc |})))
        | _, _, _ => None
        end
    | _ => None
    end.

  Variable glob : text -> option V.
  Variable key : text -> lname.
  Variable defs : table.
  (** calling such a function: every parameter gets exactly one value *)
  Definition call_for_generator (n : nat) (fd : func) (vs : list V) (kws : list (text * V)) : option (M generator) :=
    if Nat.eqb (length vs) (length (f_params fd)) && negb (is_generator fd) &&
       forallb (fun k => mem k (map fst kws)) (f_kwonly fd) &&
       forallb (fun k => mem (fst k) (f_kwonly fd)) kws
    then match exec_generator (comp pr glob key defs n) (locals fd) (f_body fd) with
         | Some body => Some (body (combine (f_params fd) vs ++ kws))
         | None => None
         end
    else None.
End Running.

(** *** the conversion *)
Section Said.
  Context {V W X : Type}.
  Variable pr : prims V W X.
  Variable args : list (text * V).
  Variables (e : cv) (co : option cv).
  Notation st := (@st V W).
  Notation iterator := (iterator V W X).

  (** the condition, for the item [v]: truthy or not *)
  Definition cond_is (v : V) (s s' : st) (b : bool) : Prop :=
    match co with
    | None => s' = s /\ b = true
    | Some c => exists t s1, den pr args c v s = (s1, Val t) /\ prim (X := X) (truth pr t) s1 = (s', Val b)
    end.
  Definition cond_fails (v : V) (s s' : st) (x : X) : Prop :=
    match co with
    | None => False
    | Some c => den pr args c v s = (s', Exc x) \/
                exists t s1, den pr args c v s = (s1, Val t) /\ prim (X := X) (truth pr t) s1 = (s', Exc x)
    end.

  (** What next() gives when [i] is left of the source: the item conversion of the
      first item with a truthy condition; the items before it have falsy ones. *)
  Inductive next_item : iterator -> st -> st -> out X (option (V * iterator)) -> Prop :=
  | ni_end f w w' L : f w = (w', IStop) -> next_item (It f) (w, L) (w', L) (Val None)
  | ni_source_fails f w w' L x : f w = (w', IFail x) -> next_item (It f) (w, L) (w', L) (Exc x)
  | ni_skip f w w' L v rest s1 s' r :
      f w = (w', IYield v rest) -> cond_is v (w', L) s1 false -> next_item rest s1 s' r ->
      next_item (It f) (w, L) s' r
  | ni_yield f w w' L v rest s1 s' u :
      f w = (w', IYield v rest) -> cond_is v (w', L) s1 true -> den pr args e v s1 = (s', Val u) ->
      next_item (It f) (w, L) s' (Val (Some (u, rest)))
  | ni_item_fails f w w' L v rest s1 s' x :
      f w = (w', IYield v rest) -> cond_is v (w', L) s1 true -> den pr args e v s1 = (s', Exc x) ->
      next_item (It f) (w, L) s' (Exc x)
  | ni_cond_fails f w w' L v rest s' x :
      f w = (w', IYield v rest) -> cond_fails v (w', L) s' x -> next_item (It f) (w, L) s' (Exc x).

  (** The generator does next() by next() what the conversion says, whatever
      happened since the last one (that is, in every state [s]). *)
  Definition generates (g : @generator V W X) : Prop :=
    forall i s, exists s' r, next_item i s s' r /\ same (advance pr (item g) (test g) i s) (s', r).
  (** Making it: [m] computes the source of the generator, as [m'] says. *)
  Definition makes (m : @M V W X generator) (m' : @M V W X iterator) : Prop :=
    forall s, fst (fst (m s)) = fst (fst (m' s)) /\
      (forall n, user_name n = true -> snd (fst (m s)) n = snd (fst (m' s)) n) /\
      match snd (m s), snd (m' s) with
      | Val g, Val i => source g = i /\ generates g
      | Exc x, Exc x' => x = x'
      | _, _ => False
      end.
End Said.

(** A generator that, asked again and again, yields these values and stops; it
    has no effects, and whatever happens between two calls of next() makes no difference. *)
Inductive gives_all {V W X} (pr : prims V W X) (item : V -> @M V W X V) (test : option (V -> @M V W X V))
  : iterator V W X -> list V -> Prop :=
| ga_end i : (forall s, same (advance pr item test i s) (s, Val None)) -> gives_all pr item test i []
| ga_more i v rest l : (forall s, same (advance pr item test i s) (s, Val (Some (v, rest)))) ->
    gives_all pr item test rest l -> gives_all pr item test i (v :: l).
