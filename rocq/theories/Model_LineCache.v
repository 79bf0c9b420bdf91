(** Model of generated-source bookkeeping: /repo/src/convtools/base.py:24-28
    (clean_line_cache), 40 (the shared RUCache), 50-59 (add_sources), 101-112
    (populate_line_cache).  Definitions only. *)
From Coq Require Import String List ZArith Bool.
From Verif Require Import Model_RUCache Model_Names.
Import ListNotations.

Section LineCache.
  (** Converter identities (one _ConverterCallable each). *)
  Context {Conv : Type}.
  Variable conv_eq : forall a b : Conv, {a = b} + {a <> b}.

  (** [linecache.cache] restricted to generated file names: name -> text (the
      stored 4-tuple is determined by name and text); the tracker shared by
      all converters; each converter's own name -> text dict, in insertion
      order. *)
  Record lworld : Type := mkL {
    linecache : list (string * string);
    tracker : @cache string bool;
    sources : Conv -> list (string * string)
  }.

  Definition lworld0 (m : Z) : lworld := mkL [] (new_cache m) (fun _ => []).

  (** del linecache.cache[key] / ignore KeyError, base.py:24-28; also the effect
      of the linecache module dropping an entry by itself. *)
  Definition clean (lc : list (string * string)) (f : string) :=
    filter (fun kv => if string_dec f (fst kv) then false else true) lc.
  Definition put (lc : list (string * string)) (f t : string) := (f, t) :: clean lc f.

  Fixpoint apply_evictions (evs : list (event string bool)) (lc : list (string * string)) :=
    match evs with
    | [] => lc
    | Evicted f _ :: r => apply_evictions r (clean lc f)
    | Stored _ _ :: r => apply_evictions r lc
    end.

  (** add_sources, base.py:50-59 (printing in debug mode left out).
      [false]: Exception("fake_filename already exists"). *)
  Definition add_sources (c : Conv) (f t : string) (w : lworld) : lworld * bool :=
    match sassoc (sources w c) f with
    | Some t' =>
        if string_dec t' t then (w, true) else (w, false)
    | None =>
        (mkL (linecache w) (tracker w)
           (fun c' => if conv_eq c c' then sources w c ++ [(f, t)] else sources w c'),
         true)
    end.

  (** One round of the loop of populate_line_cache, base.py:102-112. *)
  Definition populate_one (ft : string * string)
             (st : list (string * string) * @cache string bool) :=
    let '(lc, tr) := st in
    let '(f, t) := ft in
    let '(r, tr1, _) := has string_dec f true tr in
    match r with
    | Ret (RBool true) => (lc, tr1)                       (* continue *)
    | _ =>
        let lc1 := put lc f t in
        let '(_, tr2, evs) := set string_dec (fun _ _ => false) f true tr1 in
        (apply_evictions evs lc1, tr2)
    end.
  Definition populate (c : Conv) (w : lworld) : lworld :=
    let '(lc, tr) :=
      fold_left (fun st ft => populate_one ft st) (sources w c) (linecache w, tracker w) in
    mkL lc tr (sources w).

  (** Everything that happens in a process, in any order. *)
  Inductive lop : Type :=
  | AddSource (c : Conv) (f t : string)   (* a piece of code was compiled *)
  | Fails (c : Conv)                      (* converter [c] raised (or debug mode) *)
  | Dropped (f : string).                 (* linecache.clearcache()/checkcache() *)

  Definition lstep (w : lworld) (o : lop) : lworld :=
    match o with
    | AddSource c f t => fst (add_sources c f t w)
    | Fails c => populate c w
    | Dropped f => mkL (clean (linecache w) f) (tracker w) (sources w)
    end.
  Definition lrun (m : Z) (ops : list lop) : lworld := fold_left lstep ops (lworld0 m).
End LineCache.
Arguments lop : clear implicits.
