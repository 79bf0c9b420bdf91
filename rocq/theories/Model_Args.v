(** Input arguments: how conversion objects register what they depend on, and how
    the signature of the compiled converter is made from it.
    /repo/src/convtools/base.py:278-300 (depends_on, get_dependencies,
    ensure_conversion), 404-446 (get_args, get_args_def_code), 521-548 (the
    signature in gen_converter), and the constructors of the conversion classes.
    Definitions only. *)
From Coq Require Import String List ZArith NArith Bool Arith.
From Verif Require Import Model_Code Model_Heap.
Import ListNotations.

(** What get_args looks at: InputArg, its subclass LabelConversion, anything
    else (base.py:1041-1076).  BaseReduce objects are told apart because
    Reduce.depends_on and GroupBy.aggregate look for them (aggregations.py:947-951,
    1004-1020); [id] only names the object. *)
Inductive node : Type := NArg (x : text) | NLabel (n : lname) | NReduce (id : nat) | NOther.

Notation oheap := (heap node).

(** a new object, base.py:255-263 *)
Definition new (h : oheap) (p : node) : oheap * nat := (h ++ [mkObj None [] p], length h).
(** self.ensure_conversion(c) for the conversions [l], base.py:295-300 *)
Definition ensure (h : oheap) (i : nat) (l : list nat) : oheap :=
  fold_left (fun h j => depends_on h i j) l h.
Definition make (h : oheap) (p : node) (l : list nat) : oheap * nat :=
  let '(h1, i) := new h p in (ensure h1 i l, i).

(** sort() only stores key and reverse, base.py:1503-1517; everything else that
    is passed to a constructor goes through ensure_conversion. *)
Definition registered (o : opn) (l : list nat) : list nat :=
  match o with
  | OSortedList | OSortedTuple | OSortedDict => firstn 1 l
  | _ => l
  end.

Definition andthen {A B : Type} (r : res node A) (k : oheap -> A -> res node B) : res node B :=
  match r with
  | Done h a => k h a
  | ConversionException h => ConversionException h
  | Dangling => Dangling
  end.
(** [f] on every element, left to right *)
Definition each {X Y : Type} (f : X -> oheap -> res node Y) :=
  fix each (l : list X) (h : oheap) : res node (list Y) :=
    match l with
    | [] => Done h []
    | x :: r => andthen (f x h) (fun h y => andthen (each r h) (fun h ys => Done h (y :: ys)))
    end.
Definition done (h : oheap) (p : node) (l : list nat) : res node nat :=
  let '(h', i) := make h p l in Done h' i.

(** Building the objects of a conversion: parts first, then the object itself,
    which registers its parts.  A chain of subscriptions, a call, a comprehension
    with a condition etc. are built by the code as one or several objects
    (GetItem with several indexes, filter() and sort() cloning the comprehension);
    here every node of the tree is one object.
    Or/And/Eq 1140-1145, If 1198-1213, Not 1258-1260, GetItem/GetAttr 1288-1294,
    Call 1367-1372, pass_args 1448-1453, comprehensions 1477-1505 and 1607-1609,
    collections 1643-1644, 1757-1771 and 1826-1829, tap 1885-1891 with
    mutations.py:8-75, CachingConversion 972-1011 (wrap_labels), pipe 787-856. *)
Fixpoint build (m : Z) (c : cv) (h : oheap) {struct c} : res node nat :=
  let opt (o : option cv) (h : oheap) : res node (list nat) :=
    match o with
    | None => Done h []
    | Some c => andthen (build m c h) (fun h i => Done h [i])
    end in
  match c with
  | CThis | CLit _ | CGlob _ => done h NOther []
  | CArg x => done h (NArg x) []
  | CLabel n => done h (NLabel n) []
  | COp o l => andthen (each (build m) l h) (fun h is => done h NOther (registered o is))
  | CBool _ l | CEqs l => andthen (each (build m) l h) (fun h is => done h NOther is)
  | CAttr a n =>
      andthen (build m a h) (fun h i => andthen (build m n h) (fun h j => done h NOther [i; j]))
  | CIf _ co t f =>
      andthen (opt co h) (fun h i => andthen (opt t h) (fun h j =>
      andthen (opt f h) (fun h k => done h NOther (i ++ j ++ k))))
  | CDefault _ s idx d =>
      andthen (opt s h) (fun h i => andthen (each (build m) idx h) (fun h j =>
      andthen (build m d h) (fun h k => done h NOther (i ++ j ++ [k]))))
  | CComp _ elts cond =>
      andthen (each (build m) elts h) (fun h i =>
      andthen (opt cond h) (fun h j => done h NOther (i ++ j)))
  | CItems _ lines =>
      andthen (each (fun l h => andthen (opt (fst l) h) (fun h i =>
                                andthen (build m (snd l) h) (fun h j => Done h (i ++ [j])))) lines h)
              (fun h is => done h NOther (concat is))
  | CCache _ c ls =>
      andthen (build m c h) (fun h i =>
      andthen (each (fun l h => andthen (build m (snd l) h) (fun h j => Done h (fst l, j))) ls h)
              (fun h ls' => let '(h', r) := wrap_labels lname (fun _ _ => NOther) h i ls' in Done h' r))
  | CPipe a b =>
      andthen (build m a h) (fun h i => andthen (build m b h) (fun h j =>
      pipe lname (fun _ _ => NOther) m h i j None None))
  | CTap o ms =>
      andthen (build m o h) (fun h i =>
      andthen (each (fun mu h => andthen (each (build m) (snd mu) h) (fun h js => done h NOther js)) ms h)
              (fun h js => done h NOther (i :: js)))
  end.

(** get_args(exclude_types=(LabelConversion,)), base.py:404-413: one entry per
    name (dict), sorted by name *)
Definition arg_names (h : oheap) (i : nat) : list text :=
  flat_map (fun j => match nth_error h j with
                     | Some o => match payload o with NArg x => [x] | _ => [] end
                     | None => [] end) (get_dependencies h i).
Definition get_args (h : oheap) (i : nat) : list text :=
  sort_names (nodup text_eq_dec (arg_names h i)).

(** get_args_def_code, base.py:415-435 (labels excluded, as all callers do) *)
Definition get_args_def_code (h : oheap) (i : nat) (as_kwargs exclude_cls_self : bool) : text :=
  let args := get_args h i in
  let args := if exclude_cls_self
              then filter (fun a => negb (teqb a (T "self") || teqb a (T "cls"))) args
              else args in
  match args with
  | [] => []
  | _ => T (if as_kwargs then ", *, " else ", ") ++ intersperse (T ", ") args
  end.

Section Signature.
  Variable wordch : N -> bool.           (* what \w matches *)

  (** _pattern_word.findall: the maximal runs of word characters, left to right.
      [cur]: the run being read *)
  Fixpoint words_from (cur : text) (t : text) : list text :=
    match t with
    | [] => match cur with [] => [] | _ => [cur] end
    | c :: r =>
        if wordch c then words_from (cur ++ [c]) r
        else match cur with [] => words_from [] r | _ => cur :: words_from [] r end
    end.
  Definition findall_words (t : text) : list text := words_from [] t.

  Inductive sig_result : Type :=
  | Signature (s : text)
  | BadSignature            (* ConversionException: missing args *)
  | BothMethods.            (* ConversionException: method and class_method *)

  (** base.py:521-548.  [signature]: [] stands for None and for "" alike. *)
  Definition signature_code (h : oheap) (i : nat) (method class_method : bool) (signature : text) : sig_result :=
    match signature with
    | _ :: _ =>
        let sw := findall_words signature in
        if forallb (fun a => existsb (teqb a) sw)
                   (findall_words (get_args_def_code h i false false))
        then Signature signature else BadSignature
    | [] =>
        if method && class_method then BothMethods
        else Signature ((if method then T "self, " else []) ++ (if class_method then T "cls, " else []) ++
                        T "data_" ++ get_args_def_code h i true true)
    end.
End Signature.

(** The only registration that happens while code is generated: a sorted
    comprehension ensures its key and reverse, base.py:1519-1534. *)
Definition gen_sort (h : oheap) (i key reverse : nat) : oheap := ensure h i [key; reverse].
