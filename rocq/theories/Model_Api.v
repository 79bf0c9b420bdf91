(** How the methods a user calls build conversions: labels and pipes, optional
    items, collections, comprehensions, sorting.  /repo/src/convtools/base.py.
    [None] stands for the exception the constructor raises.  Definitions only. *)
From Coq Require Import String List ZArith NArith Bool Arith.
From Verif Require Import Model_Code.
Import ListNotations.

(** isinstance(conversion, GetItem) and not conversion.indexes, base.py:1004-1007.
    True of c.this() and of anything piped into c.this(). *)
Definition is_plain (c : cv) : bool :=
  match c with CThis | CPipe _ CThis => true | _ => false end.

(** CachingConversion.add_label in a loop, base.py:984-1012; the state is
    (self._name, self.labels). *)
Fixpoint add_labels (name : option text) (ls : list (text * cv)) (l : list (text * cv))
  : option (option text * list (text * cv)) :=
  match l with
  | [] => Some (name, ls)
  | (n, c) :: r =>
      if existsb (fun p => teqb n (fst p)) ls || match name with Some m => teqb n m | None => false end
      then None
      else if match name with None => is_plain c | Some _ => false end
           then add_labels (Some n) ls r
           else add_labels name (ls ++ [(n, c)]) r
  end.
(** [k]: the number of the new CachingConversion; base.py:964-982.  An empty dict of
    labels is ignored (829, 846). *)
Definition labelled (k : nat) (c : cv) (l : list (text * cv)) : option cv :=
  match l with
  | [] => Some c
  | _ =>
      match add_labels None [] l with
      | Some (name, ls) =>
          Some (CCache (match name with Some s => U s | None => A k end) c
                       (map (fun p => (U (fst p), snd p)) ls))
      | None => None
      end
  end.
(** a.pipe(b, label_input=li, label_output=lo) for a conversion b, base.py:787-856
    (cloning is in Model_Heap.v). *)
Definition api_pipe (k k' : nat) (a b : cv) (li lo : list (text * cv)) : option cv :=
  match labelled k a li, labelled k' b lo with
  | Some a', Some b' => Some (cpipe a' b')
  | _, _ => None
  end.
(** a.pipe(f, *args, **kwargs) for a callable f: f(a, *args, **kwargs), with [args]
    reading the same input as [a], base.py:836-842 *)
Definition api_pipe_func (k k' : nat) (a : cv) (f : nat) (xs : list cv) (kw : list (text * cv))
           (li lo : list (text * cv)) : option cv :=
  match labelled k a li with
  | Some a' => labelled k' (ccall (Some (CGlob f)) (a' :: xs) kw) lo
  | None => None
  end.
(** a.add_label(name, conversion), base.py:761-775 *)
Definition api_add_label (k : nat) (a : cv) (name : text) (c : option cv) : option cv :=
  api_pipe k k a (match c with Some c => c | None => CThis end) [(name, CThis)] [].

(** Items of a collection: plain, or OptionalCollectionItem(conversion, condition). *)
Inductive item : Type := Req (c : cv) | Opt (c cond : cv).
(** OptionalCollectionItem.__init__, base.py:1735-1771 *)
Definition optional (c : cv) (skip_value : lit) (skip_if keep_if : option cv) : option item :=
  match skip_if, keep_if with
  | None, None =>
      Some (Opt c (match skip_value with
                   | LNone => COp (OBin (T "is not")) [c; CLit LNone]
                   | v => COp (OBin (T "!=")) [c; CLit v]
                   end))
  | _, _ =>
      match skip_value with
      | LNone =>
          match skip_if, keep_if with
          | _, Some k => Some (Opt c k)
          | Some s, None => Some (Opt c (COp ONot [s]))
          | None, None => None
          end
      | _ => None
      end
  end.
Definition item_conv (i : item) : cv := match i with Req c | Opt c _ => c end.
Definition item_cond (i : item) : option cv := match i with Req _ => None | Opt _ c => Some c end.
Definition is_opt (i : item) : bool := match i with Req _ => false | Opt _ _ => true end.

(** List, Tuple, Set: base.py:1639-1726, 1779-1812 *)
Definition coll (k : ckind) (l : list item) : cv :=
  if existsb is_opt l
  then CItems k (map (fun i => (item_cond i, item_conv i)) l)
  else COp (match k with KTuple => OTuple | KSet => OSet | _ => OList end) (map item_conv l).
(** Dict, base.py:1815-1878 *)
Definition pair_cond (p : item * item) : option cv :=
  match item_cond (fst p), item_cond (snd p) with
  | Some a, Some b => Some (CBool false [a; b])
  | Some a, None | None, Some a => Some a
  | None, None => None
  end.
Definition dict (l : list (item * item)) : cv :=
  if existsb (fun p => is_opt (fst p) || is_opt (snd p)) l
  then CItems KDict (map (fun p => (pair_cond p,
                          COp OTuple [item_conv (fst p); item_conv (snd p)])) l)
  else COp ODict (flat_map (fun p => [item_conv (fst p); item_conv (snd p)]) l).

(** Comprehensions with an optional filter and an optional sort
    (key as a constant or a callable), base.py:1469-1633.  [None]: raises. *)
Inductive ckey : Type := NoKey | Key (g : nat).
Definition key_code (k : ckey) : cv := match k with NoKey => CLit LNone | Key g => CGlob g end.
Inductive comp : Type :=
| CoList (e : cv) | CoTuple (e : cv) | CoSet (e : cv) | CoDict (k v : cv).
Definition comprehension (co : comp) (filter : option cv) (sort : option (ckey * bool)) : option cv :=
  match co, sort with
  | CoList e, None => Some (CComp KList [e] filter)
  | CoTuple e, None => Some (CComp KTuple [e] filter)
  | CoSet e, None => Some (CComp KSet [e] filter)
  | CoDict k v, None => Some (CComp KDict [k; v] filter)
  | CoList e, Some (key, rv) =>
      Some (COp OSortedList [CComp KList [e] filter; key_code key; CLit (LBool rv)])
  | CoTuple e, Some (key, rv) =>
      Some (COp OSortedTuple [CComp KSrc [e] filter; key_code key; CLit (LBool rv)])
  | CoSet _, Some _ => None
  | CoDict k v, Some (key, rv) =>
      Some (COp OSortedDict [CComp KSrcPair [k; v] filter; key_code key; CLit (LBool rv)])
  end.

(** GeneratorComp (base.py:1556-1560): "(item for i_ in input if condition)".
    It has no gen_sort_code: sort makes gen_converter raise NotImplementedError. *)
Definition generator_comp (e : cv) (filter : option cv) : cv := CComp KSrc [e] filter.
