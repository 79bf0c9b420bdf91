(** c.filter(condition, cast), conv.filter(condition, cast) and the filter method of
    comprehensions: /repo/src/convtools/base.py:731-733, 1392-1416, 1486-1500. *)
From Coq Require Import List Bool Arith.
From Verif Require Import Model_Code Model_Api.
Import ListNotations.

(** the argument [cast]: not given, list, tuple, set, another callable, something else *)
Inductive cast : Type := CastNone | CastList | CastTuple | CastSet | CastCall (g : nat) | CastOther.
(** _predefined_input=self; [None]: c.filter *)
Definition on (self : option cv) (c : cv) : cv := match self with None => c | Some a => CPipe a c end.
(** Filter, base.py:1392-1416.  [None]: AssertionError.  NaiveConversion(cast).call(gen):
    the generator is the argument of the call. *)
Definition api_filter (cond : cv) (k : cast) (self : option cv) : option cv :=
  match k with
  | CastNone => Some (on self (generator_comp CThis (Some cond)))
  | CastList => Some (on self (CComp KList [CThis] (Some cond)))
  | CastTuple => Some (on self (CComp KTuple [CThis] (Some cond)))
  | CastSet => Some (on self (CComp KSet [CThis] (Some cond)))
  | CastCall g => Some (COp (OCall 1 []) [CGlob g; on self (generator_comp CThis (Some cond))])
  | CastOther => None
  end.
(** The method [filter]: that of comprehensions (base.py:1486-1500) takes the condition only
    and sets it on a clone, predefined input and sort order kept; that of all other
    conversions is Filter with the conversion as predefined input (base.py:731-733).
    [None]: raises (TypeError for a second argument).  [given]: a cast is passed. *)
Definition set_condition (cond c : cv) : option cv :=
  match c with
  | CComp k es _ => Some (CComp k es (Some cond))
  | COp OSortedList [CComp KList es _; key; rv] => Some (COp OSortedList [CComp KList es (Some cond); key; rv])
  | COp OSortedTuple [CComp KSrc es _; key; rv] => Some (COp OSortedTuple [CComp KSrc es (Some cond); key; rv])
  | COp OSortedDict [CComp KSrcPair es _; key; rv] => Some (COp OSortedDict [CComp KSrcPair es (Some cond); key; rv])
  | _ => None
  end.
Definition method_filter (cond : cv) (given : option cast) (self : cv) : option cv :=
  let cast_of := match given with Some k => k | None => CastNone end in
  match (match self with CPipe a c => option_map (CPipe a) (set_condition cond c) | c => set_condition cond c end) with
  | Some c => match given with None => Some c | Some _ => None end
  | None => api_filter cond cast_of (Some self)
  end.
(** GroupBy.filter (also that of Aggregate), /repo/src/convtools/aggregations.py:1021-1027:
    BaseConversion.filter with list as the default cast.  [self] is any conversion that
    stands for the aggregation; [given] = [Some CastNone] is an explicit cast=None. *)
Definition group_filter (cond : cv) (given : option cast) (self : cv) : option cv :=
  api_filter cond (match given with Some k => k | None => CastList end) (Some self).
