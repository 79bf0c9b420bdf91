(** How the output of a group_by is put together: group keys are found in the
    code of the output by text search.
    /repo/src/convtools/aggregations.py:1037-1062 (_gen_reducer_result_item),
    1064-1124 (_rebuild_reducer_result), 1152-1158 (codes of the keys).
    Definitions only.

    The code of a reduce inside the output is the text [agg_data_.v<i>], which the
    conversion shown to these functions contains as a name ([CArg]). *)
From Coq Require Import String Ascii List ZArith NArith Bool Arith.
From Verif Require Import Model_Code Model_AggText.
Import ListNotations.

(** var_row and var_signature, :1146-1147 *)
Definition row_name : text := T "row_".
Definition signature_name : text := T "signature_".

(** EscapedString(var_signature).item(code_index) if len(signature_code_items) > 1
    else EscapedString(var_signature), :1048-1052; [n] = len(signature_code_items) *)
Definition signature_code (n i : nat) : px :=
  if Nat.ltb 1 n then POp OItem [PName signature_name; PLit (LInt (Z.of_nat i))]
  else PName signature_name.

Inductive generated : Type :=
| Code (t : text)
| Rejected          (* ConversionException("failed to find such field in group by fields") *)
| Misplaced.        (* Exception("OptionalCollectionItem cannot be used outside of collections"),
                       base.py:1762-1765 *)

Section Result.
  Variable wordch : N -> bool.
  Variable srepr : text -> text.
  Variable gname : nat -> text.
  Variable pnum : list nat -> nat.
  Variable pname : text -> text.
  Variable hname : list nat -> text.

  Notation print := (print srepr gname pnum).
  Notation gen := (gen wordch srepr gname pnum pname hname).

  (** for code_index, code_signature_item in enumerate(signature_code_items), :1046-1057;
      [n]: their number, [i]: the number of the first one *)
  Fixpoint use_keys (n i : nat) (keys : list text) (code : text) : text :=
    match keys with
    | [] => code
    | k :: r =>
        use_keys n (S i) r
          (if contains k code then replace k (print (signature_code n i)) code else code)
    end.
  (** _gen_reducer_result_item, :1037-1062 *)
  Definition result_item (keys : list text) (code : text) : generated :=
    let code := use_keys (length keys) 0 keys code in
    if contains row_name code then Rejected else Code code.

  (** the items of a collection, left to right; the first failure wins *)
  Fixpoint all_codes (l : list generated) : list text + generated :=
    match l with
    | [] => inl []
    | Code t :: r => match all_codes r with inl ts => inl (t :: ts) | inr e => inr e end
    | e :: _ => inr e
    end.

  (** _rebuild_reducer_result, :1064-1124, before it is wrapped into the loop over
      the groups.  A collection is taken apart and its items are treated one by
      one, with [row_] as their input; a predefined input of the collection
      ([CPipe _ (COp ...)]) is not looked at.  An optional item outside of a
      collection raises (unless an item before it was rejected).  Constants as a
      whole output do not get here (prepare_reducer, :987-991). *)
  Definition result_code (keys : list text) (q : list nat) (c : cv) : generated :=
    let row := PName row_name in
    let collection q o l :=
      match all_codes (map (fun e => result_item keys (print e))
                           ((fix gens (i : nat) (l : list cv) : list px :=
                               match l with
                               | [] => []
                               | c :: r => gen false (i :: q) c row :: gens (S i) r
                               end) 0 l)) with
      | inl ts => Code (op_text o ts)
      | inr e => e
      end in
    match c with
    | COp ((ODict | OList | OTuple | OSet) as o) l => collection q o l
    | CPipe _ (COp ((ODict | OList | OTuple | OSet) as o) l) => collection (1 :: q) o l
    | CItems _ _ | CPipe _ (CItems _ _) => Misplaced
    | _ => result_item keys (print (gen false q c row))
    end.

  (** signature_code_items, :1152-1154 *)
  Definition key_codes (q : list nat) (by_ : list cv) : list text :=
    map (fun c => print (gen false q c (PName row_name))) by_.
End Result.
