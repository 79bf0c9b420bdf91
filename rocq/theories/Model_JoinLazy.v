(** Model of the generator a join returns, pair by pair: /repo/src/convtools/joins.py:147-391,
    with the labels of its converter (base.py:70-99, 501-513; Model_Labels.v).
    Model_Join.v models list() of it.  Definitions only.

    Simplified: the right collection is given by the rows it holds; a left or right
    collection that is not iterable is left out.  When calls overlap, a right collection
    that is an iterator (and is not turned into a list or an index) is left out. *)
From Coq Require Import String List ZArith Bool.
From Verif Require Import Model_PyVal Model_Join Model_Labels.
Import ListNotations.

(** What the labels "right_collection" and "hash_to_items" hold: something that can be
    read again, an iterator with the rows to come, an index.  The other two: what the
    converter returns and yields, a list or a pair. *)
Inductive lab : Type :=
| LAgain (l : list robj)
| LOnce (l : list robj)
| LIndex (d : list (val * list robj))
| LEmpty
| LPair (p : robj * robj).
(** What the inner loop runs over: rows, or the labelled iterator. *)
Inductive cands : Type := Rows (l : list robj) | Shared.

(** A join generator between two pairs.  [unread]: what the left iterator is still to
    give, a row or an exception.  [ids]: id()s of the right parts yielded (:348-351). *)
Inductive gstate : Type :=
| GOuter (unread : list (res robj)) (ids : list nat)
  (** [frame]: left_item of the generator expression (:286-290, :330-334), which the
      condition and [right_ones] read; [item]: left_item of _left_joiner (:304-327) *)
| GInner (unread : list (res robj)) (frame item : robj) (cs : cands) (ids : list nat)
| GTail (rest : list robj) (ids : list nat).

Section Lazy.
  Variable op : string -> list val -> res val.
  Variable h : Model_Join.how.
  Variable cond : option jx.
  (** :168-171 *)
  Definition swapped : bool := match h with Right => true | _ => false end.
  Definition how' : Model_Join.how := match h with Right => Left | _ => h end.
  Definition cs_of : conds := from_condition how' cond.
  Definition rfilters : list jx := if swapped then left_collection cs_of else right_collection cs_of.   (* :178-182 *)
  Definition lfilters : list jx := if swapped then right_collection cs_of else left_collection cs_of.   (* :200-204 *)
  Definition loop_conds : list jx := left_row cs_of ++ right_row cs_of ++ inner_loop cs_of.              (* :220-226 *)

  (** the arguments of a call of the join function: left, right and those of the
      condition (:377-390); [once]: the right one is an iterator.  With how="right" the
      two collections are swapped before (:171). *)
  Record jcall : Type := mkCall {
    c_left : list (res robj);
    c_right : list robj;
    c_once : bool;
    c_inputs : string -> val }.

  Section Call.
    Variable inputs : string -> val.
    Definition passes (x y : robj) : res bool :=                                   (* :235-248 *)
      match loop_conds with
      | [] => Ok true
      | _ => ev_all op (if swapped then on_pair inputs y x else on_pair inputs x y) loop_conds
      end.

    (** the first row that passes, and the rows after it *)
    Fixpoint find_row (p : robj -> res bool) (l : list robj) : res (option robj * list robj) :=
      match l with
      | [] => Ok (None, [])
      | y :: r => do b <- p y; if (b : bool) then Ok (Some y, r) else find_row p r
      end.
    (** [(y for y in right if filters)], then [if condition] of the inner loop *)
    Definition both_tests (x y : robj) : res bool :=
      do a <- ev_all op (on_row inputs y) rfilters;
      if (a : bool) then passes x y else Ok false.

    Definition right_key : string := "right_collection"%string.
    Definition index_key : string := "hash_to_items"%string.
    (** labels_[k]: base.py:511-512 *)
    Fixpoint label_at (ls : labels lab) (k : string) : option lab :=
      match ls with [] => None | (k', v) :: r => if String.eqb k' k then Some v else label_at r k end.
    Definition set_label (ls : labels lab) (k : string) (v : lab) : labels lab := (k, v) :: ls.

    (** next() of the inner generator expression: [left_item] is the row in the frame of
        the outer one *)
    Definition next_right (left_item : robj) (cs : cands) (ls : labels lab) : labels lab * res (option (robj * cands)) :=
      match cs with
      | Rows l =>
          (ls, do f <- find_row (passes left_item) l;
               Ok match fst f with Some y => Some (y, Rows (snd f)) | None => None end)
      | Shared =>
          match label_at ls right_key with
          | Some (LOnce l) =>
              match find_row (both_tests left_item) l with
              | Ok f => (set_label ls right_key (LOnce (snd f)),
                         Ok match fst f with Some y => Some (y, Shared) | None => None end)
              | Err e => (ls, Err e)
              end
          | _ => (ls, Err KeyError)
          end
      end.
    (** {right_items} for a left row, :272-283 *)
    Definition right_items (x : robj) (ls : labels lab) : res cands :=
      match left_hash cs_of with
      | [] =>
          match label_at ls right_key with
          | Some (LAgain l) => Ok (Rows l)
          | Some _ => Ok Shared
          | None => Err KeyError
          end
      | ks =>
          do k <- ev_key op (on_row inputs x) ks;
          match label_at ls index_key with
          | Some (LIndex d) =>
              do k' <- need_hash k; Ok (Rows match dfind d k' with Some rs => rs | None => [] end)
          | _ => Err KeyError
          end
      end.
    (** next() of the outer generator expression: the next left row that passes the
        filters (:198-217), with its right items *)
    Inductive left_out : Type := LRow (x : robj) (cs : cands) (unread : list (res robj)) | LEnd | LFail (e : exc).
    Fixpoint next_left (unread : list (res robj)) (ls : labels lab) : left_out :=
      match unread with
      | [] => LEnd
      | Err e :: _ => LFail e
      | Ok x :: r =>
          match ev_all op (on_row inputs x) lfilters with
          | Err e => LFail e
          | Ok false => next_left r ls
          | Ok true => match right_items x ls with Ok cs => LRow x cs r | Err e => LFail e end
          end
      end.

    (** what is yielded for a left and a right row, :304-327 *)
    Definition pair_of (x y : robj) : robj * robj := if swapped then (y, x) else (x, y).
    (** _add_right_part, :347-351: yields the pair on, remembers the id of its second part *)
    Definition give (p : robj * robj) (s : list nat -> gstate) (ids : list nat) : gen_out lab exc gstate :=
      GYield (LPair p) (s (rid (snd p) :: ids)).

    (** :353-357 *)
    Fixpoint tail (rest : list robj) (ids : list nat) : gen_out lab exc gstate :=
      match rest with
      | [] => GStop
      | y :: r => if existsb (Nat.eqb (rid y)) ids then tail r ids else GYield (LPair (none_obj, y)) (GTail r ids)
      end.
    (** the left rows are used up *)
    Definition finish (ids : list nat) (ls : labels lab) : gen_out lab exc gstate :=
      match how' with
      | Outer => match label_at ls right_key with Some (LAgain l) => tail l ids | _ => GRaise KeyError end
      | _ => GStop
      end.

    (** the next pair, reading left rows until there is one.  [n]: at least the number of
        unread left rows *)
    Fixpoint outer (n : nat) (unread : list (res robj)) (ids : list nat) (ls : labels lab) : labels lab * gen_out lab exc gstate :=
      match next_left unread ls with
      | LFail e => (ls, GRaise e)
      | LEnd => (ls, finish ids ls)
      | LRow x cs r =>
          match next_right x cs ls with
          | (ls', Err e) => (ls', GRaise e)
          | (ls', Ok (Some (y, cs'))) => (ls', give (pair_of x y) (GInner r x x cs') ids)
          | (ls', Ok None) =>
              match how' with
              | Inner => match n with O => (ls', GStop) | S n => outer n r ids ls' end
              | _ => (ls', give (pair_of x none_obj) (GOuter r) ids)         (* :307-309, :321-323 *)
              end
          end
      end.
    Definition next_pair (s : gstate) (ls : labels lab) : labels lab * gen_out lab exc gstate :=
      match s with
      | GOuter unread ids => outer (length unread) unread ids ls
      | GInner unread frame item cs ids =>
          match next_right frame cs ls with
          | (ls', Err e) => (ls', GRaise e)
          | (ls', Ok (Some (y, cs'))) =>
              (ls', give (pair_of (match how' with Inner => frame | _ => item end) y) (GInner unread frame item cs') ids)
          | (ls', Ok None) => outer (length unread) unread ids ls'
          end
      | GTail rest ids => (ls, tail rest ids)
      end.
  End Call.

  (** the index is made while the filtered right rows are read, :183-197 and :262-271 *)
  Fixpoint index_passing (p : robj -> res bool) (key : robj -> res val) (l : list robj) (d : list (val * list robj)) : res (list (val * list robj)) :=
    match l with
    | [] => Ok d
    | y :: r =>
        do b <- p y;
        if (b : bool) then
          do k0 <- key y;
          do k <- need_hash k0;
          index_passing p key r (dput d k (match dfind d k with Some rs => rs | None => [] end ++ [y]))
        else index_passing p key r d
    end.
  (** A call of the join function, :262-284, :363-376: the right collection is labelled, read
      and indexed at once, the left one is not read.  The generator keeps the values of
      the input arguments. *)
  Definition jcall_out (x : jcall) (ls : labels lab) : labels lab * call_out lab exc (jcall * gstate) :=
    let inputs := c_inputs x in
    match ev_all op (on_nothing inputs) (pre cs_of) with
    | Err e => (ls, CRaise e)
    | Ok false => (ls, CValue LEmpty)
    | Ok true =>
        let again := match how', c_once x, rfilters with Outer, _, _ => true | _, false, [] => true | _, _, _ => false end in
        let ls1 := set_label ls right_key (if again then LAgain (c_right x) else LOnce (c_right x)) in
        match left_hash cs_of with
        | [] => (ls1, CGenerator (x, GOuter (c_left x) []))
        | _ =>
            match index_passing (fun y => ev_all op (on_row inputs y) rfilters)
                    (fun y => ev_key op (on_row inputs y) (right_hash cs_of)) (c_right x) [] with
            | Err e => (ls1, CRaise e)
            | Ok d => (set_label ls1 index_key (LIndex d), CGenerator (x, GOuter (c_left x) []))
            end
        end
    end.
  Definition jresume (a : Model_Labels.how exc) (s : jcall * gstate) (ls : labels lab) : labels lab * gen_out lab exc (jcall * gstate) :=
    match a with
    | HThrow e => (ls, GRaise e)
    | HNext =>
        let '(ls', o) := next_pair (c_inputs (fst s)) (snd s) ls in
        (ls', match o with GYield v s' => GYield v (fst s, s') | GStop => GStop | GRaise e => GRaise e end)
    end.
  Definition jclose (s : jcall * gstate) (ls : labels lab) : labels lab := ls.
End Lazy.
