(** An instance of the primitives of Model_Eval.v with mutable objects: values are
    None, bools, ints, strs, functions and references, the world is a heap.  Not
    code of convtools; it states what Python's item and attribute assignment and
    deletion do to dicts, lists and instances (language reference 6.3, 7.2, 7.5,
    dict.pop, list.pop).  Used for C26.

    Left out (TypeError): operators other than + and == on ints and strs,
    comprehensions and displays (nothing is allocated), classes with their own
    __setitem__ and the like.  Definitions only. *)
From Coq Require Import String List ZArith NArith Bool Arith.
From Verif Require Import Model_PyVal Model_Code Model_Eval Model_Python.
Import ListNotations.

Inductive ov : Type := ONone | OBool (b : bool) | OInt (z : Z) | OStr (s : string) | ORef (a : nat) | OFun (g : nat).
Inductive obj : Type :=
| JDict (l : list (ov * ov))
| JList (l : list ov)
| JInst (l : list (string * ov)).
Definition heap := nat -> option obj.

Definition okey (v : ov) : option Z :=
  match v with OBool b => Some (if b then 1 else 0)%Z | OInt z => Some z | _ => None end.
Definition ov_eqb (a b : ov) : bool :=
  match okey a, okey b with
  | Some x, Some y => Z.eqb x y
  | None, None =>
      match a, b with
      | ONone, ONone => true
      | OStr s, OStr t => String.eqb s t
      | ORef i, ORef j => Nat.eqb i j      (* instances, compared by identity *)
      | OFun i, OFun j => Nat.eqb i j
      | _, _ => false
      end
  | _, _ => false
  end.
Fixpoint aget {K} (eqb : K -> K -> bool) (l : list (K * ov)) (k : K) : option ov :=
  match l with [] => None | (k', v) :: r => if eqb k' k then Some v else aget eqb r k end.
Fixpoint aput {K} (eqb : K -> K -> bool) (l : list (K * ov)) (k : K) (v : ov) : list (K * ov) :=
  match l with
  | [] => [(k, v)]
  | (k', v') :: r => if eqb k' k then (k', v) :: r else (k', v') :: aput eqb r k v
  end.
Fixpoint adel {K} (eqb : K -> K -> bool) (l : list (K * ov)) (k : K) : list (K * ov) :=
  match l with [] => [] | (k', v) :: r => if eqb k' k then r else (k', v) :: adel eqb r k end.
Definition index (n : nat) (i : Z) : option nat :=
  let j := if Z.ltb i 0 then (i + Z.of_nat n)%Z else i in
  if Z.ltb j 0 then None else if Nat.ltb (Z.to_nat j) n then Some (Z.to_nat j) else None.
Fixpoint set_nth {B} (l : list B) (i : nat) (v : B) : list B :=
  match l, i with [], _ => [] | _ :: r, O => v :: r | x :: r, S j => x :: set_nth r j v end.
Fixpoint del_nth {B} (l : list B) (i : nat) : list B :=
  match l, i with [], _ => [] | _ :: r, O => r | x :: r, S j => x :: del_nth r j end.

Section Obj.
  Variable call : ov -> list ov -> heap -> heap * out exc ov.

  Definition ohash (h : heap) (k : ov) : bool :=
    match k with
    | ORef a => match h a with Some (JInst _) => true | _ => false end
    | _ => true
    end.
  Definition otruth (h : heap) (v : ov) : bool :=
    match v with
    | ONone => false | OBool b => b | OInt z => negb (Z.eqb z 0) | OStr s => negb (String.eqb s "")
    | ORef a => match h a with Some (JDict []) | Some (JList []) => false | _ => true end
    | OFun _ => true
    end.
  Definition oitem (h : heap) (a k : ov) : res ov :=
    match a with
    | ORef i =>
        match h i with
        | Some (JDict l) => if ohash h k then match aget ov_eqb l k with Some v => Ok v | None => Err KeyError end
                            else Err TypeError
        | Some (JList l) => match okey k with
                            | Some z => match index (length l) z with
                                        | Some j => match nth_error l j with Some v => Ok v | None => Err IndexError end
                                        | None => Err IndexError end
                            | None => Err TypeError end
        | _ => Err TypeError
        end
    | _ => Err TypeError
    end.
  Definition oattr (h : heap) (a : ov) (n : string) : res ov :=
    match a with
    | ORef i => match h i with
                | Some (JInst l) => match aget String.eqb l n with Some v => Ok v | None => Err AttributeError end
                | _ => Err AttributeError
                end
    | _ => Err AttributeError
    end.

  (** what the mutation [k] with evaluated operands [vs] makes of the object [o] *)
  Definition changed (h : heap) (k : mkind) (o : obj) (vs : list ov) : res obj :=
    match k, o, vs with
    | MSetItem, JDict l, [key; v] => if ohash h key then Ok (JDict (aput ov_eqb l key v)) else Err TypeError
    | MSetItem, JList l, [key; v] =>
        match okey key with
        | Some z => match index (length l) z with Some j => Ok (JList (set_nth l j v)) | None => Err IndexError end
        | None => Err TypeError end
    | MDelItem, JDict l, [key] =>
        if ohash h key
        then match aget ov_eqb l key with Some _ => Ok (JDict (adel ov_eqb l key)) | None => Err KeyError end
        else Err TypeError
    | MDelItem, JList l, [key] =>
        match okey key with
        | Some z => match index (length l) z with Some j => Ok (JList (del_nth l j)) | None => Err IndexError end
        | None => Err TypeError end
    | MSetAttr, JInst l, [OStr n; v] => Ok (JInst (aput String.eqb l n v))
    | MDelAttr, JInst l, [OStr n] =>
        match aget String.eqb l n with Some _ => Ok (JInst (adel String.eqb l n)) | None => Err AttributeError end
    | (MSetAttr | MDelAttr), _, (OStr _ :: _) => Err AttributeError
    | MDelItem, JInst _, _ => Err AttributeError          (* no method pop *)
    | _, _, _ => Err TypeError
    end.
  Definition omut (k : mkind) (vs : list ov) (h : heap) : heap * out exc ov :=
    match vs with
    | ORef a :: r =>
        match h a with
        | Some o => match changed h k o r with
                    | Ok o' => (fun b => if Nat.eqb b a then Some o' else h b, Val ONone)
                    | Err e => (h, Exc e)
                    end
        | None => (h, Exc TypeError)
        end
    | _ => (h, Exc (match k with MSetAttr | MDelAttr | MDelItem => AttributeError | _ => TypeError end))
    end.

  Definition oadd (a b : ov) : res ov :=
    match okey a, okey b with
    | Some x, Some y => Ok (OInt (x + y))
    | _, _ => match a, b with OStr s, OStr t => Ok (OStr (s ++ t)) | _, _ => Err TypeError end
    end.
  Definition oop (o : opn) (vs : list ov) (h : heap) : heap * out exc ov :=
    match o, vs with
    | OItem, [a; b] => (h, of_res (oitem h a b))
    | OAttr n, [a] => (h, of_res (oattr h a (str_of n)))
    | OGetattr, [a; OStr n] => (h, of_res (oattr h a n))
    | OCall _ [], f :: r => call f r h
    | OBin o, [a; b] =>
        (h, of_res (if teqb o (T "+") then oadd a b
                    else if teqb o (T "==") then Ok (OBool (ov_eqb a b)) else Err TypeError))
    | ONot, [a] => (h, Val (OBool (negb (otruth h a))))
    | _, _ => (h, Exc TypeError)
    end.
  Definition objects : prims ov heap exc := {|
    litv l := match l with
              | LNone => ONone | LBool b => OBool b | LInt z => OInt z | LStr s => OStr (str_of s)
              end;
    globv g := OFun g;
    op := oop;
    truth v h := (h, Val (otruth h v));
    iter v h := (h, Exc TypeError);
    start k h := (h, ONone);
    push k acc vs h := (h, Exc TypeError);
    finish k acc h := (h, acc);
    mut := omut;
    name_error _ := NameError;
    label_error _ := KeyError;
    caught x := match x with
                | TypeError | KeyError | IndexError | AttributeError => true | _ => false end
  |}.
End Obj.
