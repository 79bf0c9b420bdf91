(** The direct reading of a conversion: what it does with an input value, with
    no generated code in between.  This is the specification for C14-C19, C22-C26. *)
From Coq Require Import String List ZArith NArith Bool Arith.
From Verif Require Import Model_Code Model_Eval.
Import ListNotations.

Section Den.
  Context {V W X : Type}.
  Variable pr : prims V W X.
  Variable args : list (text * V).       (* the input arguments of the call *)

  Section Lists.
    Variable f : cv -> @M V W X V.
    Fixpoint labelsM (ls : list (lname * cv)) : @M V W X unit :=
      match ls with
      | [] => ret tt
      | l :: r => bind (f (snd l)) (fun v => bind (set_label (fst l) v) (fun _ => labelsM r))
      end.
    (** one lookup after the other, starting from [cur] *)
    Fixpoint lookupsM (o : opn) (idx : list cv) (cur : V) : @M V W X V :=
      match idx with
      | [] => ret cur
      | i :: r => bind (f i) (fun vi => bind (prim (op pr o [cur; vi])) (lookupsM o r))
      end.
  End Lists.

  Fixpoint den (c : cv) (v : V) {struct c} : @M V W X V :=
    let sub c := den c v in
    let opt (o : option cv) := match o with None => ret v | Some c => den c v end in
    match c with
    | CThis => ret v
    | CLit l => ret (litv pr l)
    | CGlob g => ret (globv pr g)
    | CArg x => match lookup args x with Some a => ret a | None => raise (name_error pr x) end
    | CLabel n => get_label pr n
    | COp o l => bind (mapM sub l) (fun vs => prim (op pr o vs))
    | CAttr a n => bind (den a v) (fun va => bind (den n v) (fun vn => prim (op pr OGetattr [va; vn])))
    | CBool isor l => boolM pr sub isor l
    | CEqs l => eqsM pr sub l
    | CIf _ co t f =>
        bind (opt co) (fun vc => bind (prim (truth pr vc)) (fun b => if b then opt t else opt f))
    | CDefault at_ self idx d =>
        (* the value looked up in, the default, then the lookups; the default
           instead of their result when they fail *)
        bind (opt self) (fun vs => bind (den d v) (fun vd =>
          or_default pr (lookupsM sub (if at_ then OGetattr else OItem) idx vs) vd))
    | CComp k elts co =>
        comprehend pr k v (fun item acc =>
          whenM pr (fun c => den c item) co
            (bind (mapM (fun c => den c item) elts) (fun vs => prim (push pr k acc vs)))
            (ret acc))
    | CItems k lines =>
        bind (prim1 (start pr k)) (fun acc =>
        bind (linesM pr sub k lines acc) (fun acc => prim1 (finish pr k acc)))
    | CCache n c ls =>
        bind (den c v) (fun u => bind (set_label n u) (fun _ =>
        bind (labelsM (fun c => den c u) ls) (fun _ => ret u)))
    | CPipe a b => bind (den a v) (fun u => den b u)
    | CTap o ms =>
        bind (den o v) (fun u => bind (stmtsM pr (fun c => den c u) u ms) (fun _ => ret u))
    end.
End Den.
