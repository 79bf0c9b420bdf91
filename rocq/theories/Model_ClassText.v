(** The source text of the class of the groups. *)
From Coq Require Import String Ascii List NArith ZArith Bool Arith.
From Verif Require Import Model_Code Model_AggText.
Import ListNotations.

(** "v%d" % i -- aggregations.py:1132 *)
Definition attr_text (i : nat) : text := T "v" ++ ndec (N.of_nat i).
(** _gen_agg_data_container, the code it gives to exec -- aggregations.py:1129-1138.
    [n]: number_of_reducers *)
Definition class_text (n : nat) : text :=
  T "class AggData:" ++ [10%N] ++
  T "    __slots__ = [" ++ intersperse (T ", ") (map (fun i => T "'" ++ attr_text i ++ T "'") (seq 0 n)) ++ T "]" ++ [10%N] ++
  T "    def __init__(self):" ++ [10%N] ++
  intersperse [10%N] (map (fun i => T "        self." ++ attr_text i ++ T " = _none") (seq 0 n)).
