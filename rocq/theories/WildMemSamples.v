(** Several trees whose index operations change sides between the calls. *)
From Coq Require Import List ZArith Bool Arith.
From Verif Require Import Base Index Slice Tree Insert Hist Wild WildCalls WildMem Samples WildSamples.
Import ListNotations.

(** The insertions of [moody_hist] into one tree, a clone of it after the sixth, which gets the insertions that follow
    as well, and a second clone of the first tree at the end; then the first tree is
    dropped and the second gets a slice of its own. *)
Definition moody_trees : list (@mem_op Z nat) :=
  [ANew] ++ map (AIns 0) (firstn 6 moody_hist) ++ [AClone 0] ++ flat_map (fun c => [AIns 0 c; AIns 1 c]) (skipn 6 moody_hist) ++ [AClone 0; ADrop 0; AIns 1 {| ic_x := mad_ops; ic_y := sc; ic_op := Build_op [] 21%Z 99 7%Z |}].
