(** References in a tree whose index operations change sides between the calls. *)
From Coq Require Import List ZArith Bool Arith.
From Verif Require Import Base Index Slice Tree Insert Hist Wild WildCalls WildRef Samples WildSamples.
Import ListNotations.

(** The insertions of [moody_hist], and after each a reference to what is then at index 0. *)
Definition moody_refs : list (@ref_call Z nat) :=
  flat_map (fun c => [RIns c; RRef (wrapping_ops 255) [] 0%Z]) moody_hist.
