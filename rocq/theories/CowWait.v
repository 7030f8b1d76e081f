(** How many steps a call takes: what is counted, and the bounds (used by C58). *)
From Coq Require Import List Arith Bool.
From Verif Require Import Base Index Slice Tree Insert LInsert Cow CowSpec CowCall.
Import ListNotations.

(** The number of nodes of a tree. *)
Fixpoint nodes {D : Type} (r : rose D) : nat := match r with Rose _ ks => 1 + fold_right plus 0 (map nodes ks) end.

Section CowWait.
  Context {I V : Type} (M : nat).

  (** Does [x] start a call of thread [t]?  Is it a step of a call of [t]?  Reading is no call here, and [KFix] is left
      out: Cow.v lets it happen any number of times, the code once for each child that is moved, in the course of a
      step that is counted. *)
  Definition begins (t : nat) (x : @act I V) : bool := match x with KCall u _ _ => u =? t | _ => false end.
  Definition counted (t : nat) (x : @act I V) : bool := match x with KNext u _ | KStep u _ => u =? t | _ => false end.
  Definition own (t : nat) (ys : list (@act I V * nat)) : nat := length (filter (counted t) (map fst ys)).

  (** How many steps a call takes at most after its first, if it is made when the trees are [ts]. *)
  Definition limit (ts : list (option (@rle I V))) (c : @call I V) : nat :=
    match c with
    | CNew | CClone _ => 0
    | CInsert _ j _ _ _ _ =>
      match nth_error ts j with Some (Some (Some r)) => (r_height r + 1) * (4 * M + 13) | _ => 0 end
    | CDrop j =>
      match nth_error ts j with Some (Some (Some r)) => 2 * nodes (rose_of (r_height r) (r_node r)) + 1 | _ => 1 end
    end.
End CowWait.
