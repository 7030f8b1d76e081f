(** Histories in which the user's code differs from call to call. *)
From Coq Require Import List ZArith Bool Arith.
From Verif Require Import Base Index Slice Tree Insert Range Iter Hist.
Import ListNotations.

(** A call of insert_with_cursor (src/tree/mod.rs 695-701) together with what the operations of `I` and `S`
    do during it.  Safe code may read and write global state, so the same two indexes may have another sum
    in the next call.  Within one call the operations are taken to be functions. *)
Record ins_call {I V : Type} : Type := {
  ic_x : index_ops I;
  ic_y : slice_ops I V;
  ic_op : @op V I;
}.

(** The insertions one after the other, each as in [run_ops] (Hist.v); the history ends at the first panic. *)
Fixpoint run_calls {I V : Type} (M : nat) (nop : bool) (r : @rle I V) (cs : list (@ins_call I V)) : res (@rle I V) :=
  match cs with
  | [] => Ok r
  | c :: cs' =>
    let o := ic_op c in
    let* (r', _) := insert_with_cursor (ic_x c) (ic_y c) M nop r (o_hints o) (o_idx o) (o_slice o) (o_size o) in
    run_calls M nop r' cs'
  end.

(** Calls of `next` and `next_back` (src/tree/iter.rs 579-632, 642-677) as in [iter_calls] (Iter.v), each with
    operations of its own. *)
Fixpoint next_calls {I V : Type} (r : @rle I V) (it : iter) (cs : list (index_ops I * bool)) : res (list (option item) * iter) :=
  match cs with
  | [] => Ok ([], it)
  | (X, b) :: cs' =>
    let* (o, it') := iter_step X r b it in
    let* (os, it'') := next_calls r it' cs' in
    Ok (o :: os, it'')
  end.

(** Nodes of a tree. *)
Fixpoint node_count {I V : Type} (t : tree I V) : nat :=
  match t with
  | Nil => 0
  | Node _ c0 es => 1 + node_count c0 + fold_right plus 0 (map (fun e => node_count (e_child e)) es)
  end.
