(** The destructive iterator (src/tree/drain.rs), as far as it is written: `next` and `next_back` are
    `todo!()` and there is no `Drop` implementation. *)
From Coq Require Import List.
From Verif Require Import Base Index Tree.
Import ListNotations.

Section Drain.
  Context {I S : Type}.

  (** `Drain` (src/tree/drain.rs 21-30).  [dr_tree] is the content of the place `tree_ref` points to. *)
  Record drain : Type := { dr_range : I * I; dr_root : @rle I S; dr_cursor : option (list nat); dr_tree : @rle I S }.

  (** `RleTree::drain_with_cursor` and `Drain::new` (src/tree/mod.rs 642-647, src/tree/drain.rs 36-48):
      the root is taken out of the tree and kept in the iterator.  The range is not inspected. *)
  Definition drain_new (r : @rle I S) (range : I * I) (hints : list nat) : drain :=
    {| dr_range := range; dr_root := r; dr_cursor := Some hints; dr_tree := None |}.

  (** `next` and `next_back` (src/tree/drain.rs 60-62, 72-74). *)
  Definition drain_next (d : drain) (back : bool) : res (option (I * I * S) * drain) := Panic PTodo.

  (** Dropping the iterator.  There is no `Drop` implementation, so the fields are dropped; the handle
      in `Root` is `ManuallyDrop` (src/tree/mod.rs 162-169), so dropping the root frees none of its nodes.
      The result is the tree seen by the caller afterwards and the root whose nodes stay allocated. *)
  Definition drain_drop (d : drain) : @rle I S * @rle I S := (dr_tree d, dr_root d).

  (** The calls `next` (false) or `next_back` (true), then the drop. *)
  Fixpoint drain_calls (d : drain) (calls : list bool) : res (list (option (I * I * S)) * drain) :=
    match calls with
    | [] => Ok ([], d)
    | b :: calls' => let* (o, d1) := drain_next d b in let* (os, d2) := drain_calls d1 calls' in Ok (o :: os, d2)
    end.
End Drain.
