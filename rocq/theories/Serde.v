(** serde support (src/serde.rs).  The data format is the sequence of (size, slice) pairs handed to
    and obtained from the serialiser; the encoding of the pairs themselves is outside the crate. *)
From Coq Require Import List ZArith Bool Arith.
From Verif Require Import Base Index Slice Tree Insert Range Iter.
Import ListNotations.

Section Serde.
  Context {I S : Type} (X : index_ops I) (Y : slice_ops I S) (M : nat).

  (** `Serialize::serialize` (src/serde.rs 18-20): every entry of `iter(..)`, as its size and slice. *)
  Definition serialize (r : @rle I S) : res (list (I * S)) :=
    let* es := iter_collect X r [] SUnb EUnb in
    mapM (fun e => let* z := entry_size X e in Ok (z, snd e)) es.

  (** The loop of `RleTreeVisitor::visit_seq` (src/serde.rs 51-55). *)
  Fixpoint visit_loop (this : @rle I S) (data : list (I * S)) : res (@rle I S) :=
    match data with
    | [] => Ok this
    | (size, slice) :: data' =>
      let* idx := rle_size X this in
      let* this' := insert X Y M this idx slice size in
      visit_loop this' data'
    end.

  (** `RleTreeVisitor::visit_seq` (src/serde.rs 49-58). *)
  Definition deserialize (data : list (I * S)) : res (@rle I S) := visit_loop None data.
End Serde.
