(** Histories of calls on one tree. *)
From Coq Require Import List ZArith Bool Arith.
From Verif Require Import Base Index Slice Tree Insert Spec.
Import ListNotations.

Section Hist.
  Context {I S : Type} (X : index_ops I) (Y : slice_ops I S) (M : nat).

  (** A call of `insert_with_cursor` (src/tree/mod.rs 695-701): the path held by the cursor, then
      index, slice and size.  `insert` (677-679) is the call with the empty cursor. *)
  Record op (Ix : Type) : Type := { o_hints : list nat; o_idx : Ix; o_slice : S; o_size : Ix }.

  (** A sequence of such calls on one tree, up to the first panic.  [nop] says whether the cursors
      are `NoCursor`. *)
  Fixpoint run_ops (nop : bool) (r : @rle I S) (ops : list (op I)) : res (@rle I S) :=
    match ops with
    | [] => Ok r
    | o :: ops' =>
      let* (r', _) := insert_with_cursor X Y M nop r (o_hints _ o) (o_idx _ o) (o_slice _ o) (o_size _ o) in
      run_ops nop r' ops'
    end.
End Hist.
Arguments o_hints {S Ix}.
Arguments o_idx {S Ix}.
Arguments o_slice {S Ix}.
Arguments o_size {S Ix}.
Arguments Build_op {S Ix}.

Section Ops.
  Context {I S : Type} (MAX : Z) (inj : Z -> I).
  Local Open Scope Z_scope.

  (** Calls with integer arguments, seen through the embedding of the index type. *)
  Definition inj_op (o : @op S Z) : @op S I :=
    {| o_hints := o_hints o; o_idx := inj (o_idx o); o_slice := o_slice o; o_size := inj (o_size o) |}.

  (** The arguments relevant to the contents. *)
  Definition args (o : @op S Z) : Z * S * Z := (o_idx o, o_slice o, o_size o).

  (** Arguments of an unsigned index type, and sizes that fit it in total. *)
  Fixpoint osum (ops : list (@op S Z)) : Z :=
    match ops with [] => 0 | o :: ops' => o_size o + osum ops' end.
  Definition ops_fit (ops : list (@op S Z)) : Prop :=
    Forall (fun o => 0 <= o_idx o <= MAX /\ 0 <= o_size o) ops /\ osum ops <= MAX.

  (** [r] is a tree produced by some history of inserts starting from the empty tree, and [l] is the
      list of runs that the flat specification assigns to that history. *)
  Definition reaches (X : index_ops I) (Y : slice_ops I S) (M : nat) (nop : bool) (r : @rle I S) (l : list (S * Z)) : Prop :=
    exists ops, ops_fit ops /\ run_ops X Y M nop None (map inj_op ops) = Ok r /\
                spec_run Y inj [] (map args ops) = Ok l.
End Ops.
