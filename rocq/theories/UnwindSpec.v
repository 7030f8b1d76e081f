(** What a call that unwound may have done to the slices: vocabulary of the statements about Unwind.v. *)
From Coq Require Import List ZArith Bool Arith Permutation Relations.
From Verif Require Import Base Index Slice Tree Insert Crash Wild Hist Unwind.
Import ListNotations.

Section Spec.
  Context {V : Type}.

  (** [whole] divided in two, each part in the order of [whole]. *)
  Inductive parts : list V -> list V -> list V -> Prop :=
  | parts_nil : parts [] [] []
  | parts_left : forall x a b w, parts a b w -> parts (x :: a) b (x :: w)
  | parts_lost : forall x a b w, parts a b w -> parts a (x :: b) (x :: w).

  (** Every slice of [whole] is either left, in its place, or dropped once; the drops come in any order. *)
  Definition accounted (left lost whole : list V) : Prop :=
    exists l, Permutation lost l /\ parts left l whole.

  (** One call of `split_at` or `try_join` on neighbours in a list of slices. *)
  Inductive worked {I : Type} (Y : slice_ops I V) : list V -> list V -> Prop :=
  | worked_split : forall a s q l r b, sl_split_at Y s q = (l, r) -> worked Y (a ++ s :: b) (a ++ l :: r :: b)
  | worked_join : forall a x y z b, sl_try_join Y x y = inl z -> worked Y (a ++ x :: y :: b) (a ++ z :: b)
  | worked_refuse : forall a x y x' y' b, sl_try_join Y x y = inr (x', y') -> worked Y (a ++ x :: y :: b) (a ++ x' :: y' :: b).
  Definition reworked {I : Type} (Y : slice_ops I V) : list V -> list V -> Prop := clos_refl_trans _ (worked Y).

  (** [l'] is [l] with [x] put somewhere, where only the slice type's own functions were applied before and after. *)
  Definition put {I : Type} (Y : slice_ops I V) (l : list V) (x : V) (l' : list V) : Prop :=
    exists a b, reworked Y l (a ++ b) /\ reworked Y (a ++ x :: b) l'.
End Spec.

(** The slices that are there. *)
Definition somes {V : Type} (l : list (option V)) : list V := flat_map (fun o => match o with Some s => [s] | None => [] end) l.

(** Index operations that never panic with an overflow; they may panic in other ways. *)
Definition no_overflow {I : Type} (X : index_ops I) : Prop :=
  forall a b, ix_add_left X a b <> Panic PArith /\ ix_add_right X a b <> Panic PArith /\
              ix_sub_left X a b <> Panic PArith /\ ix_sub_right X a b <> Panic PArith.

(** Reasons for which a comparison panics. *)
Definition raised {I : Type} (B : @cmp_panics I) (w : why) : Prop := cp_search B = Some w \/ exists a b, cp_shift B a b = Some w.

Section Runs.
  Context {I V : Type}.

  (** A tree without holes, as a tree that could have some. *)
  Definition unholed (r : @rle I V) : option (@root I (option V)) := untouched r.

  (** The least number of keys in a node after a call that unwound: one, if M is at least three. *)
  Definition least (M : nat) : nat := if 3 <=? M then 1 else 0.

  (** All leaves at the same depth, between [least] and 2M keys in every node, one child more than keys in every inner
      node, and `root.len` no less than the number of slices. *)
  Definition intact (M : nat) (r : @rle I V) : Prop :=
    match r with
    | None => True
    | Some r => wshape M (least M) (least M) (r_height r) (r_node r) = true /\ length (slices (r_node r)) <= r_len r
    end.

  (** The same for a tree with holes in place of slices, as left by a call on [r]; its height is that of [r]. *)
  Definition form_kept (M : nat) (r : @rle I V) (left : option (@root I (option V))) : Prop :=
    match r, left with
    | None, None => True
    | Some r, Some o => r_height o = r_height r /\
        wshape M (least M) (least M) (r_height o) (r_node o) = true /\ length (somes (slices (r_node o))) <= r_len o
    | _, _ => False
    end.
  Definition left_slices (left : option (@root I (option V))) : list V :=
    somes (match left with Some o => slices (r_node o) | None => [] end).

  (** Calls of `insert_with_cursor`, where the caller catches panics and carries on with what is left, as long as
      there is no hole in it.  The functions of the index and the slice type may be others in every call: user code may
      have a state, and panic once and not the next time.  Comparisons may panic as well. *)
  Inductive caught (user : index_ops I -> @cmp_panics I -> slice_ops I V -> Prop) (M : nat) (nop : bool) : @rle I V -> list (@op V I) -> @rle I V -> Prop :=
  | caught_nil : forall r, caught user M nop r [] r
  | caught_ok : forall X B Y r r1 r2 cur o ops, user X B Y ->
      uinsert_with_cursor X B Y M nop r (o_hints o) (o_idx o) (o_slice o) (o_size o) = UOk (r1, cur) ->
      caught user M nop r1 ops r2 -> caught user M nop r (o :: ops) r2
  | caught_panic : forall X B Y r r1 r2 w lost o ops, user X B Y ->
      uinsert_with_cursor X B Y M nop r (o_hints o) (o_idx o) (o_slice o) (o_size o) = UPan w (unholed r1) lost ->
      caught user M nop r1 ops r2 -> caught user M nop r (o :: ops) r2.
End Runs.
