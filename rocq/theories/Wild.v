(** Index types that keep none of the laws, and trees seen without positions. *)
From Coq Require Import List ZArith Bool Arith.
From Verif Require Import Base Index Slice Tree.
Import ListNotations.

(** What is known of an index type whose author made mistakes (src/public_traits.rs 27-35: the
    implementation decides about error messages, never about unsafe code), and of integers that wrap around:
    the operations are safe code, so they return something or panic, and the standard library's search, on
    a slice that need not be sorted, returns some place in the slice. *)
Record index_any {I : Type} (X : index_ops I) : Prop := {
  ia_addl : forall a b, ix_add_left X a b <> UB;
  ia_addr : forall a b, ix_add_right X a b <> UB;
  ia_subl : forall a b, ix_sub_left X a b <> UB;
  ia_subr : forall a b, ix_sub_right X a b <> UB;
  ia_search : forall l t, match ix_search X l t with inl i => i < length l | inr i => i <= length l end;
}.

Section Slices.
  Context {I V : Type}.

  (** The slices of a tree from left to right. *)
  Fixpoint slices (t : tree I V) : list V :=
    match t with
    | Nil => []
    | Node _ c0 es => slices c0 ++ flat_map (fun e => snd (fst e) :: slices (snd e)) es
    end.

  (** The B-tree shape of Validate.v with a bound of its own for the nodes below the top: between [lo] and 2M keys in
      this node, at least [b] in the nodes below, all leaves at height 0. *)
  Fixpoint wshape (M b lo h : nat) (t : tree I V) : bool :=
    match t with
    | Nil => false
    | Node _ c0 es =>
      (lo <=? length es) && (length es <=? 2 * M) &&
      match h with
      | 0 => forallb (fun c => match c with Nil => true | Node _ _ _ => false end) (c0 :: map e_child es)
      | Datatypes.S h' => forallb (wshape M b b h') (c0 :: map e_child es)
      end
    end.

  Definition rle_slices (r : @rle I V) : list V := match r with None => [] | Some r => slices (r_node r) end.
End Slices.

(** The slice type [Y] when whatever position `split_at` is called with, it acts as for [q]. *)
Definition cut_at {I J V : Type} (Y : slice_ops I V) (q : I) : slice_ops J V := {|
  sl_may_join := sl_may_join Y;
  sl_split_at := fun s _ => sl_split_at Y s q;
  sl_try_join := sl_try_join Y;
|}.
