(** What the documentation of `Slice` says about the calls of `split_at` and `try_join`
    (src/public_traits.rs 59-89), on the flat sequence of runs.  Independent of the tree model. *)
From Coq Require Import List ZArith Bool.
From Verif Require Import Base Slice Spec.
Import ListNotations.
Local Open Scope Z_scope.

Section Joins.
  Context {I V : Type} (Y : slice_ops I V) (inj : Z -> I).
  Notation run := (prod V Z) (only parsing).

  (** `a.try_join(b)` succeeds. *)
  Definition joins (a b : V) : Prop := exists j, sl_try_join Y a b = inl j.

  (** No two neighbouring runs can be joined. *)
  Definition unjoined (l : list run) : Prop :=
    forall A a za b zb B, l = A ++ (a, za) :: (b, zb) :: B -> ~ joins a b.

  (** The documented contract: a refused join returns its arguments (72), joining is transitive as
      described at 80-82, and the parts of a split slice join with what the whole joins with
      (`self ≈ self[..idx]`, 59). *)
  Record doc_laws : Prop := {
    dl_refuse : forall a b a' b', sl_try_join Y a b = inr (a', b') -> a' = a /\ b' = b;
    dl_right : forall a b j z, sl_try_join Y a b = inl j -> joins j z -> joins b z;
    dl_split_left : forall s q a b z, sl_split_at Y s (inj q) = (a, b) -> joins z a -> joins z s;
    dl_split_right : forall s q a b z, sl_split_at Y s (inj q) = (a, b) -> joins b z -> joins s z;
  }.

  (** The mirror image of [dl_right], which the documentation does not ask for: joining something to
      the right of a slice does not make it acceptable to its left neighbour. *)
  Definition left_law : Prop := forall a b j z, sl_try_join Y a b = inl j -> joins z j -> joins z a.

  (** The pairs of slices whose join decides what an insertion of [x] at [idx] does: [x] with its
      left neighbour, then the result (joined or not) with the right neighbour.  The neighbours are
      the runs around [idx], or the two parts of the run around [idx]. *)
  Inductive asked (l : list run) (idx : Z) (x : V) : V -> V -> Prop :=
  | asked_left : forall A s z B, l = A ++ (s, z) :: B -> idx = rsum A + z -> asked l idx x s x
  | asked_first : forall s z B, l = (s, z) :: B -> idx = 0 -> asked l idx x x s
  | asked_joined : forall A s z s2 z2 B m, l = A ++ (s, z) :: (s2, z2) :: B -> idx = rsum A + z ->
      sl_try_join Y s x = inl m -> asked l idx x m s2
  | asked_refused : forall A s z s2 z2 B s' x', l = A ++ (s, z) :: (s2, z2) :: B -> idx = rsum A + z ->
      sl_try_join Y s x = inr (s', x') -> asked l idx x x' s2
  | asked_part : forall A s z B q a b, l = A ++ (s, z) :: B -> idx = rsum A + q -> 0 < q < z ->
      sl_split_at Y s (inj q) = (a, b) -> asked l idx x a x
  | asked_part_joined : forall A s z B q a b m, l = A ++ (s, z) :: B -> idx = rsum A + q -> 0 < q < z ->
      sl_split_at Y s (inj q) = (a, b) -> sl_try_join Y a x = inl m -> asked l idx x m b
  | asked_part_refused : forall A s z B q a b a' x', l = A ++ (s, z) :: B -> idx = rsum A + q -> 0 < q < z ->
      sl_split_at Y s (inj q) = (a, b) -> sl_try_join Y a x = inr (a', x') -> asked l idx x x' b.

  (** The splits that an insertion at [idx] needs: the run around [idx], strictly inside. *)
  Definition cut (l : list run) (idx : Z) (s : V) (q : Z) : Prop :=
    exists A z B, l = A ++ (s, z) :: B /\ idx = rsum A + q /\ 0 < q < z.
End Joins.

(** ** Slice types for the examples *)

(** Numbers that keep the larger one when joined; a number accepts a right neighbour of at least 5.
    Satisfies [doc_laws] but not [left_law]. *)
Definition big_ops {I : Type} : slice_ops I Z := {|
  sl_may_join := true;
  sl_split_at := fun s _ => (s, s);
  sl_try_join := fun a b => if 5 <=? b then inl (Z.max a b) else inr (a, b);
|}.
