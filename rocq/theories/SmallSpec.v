(** Specifications for the smaller models. *)
From Coq Require Import List Bool.
From Verif Require Import Base Index Range.
Import ListNotations.

(** What the path of a cursor should be: the last LEN components, most recent first. *)
Definition last_components (len : nat) (cs : list nat) : list nat := firstn len (rev cs).

Section RangeP.
  Context {I : Type} (X : index_ops I).
  (** A total order on the index type. *)
  Record total_order : Prop := {
    to_irrefl : forall a, ix_ltb X a a = false;
    to_trans : forall a b c, ix_ltb X a b = true -> ix_ltb X b c = true -> ix_ltb X a c = true;
    to_total : forall a b, ix_ltb X a b = true \/ a = b \/ ix_ltb X b a = true;
  }.
End RangeP.

(** The bounds, as sets. *)
Definition above {I} (lt : I -> I -> Prop) (s : sbound I) (i : I) : Prop := match s with SIncl a => a = i \/ lt a i | SUnb => True end.
Definition below {I} (lt : I -> I -> Prop) (e : ebound I) (i : I) : Prop :=
  match e with EIncl b => i = b \/ lt i b | EExcl b => lt i b | EUnb => True end.
