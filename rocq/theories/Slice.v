(** Slice types (src/public_traits.rs 48-90) and Constant (src/lib.rs 98-114). *)
From Coq Require Import List ZArith Bool.
From Verif Require Import Base.

(** `trait Slice<Idx>`: MAY_JOIN, split_at (70; keeps the left part in place, returns the right
    part), try_join (87-89; Err returns both slices).  The methods are modelled as total functions;
    a panic in user code is treated separately (Holes.v). *)
Record slice_ops (I S : Type) : Type := {
  sl_may_join : bool;
  sl_split_at : S -> I -> S * S;
  sl_try_join : S -> S -> S + S * S;
}.
Arguments sl_may_join {I S}.
Arguments sl_split_at {I S}.
Arguments sl_try_join {I S}.

(** `Constant<T>`: split_at clones, try_join succeeds iff equal (src/lib.rs 98-114). *)
Definition constant_ops {I T : Type} (eqb : T -> T -> bool) : slice_ops I T := {|
  sl_may_join := true;
  sl_split_at := fun s _ => (s, s);
  sl_try_join := fun a b => if eqb a b then inl a else inr (a, b);
|}.
