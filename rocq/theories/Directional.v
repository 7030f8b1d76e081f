(** Index types that are not commutative (src/public_traits.rs 105-245). *)
From Coq Require Import ZArith Bool List.
From Verif Require Import Base Index.
Local Open Scope Z_scope.

(** The documented laws of directional arithmetic (src/public_traits.rs 183-213), for operations that never fail;
    [Ord] is a total order, and adding on either side preserves it. *)
Record directional_laws {I : Type} (zero : I) (addr addl subr subl : I -> I -> I) (ltb : I -> I -> bool) : Prop := {
  dl_comm : forall x y, addr x y = addl y x;
  dl_assoc : forall x y z, addr (addr x y) z = addr x (addr y z);
  dl_inv1 : forall x y, subr (addr x y) y = x;
  dl_inv2 : forall x z, subl (addl x z) z = x;
  dl_inv3 : forall x y, addr (subr x y) y = x;
  dl_inv4 : forall x z, addl (subl x z) z = x;
  dl_zero : forall x, addr x zero = x /\ addl x zero = x /\ subr x zero = x /\ subl x zero = x;
  dl_dist1 : forall x y z, subr x (addl y z) = subr (subr x y) z;
  dl_dist2 : forall x y z, subl x (addr y z) = subl (subl x y) z;
  dl_dist3 : forall x y z, subr x (subr y z) = subr (addr x z) y;
  dl_dist4 : forall x y z, subl x (subl y z) = subl (addl x z) y;
  dl_dist5 : forall x y z, subr x (subl y z) = addr (subr x y) z;
  dl_dist6 : forall x y z, subl x (subr y z) = addl (subl x y) z;
  dl_irrefl : forall x, ltb x x = false;
  dl_trans : forall x y z, ltb x y = true -> ltb y z = true -> ltb x z = true;
  dl_total : forall x y, ltb x y = true \/ ltb y x = true \/ x = y;
  dl_mono : forall x y z, ltb x y = true -> ltb (addr x z) (addr y z) = true /\ ltb (addr z x) (addr z y) = true;
}.

(** Integer matrices [1 a c; 0 1 b; 0 0 1] under multiplication, in lexicographic order. *)
Definition heis : Type := (Z * Z * Z)%type.
Definition hz : heis := (0, 0, 0).
Definition hmul (x y : heis) : heis :=
  let '(a, b, c) := x in let '(a', b', c') := y in (a + a', b + b', c + c' + a * b').
Definition hinv (x : heis) : heis := let '(a, b, c) := x in (- a, - b, a * b - c).
Definition hltb (x y : heis) : bool :=
  let '(a, b, c) := x in let '(a', b', c') := y in
  (a <? a') || ((a =? a') && ((b <? b') || ((b =? b') && (c <? c')))).
Definition heqb (x y : heis) : bool :=
  let '(a, b, c) := x in let '(a', b', c') := y in (a =? a') && (b =? b') && (c =? c').

Definition heis_ops : index_ops heis := {|
  ix_zero := hz;
  ix_add_left := fun x y => Ok (hmul y x);
  ix_add_right := fun x y => Ok (hmul x y);
  ix_sub_left := fun x y => Ok (hmul (hinv y) x);
  ix_sub_right := fun x y => Ok (hmul x (hinv y));
  ix_ltb := hltb;
  ix_eqb := heqb;
  ix_search := std_search hltb heqb;
  ix_debug := true;
|}.
