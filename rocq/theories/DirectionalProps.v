(** Properties of directional arithmetic. *)
From Coq Require Import List ZArith Bool.
From Verif Require Import Base Index Slice Tree Insert Hist Directional DirectionalP.
Import ListNotations.
Local Open Scope Z_scope.

(** Moving a key position [k] from behind [old] to behind [new] (comment at fix.rs 703-725): the formula for
    decreasing positions is right in every lawful index type; the one for increasing positions, marked
    "FIXME: prove this?", is right exactly in the commutative ones; with `sub_right` it would be right in all. *)
Theorem C18_shift_formulas : forall I (zero : I) addr addl subr subl ltb, directional_laws zero addr addl subr subl ltb ->
  (forall k old new, subl k (subr old new) = addl (subl k old) new) /\
  (forall k old new, addl k (subr new old) = addl (subl k old) new) /\
  ((forall k old new, addl k (subl new old) = addl (subl k old) new) <-> (forall x y, addr x y = addr y x)).
Proof. exact C18_shift_formulas_proof. Qed.
Print Assumptions C18_shift_formulas.


(** Two instances, one commutative and one not. *)
Example C18_shift_formulas_ex : directional_laws hz hmul (fun x y => hmul y x) (fun x y => hmul x (hinv y)) (fun x y => hmul (hinv y) x) hltb /\
  directional_laws 0 Z.add (fun x y => y + x) Z.sub Z.sub Z.ltb /\ hmul (1, 0, 0) (0, 1, 0) <> hmul (0, 1, 0) (1, 0, 0).
Proof. split; [exact heis_lawful|]. split; [exact Z_lawful|]. vm_compute. discriminate. Qed.

(** An index type that satisfies the documented laws, and two inserts into an empty tree after which the size of
    the tree is not the sum of the sizes in order; and two other inserts after which `SliceEntry::size` of the
    second run is not the size it was inserted with. *)
Theorem C18_noncommutative_refuted : exists (I : Type) (X : index_ops I) (addr addl subr subl : I -> I -> I) (a b : I),
  directional_laws (ix_zero X) addr addl subr subl (ix_ltb X) /\
  (forall x y, ix_add_right X x y = Ok (addr x y) /\ ix_add_left X x y = Ok (addl x y) /\
               ix_sub_right X x y = Ok (subr x y) /\ ix_sub_left X x y = Ok (subl x y)) /\
  ix_ltb X (ix_zero X) a = true /\ ix_ltb X (ix_zero X) b = true /\
  (exists r, run_ops X (constant_ops Nat.eqb) 2 true None [Build_op [] (ix_zero X) 1%nat a; Build_op [] a 2%nat b] = Ok r /\
    rle_size X r <> Ok (addr a b)) /\
  (exists r e, run_ops X (constant_ops Nat.eqb) 2 true None [Build_op [] (ix_zero X) 1%nat a; Build_op [] (ix_zero X) 2%nat b] = Ok r /\
    rle_size X r = Ok (addr b a) /\ get X r b = Ok e /\ snd e = 1%nat /\ entry_size X e <> Ok a).
Proof. exact C18_noncommutative_refuted_proof. Qed.
Print Assumptions C18_noncommutative_refuted.

