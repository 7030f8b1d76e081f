(** An index type with senseless operations, and overflowing bytes. *)
From Coq Require Import List ZArith Bool Arith Lia.
From Verif Require Import Base Index Slice Tree Insert Hist Wild WildCalls Samples.
Import ListNotations.
Local Open Scope Z_scope.

Definition mad_ops : index_ops Z := {|
  ix_zero := 0; ix_add_left := fun a b => Ok (a - b); ix_add_right := fun a b => Ok (3 * b - a);
  ix_sub_left := fun a b => Ok (b + 1); ix_sub_right := fun a b => Ok (2 * a);
  ix_ltb := fun a b => (a =? 0) && (0 <? b) && (b <? 13); ix_eqb := fun a b => a =? - b;
  ix_search := fun l t => inr (Z.to_nat (t mod (1 + Z.of_nat (length l)))); ix_debug := false;
|}.
Lemma mad_any : index_any mad_ops.
Proof.
  constructor; try discriminate. intros l t. cbn [mad_ops ix_search].
  pose proof (Z.mod_pos_bound t (1 + Z.of_nat (length l)) ltac:(lia)). lia.
Qed.
Definition mad_hist : list (@op nat Z) :=
  map (fun i => Build_op [1; 0; 2]%nat (Z.of_nat (20 + 7 * i * i)) i (Z.of_nat i)) (seq 1 12).

(** Runs of lengths 200, 100, 200 and 30, indexed by bytes that wrap around. *)
Definition byte_hist : list (@op nat Z) :=
  [Build_op [] 0 1%nat 200; Build_op [] 0 2%nat 100; Build_op [] 0 3%nat 200; Build_op [] 0 4%nat 30].

(** Operations that change sides between the calls: senseless in every third call, bytes that wrap around
    in the others. *)
Definition moody (i : nat) : index_ops Z := match (i mod 3)%nat with O => mad_ops | _ => wrapping_ops 255 end.
Definition moody_hist : list (@ins_call Z nat) :=
  map (fun i => {| ic_x := moody i; ic_y := sc; ic_op := Build_op [1; 0]%nat 0 i (Z.of_nat i) |}) (seq 1 12).
