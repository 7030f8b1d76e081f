(** Trees that share nodes: histories, and what they should look like from outside. *)
From Coq Require Import List ZArith Bool.
From Verif Require Import Base Index Slice Spec Tree LTree LInsert LRef LSpec LCow.
Import ListNotations.
Local Open Scope Z_scope.

(** A call without what the allocator does: trees that share nodes should behave as trees that do not. *)
Definition forget {V} (c : wcall V) : @mcall V :=
  match c with WNew => MNew | WInsert j hints idx x n _ => MInsert j hints idx x n | WClone j => MClone j | WDrop j => MDrop j end.

(** Some history, with an allocator that never returns a node in use, leads to the trees of [w], which
    should hold what [st] says. *)
Definition cow_reaches {I V} (X : index_ops I) (Y : slice_ops I V) (MAX : Z) (inj : Z -> I) (M : nat) (nop : bool)
    (w : world I V) (st : @values V) : Prop :=
  exists calls, mcalls_fit MAX (map forget calls) /\ allocs_ok X Y M inj nop w_new calls /\
    val_run Y inj ([], []) (map forget calls) = Ok st /\ w_run X Y M inj nop w_new calls = Ok w.
