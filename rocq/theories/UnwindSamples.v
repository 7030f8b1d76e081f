(** Sample histories of byte indexes for the examples about insertions that unwind. *)
From Coq Require Import List ZArith Bool Arith Lia.
From Verif Require Import Base Index Slice Tree Insert Range Iter Hist Spec Samples Wild WildR Unwind UnwindSpec.
Import ListNotations.
Local Open Scope Z_scope.

(** `u8`, overflow checked. *)
Definition ux : index_ops Z := checked_ops 255.
Lemma ux_any : index_any ux.
Proof. apply checked_any. Qed.
Definition ux_wrap : index_ops Z := wrapping_ops 255.
Lemma ux_wrap_any : index_any ux_wrap.
Proof. apply wrapping_any. Qed.

(** Six slices of size one, a full leaf for M = 3. *)
Definition u_ops : list (@op nat Z) :=
  [Build_op [] 0 1%nat 1; Build_op [] 1 2%nat 1; Build_op [] 2 3%nat 1; Build_op [] 3 4%nat 1; Build_op [] 4 5%nat 1; Build_op [] 5 6%nat 1].
Definition u_tree : @rle Z nat := Eval vm_compute in match run_ops ux sc 3 false None u_ops with Ok r => r | _ => None end.
Definition u_runs : list (nat * Z) := Eval vm_compute in match spec_run sc sid [] (map args u_ops) with Ok l => l | _ => [] end.
Lemma u_reaches : reaches 255 sid ux sc 3 false u_tree u_runs.
Proof. exists u_ops. split; [fits_now|]. split; vm_compute; reflexivity. Qed.

(** Two large slices. *)
Definition v_ops : list (@op nat Z) := [Build_op [] 0 1%nat 200; Build_op [] 200 2%nat 10].
Definition v_tree : @rle Z nat := Eval vm_compute in match run_ops ux sc 3 false None v_ops with Ok r => r | _ => None end.
Definition v_runs : list (nat * Z) := Eval vm_compute in match spec_run sc sid [] (map args v_ops) with Ok l => l | _ => [] end.
Lemma v_reaches : reaches 255 sid ux sc 3 false v_tree v_runs.
Proof. exists v_ops. split; [fits_now|]. split; vm_compute; reflexivity. Qed.

(** For M = 2, a tree of height one with three keys in its last leaf. *)
Definition w_ops : list (@op nat Z) :=
  [Build_op [] 0 1%nat 1; Build_op [] 1 2%nat 1; Build_op [] 2 3%nat 1; Build_op [] 3 4%nat 10; Build_op [] 13 5%nat 1; Build_op [] 14 6%nat 1].
Definition w_tree : @rle Z nat := Eval vm_compute in match run_ops ux sc 2 false None w_ops with Ok r => r | _ => None end.

(** What [w_tree] is after an insertion of 250 into the first slice of that leaf: the leaf is empty. *)
Definition w_left : @rle Z nat :=
  Some {| r_height := 1; r_node := Node 15 (Node 2 Nil [(0, 1%nat, Nil); (1, 2%nat, Nil)]) [(2, 3%nat, Node 0 Nil [])]; r_len := 8 |}.
Definition w_over : @op nat Z := Build_op [] 11 9%nat 250.

(** The same after another insertion, of 8 at 1. *)
Definition w_left2 : @rle Z nat :=
  Some {| r_height := 1; r_node := Node 17 (Node 4 Nil [(0, 1%nat, Nil); (1, 8%nat, Nil); (3, 2%nat, Nil)]) [(4, 3%nat, Node 0 Nil [])]; r_len := 9 |}.

(** What [u_tree] is after an insertion of 255 at the start. *)
Definition u_left : @rle Z nat :=
  Some {| r_height := 0; r_node := Node 2 Nil [(0, 7%nat, Nil); (255, 1%nat, Nil); (1, 2%nat, Nil)]; r_len := 7 |}.

(** A comparison that panics if the new size is 4: in [w_tree], above the leaf into which 8 is put, with size 2. *)
Definition cmp4 : @cmp_panics Z := {| cp_search := None; cp_shift := fun a _ => if a =? 4 then Some PAssert else None |}.
