(** Sample histories of trees in one memory and of trees with references. *)
From Coq Require Import List ZArith Bool.
From Verif Require Import Base Index Slice Tree Insert Spec Hist RefSpec LTree LInsert LRef LSpec Samples.
Import ListNotations.
Local Open Scope Z_scope.

(** A tree of height 2, a clone of it, and insertions into both. *)
Definition m_ops : list (@mcall nat) :=
  MNew :: map (fun o => MInsert 0 (o_hints o) (o_idx o) (o_slice o) (o_size o)) s_ops ++
  [MClone 0; MInsert 1 [] 3 9%nat 2; MInsert 0 [] 20 7%nat 1].
Definition m_mem : @mem Z nat := Eval vm_compute in match m_run sx sc 1 sid false mem_new m_ops with Ok m => m | _ => mem_new end.
Definition m_vals : @values nat := Eval vm_compute in match val_run sc sid ([], []) m_ops with Ok st => st | _ => ([], []) end.
Lemma m_fit : mcalls_fit 1000 m_ops.
Proof. split; [vm_compute; repeat (constructor; try discriminate)|vm_compute; discriminate]. Qed.
Lemma m_reaches : mem_reaches sx sc 1000 sid 1 false m_mem m_vals.
Proof. exists m_ops. split; [exact m_fit|]. split; vm_compute; reflexivity. Qed.

(** Six intervals far from each other, with references to the second and the fourth. *)
Definition six : list (rcall (Z * Z)) :=
  map (fun j => CInsert (10 * Z.of_nat j) (100 * Z.of_nat j, 100 * Z.of_nat j + 10) 10) (seq 0 6).
Definition r_calls : list (rcall (Z * Z)) := six ++ [CMakeRef 12; CMakeRef 39].
Definition r_tree : @rtree Z (Z * Z) := Eval vm_compute in match rt_run sx interval_ops 1 sid rt_new r_calls with Ok t => t | _ => rt_new end.
Definition r_runs : list (Z * Z * Z) := Eval vm_compute in match ref_run interval_ops sid [] [] r_calls with Ok (l, _) => l | _ => [] end.
Lemma r_fit : calls_fit 1000 r_calls.
Proof. split; [vm_compute; repeat (constructor; try discriminate)|vm_compute; discriminate]. Qed.
Lemma r_reaches : refs_reach sx interval_ops 1000 sid 1 r_tree r_runs [10; 30].
Proof. exists r_calls. split; [exact r_fit|]. split; vm_compute; reflexivity. Qed.
