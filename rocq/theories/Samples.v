(** Sample histories used by the examples that stand beside the theorems. *)
From Coq Require Import List ZArith Lia Bool.
From Verif Require Import Base Index Slice Tree Insert Spec Hist.
Import ListNotations.
Local Open Scope Z_scope.

(** Indexes bounded by 1000, overflow checked. *)
Definition sx : index_ops Z := checked_ops 1000.
Definition sid : Z -> Z := fun z => z.
Lemma sx_laws : index_laws sx 1000 sid.
Proof. exact (checked_laws 1000). Qed.

(** `Constant` slices holding numbers. *)
Definition sc : slice_ops Z nat := constant_ops Nat.eqb.

(** A history of inserts of distinct and equal values, with a useless cursor. *)
Definition s_ops : list (@op nat Z) :=
  [Build_op [] 0 1%nat 10; Build_op [] 10 2%nat 5; Build_op [0; 3]%nat 4 3%nat 2; Build_op [] 17 4%nat 3;
   Build_op [1]%nat 20 5%nat 1; Build_op [] 5 3%nat 4; Build_op [] 22 6%nat 2; Build_op [] 0 7%nat 8].
Definition s_tree : @rle Z nat :=
  Eval vm_compute in match run_ops sx sc 1 false None s_ops with Ok r => r | _ => None end.
Definition s_runs : list (nat * Z) :=
  Eval vm_compute in match spec_run sc sid [] (map args s_ops) with Ok l => l | _ => [] end.

(** Slices that are half-open intervals of the integers: they split anywhere and join when the left one
    ends where the right one starts. *)
Definition interval_ops : slice_ops Z (Z * Z) :=
  {| sl_may_join := true;
     sl_split_at := fun s i => ((fst s, fst s + i), (fst s + i, snd s));
     sl_try_join := fun a b => if snd a =? fst b then inl (fst a, snd b) else inr (a, b) |}.
Definition interval_den (s : Z * Z) (o : Z) : Z := fst s + o.
Definition interval_fits (s : Z * Z) (z : Z) : Prop := snd s - fst s = z.

Lemma interval_denotes : denotes interval_ops sid interval_den interval_fits.
Proof.
  unfold interval_den, interval_fits, sid. split.
  - intros [lo hi] z q a b Hf Hq E. inversion E; subst. cbn [fst snd] in *. repeat split; intros; lia.
  - intros [a a'] za [b b'] zb j Ha Hb Hza Hzb E. cbn [interval_ops sl_try_join fst snd] in *.
    destruct (Z.eqb_spec a' b); inversion E; subst. cbn [fst snd]. repeat split; intros; lia.
  - intros [a a'] za [b b'] zb x y Ha Hb Hza Hzb E. cbn [interval_ops sl_try_join fst snd] in *.
    destruct (Z.eqb_spec a' b); inversion E; subst. cbn [fst snd]. repeat split; intros; lia.
Qed.

Definition i_ops : list (@op (Z * Z) Z) :=
  [Build_op [] 0 (0, 10) 10; Build_op [] 10 (20, 25) 5; Build_op [] 15 (40, 44) 4; Build_op [] 15 (60, 63) 3;
   Build_op [] 0 (80, 82) 2; Build_op [] 4 (90, 91) 1].
Definition i_tree : @rle Z (Z * Z) :=
  Eval vm_compute in match run_ops sx interval_ops 1 false None i_ops with Ok r => r | _ => None end.
Definition i_runs : list (Z * Z * Z) :=
  Eval vm_compute in match spec_run interval_ops sid [] (map args i_ops) with Ok l => l | _ => [] end.

Ltac fits_now := split; [repeat (constructor; [split; vm_compute; (discriminate || (split; discriminate))|]); constructor | vm_compute; discriminate].

Lemma s_fit : ops_fit 1000 s_ops.
Proof. fits_now. Qed.
Lemma i_fit : ops_fit 1000 i_ops.
Proof. fits_now. Qed.
Lemma s_reaches : reaches 1000 sid sx sc 1 false s_tree s_runs.
Proof. exists s_ops. split; [exact s_fit|]. split; vm_compute; reflexivity. Qed.
Lemma i_reaches : reaches 1000 sid sx interval_ops 1 false i_tree i_runs.
Proof. exists i_ops. split; [exact i_fit|]. split; vm_compute; reflexivity. Qed.
