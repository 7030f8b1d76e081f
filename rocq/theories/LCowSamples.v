(** Sample histories of trees that share nodes. *)
From Coq Require Import List ZArith Bool Arith Lia.
From Verif Require Import Base Index Slice Tree Insert Spec Hist RefSpec LTree LInsert LRef LSpec LCow LCowSpec Samples.
Import ListNotations.
Local Open Scope Z_scope.

(** Allocators. *)
Definition from (k : nat) : nat -> nat := fun i => (k + i)%nat.
Definition first_then (a k : nat) : nat -> nat := fun i => match i with O => a | S _ => (k + i)%nat end.

Lemma from_ok : forall k (l : list nat), forallb (fun a => a <? k)%nat l = true -> (forall i j, from k i = from k j -> i = j) /\ (forall i, ~ In (from k i) l).
Proof.
  intros k l H. split; [unfold from; lia|]. intros i Hin. rewrite forallb_forall in H. specialize (H _ Hin). apply Nat.ltb_lt in H. unfold from in H. lia.
Qed.
Lemma first_then_ok : forall a k (l : list nat), forallb (fun b => (b <? k) && negb (b =? a))%nat l = true -> (a < k)%nat ->
  (forall i j, first_then a k i = first_then a k j -> i = j) /\ (forall i, ~ In (first_then a k i) l).
Proof.
  intros a k l H Ha. split; [intros [|i] [|j]; cbn; lia|]. intros i Hin. rewrite forallb_forall in H. specialize (H _ Hin). apply andb_true_iff in H. destruct H as [H1 H2].
  apply Nat.ltb_lt in H1. apply negb_true_iff, Nat.eqb_neq in H2. destruct i as [|i]; cbn in *; lia.
Qed.

Ltac allocs := repeat match goal with
  | |- allocs_ok _ _ _ _ _ _ [] => exact Logic.I
  | |- allocs_ok ?X ?Y ?M ?inj ?nop ?w (?c :: ?cs) =>
    split; [first [exact Logic.I | apply from_ok; vm_compute; reflexivity | apply first_then_ok; [vm_compute; reflexivity|vm_compute; lia]]|];
    let r := eval vm_compute in (w_call X Y M inj nop w c) in
    match r with Ok ?w' => replace (w_call X Y M inj nop w c) with (Ok w') by (vm_compute; reflexivity); cbv beta iota end
  end.

(** A tree of height 2 with seven runs, a clone of it that then gets an eighth run, and another clone of
    the clone; the first tree is dropped, and the third one gets a run in front.  During the last insertion the
    allocator first returns the address of a node of height 1 that was freed by the drop. *)
Definition x_bad : list (wcall nat) :=
  WNew :: map (fun i => WInsert 0 [] (Z.of_nat i) (i + 1)%nat 1 (from (100 * (i + 1)))) (seq 0 7) ++
  [WClone 0; WInsert 1 [] 7 8%nat 1 (from 800); WClone 1; WDrop 0; WInsert 2 [] 0 9%nat 1 (first_then 701 900)].
Definition x_bad_world : world Z nat := Eval vm_compute in match w_run sx sc 1 sid false w_new x_bad with Ok w => w | _ => w_new end.
Definition x_bad_vals : @values nat := Eval vm_compute in match val_run sc sid ([], []) (map forget x_bad) with Ok st => st | _ => ([], []) end.
Lemma x_bad_fit : mcalls_fit 1000 (map forget x_bad).
Proof. split; [vm_compute; repeat (constructor; try discriminate)|vm_compute; discriminate]. Qed.
Lemma x_bad_allocs : allocs_ok sx sc 1 sid false w_new x_bad.
Proof. unfold x_bad. cbn [map app seq]. allocs. Qed.

(** The same with an allocator that never returns an address twice. *)
Definition x_good : list (wcall nat) :=
  WNew :: map (fun i => WInsert 0 [] (Z.of_nat i) (i + 1)%nat 1 (from (100 * (i + 1)))) (seq 0 7) ++
  [WClone 0; WInsert 1 [] 7 8%nat 1 (from 800); WClone 1; WDrop 0; WInsert 2 [] 0 9%nat 1 (from 900)].
Definition x_world : world Z nat := Eval vm_compute in match w_run sx sc 1 sid false w_new x_good with Ok w => w | _ => w_new end.
Definition x_vals : @values nat := Eval vm_compute in match val_run sc sid ([], []) (map forget x_good) with Ok st => st | _ => ([], []) end.
Lemma x_fit : mcalls_fit 1000 (map forget x_good).
Proof. split; [vm_compute; repeat (constructor; try discriminate)|vm_compute; discriminate]. Qed.
Lemma x_allocs : allocs_ok sx sc 1 sid false w_new x_good.
Proof. unfold x_good. cbn [map app seq]. allocs. Qed.
Lemma x_reaches : cow_reaches sx sc 1000 sid 1 false x_world x_vals.
Proof. exists x_good. split; [exact x_fit|]. split; [exact x_allocs|]. split; vm_compute; reflexivity. Qed.
