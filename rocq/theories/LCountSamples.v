(** Sample histories with stored counts. *)
From Coq Require Import List ZArith Bool Arith Lia.
From Verif Require Import Base Index Slice Tree Insert Spec HistP LTree LInsert LRef LSpec LCow LCowSpec LCowW LCount LCountSpec LCountW Samples LCowSamples.
Import ListNotations.
Local Open Scope Z_scope.

Lemma x_n_allocs : n_allocs_ok sx sc 1 sid false nw_new x_good.
Proof.
  apply (n_allocs_of sx sc 1000 sid 1 sx_laws (le_n 1) false x_good nw_new 0 ([], []) (winv_new sid 1) ninv_new x_fit); [vm_compute; discriminate|lia|exact x_allocs].
Qed.
Lemma n_allocs_prefix : forall n w calls, n_allocs_ok sx sc 1 sid false w calls -> n_allocs_ok sx sc 1 sid false w (firstn n calls).
Proof.
  induction n as [|n IH]; intros w calls H; [exact Logic.I|]. destruct calls as [|c calls]; [exact Logic.I|]. cbn [firstn n_allocs_ok] in *. destruct H as [H1 H2]. split; [exact H1|].
  destruct (n_call sx sc 1 sid false w c); auto.
Qed.
