(** Properties of counts that wrap. *)
From Coq Require Import List Arith Bool.
From Verif Require Import Base CountWrap CountWrapPropsP.
Import ListNotations.

(** As long as at most W - L - 2 calls have panicked on overflow (for a 64-bit `usize`: 2^63 - 1), the count is exact:
    it counts the pointers, those forgotten, and one for every call that panicked.  So the node is freed only when no
    pointer is left, it is not used after that, and an owner that is told it is the only one is the only one. *)
Theorem C56_exact_below : forall (W L : nat) (es : list wev) (os : list wout) (s : cword),
  L + 2 <= W -> wrun W L wnew es = Some (os, s) -> panics os <= W - L - 2 ->
  ~ In OBad os /\
  (w_live s = true -> w_cnt s = w_ptrs s + forgotten os + panics os) /\
  (w_live s = false -> w_ptrs s = 0) /\
  (w_live s = true -> is_unique s = true -> w_ptrs s <= 1).
Proof. exact C56_exact_below_proof. Qed.
Print Assumptions C56_exact_below.

(** A word of four bits, `isize::MAX` = 7: seven clones are forgotten, six further ones panic. *)
Example C56_exact_below_ex : exists os s, wrun 16 7 wnew (concat (repeat [WCopy; WForget] 7) ++ repeat WCopy 6 ++ [WAsk]) = Some (os, s) /\
  panics os = 6 /\ forgotten os = 7 /\ s = {| w_cnt := 14; w_ptrs := 1; w_live := true |}.
Proof. eexists. eexists. split; [vm_compute; reflexivity|]. repeat split; vm_compute; reflexivity. Qed.

(** One more, and it is not: a call that panics on overflow has raised the count all the same.  A caller that forgets
    clones and catches panics takes the count past its greatest value, never having more than two pointers; then a
    node with two owners counts as unique, so one of them writes it in place, or frees it under the other. *)
Theorem C56_exact_refuted : forall W L : nat, L + 2 <= W ->
  exists (es : list wev) (os : list wout) (s : cword),
    wrun W L wnew es = Some (os, s) /\ panics os = W - L - 1 /\ length es = W + L /\
    w_ptrs s = 2 /\ w_live s = true /\ is_unique s = true /\
    exists s', wrun W L s [WGive; WAsk] = Some ([OFreed; OBad], s') /\ w_ptrs s' = 1.
Proof. exact C56_exact_refuted_proof. Qed.
Print Assumptions C56_exact_refuted.

Example C56_exact_refuted_ex : exists os s, wrun 16 7 wnew (concat (repeat [WCopy; WForget] 7) ++ repeat WCopy 8 ++ [WCopy; WAsk; WGive; WCopy]) = Some (os, s) /\
  skipn 22 os = [OCopied; OAnswer true; OFreed; OBad] /\ w_ptrs s = 1.
Proof. eexists. eexists. split; [vm_compute; reflexivity|]. split; vm_compute; reflexivity. Qed.
