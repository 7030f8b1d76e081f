(** Properties of redirected references. *)
From Coq Require Import List Arith Bool Lia.
From Verif Require Import Base Recycle RefState Redirect RedirectPropsP.
Import ListNotations.

(** A reference whose slot is redirected never gets a result: if the redirections end, and counts do not overflow,
    the table is borrowed a second time and that panics. *)
Theorem C48_redirect_panics : forall CMAX t i c j, nth_error (rv_vals t) i = Some (Value c (SRedirect j)) ->
  (forall fuel x, collapse CMAX fuel t (Some i) <> Some (Ok x)) /\
  (forall n f fuel, leads t n i f -> counts_ok CMAX 1 t -> n < fuel -> collapse CMAX fuel t (Some i) = Some (Panic PBorrow)).
Proof. exact C48_redirect_panics_proof. Qed.
Print Assumptions C48_redirect_panics.


Definition chain : @rvec stored := {| rv_vals := [Value 1 (SRedirect 1); Value 2 (SRedirect 2); Value 2 (SHandle true)]; rv_head := None |}.
Example C48_redirect_panics_ex : nth_error (rv_vals chain) 0 = Some (Value 1 (SRedirect 1)) /\ leads chain 2 0 (Some 2) /\ counts_ok 100 10 chain.
Proof.
  split; [reflexivity|]. split.
  - eapply leads_on; [reflexivity|]. eapply leads_on; [reflexivity|]. eapply leads_handle. reflexivity.
  - intros i c v H. destruct i as [|[|[|i]]]; cbn in H; try (injection H as <- _; lia). destruct i; discriminate.
Qed.

(** With that borrow corrected it still panics when there is a handle at the end: the second loop goes on to the slot with the handle
    and overwrites it too. *)
Theorem C48_corrected_panics : forall CMAX t i c j n h fuel, nth_error (rv_vals t) i = Some (Value c (SRedirect j)) ->
  leads t n i (Some h) -> counts_ok CMAX (n + 4) t -> n < fuel -> slow_path_corrected CMAX fuel t i = Some (Panic PUnreachable).
Proof. exact C48_corrected_panics_proof. Qed.
Print Assumptions C48_corrected_panics.


(** The same chain; and one that leads to a removed slot, where the correction works. *)
Example C48_corrected_panics_ex : leads chain 2 0 (Some 2) /\ counts_ok 100 6 chain /\
  slow_path_corrected 100 5 {| rv_vals := [Value 1 (SRedirect 1); Value 1 SRemoved]; rv_head := None |} 0 =
    Some (Ok {| c_id := None; c_table := {| rv_vals := [Value 2 SRemoved; Value 1 SRemoved]; rv_head := None |}; c_found := None |}).
Proof.
  split; [|split].
  - eapply leads_on; [reflexivity|]. eapply leads_on; [reflexivity|]. eapply leads_handle. reflexivity.
  - intros i c v H. destruct i as [|[|[|i]]]; cbn in H; try (injection H as <- _; lia). destruct i; discriminate.
  - vm_compute. reflexivity.
Qed.

(** Two redirections lead to a handle, and it is not found. *)
Theorem C48_follows_redirects_refuted : exists (t : @rvec stored) i h, leads t 2 i (Some h) /\ counts_ok 100 10 t /\ i <> h /\
  collapse 100 10 t (Some i) = Some (Panic PBorrow) /\ slow_path_corrected 100 10 t i = Some (Panic PUnreachable).
Proof. exact C48_follows_redirects_refuted_proof. Qed.
Print Assumptions C48_follows_redirects_refuted.


(** But no slot is ever redirected, or removed: in every history every slot holds a handle, so that the fast path is
    taken and finds it. *)
Theorem C48_never_redirected : forall CMAX k os outs w i e,
  nrun CMAX (start k) os = Some (outs, w) -> length os + 2 <= CMAX -> ~ In OUB outs -> w_tree w <> TGone ->
  nth_error (rv_vals (table_of w)) i = Some e -> exists c p, e = Value c (SHandle p) /\
    forall fuel, collapse CMAX fuel (table_of w) (Some i) = Some (Ok {| c_id := Some i; c_table := table_of w; c_found := Some p |}).
Proof. exact C48_never_redirected_proof. Qed.
Print Assumptions C48_never_redirected.


(** The key of the first reference is merged into that of the second. *)
Example C48_never_redirected_ex : exists outs w, nrun 100 (start 3) [NMake 0; NMake 1; NInsBegin; NIns (IRedirect 0 1); NInsEnd] = Some (outs, w) /\
  ~ In OUB outs /\ w_tree w <> TGone /\ length (rv_vals (table_of w)) = 2.
Proof. do 2 eexists. split; [vm_compute; reflexivity|]. split; [cbv [In]; intuition discriminate|]. vm_compute. split; [discriminate|reflexivity]. Qed.
