(** Properties of insertions in which the index type panics. *)
From Coq Require Import List ZArith Bool Arith.
From Verif Require Import Base Index Slice Tree Insert Range Spec Iter Hist Wild WildCalls Unwind UnwindSpec Samples UnwindSamples UnwindPropsP.
Import ListNotations.
Local Open Scope Z_scope.

(** The functions with panics of the index type are the modelled ones: they return what `insert_with_cursor` returns,
    and panic as it does or because a comparison did; if no comparison panics, forgetting what is left gives back the
    outcome. *)
Theorem C51_same_outcome : forall (I V : Type) (X : index_ops I) (B : @cmp_panics I) (Y : slice_ops I V) (M : nat) (nop : bool) (r : @rle I V) hints idx x n,
  forget (uinsert_with_cursor X calm Y M nop r hints idx x n) = insert_with_cursor X Y M nop r hints idx x n /\
  match uinsert_with_cursor X B Y M nop r hints idx x n with
  | UOk q => insert_with_cursor X Y M nop r hints idx x n = Ok q
  | UPan w _ _ => insert_with_cursor X Y M nop r hints idx x n = Panic w \/ raised B w
  | UUB => insert_with_cursor X Y M nop r hints idx x n = UB
  end.
Proof. exact C51_same_outcome_proof. Qed.
Print Assumptions C51_same_outcome.


Example C51_same_outcome_ex : (exists o lost,
  uinsert_with_cursor ux calm sc 3 false u_tree [] 0 7%nat 255 = UPan PArith o lost /\ insert_with_cursor ux sc 3 false u_tree [] 0 7%nat 255 = Panic PArith) /\
  (exists o lost q, uinsert_with_cursor ux cmp4 sc 2 false w_tree [] 1 8%nat 2 = UPan PAssert o lost /\ insert_with_cursor ux sc 2 false w_tree [] 1 8%nat 2 = Ok q).
Proof. split; repeat eexists; vm_compute; reflexivity. Qed.

(** An insertion in which the index type panics, into any tree that earlier insertions left, returned or unwound:
    the height and the form of the nodes are kept, every slice is still in the tree in its order or was dropped, once,
    and nothing else is in the tree. *)
Theorem C51_unwinding_accounts_for_slices : forall (I V : Type) (X : index_ops I) (B : @cmp_panics I) (Y : slice_ops I V) (M : nat) (nop : bool) (ops : list (@op V I)) r hints idx x n,
  index_any X -> (1 <= M)%nat -> caught (fun X _ _ => index_any X) M nop None ops r ->
  match uinsert_with_cursor X B Y M nop r hints idx x n with
  | UOk (r', _) => intact M r' /\ put Y (rle_slices r) x (rle_slices r')
  | UPan _ rest lost => form_kept M r rest /\ exists L, put Y (rle_slices r) x L /\ accounted (left_slices rest) lost L
  | UUB => False
  end.
Proof. exact C51_unwinding_accounts_for_slices_proof. Qed.
Print Assumptions C51_unwinding_accounts_for_slices.


(** After a first overflow a leaf is empty; a second insertion, whose index arithmetic wraps, succeeds; a third one overflows.
    A comparison that panics after the new slice is in its leaf: nothing is dropped. *)
Example C51_unwinding_accounts_for_slices_ex : caught (fun X _ _ => index_any X) 2 false None (w_ops ++ [w_over; Build_op [] 1 8%nat 2]) w_left2 /\
  exists o lost, uinsert_with_cursor ux calm sc 2 false w_left2 [] 2 9%nat 254 = UPan PArith (Some o) lost /\
    rle_slices w_left2 = [1; 8; 2; 3]%nat /\ left_slices (Some o) = [1; 8; 3]%nat /\ lost = [9; 8; 2]%nat /\
  exists o', uinsert_with_cursor ux cmp4 sc 2 false w_tree [] 1 8%nat 2 = UPan PAssert (Some o') [] /\ left_slices (Some o') = [1; 8; 2; 3; 4; 5; 6]%nat.
Proof.
  split.
  - cbn [w_ops app]. do 6 (eapply (caught_ok _ _ _ ux calm sc); [exact ux_any|vm_compute; reflexivity|]). eapply (caught_panic _ _ _ ux calm sc _ w_left); [exact ux_any|vm_compute; reflexivity|].
    eapply (caught_ok _ _ _ ux_wrap calm sc); [exact ux_wrap_any|vm_compute; reflexivity|]. apply caught_nil.
  - eexists. eexists. repeat (split; [vm_compute; reflexivity|]). eexists. split; vm_compute; reflexivity.
Qed.

(** A caller that catches such panics: as long as no hole is left, lookups and iterations access nothing that is not
    there, and show only slices of the tree. *)
Theorem C51_caught_memory_safe : forall (I V : Type) (X : index_ops I) (M : nat) (nop : bool) (ops : list (@op V I)) r,
  index_any X -> (1 <= M)%nat -> caught (fun X _ _ => index_any X) M nop None ops r ->
  intact M r /\
  (forall hints idx, get_with_cursor X r hints idx <> UB /\
     forall a b s, get_with_cursor X r hints idx = Ok (a, b, s) -> In s (rle_slices r)) /\
  (forall hints sb eb, iter_new X r hints sb eb <> UB /\
     forall it calls, iter_new X r hints sb eb = Ok it -> (forall c, In c calls -> index_any (fst c)) -> next_calls r it calls <> UB /\
       forall outs it', next_calls r it calls = Ok (outs, it') -> forall a b s, In (Some (a, b, s)) outs -> In s (rle_slices r)).
Proof. exact C51_caught_memory_safe_proof. Qed.
Print Assumptions C51_caught_memory_safe.


Example C51_caught_memory_safe_ex : caught (fun X _ _ => index_any X) 2 false None (w_ops ++ [w_over]) w_left /\ rle_slices w_left = [1; 2; 3]%nat /\ rle_len w_left = 8%nat /\
  get ux w_left 1 = Ok (1, 2, 2%nat) /\ get ux w_left 7 = Ok (2, 15, 3%nat).
Proof.
  split; [|repeat (split; [vm_compute; reflexivity|]); vm_compute; reflexivity].
  cbn [w_ops app]. do 6 (eapply (caught_ok _ _ _ ux calm sc); [exact ux_any|vm_compute; reflexivity|]). eapply (caught_panic _ _ _ ux calm sc _ w_left); [exact ux_any|vm_compute; reflexivity|]. apply caught_nil.
Qed.

(** The documented panics leave the tree alone, and drop the new slice only. *)
Theorem C51_documented_panics_change_nothing : forall (I V : Type) (X : index_ops I) (B : @cmp_panics I) (Y : slice_ops I V) (MAX : Z) (inj : Z -> I)
    (M : nat) (nop : bool) (r : @rle I V) (l : list (V * Z)) (hints : list nat) (idx : Z) (x : V) (n : Z),
  index_laws X MAX inj -> (1 <= M)%nat -> reaches MAX inj X Y M nop r l -> (0 <= idx <= MAX)%Z -> (0 <= n <= MAX)%Z ->
  (rsum l < idx)%Z \/ n = 0%Z -> cp_search B = None ->
  exists w, (w = POutOfBounds \/ w = PBadSize) /\ uinsert_with_cursor X B Y M nop r hints (inj idx) x (inj n) = UPan w (unholed r) [x].
Proof. exact C51_documented_panics_change_nothing_proof. Qed.
Print Assumptions C51_documented_panics_change_nothing.


Example C51_documented_panics_change_nothing_ex : reaches 255 sid ux sc 3 false u_tree u_runs /\ rsum u_runs = 6 /\
  uinsert_with_cursor ux calm sc 3 false u_tree [] 7 9%nat 1 = UPan POutOfBounds (unholed u_tree) [9%nat] /\
  uinsert_with_cursor ux calm sc 3 false u_tree [] 6 9%nat 0 = UPan PBadSize (unholed u_tree) [9%nat].
Proof. split; [exact u_reaches|]. repeat (split; [vm_compute; reflexivity|]). vm_compute. reflexivity. Qed.

(** An insertion that overflows is not undone: here four of seven slices are gone, and `root.len` counts them all. *)
Theorem C51_contents_kept_refuted : exists (M : nat) (r : @rle Z nat) (l : list (nat * Z)) (idx n : Z) (x : nat) o lost,
  (3 <= M)%nat /\ reaches 255 (fun z => z) (checked_ops 255) sc M false r l /\ (0 <= idx <= rsum l)%Z /\ (0 < n <= 255)%Z /\
  uinsert_with_cursor (checked_ops 255) calm sc M false r [] idx x n = UPan PArith (Some o) lost /\
  rle_slices r = [1; 2; 3; 4; 5; 6]%nat /\ left_slices (Some o) = [7; 1; 2]%nat /\ lost = [3; 4; 5; 6]%nat /\ r_len o = 7%nat.
Proof. exact C51_contents_kept_refuted_proof. Qed.
Print Assumptions C51_contents_kept_refuted.

(** An overflow while the new slice is joined to its neighbour leaves a hole, which a lookup returns. *)
Theorem C51_no_hole_refuted : exists (M : nat) (r : @rle Z nat) (l : list (nat * Z)) (idx n i : Z) (x : nat) o lost,
  (3 <= M)%nat /\ reaches 255 (fun z => z) (checked_ops 255) sc M false r l /\ (0 <= idx <= rsum l)%Z /\ (0 < n <= 255)%Z /\
  uinsert_with_cursor (checked_ops 255) calm sc M false r [] idx x n = UPan PArith (Some o) lost /\ rle_slices r = [1; 2]%nat /\ lost = [1%nat] /\
  get (checked_ops 255) (Some o) i = Ok (0%Z, 200%Z, None).
Proof. exact C51_no_hole_refuted_proof. Qed.
Print Assumptions C51_no_hole_refuted.

(** If M is at least three, no iteration over what is left computes `len - 1` for an empty leaf: it underflows only if
    the index type does. *)
Theorem C51_no_underflow : forall (I V : Type) (X2 : index_ops I) (M : nat) (nop : bool) (ops : list (@op V I)) r hints sb eb,
  (3 <= M)%nat -> caught (fun X _ _ => index_any X) M nop None ops r -> no_overflow X2 ->
  iter_new X2 r hints sb eb <> Panic PArith /\
  forall it calls, iter_new X2 r hints sb eb = Ok it -> iter_calls X2 r it calls <> Panic PArith.
Proof. exact C51_no_underflow_proof. Qed.
Print Assumptions C51_no_underflow.


(** The tree that [C51_contents_kept_refuted] is about, read from both ends. *)
Example C51_no_underflow_ex : caught (fun X _ _ => index_any X) 3 false None (u_ops ++ [Build_op [] 0 7%nat 255]) u_left /\
  (let* it := iter_new (wrapping_ops 255) u_left [] SUnb EUnb in let* (o, _) := iter_calls (wrapping_ops 255) u_left it [true; false; true] in Ok o) = Ok [Some (1, 2, 2%nat); Some (0, 255, 7%nat); Some (255, 1, 1%nat)].
Proof.
  split; [|vm_compute; reflexivity].
  cbn [u_ops app]. do 6 (eapply (caught_ok _ _ _ ux calm sc); [exact ux_any|vm_compute; reflexivity|]). eapply (caught_panic _ _ _ ux calm sc _ u_left); [exact ux_any|vm_compute; reflexivity|]. apply caught_nil.
Qed.

(** For M = 2 a leaf may be left empty, and `next_back` then underflows, whatever index operations it uses. *)
Theorem C51_no_underflow_small_refuted : exists (ops : list (@op nat Z)) (r : @rle Z nat) it,
  caught (fun X B Y => X = checked_ops 255 /\ B = calm /\ Y = sc) 2 false None ops r /\ no_overflow (wrapping_ops 255) /\
  iter_new (wrapping_ops 255) r [] SUnb EUnb = Ok it /\ iter_calls (wrapping_ops 255) r it [true] = Panic PArith.
Proof. exact C51_no_underflow_small_refuted_proof. Qed.
Print Assumptions C51_no_underflow_small_refuted.
