(** Proofs about cursors to runs of shared trees. *)
From Coq Require Import List Arith Bool ZArith Lia.
From Verif Require Import Base Cow CowCursor CowSamples.
Import ListNotations.

Lemma recurse_linked : forall h f (m : heap ranges) top a t p, linked h m a t -> path_to h m a t = Some p -> h < f -> h <= top -> recurse f m top a h t = climb (top - h) m a p.
Proof.
  induction h as [|h IH]; intros [|f] m top a t p K P F T; try lia; cbn [linked path_to recurse] in *; destruct (look m a) as [n|] eqn:L; try discriminate.
  - injection P as <-. auto.
  - destruct (find_child (n_data n) 0 0 t) as [[i pos]|]; [|injection P as <-; auto]. destruct (nth_error (n_kids n) i) as [c|]; [|discriminate].
    destruct K as [KP K]. destruct (look m c) as [nc|] eqn:LC; [|discriminate]. cbn in KP. injection KP as KP. rewrite KP, Nat.eqb_refl. cbn [negb].
    destruct (path_to h m c (t - pos)) as [p'|] eqn:P'; [|discriminate]. cbn in P. injection P as <-. rewrite (IH f m top c _ p' K P') by lia.
    replace (top - h) with (S (top - S h)) by lia. cbn [climb]. rewrite LC, KP. auto.
Qed.

(** On a tree with copy on write, `cursor_to` gives the path to the node with the run if every node on that path has
    the node before it as its stored parent.  Missing: all other trees, for which it is false. *)
Lemma C13_cow_partial_proof : forall h (m : heap ranges) a target p f,
  path_to h m a target = Some p -> linked h m a target -> h < f -> cursor_to f m a h target = CPath p.
Proof. intros h m a t p f P K F. unfold cursor_to. rewrite (recurse_linked h f m h a t p) by auto. rewrite Nat.sub_diag. auto. Qed.

Lemma loop_one : forall f (m : heap ranges) a h t n pos c nc q j, look m a = Some n -> find_child (n_data n) 0 0 t = Some (0, pos) -> pos = 0%Z -> nth_error (n_kids n) 0 = Some c ->
  look m c = Some nc -> n_par nc = Some (q, j) -> q <> a -> recurse f m (S h) a (S h) t = CMore.
Proof.
  induction f as [|f IH]; intros m a h t n pos c nc q j L F P K LC Q NE; [auto|]. cbn [recurse]. rewrite L, F, K, LC, Q. destruct (Nat.eqb_spec q a); [congruence|]. cbn [negb].
  subst pos. rewrite Z.sub_0_r. rewrite (IH m a h t n 0%Z c nc q j); auto.
Qed.

(** After a clone and an insertion at the end of the clone, `cursor_to(0)` on the clone never returns: it calls itself
    with the node it is at. *)
Lemma C13_cow_loop_refuted_proof : exists outs s, crun (start 1) (two_leaves ++ insert_right) = Some (outs, s) /\
  nth_error (c_handles s) 1 = Some (Some (Some 3)) /\ path_to 1 (c_mem s) 3 0 = Some [0] /\ forall f, cursor_to f (c_mem s) 3 1 0 = CMore.
Proof.
  eexists. eexists. split; [vm_compute; reflexivity|]. split; [reflexivity|]. split; [reflexivity|]. intros f. unfold cursor_to.
  eapply loop_one; try reflexivity. discriminate.
Qed.

(** In other clones it returns a path that is not in the tree. *)
Lemma C13_cow_wrong_refuted_proof : exists outs s, crun (start 1) (two_leaves ++ insert_left) = Some (outs, s) /\
  nth_error (c_handles s) 1 = Some (Some (Some 3)) /\ path_to 1 (c_mem s) 3 4 = Some [2] /\ cursor_to 10 (c_mem s) 3 1 4 = CPath [2; 0].
Proof. eexists. eexists. split; [vm_compute; reflexivity|]. split; [reflexivity|]. split; reflexivity. Qed.

(** Comparing the stored parent with the node at hand is not enough, either: a new node may have the address of the
    freed parent, and then the index stored with it is wrong. *)
Lemma C13_cow_reuse_refuted_proof : exists outs s, crun (start 1) (two_leaves ++ insert_left ++ reuse) = Some (outs, s) /\
  nth_error (c_handles s) 2 = Some (Some (Some 2)) /\ path_to 1 (c_mem s) 2 5 = Some [2] /\ cursor_to 10 (c_mem s) 2 1 5 = CPath [1].
Proof. eexists. eexists. split; [vm_compute; reflexivity|]. split; [reflexivity|]. split; reflexivity. Qed.
