(** Proofs of the properties in WeakProps.v. *)
From Coq Require Import List Arith Bool Lia.
From Verif Require Import Base Cow CowSpec CowT CowPropsP Weak WeakP WeakR WeakS WeakX.
Import ListNotations.

(** Two threads with a tree each, which share a node.  Thread 1 reads the node and drops its tree. *)
Definition share_and_drop : list (nat * ev nat * nat) :=
  [(0, VEmpty, 0); (0, VNew 0 0 10, 0); (0, VClone 0, 0); (1, VRead 1, 0); (1, VReadEnd, 0); (1, VDrop 1, 0); (1, VStep 0, 0); (1, VStep 0, 0)].
(** Then thread 0 inserts into its tree. *)
Definition then_insert : list (nat * ev nat * nat) := share_and_drop ++ [(0, VInsert 0, 0); (0, VStep 0, 0); (0, VStep 0, 0); (0, VWrite TAt 11, 0); (0, VEnd, 0)].
(** Or thread 0 drops its tree too. *)
Definition then_drop : list (nat * ev nat * nat) := share_and_drop ++ [(0, VDrop 0, 0); (0, VStep 0, 0); (0, VStep 0, 0); (0, VStep 0, 0)].

(** Thread 0 inserts, but reads the count before thread 1 dropped its tree. *)
Definition old_count : list (nat * ev nat * nat) :=
  share_and_drop ++ [(0, VInsert 0, 0); (0, VStep 0, 1); (0, VStep 1, 0); (0, VStep 0, 0); (0, VStep 0, 0); (0, VStep 0, 0); (0, VStep 0, 0); (0, VWrite TAt 11, 0); (0, VEnd, 0)].

(** A test for races. *)
Definition clash (i : nat) (x y : access) : bool := (x_addr x =? x_addr y) && conflict (x_kind x) (x_kind y) && negb (existsb (Nat.eqb i) (x_hb y)).
Definition race_at (l : list (nat * list access)) (i j : nat) : bool :=
  match nth_error l i, nth_error l j with
  | Some (_, xs), Some (_, ys) => (i <? j) && existsb (fun x => existsb (clash i x) ys) xs
  | _, _ => false
  end.
Definition races (l : list (nat * list access)) : bool :=
  existsb (fun i => existsb (race_at l i) (seq 0 (length l))) (seq 0 (length l)).

Lemma races_race : forall D (w : wstate D), races (w_log w) = true -> race w.
Proof.
  intros D w H. unfold races in H. apply existsb_exists in H as (i & _ & H). apply existsb_exists in H as (j & _ & H). unfold race_at in H.
  destruct (nth_error (w_log w) i) as [[t xs]|] eqn:I; [|discriminate]. destruct (nth_error (w_log w) j) as [[t' ys]|] eqn:J; [|discriminate].
  apply andb_true_iff in H as [L H]. apply Nat.ltb_lt in L. apply existsb_exists in H as (x & X & H). apply existsb_exists in H as (y & Y & H).
  unfold clash in H. apply andb_true_iff in H as [H N]. apply andb_true_iff in H as [A C]. apply Nat.eqb_eq in A. apply negb_true_iff in N.
  exists i, j, t, t', xs, ys, x, y. repeat (split; [assumption|]). intros K. assert (existsb (Nat.eqb i) (x_hb y) = true); [|congruence].
  apply existsb_exists. exists i. split; auto. apply Nat.eqb_refl.
Qed.

Lemma from_start : forall D o n es outs (w : wstate D), strong o -> wrun o (wstart n) es = Some (outs, w) ->
  winv o w /\ ~ In BBad outs /\ exists es', same_steps es es' /\ crun (start n) es' = Some (outs, w_s w).
Proof. intros D o n es outs w ST R. exact (wrun_ok o ST es _ _ _ (wstart_inv o n) R). Qed.

Lemma code_strong : strong code_ords.
Proof. repeat split; auto. Qed.

(** In every history of the weak memory, with any number of threads and trees, any interleaving and any old values that
    loads may read: of two steps that use the same part of a node, not both only reading it, the first happens before the
    second, and so does every use of a node before the memory is freed.  No freed memory is used. *)
Lemma C50_no_race_proof : forall D n es outs (w : wstate D), wrun code_ords (wstart n) es = Some (outs, w) -> ~ race w /\ ~ In BBad outs.
Proof. intros D n es outs w R. destruct (from_start _ _ _ _ _ _ code_strong R) as (V & NB & _). split; auto. apply (v_race _ _ V). Qed.

(** These are the only orderings that matter: histories are free of races exactly if the load in `is_unique` acquires, the
    `fetch_sub` in `decrement` releases, and it or the load after it acquires.  The code has Acquire, Release and
    Acquire; the ordering of `increment` is irrelevant. *)
Lemma C50_exact_proof : forall o,
  (forall D n es outs (w : wstate D), wrun o (wstart n) es = Some (outs, w) -> ~ race w) <->
  acquires (o_unique o) = true /\ releases (o_dec o) = true /\ (acquires (o_dec o) = true \/ acquires (o_last o) = true).
Proof.
  intros o. split.
  - intros H.
    assert (X : forall es : list (nat * ev nat * nat), match wrun o (wstart 2) es with Some (_, w) => races (w_log w) = false | None => True end).
    { intros es. specialize (H nat 2 es). destruct (wrun o (wstart 2) es) as [[outs w]|]; auto. destruct (races (w_log w)) eqn:X; auto. exfalso. eapply H; eauto. apply races_race; auto. }
    pose proof (X then_insert) as A. pose proof (X then_drop) as B. clear X.
    clear H. destruct o as [[] [] [] []]; vm_compute in A; try discriminate A; vm_compute in B; try discriminate B; vm_compute; auto.
  - intros ST D n es outs w R. destruct (from_start _ _ _ _ _ _ ST R) as (V & _). apply (v_race _ _ V).
Qed.

(** Trees are values of their own also with weak memory (C20): what readers see, and what memory shows at the end, is as
    if cloning copied. *)
Lemma C50_values_proof : forall D n es outs (w : wstate D), wrun code_ords (wstart n) es = Some (outs, w) ->
  exists sp, srun (sstart n) (map fst es) = (outs, sp) /\ forall h, holds (c_mem (w_s w)) (nth_error (c_handles (w_s w)) h) (nth_error (s_trees sp) h).
Proof.
  intros D n es outs w R. destruct (from_start _ _ _ _ _ _ code_strong R) as (_ & _ & es' & SS & CR).
  destruct (C20_values_proof _ _ _ _ _ CR) as (sp & E & H). exists sp. split; auto. rewrite <- (srun_alike _ _ _ SS). auto.
Qed.

(** The newest value of every count is the number of owners (C21), and when all trees are gone, all nodes are freed. *)
Lemma C50_counts_proof : forall D n es outs (w : wstate D), wrun code_ords (wstart n) es = Some (outs, w) ->
  (forall a k, look (c_mem (w_s w)) a = Some k -> n_cnt k = owners (w_s w) a) /\
  ((forall t p, nth_error (c_threads (w_s w)) t = Some p -> p = PIdle) -> (forall h r, nth_error (c_handles (w_s w)) h <> Some (Some (Some r))) ->
   forall a, look (c_mem (w_s w)) a = None).
Proof.
  intros D n es outs w R. destruct (from_start _ _ _ _ _ _ code_strong R) as (_ & _ & es' & SS & CR). split.
  - apply (C21_counts_proof _ _ _ _ _ CR).
  - intros Q. apply (C21_no_leak_proof _ _ _ _ _ CR Q).
Qed.

(** If `is_unique` answers yes, whichever value it read, there is one owner at that moment. *)
Lemma C50_unique_proof : forall D n es outs (w w' : wstate D) t h fr x j b a,
  wrun code_ords (wstart n) es = Some (outs, w) -> nth_error (c_threads (w_s w)) t = Some (PEns h fr ELoad) ->
  wstep code_ords w t (VStep x) j = WNext w' b -> nth_error (c_threads (w_s w')) t = Some (PEns h fr (EPar a)) ->
  owners (w_s w) a = 1.
Proof.
  intros D n es outs w w' t h fr x j b a R T W T'. destruct (from_start _ _ _ _ _ _ code_strong R) as (V & _ & es' & SS & CR).
  pose proof (wstep_ok code_ords code_strong w t (VStep x) j V) as G. rewrite W in G. destruct G as (_ & e' & AL & E). destruct (C21_counts_proof _ _ _ _ _ CR) as [C _].
  assert (LT : t < length (c_threads (w_s w))) by (apply nth_error_Some; congruence).
  assert (e' = VStep x \/ e' = VShared) as [-> | ->] by (destruct AL as [->|[-> _]]; auto); unfold cstep in E; rewrite T in E; cbn [ens_step] in E;
    (destruct (slot (w_s w) h fr) as [a0|]; [|discriminate]); (destruct (look (c_mem (w_s w)) a0) as [nd|] eqn:L; [|discriminate]).
  - assert (EE : (if n_cnt nd =? 1 then EPar a0 else EInc (n_data nd) (n_par nd) []) = EPar a).
    { destruct (n_cnt nd =? 1); injection E as E _; rewrite <- E in T'; cbn in T'; rewrite ListFacts.replace_nth_same in T' by auto; congruence. }
    destruct (Nat.eqb_spec (n_cnt nd) 1); [|discriminate]. injection EE as <-. rewrite <- (C a0 nd L). auto.
  - injection E as E _. rewrite <- E in T'. cbn in T'. rewrite ListFacts.replace_nth_same in T' by auto. discriminate.
Qed.

(** Every history is one of the machine of Cow.v, where steps see the newest counts, except that `is_unique` may answer no
    when the answer would be yes. *)
Lemma C50_interleaving_proof : forall D n es outs (w : wstate D), wrun code_ords (wstart n) es = Some (outs, w) ->
  exists es', Forall2 (fun x y => fst (fst x) = fst y /\ (snd y = snd (fst x) \/ snd y = VShared /\ match snd (fst x) with VStep _ | VFix _ _ => True | _ => False end)) es es' /\
    crun (start n) es' = Some (outs, w_s w).
Proof.
  intros D n es outs w R. destruct (from_start _ _ _ _ _ _ code_strong R) as (_ & _ & es' & SS & CR). exists es'. auto.
Qed.
