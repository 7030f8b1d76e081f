(** Properties of copy on write. *)
From Coq Require Import List Arith Bool ZArith.
From Verif Require Import Base Cow CowSpec CowCursor CowSamples CowPropsP CowCursorP.
Import ListNotations.

(** In every history, with any number of threads and any interleaving: every count is the number of owners. *)
Theorem C21_counts : forall D n es outs (s : cstate D),
  crun (start n) es = Some (outs, s) ->
  (forall a k, look (c_mem s) a = Some k -> n_cnt k = owners s a) /\ (forall a, look (c_mem s) a = None -> owners s a = 0).
Proof. exact C21_counts_proof. Qed.
Print Assumptions C21_counts.


(** Thread 1 has copied the root of the clone and its first leaf, and not yet given back the leaf it copied; thread 0
    is reading that leaf. *)
Example C21_counts_ex : exists outs s, crun (start 2) (two_trees ++ firstn 13 read_and_insert) = Some (outs, s) /\
  nth_error (c_threads s) 0 = Some (PRead 0 [0] 0) /\ nth_error (c_threads s) 1 = Some (PEns 1 [(3, 0)] (EWork 4 [WDec 0])) /\
  owners s 0 = 2 /\ owners s 1 = 2 /\ option_map n_cnt (look (c_mem s) 0) = Some 2 /\ option_map n_cnt (look (c_mem s) 1) = Some 2.
Proof. eexists. eexists. split; [vm_compute; reflexivity|]. vm_compute. tauto. Qed.

(** Freed memory is never used, and nothing is freed twice. *)
Theorem C21_no_use_after_free : forall D n es outs (s : cstate D),
  crun (start n) es = Some (outs, s) -> ~ In BBad outs.
Proof. exact C21_no_use_after_free_proof. Qed.
Print Assumptions C21_no_use_after_free.


(** Both trees are dropped by two threads at once.  The last reference to the shared leaf is given back once. *)
Example C21_no_use_after_free_ex : exists outs s, crun (start 2) (two_trees ++ read_and_insert ++ drop_both) = Some (outs, s) /\ length outs = 43 /\
  nth_error outs 15 = Some (BData 11) /\ ~ In BBad outs.
Proof. eexists. eexists. split; [vm_compute; reflexivity|]. split; [reflexivity|]. split; [reflexivity|]. cbn. intuition discriminate. Qed.

(** If no thread is in the middle of something, every node is in some tree; so if there are no trees, or only empty
    ones, every node has been freed. *)
Theorem C21_no_leak : forall D n es outs (s : cstate D),
  crun (start n) es = Some (outs, s) -> (forall t p, nth_error (c_threads s) t = Some p -> p = PIdle) ->
  (forall a k, look (c_mem s) a = Some k -> exists h r, nth_error (c_handles s) h = Some (Some (Some r)) /\ reach (c_mem s) r a) /\
  ((forall h r, nth_error (c_handles s) h <> Some (Some (Some r))) -> forall a, look (c_mem s) a = None).
Proof. exact C21_no_leak_proof. Qed.
Print Assumptions C21_no_leak.


Example C21_no_leak_ex : exists outs s, crun (start 2) (two_trees ++ read_and_insert ++ drop_both) = Some (outs, s) /\
  c_threads s = [PIdle; PIdle] /\ c_handles s = [None; None] /\ c_mem s = [None; None; None; None; None].
Proof. eexists. eexists. split; [vm_compute; reflexivity|]. vm_compute. tauto. Qed.

(** A thread that is dropping nodes never has to wait, and comes to an end. *)
Theorem C21_drop_ends : forall D n es outs (s : cstate D) t ws,
  crun (start n) es = Some (outs, s) -> nth_error (c_threads s) t = Some (PDrop ws) ->
  exists j outs' s', crun s (repeat (t, VStep 0) j) = Some (outs', s') /\ nth_error (c_threads s') t = Some PIdle /\ c_handles s' = c_handles s.
Proof. exact C21_drop_ends_proof. Qed.
Print Assumptions C21_drop_ends.


Example C21_drop_ends_ex : exists outs s, crun (start 2) (two_trees ++ read_and_insert ++ firstn 5 drop_both) = Some (outs, s) /\
  nth_error (c_threads s) 1 = Some (PDrop [WDec 3]) /\
  exists outs' s', crun s (repeat (1, VStep 0) 6) = Some (outs', s') /\ nth_error (c_threads s') 1 = Some PIdle /\ look (c_mem s') 3 = None /\ look (c_mem s') 4 = None.
Proof. eexists. eexists. split; [vm_compute; reflexivity|]. split; [reflexivity|]. eexists. eexists. split; [vm_compute; reflexivity|]. vm_compute. tauto. Qed.

(** In every history, with any number of threads and any interleaving, trees behave as values: what readers see, and
    what memory shows at the end, is as if every tree were a value of its own and cloning copied it. *)
Theorem C20_values : forall D n es outs (s : cstate D),
  crun (start n) es = Some (outs, s) ->
  exists sp, srun (sstart n) es = (outs, sp) /\ forall h, holds (c_mem s) (nth_error (c_handles s) h) (nth_error (s_trees sp) h).
Proof. exact C20_values_proof. Qed.
Print Assumptions C20_values.


(** Thread 0 reads 11 in the first leaf of the original while thread 1 changes its copy of that leaf to 99. *)
Example C20_values_ex : exists outs s, crun (start 2) (two_trees ++ read_and_insert ++ [(1, VWrite TAt 99)]) = Some (outs, s) /\ nth_error outs 15 = Some (BData 11) /\
  exists sp, srun (sstart 2) (two_trees ++ read_and_insert ++ [(1, VWrite TAt 99)]) = (outs, sp) /\
  s_trees sp = [Some (Some (Rose 13 [Rose 11 []; Rose 12 []])); Some (Some (Rose 13 [Rose 99 []; Rose 12 []]))].
Proof. eexists. eexists. split; [vm_compute; reflexivity|]. split; [reflexivity|]. eexists. split; vm_compute; reflexivity. Qed.

(** So one step of a thread, whatever it does, leaves every other tree as it was, unless it drops that tree or puts
    a first node into it. *)
Theorem C20_others : forall D n es outs (s : cstate D) t p e s' o h a r,
  crun (start n) es = Some (outs, s) -> nth_error (c_threads s) t = Some p -> cstep s t e = Next s' o ->
  writes h p = false -> e <> VDrop h ->
  nth_error (c_handles s) h = Some (Some (Some a)) -> shows (c_mem s) a r ->
  exists a', nth_error (c_handles s') h = Some (Some (Some a')) /\ shows (c_mem s') a' r.
Proof. exact C20_others_proof. Qed.
Print Assumptions C20_others.


(** The step that writes 99. *)
Example C20_others_ex : exists outs s p s', crun (start 2) (two_trees ++ read_and_insert) = Some (outs, s) /\ nth_error (c_threads s) 1 = Some p /\
  cstep s 1 (VWrite TAt 99) = Next s' None /\ writes 0 p = false /\
  nth_error (c_handles s) 0 = Some (Some (Some 2)) /\ view 3 (c_mem s) 2 = Some (Rose 13 [Rose 11 []; Rose 12 []]) /\
  view 3 (c_mem s') 2 = Some (Rose 13 [Rose 11 []; Rose 12 []]) /\ view 3 (c_mem s') 3 = Some (Rose 13 [Rose 99 []; Rose 12 []]).
Proof. eexists. eexists. eexists. eexists. split; [vm_compute; reflexivity|]. split; [vm_compute; reflexivity|]. split; [vm_compute; reflexivity|]. vm_compute. repeat split. Qed.

(** No two threads are ever about to use the same field of a node other than its count, one of them writing it or
    freeing the node. *)
Theorem C20_no_race : forall D n es outs (s : cstate D) t t' e e' a,
  crun (start n) es = Some (outs, s) -> t <> t' -> cstep s t e <> Blocked -> cstep s t' e' <> Blocked ->
  In a (wr s t e) -> ~ In a (touched s t' e').
Proof. exact C20_no_race_proof. Qed.
Print Assumptions C20_no_race.


(** Thread 1 is about to write the root it has copied, thread 0 to read the root that was copied. *)
Example C20_no_race_ex : exists outs s, crun (start 2) (two_trees ++ firstn 6 read_and_insert ++ [(1, VStep 0); (1, VStep 0)]) = Some (outs, s) /\
  wr s 1 (VStep 0) = [3] /\ cstep s 1 (VStep 0) <> Blocked /\ touched s 0 (VDown 0) = [2; 0] /\ cstep s 0 (VDown 0) <> Blocked.
Proof. eexists. eexists. split; [vm_compute; reflexivity|]. split; [reflexivity|]. split; [discriminate|]. split; [reflexivity|discriminate]. Qed.

(** On a tree with copy on write, `cursor_to` gives the path to the node with the run if every node on that path has
    the node before it as its stored parent.  Missing: all other trees, for which it is false. *)
Theorem C13_cow_partial : forall h (m : heap ranges) a target p f,
  path_to h m a target = Some p -> linked h m a target -> h < f -> cursor_to f m a h target = CPath p.
Proof. exact C13_cow_partial_proof. Qed.
Print Assumptions C13_cow_partial.


(** In the clone whose start was changed, the run at 2 is in a node of its own. *)
Example C13_cow_partial_ex : exists outs s, crun (start 1) (two_leaves ++ insert_left) = Some (outs, s) /\
  path_to 1 (c_mem s) 3 2 = Some [1] /\ linked 1 (c_mem s) 3 2 /\ cursor_to 2 (c_mem s) 3 1 2 = CPath [1].
Proof. eexists. eexists. split; [vm_compute; reflexivity|]. vm_compute. tauto. Qed.

(** After a clone and an insertion at the end of the clone, `cursor_to(0)` on the clone never returns: it calls itself
    with the node it is at. *)
Theorem C13_cow_loop_refuted : exists outs s, crun (start 1) (two_leaves ++ insert_right) = Some (outs, s) /\
  nth_error (c_handles s) 1 = Some (Some (Some 3)) /\ path_to 1 (c_mem s) 3 0 = Some [0] /\ forall f, cursor_to f (c_mem s) 3 1 0 = CMore.
Proof. exact C13_cow_loop_refuted_proof. Qed.
Print Assumptions C13_cow_loop_refuted.


(** In other clones it returns a path that is not in the tree. *)
Theorem C13_cow_wrong_refuted : exists outs s, crun (start 1) (two_leaves ++ insert_left) = Some (outs, s) /\
  nth_error (c_handles s) 1 = Some (Some (Some 3)) /\ path_to 1 (c_mem s) 3 4 = Some [2] /\ cursor_to 10 (c_mem s) 3 1 4 = CPath [2; 0].
Proof. exact C13_cow_wrong_refuted_proof. Qed.
Print Assumptions C13_cow_wrong_refuted.


(** Comparing the stored parent with the node at hand is not enough, either: a new node may have the address of the
    freed parent, and then the index stored with it is wrong. *)
Theorem C13_cow_reuse_refuted : exists outs s, crun (start 1) (two_leaves ++ insert_left ++ reuse) = Some (outs, s) /\
  nth_error (c_handles s) 2 = Some (Some (Some 2)) /\ path_to 1 (c_mem s) 2 5 = Some [2] /\ cursor_to 10 (c_mem s) 2 1 5 = CPath [1].
Proof. exact C13_cow_reuse_refuted_proof. Qed.
Print Assumptions C13_cow_reuse_refuted.

