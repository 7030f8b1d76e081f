(** Several trees with any index type. *)
From Coq Require Import List ZArith Bool Arith Permutation.
From Verif Require Import Base Index Slice Tree Insert Hist Order Wild WildCalls LTree LInsert LRef WildMem Samples WildR WildSamples WildMemSamples WildMemPropsP.
Import ListNotations.

(** Whatever the index operations do, in every call anew: trees that are made, cloned, inserted into and dropped in any
    order follow no dangling pointer.  Every node that was ever allocated either has been freed, once, or belongs to one
    tree that is still there. *)
Theorem C64_any_index_trees_safe : forall (I V : Type) (M : nat) (nop : bool) (cs : list (@mem_op I V)),
  Forall any_op cs -> 1 <= M ->
  run_mem M nop mem_new cs <> UB /\
  forall m, run_mem M nop mem_new cs = Ok m ->
    NoDup (m_freed m) /\
    (forall a, a < m_next m <-> In a (m_freed m) \/ exists j t, tree_is m j t /\ has_node t a) /\
    (forall a j t, tree_is m j t -> has_node t a -> ~ In a (m_freed m)) /\
    (forall a j t j' t', tree_is m j t -> has_node t a -> tree_is m j' t' -> has_node t' a -> j = j').
Proof. exact C64_any_index_trees_safe_proof. Qed.
Print Assumptions C64_any_index_trees_safe.


(** Three trees with nodes of one or two keys; the second and the third come from clones of the first, which is gone. *)
Example C64_any_index_trees_safe_ex : Forall any_op moody_trees /\
  exists m t1 t2, run_mem 1 false mem_new moody_trees = Ok m /\ m_trees m = [None; Some t1; Some t2] /\ m_next m = 34 /\
    rle_slices (pt_rle t1) = [3; 2; 8; 12; 99; 9; 11; 10; 9; 7; 2; 5; 6; 4; 2; 1] /\
    rle_slices (pt_rle t2) = [3; 2; 8; 12; 9; 11; 10; 9; 7; 2; 5; 6; 4; 2; 1] /\
    m_freed m = [6; 2; 0; 1; 17; 16; 20; 14; 5; 4; 3] /\ m_dropped m = [9; 6; 2; 3; 8; 12; 9; 2; 11; 10; 7; 5; 2; 4; 1] /\
    has_node t1 13 /\ has_node t2 32 /\ ~ has_node t2 13 /\ ~ has_node t1 0.
Proof.
  split.
  - repeat (constructor; [first [exact Logic.I|apply mad_any|apply wrapping_any]|]). constructor.
  - do 3 eexists. repeat (split; [vm_compute; reflexivity|]). unfold has_node. vm_compute. repeat split; try discriminate; intros H; apply H; reflexivity.
Qed.

(** A call leaves every other tree as it is and writes to none of its nodes.  A clone has the slices of the original,
    an insertion frees nothing, and dropping a tree frees exactly its nodes and drops exactly its slices, each once. *)
Theorem C64_any_index_trees_apart : forall (I V : Type) (M : nat) (nop : bool) (cs : list (@mem_op I V)) (c : @mem_op I V) m m',
  Forall any_op cs -> any_op c -> 1 <= M ->
  run_mem M nop mem_new cs = Ok m -> do_mem_op M nop m c = Ok m' ->
  (forall j t, changed c <> Some j -> tree_is m j t -> tree_is m' j t /\ forall a, has_node t a -> ~ In a (m_writes m')) /\
  (forall j, c = AClone j -> forall t, tree_is m j t -> exists t', tree_is m' (length (m_trees m)) t' /\ rle_slices (pt_rle t') = rle_slices (pt_rle t)) /\
  (forall j, c = ADrop j -> forall t, tree_is m j t -> nth_error (m_trees m') j = Some None /\
     exists f d, m_freed m' = m_freed m ++ f /\ m_dropped m' = m_dropped m ++ d /\ NoDup f /\ (forall a, In a f <-> has_node t a) /\ Permutation d (rle_slices (pt_rle t))) /\
  ((forall j, c <> ADrop j) -> m_freed m' = m_freed m /\ m_dropped m' = m_dropped m).
Proof. exact C64_any_index_trees_apart_proof. Qed.
Print Assumptions C64_any_index_trees_apart.


(** A clone of the second of these trees, and its destructor; the third stays as it is. *)
Example C64_any_index_trees_apart_ex : exists m m1 m2 t1 t2 t3, run_mem 1 false mem_new moody_trees = Ok m /\ tree_is m 1 t1 /\ tree_is m 2 t2 /\
  do_mem_op 1 false m (AClone 1) = Ok m1 /\ tree_is m1 3 t3 /\ rle_slices (pt_rle t3) = [3; 2; 8; 12; 99; 9; 11; 10; 9; 7; 2; 5; 6; 4; 2; 1] /\
  do_mem_op 1 false m1 (ADrop 1) = Ok m2 /\ tree_is m2 2 t2 /\ tree_is m2 3 t3 /\ nth_error (m_trees m2) 1 = Some None /\ length (m_freed m2) = 23.
Proof. do 6 eexists. repeat (split; [vm_compute; reflexivity|]). vm_compute. reflexivity. Qed.

(** In every tree, also one that was made by `clone`, following the stored pointers from a key up to the root gives the
    path of that key; borrowing it gives its slice, and computing its range follows no dangling pointer. *)
Theorem C64_any_index_trees_climb : forall (I V : Type) (M : nat) (nop : bool) (cs : list (@mem_op I V)) m j t root i p k,
  Forall any_op cs -> 1 <= M -> run_mem M nop mem_new cs = Ok m -> tree_is m j t ->
  pt_rle t = Some root -> nth_error (handles (r_node root) []) i = Some (p, k) ->
  exists a s, handle_cursor false t (a, k) = Ok p /\ handle_value t (a, k) = Ok s /\ nth_error (rle_slices (pt_rle t)) i = Some s /\
    forall X, index_any X -> handle_range X t (a, k) <> UB.
Proof. exact C64_any_index_trees_climb_proof. Qed.
Print Assumptions C64_any_index_trees_climb.


(** Key number 6 of the clone: the path is found again from its node, which is not one of the original. *)
Example C64_any_index_trees_climb_ex : exists m t root, run_mem 1 false mem_new moody_trees = Ok m /\ tree_is m 2 t /\ pt_rle t = Some root /\
  nth_error (handles (r_node root) []) 6 = Some ([1; 0], 1) /\ handle_cursor false t (25, 1) = Ok [1; 0] /\ handle_value t (25, 1) = Ok 10.
Proof. do 3 eexists. repeat (split; [vm_compute; reflexivity|]). vm_compute. reflexivity. Qed.
