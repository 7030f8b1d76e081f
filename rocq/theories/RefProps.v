(** Properties of the state that a tree shares with the references into it. *)
From Coq Require Import List Arith Bool.
From Verif Require Import Base Recycle RefState RefPropsP.
Import ListNotations.

(** While a borrow is alive the nodes have not been freed, no insertion is running, and none can start: it
    panics and changes nothing.  The nodes are freed at most once, not before the tree is dropped and every
    borrow is gone; and if no call on a reference has panicked, exactly then. *)
Theorem C23_borrow_excludes : forall CMAX k os outs w,
  nrun CMAX (start k) os = Some (outs, w) -> length os + 2 <= CMAX -> ~ In OUB outs ->
  (0 < live_borrows w -> w_nodes_freed w = 0 /\ w_alloc_freed w = 0 /\ (w_tree w = TIdle \/ w_tree w = TGone) /\
     (w_tree w = TIdle -> nstep CMAX w NInsBegin = Some (OPanic PBorrow, w))) /\
  w_nodes_freed w <= 1 /\
  (w_nodes_freed w = 1 -> (w_tree w = TDropping \/ w_tree w = TGone) /\ open_borrows w = 0) /\
  (ref_panics os outs = 0 -> (w_tree w = TDropping \/ w_tree w = TGone) -> open_borrows w = 0 -> w_nodes_freed w = 1).
Proof. exact C23_borrow_excludes_proof. Qed.
Print Assumptions C23_borrow_excludes.


(** A reference is made, the tree changes, two borrows, one of them cloned, an insert that is refused, the tree is
    dropped under them. *)
Definition h_borrows : list call :=
  [NMake 1; NInsBegin; NIns (ISuspend 1); NIns (INew 0); NIns (IUpdate 2); NInsEnd; NMake 0; NBorrow 0; NBorrow 1; NBClone 0; NInsBegin;
   NBDrop 1; NDropBegin; NBDrop 0].
Example C23_borrow_excludes_ex : exists outs w, nrun 100 (start 3) h_borrows = Some (outs, w) /\ length h_borrows + 2 <= 100 /\ ~ In OUB outs /\
  live_borrows w = 1 /\ w_tree w = TGone /\ ref_panics h_borrows outs = 0 /\ In (OPanic PBorrow) outs.
Proof.
  eexists. eexists. split; [vm_compute; reflexivity|]. split; [apply Nat.leb_le; vm_compute; reflexivity|].
  split; [cbv [In]; intuition discriminate|]. vm_compute. intuition.
Qed.

(** If every clone of a reference is made while the tree is alive, there is no undefined behaviour, and the
    shared allocation is freed at most once, not before the tree, the nodes and every reference are gone; and
    if no call on a reference has panicked, exactly then. *)
Theorem C24_freed_once_partial : forall CMAX k os outs w,
  nrun CMAX (start k) os = Some (outs, w) -> length os + 2 <= CMAX -> clones_in_time CMAX (start k) os = true ->
  ~ In OUB outs /\ w_alloc_freed w <= 1 /\
  (w_alloc_freed w = 1 -> w_tree w = TGone /\ w_nodes_freed w = 1 /\ open_borrows w = 0 /\ kept_refs w = 0) /\
  (ref_panics os outs = 0 -> w_tree w = TGone -> open_borrows w = 0 -> kept_refs w = 0 -> w_alloc_freed w = 1).
Proof. exact C24_freed_once_partial_proof. Qed.
Print Assumptions C24_freed_once_partial.


Definition h_refs : list call :=
  h_borrows ++ [NBDrop 2; NDrop 0; NDrop 1].
Example C24_freed_once_partial_ex : exists outs w, nrun 100 (start 3) h_refs = Some (outs, w) /\ length h_refs + 2 <= 100 /\
  clones_in_time 100 (start 3) h_refs = true /\ ref_panics h_refs outs = 0 /\ w_alloc_freed w = 1 /\ w_nodes_freed w = 1.
Proof. eexists. eexists. split; [vm_compute; reflexivity|]. split; [apply Nat.leb_le; vm_compute; reflexivity|]. vm_compute. auto. Qed.

(** `can_borrow` never panics.  `clone` and `is_valid` panic exactly when the tree has been dropped but its
    nodes are still there because of a borrow, and this reference still has an id. *)
Theorem C25_panics_exactly_partial : forall CMAX k os outs w r,
  nrun CMAX (start k) os = Some (outs, w) -> length os + 3 <= CMAX -> ~ In OUB outs ->
  ref_var w r <> None -> w_alloc_freed w = 0 ->
  let panics o := exists y w', nstep CMAX w o = Some (OPanic y, w') in
  let bad := w_tree w = TGone /\ w_nodes_freed w = 0 /\ exists i, ref_var w r = Some (Some i) in
  ~ panics (NCanBorrow r) /\ (panics (NIsValid r) <-> bad) /\ (panics (NClone r) <-> bad).
Proof. exact C25_panics_exactly_partial_proof. Qed.
Print Assumptions C25_panics_exactly_partial.


(** Once in a state where they panic, once in one where they do not. *)
Example C25_panics_exactly_partial_ex :
  (exists outs w, nrun 100 (start 3) h_borrows = Some (outs, w) /\ ~ In OUB outs /\ ref_var w 0 = Some (Some 0) /\ w_alloc_freed w = 0 /\
    w_tree w = TGone /\ w_nodes_freed w = 0) /\
  (exists outs w, nrun 100 (start 3) [NMake 2; NClone 0; NDrop 0] = Some (outs, w) /\ ~ In OUB outs /\ ref_var w 1 = Some (Some 0) /\ w_alloc_freed w = 0 /\
    w_tree w = TIdle).
Proof.
  split; eexists; eexists; (split; [vm_compute; reflexivity|]); (split; [cbv [In]; intuition discriminate|]); vm_compute; auto.
Qed.

(** While the tree is alive, borrowing through a reference succeeds unless an insertion is running or has
    panicked; it never panics, and `can_borrow` tells which. *)
Theorem C25_borrow_while_alive : forall CMAX k os outs w r,
  nrun CMAX (start k) os = Some (outs, w) -> length os + 3 <= CMAX -> ~ In OUB outs ->
  ref_var w r <> None -> w_tree w = TIdle \/ w_tree w = TInserting ->
  ((exists w', nstep CMAX w (NBorrow r) = Some (OBool true, w')) /\ nstep CMAX w (NCanBorrow r) = Some (OBool true, w)) \/
  (nstep CMAX w (NBorrow r) = Some (OBool false, w) /\ nstep CMAX w (NCanBorrow r) = Some (OBool false, w)).
Proof. exact C25_borrow_while_alive_proof. Qed.
Print Assumptions C25_borrow_while_alive.


Example C25_borrow_while_alive_ex : exists outs w, nrun 100 (start 3) [NMake 2; NClone 0; NInsBegin; NIns (ISuspend 2)] = Some (outs, w) /\ ~ In OUB outs /\
  ref_var w 1 <> None /\ w_tree w = TInserting.
Proof. eexists. eexists. split; [vm_compute; reflexivity|]. split; [cbv [In]; intuition discriminate|]. vm_compute. split; [discriminate|auto]. Qed.

(** The promise at slice_ref.rs 627-629: once `is_valid` has returned false for a reference, it returns false
    whenever it is asked again. *)
Theorem C25_invalid_for_good : forall CMAX k os outs w r w1 os' outs' w2 b w3,
  nrun CMAX (start k) os = Some (outs, w) -> ~ In OUB outs -> length os + length os' + 4 <= CMAX ->
  nstep CMAX w (NIsValid r) = Some (OBool false, w1) ->
  nrun CMAX w1 os' = Some (outs', w2) -> ~ In OUB outs' ->
  nstep CMAX w2 (NIsValid r) = Some (OBool b, w3) -> b = false.
Proof. exact C25_invalid_for_good_proof. Qed.
Print Assumptions C25_invalid_for_good.


Example C25_invalid_for_good_ex : exists outs w, nrun 100 (start 3) [NMake 2; NMake 1; NDropBegin; NIsValid 1; NDropEnd; NDrop 0] = Some (outs, w) /\
  ~ In OUB outs /\ nth_error outs 3 = Some (OBool false) /\ nstep 100 w (NIsValid 1) = Some (OBool false, w).
Proof. eexists. eexists. split; [vm_compute; reflexivity|]. split; [cbv [In]; intuition discriminate|]. vm_compute. auto. Qed.

(** However many references are made, cloned and dropped, and in whatever order: while the tree is alive the
    table has no more slots than the tree has runs; when it is dropped, none.  (This is weaker than the claim:
    slots of references that are gone are not given back before the tree is.) *)
Theorem C28_slots_bounded_partial : forall CMAX k os outs w,
  nrun CMAX (start k) os = Some (outs, w) -> length os + 2 <= CMAX -> ~ In OUB outs ->
  (w_tree w <> TGone -> length (rv_vals (s_refs (w_store w))) <= length (w_keys w)) /\
  (w_tree w = TGone -> s_refs (w_store w) = rv_new).
Proof. exact C28_slots_bounded_partial_proof. Qed.
Print Assumptions C28_slots_bounded_partial.


Example C28_slots_bounded_partial_ex : exists outs w,
  nrun 100 (start 2) [NMake 0; NDrop 0; NMake 0; NDrop 1; NMake 0; NClone 2; NDrop 2; NMake 1; NDrop 4] = Some (outs, w) /\ ~ In OUB outs /\
  w_tree w = TIdle /\ length (rv_vals (s_refs (w_store w))) = 2.
Proof. eexists. eexists. split; [vm_compute; reflexivity|]. split; [cbv [In]; intuition discriminate|]. vm_compute. auto. Qed.

(** Two references, a borrow through the first, the tree is dropped, an attempt to borrow through the second
    panics, and then the borrow is dropped.  The tree is gone and nobody borrows from it any more, but its nodes
    are not freed; nor are they after everything else is dropped. *)
Theorem C23_dropped_once_refuted : exists os outs w,
  nrun 100 (start 2) os = Some (outs, w) /\ ~ In OUB outs /\
  w_tree w = TGone /\ open_borrows w = 0 /\ kept_refs w = 0 /\ w_nodes_freed w = 0.
Proof. exact C23_dropped_once_refuted_proof. Qed.
Print Assumptions C23_dropped_once_refuted.


(** A reference is cloned after the tree is gone: the second drop reads the shared allocation after it was
    freed. *)
Theorem C24_freed_once_refuted : exists os outs w, nrun 100 (start 1) os = Some (outs, w) /\ In OUB outs /\ w_alloc_freed w = 1.
Proof. exact C24_freed_once_refuted_proof. Qed.
Print Assumptions C24_freed_once_refuted.


(** The tree is dropped while a borrow is alive: then [is_valid], or [clone], of another reference panics.  If it
    was [clone], the shared allocation is never freed. *)
Theorem C25_never_panics_refuted :
  (exists os outs w y, nrun 100 (start 2) (os ++ [NIsValid 1]) = Some (outs ++ [OPanic y], w) /\ ~ In OUB outs) /\
  (exists os outs w y, nrun 100 (start 2) (os ++ [NClone 1]) = Some (outs ++ [OPanic y], w) /\ ~ In OUB outs) /\
  (exists os outs w, nrun 100 (start 2) os = Some (outs, w) /\ ~ In OUB outs /\ clones_in_time 100 (start 2) os = false /\
    w_tree w = TGone /\ open_borrows w = 0 /\ kept_refs w = 0 /\ w_nodes_freed w = 1 /\ w_alloc_freed w = 0).
Proof. exact C25_never_panics_refuted_proof. Qed.
Print Assumptions C25_never_panics_refuted.


(** Making a reference and dropping it leaves a slot behind; and the count in that slot grows with each round, so
    that with counts up to any [CMAX] the round after [CMAX - 1] of them panics, although there never was more than
    one reference. *)
Theorem C28_slots_reused_refuted :
  (exists outs w, nrun 100 (start 1) [NMake 0; NDrop 0] = Some (outs, w) /\ kept_refs w = 0 /\
    length (rv_vals (s_refs (w_store (start 1)))) < length (rv_vals (s_refs (w_store w)))) /\
  (forall CMAX, 2 <= CMAX -> exists os outs w w' y, (forall o, In o os -> o = NMake 0 \/ exists r, o = NDrop r) /\
    nrun CMAX (start 1) os = Some (outs, w) /\ ~ In OUB outs /\ kept_refs w = 0 /\ nstep CMAX w (NMake 0) = Some (OPanic y, w')).
Proof. exact C28_slots_reused_refuted_proof. Qed.
Print Assumptions C28_slots_reused_refuted.

