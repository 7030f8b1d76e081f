(** Properties of can_borrow. *)
From Coq Require Import List Arith Bool Lia.
From Verif Require Import Base Recycle RefState CanBorrowPropsP.
Import ListNotations.

(** `can_borrow` returns false exactly while an insertion runs, from the first insertion that panicked until the tree
    is dropped, and when the nodes are gone.  So it returns true while the tree has been dropped but a borrow keeps its
    nodes, where the documentation promises false. *)
Theorem C53_can_borrow_exact_partial : forall CMAX k os outs w r,
  nrun CMAX (start k) os = Some (outs, w) -> length os + 2 <= CMAX -> ~ In OUB outs ->
  ref_var w r <> None -> w_alloc_freed w = 0 ->
  exists b, nstep CMAX w (NCanBorrow r) = Some (OBool b, w) /\
    (b = false <-> w_tree w = TInserting \/ (w_tree w = TIdle /\ 0 < insert_panics os outs) \/ w_nodes_freed w = 1).
Proof. exact C53_can_borrow_exact_partial_proof. Qed.
Print Assumptions C53_can_borrow_exact_partial.


(** A tree with a borrow, a tree whose insertion panicked, a dropped tree whose nodes a borrow keeps, and one without. *)
Example C53_can_borrow_exact_partial_ex :
  (exists outs w, nrun 100 (start 3) [NMake 1; NMake 2; NBorrow 0] = Some (outs, w) /\ ~ In OUB outs /\ ref_var w 1 <> None /\
    w_alloc_freed w = 0 /\ w_tree w = TIdle /\ insert_panics [NMake 1; NMake 2; NBorrow 0] outs = 0 /\ w_nodes_freed w = 0) /\
  (exists outs w, nrun 100 (start 3) [NMake 1; NInsBegin; NIns (ISuspend 1); NInsPanic; NClone 0] = Some (outs, w) /\ ~ In OUB outs /\ ref_var w 1 <> None /\
    w_alloc_freed w = 0 /\ w_tree w = TIdle /\ insert_panics [NMake 1; NInsBegin; NIns (ISuspend 1); NInsPanic; NClone 0] outs = 1) /\
  (exists outs w, nrun 100 (start 3) [NMake 1; NMake 2; NBorrow 0; NDropBegin] = Some (outs, w) /\ ~ In OUB outs /\ ref_var w 1 <> None /\
    w_alloc_freed w = 0 /\ w_tree w = TGone /\ w_nodes_freed w = 0) /\
  (exists outs w, nrun 100 (start 3) [NMake 1; NMake 2; NDropBegin; NDropEnd] = Some (outs, w) /\ ~ In OUB outs /\ ref_var w 1 <> None /\
    w_alloc_freed w = 0 /\ w_tree w = TGone /\ w_nodes_freed w = 1).
Proof.
  repeat split; do 2 eexists; (split; [vm_compute; reflexivity|]); (split; [cbv [In]; intuition discriminate|]);
    (split; [vm_compute; discriminate|]); vm_compute; auto.
Qed.

(** What the two checks are for: if `can_borrow` and then `is_valid` return true, borrowing through the reference
    succeeds, and so do `range` and the like. *)
Theorem C53_checks_suffice : forall CMAX k os outs w r w1,
  nrun CMAX (start k) os = Some (outs, w) -> length os + 3 <= CMAX -> ~ In OUB outs ->
  nstep CMAX w (NCanBorrow r) = Some (OBool true, w) -> nstep CMAX w (NIsValid r) = Some (OBool true, w1) ->
  (exists w2, nstep CMAX w1 (NBorrow r) = Some (OBool true, w2) /\ live_borrows w2 = S (live_borrows w)) /\
  (exists w2, nstep CMAX w1 (NRange r) = Some (OBool true, w2) /\ live_borrows w2 = live_borrows w).
Proof. exact C53_checks_suffice_proof. Qed.
Print Assumptions C53_checks_suffice.


Example C53_checks_suffice_ex : exists outs w w1,
  nrun 100 (start 3) [NMake 1; NMake 2; NBorrow 0; NInsBegin; NBDrop 0; NInsBegin; NIns (INew 0); NInsEnd; NBorrow 1] = Some (outs, w) /\ ~ In OUB outs /\
  nstep 100 w (NCanBorrow 0) = Some (OBool true, w) /\ nstep 100 w (NIsValid 0) = Some (OBool true, w1) /\ live_borrows w = 1.
Proof.
  do 3 eexists. split; [vm_compute; reflexivity|]. split; [cbv [In]; intuition discriminate|]. repeat split; vm_compute; reflexivity.
Qed.

(** The documentation of `can_borrow`: false if the tree has been dropped.  Two references, a borrow through the first,
    the tree is dropped: for the second `can_borrow` returns true, and then borrowing through it panics, as does
    `is_valid`. *)
Theorem C53_documented_refuted : exists os outs w w1 w2,
  nrun 100 (start 2) os = Some (outs, w) /\ ~ In OUB outs /\ ref_panics os outs = 0 /\ w_tree w = TGone /\
  nstep 100 w (NCanBorrow 1) = Some (OBool true, w) /\
  nstep 100 w (NBorrow 1) = Some (OPanic PAssert, w1) /\ nstep 100 w (NIsValid 1) = Some (OPanic PAssert, w2).
Proof. exact C53_documented_refuted_proof. Qed.
Print Assumptions C53_documented_refuted.
