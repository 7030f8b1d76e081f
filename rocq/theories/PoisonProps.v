(** Properties of a tree with references whose insertion panicked. *)
From Coq Require Import List Arith Bool Lia.
From Verif Require Import Base Recycle RefState PoisonPropsP.
Import ListNotations.

(** An insertion panics, in user code or in its own work on the table of references.  Whatever is done then, short of
    dropping the tree: every insertion panics, and every attempt to borrow through a reference fails, although
    [is_valid] returns true for every reference.  The tree can be dropped, which frees the nodes, once; and the
    shared allocation, if there is no reference left and none was lost by a panic. *)
Theorem C47_locked_after_panic : forall CMAX k os outs w o out w1 os' outs' w2,
  nrun CMAX (start k) os = Some (outs, w) -> ~ In OUB outs ->
  w_tree w = TInserting -> nstep CMAX w o = Some (out, w1) -> o = NInsPanic \/ (exists i y, o = NIns i /\ out = OPanic y) ->
  nrun CMAX w1 os' = Some (outs', w2) -> ~ In OUB outs' -> ~ In NDropBegin os' -> length os + length os' + 4 <= CMAX ->
  w_tree w2 = TIdle /\ w_nodes_freed w2 = 0 /\ live_borrows w2 = 0 /\
  nstep CMAX w2 NInsBegin = Some (OPanic PUnreachable, w2) /\
  (forall r, ref_var w2 r <> None ->
     nstep CMAX w2 (NIsValid r) = Some (OBool true, w2) /\ nstep CMAX w2 (NCanBorrow r) = Some (OBool false, w2) /\
     nstep CMAX w2 (NBorrow r) = Some (OBool false, w2) /\ nstep CMAX w2 (NRange r) = Some (OBool false, w2)) /\
  (exists w3 w4, nstep CMAX w2 NDropBegin = Some (OUnit, w3) /\ w_nodes_freed w3 = 1 /\
     nstep CMAX w3 NDropEnd = Some (OUnit, w4) /\ w_nodes_freed w4 = 1 /\ (kept_refs w4 = 0 -> ref_panics (os ++ o :: os') (outs ++ out :: outs') = 0 ->
       clones_in_time CMAX (start k) (os ++ o :: os') = true -> w_alloc_freed w4 = 1)).
Proof. exact C47_locked_after_panic_proof. Qed.
Print Assumptions C47_locked_after_panic.


(** A reference is made, an insertion moves its key and then panics with the handle suspended; after that another
    reference is made, one is dropped, and an insertion is tried. *)
Example C47_locked_after_panic_ex : exists outs w w1 outs' w2,
  nrun 100 (start 3) [NMake 1; NInsBegin; NIns (INew 0); NIns (ISuspend 2)] = Some (outs, w) /\ ~ In OUB outs /\ w_tree w = TInserting /\
  nstep 100 w NInsPanic = Some (OUnit, w1) /\
  nrun 100 w1 [NMake 3; NClone 0; NDrop 1; NInsBegin; NBorrow 2] = Some (outs', w2) /\ ~ In OUB outs' /\
  ref_var w2 0 <> None /\ ref_var w2 2 <> None /\ In (OPanic PUnreachable) outs'.
Proof.
  do 5 eexists. split; [vm_compute; reflexivity|]. split; [cbv [In]; intuition discriminate|]. split; [reflexivity|].
  split; [vm_compute; reflexivity|]. split; [vm_compute; reflexivity|]. split; [cbv [In]; intuition discriminate|].
  split; [vm_compute; discriminate|]. split; [vm_compute; discriminate|]. cbv [In]. auto.
Qed.

(** If no insertion has panicked, and no call on a reference, then with all borrows gone the next insertion starts
    and references can be borrowed from. *)
Theorem C47_locked_only_by_panic : forall CMAX k os outs w,
  nrun CMAX (start k) os = Some (outs, w) -> ~ In OUB outs -> length os + 2 <= CMAX ->
  insert_panics os outs = 0 -> ref_panics os outs = 0 -> w_tree w = TIdle -> open_borrows w = 0 ->
  (exists w', nstep CMAX w NInsBegin = Some (OUnit, w') /\ w_tree w' = TInserting) /\
  (forall r, ref_var w r <> None -> nstep CMAX w (NCanBorrow r) = Some (OBool true, w)).
Proof. exact C47_locked_only_by_panic_proof. Qed.
Print Assumptions C47_locked_only_by_panic.


(** Insertions that return, one that is refused because of a borrow, and the borrow dropped. *)
Example C47_locked_only_by_panic_ex : exists outs w,
  nrun 100 (start 2) [NMake 1; NInsBegin; NIns (ISuspend 1); NIns (INew 0); NIns (IUpdate 2); NInsEnd; NBorrow 0; NInsBegin; NBDrop 0] = Some (outs, w) /\
  ~ In OUB outs /\
  insert_panics [NMake 1; NInsBegin; NIns (ISuspend 1); NIns (INew 0); NIns (IUpdate 2); NInsEnd; NBorrow 0; NInsBegin; NBDrop 0] outs = 0 /\
  ref_panics [NMake 1; NInsBegin; NIns (ISuspend 1); NIns (INew 0); NIns (IUpdate 2); NInsEnd; NBorrow 0; NInsBegin; NBDrop 0] outs = 0 /\
  w_tree w = TIdle /\ open_borrows w = 0 /\ ref_var w 0 <> None /\ In (OPanic PBorrow) outs.
Proof.
  do 2 eexists. split; [vm_compute; reflexivity|]. split; [cbv [In]; intuition discriminate|].
  split; [vm_compute; reflexivity|]. split; [vm_compute; reflexivity|]. split; [reflexivity|]. split; [reflexivity|].
  split; [vm_compute; discriminate|]. cbv [In]. auto 10.
Qed.
