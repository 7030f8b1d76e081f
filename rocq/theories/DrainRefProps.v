(** Properties of the destructive iterator of a tree with references. *)
From Coq Require Import List Arith Bool Lia.
From Verif Require Import Base Recycle RefState PoisonPropsP DrainRef DrainRefPropsP.
Import ListNotations.

(** Dropping a `Drain` of a tree with references panics, whatever happened before, and changes nothing.  The nodes and
    the shared allocation are then never freed; and every reference keeps the slice it refers to, which was drained. *)
Theorem C32_drain_with_references : forall CMAX k os outs w os' outs' w2,
  nrun CMAX (start k) os = Some (outs, w) -> ~ In OUB outs -> w_tree w = TIdle ->
  nrun CMAX w os' = Some (outs', w2) -> ~ In OUB outs' -> forallb (fun o => negb (owner_call o)) os' = true ->
  length os + length os' + 3 <= CMAX ->
  drain_drop_refs w = (OPanic PUnreachable, w) /\
  w_nodes_freed w2 = 0 /\ w_alloc_freed w2 = 0 /\
  (insert_panics os outs = 0 -> forall r, ref_var w2 r <> None -> exists w3, nstep CMAX w2 (NBorrow r) = Some (OBool true, w3)).
Proof. exact C32_drain_with_references_proof. Qed.
Print Assumptions C32_drain_with_references.


(** Two references and a borrow; the tree is drained; then a reference is cloned and two are dropped. *)
Example C32_drain_with_references_ex : exists outs w outs' w2,
  nrun 100 (start 3) [NMake 1; NMake 2; NBorrow 0; NBDrop 0; NInsBegin; NIns (INew 0); NInsEnd] = Some (outs, w) /\ ~ In OUB outs /\ w_tree w = TIdle /\
  nrun 100 w [NClone 1; NDrop 0; NBorrow 2; NBDrop 1; NDrop 1] = Some (outs', w2) /\ ~ In OUB outs' /\
  forallb (fun o => negb (owner_call o)) [NClone 1; NDrop 0; NBorrow 2; NBDrop 1; NDrop 1] = true /\
  insert_panics [NMake 1; NMake 2; NBorrow 0; NBDrop 0; NInsBegin; NIns (INew 0); NInsEnd] outs = 0 /\ ref_var w2 2 <> None.
Proof.
  do 4 eexists. split; [vm_compute; reflexivity|]. split; [cbv [In]; intuition discriminate|]. split; [vm_compute; reflexivity|].
  split; [vm_compute; reflexivity|]. split; [cbv [In]; intuition discriminate|]. repeat split; vm_compute; try reflexivity; discriminate.
Qed.
