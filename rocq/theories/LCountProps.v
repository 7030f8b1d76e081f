(** Properties of the stored counts. *)
From Coq Require Import List ZArith Bool Arith.
From Verif Require Import Base Index Slice Tree Insert Range Spec Iter Hist IterQ LTree LInsert LRef LSpec LCow LCowSpec LCount LCountSpec Samples LCowSamples LCountSamples LCountPropsP.
Import ListNotations.
Local Open Scope Z_scope.

(** The stored counts are enough to share nodes: any number of trees that copy a node, write its parent and free it as
    its count says, and whose allocator returns no node that is allocated, behave as separate values; no count of a node
    that is not allocated is touched; and the trees and pointers are those of the model in which the sharing is known
    (so that C38 and C39 hold). *)
Theorem C52_counts_suffice : forall (I V : Type) (X : index_ops I) (Y : slice_ops I V) (MAX : Z) (inj : Z -> I) (M : nat) (nop : bool) (calls : list (wcall V)),
  index_laws X MAX inj -> (1 <= M)%nat -> mcalls_fit MAX (map forget calls) -> n_allocs_ok X Y M inj nop nw_new calls ->
  allocs_ok X Y M inj nop w_new calls /\
  match val_run Y inj ([], []) (map forget calls) with
  | Ok st => exists w, n_run X Y M inj nop nw_new calls = Ok w /\ w_run X Y M inj nop w_new calls = Ok (nw_w w) /\
      Forall2 (fun t l => match t, l with
                          | Some t, Some l => iter_collect X (pt_rle t) [] SUnb EUnb = Ok (map (inj_item inj) (spans 0 l)) /\ rle_size X (pt_rle t) = Ok (inj (rsum l))
                          | None, None => True
                          | _, _ => False
                          end) (w_trees (nw_w w)) (fst st)
  | Panic p => n_run X Y M inj nop nw_new calls = Panic p
  | UB => False
  end.
Proof. exact C52_counts_suffice_proof. Qed.
Print Assumptions C52_counts_suffice.


(** The history of C38: two trees are left, which share four nodes. *)
Example C52_counts_suffice_ex : mcalls_fit 1000 (map forget x_good) /\ n_allocs_ok sx sc 1 sid false nw_new x_good /\
  exists w t1 t2, n_run sx sc 1 sid false nw_new x_good = Ok w /\ w_trees (nw_w w) = [None; Some t1; Some t2] /\
    laddrs (pt_nodes t1) = [800; 301; 100; 300; 801; 500; 802]%nat /\ laddrs (pt_nodes t2) = [900; 901; 902; 300; 801; 500; 802]%nat.
Proof. split; [exact x_fit|]. split; [exact x_n_allocs|]. eexists _, _, _. repeat (split; [vm_compute; reflexivity|]). vm_compute. reflexivity. Qed.

(** After any history the count of a node is the number of different pointers to it: root pointers of trees, and slots
    for children in nodes, where a slot in a node that several trees share is one pointer.  A node is allocated
    exactly if it is in some tree. *)
Theorem C52_counts_exact : forall (I V : Type) (X : index_ops I) (Y : slice_ops I V) (MAX : Z) (inj : Z -> I) (M : nat) (nop : bool) (calls : list (wcall V)) (w : nworld I V) (a : addr),
  index_laws X MAX inj -> (1 <= M)%nat -> mcalls_fit MAX (map forget calls) -> n_allocs_ok X Y M inj nop nw_new calls -> n_run X Y M inj nop nw_new calls = Ok w ->
  nw_cnt w a = (if in_dec Nat.eq_dec a (live (w_trees (nw_w w))) then Some (pointers_to (w_trees (nw_w w)) a) else None) /\
  (In a (live (w_trees (nw_w w))) <-> (0 < pointers_to (w_trees (nw_w w)) a)%nat).
Proof. exact C52_counts_exact_proof. Qed.
Print Assumptions C52_counts_exact.


(** Nodes 300 and 801 have a parent in each tree; 500 and 802 are in both trees too, but below 801. *)
Example C52_counts_exact_ex : mcalls_fit 1000 (map forget x_good) /\ n_allocs_ok sx sc 1 sid false nw_new x_good /\
  exists w, n_run sx sc 1 sid false nw_new x_good = Ok w /\
    map (nw_cnt w) [800; 300; 801; 500; 802; 700]%nat = [Some 1; Some 2; Some 2; Some 1; Some 1; None]%nat /\
    map (pointers_to (w_trees (nw_w w))) [800; 300; 801; 500; 802; 700]%nat = [1; 2; 2; 1; 1; 0]%nat.
Proof. split; [exact x_fit|]. split; [exact x_n_allocs|]. eexists. repeat (split; [vm_compute; reflexivity|]). vm_compute. reflexivity. Qed.

(** A call frees exactly the nodes that were in some tree before and are in none after it, each once; only a drop frees
    any. *)
Theorem C52_frees_exact : forall (I V : Type) (X : index_ops I) (Y : slice_ops I V) (MAX : Z) (inj : Z -> I) (M : nat) (nop : bool) (calls : list (wcall V)) (c : wcall V) (w w' : nworld I V),
  index_laws X MAX inj -> (1 <= M)%nat -> mcalls_fit MAX (map forget (calls ++ [c])) -> n_allocs_ok X Y M inj nop nw_new (calls ++ [c]) ->
  n_run X Y M inj nop nw_new calls = Ok w -> n_call X Y M inj nop w c = Ok w' ->
  NoDup (nw_freed w') /\
  (forall a, In a (nw_freed w') <-> In a (live (w_trees (nw_w w))) /\ ~ In a (live (w_trees (nw_w w')))) /\
  (match c with WDrop _ => True | _ => nw_freed w' = [] end).
Proof. exact C52_frees_exact_proof. Qed.
Print Assumptions C52_frees_exact.


(** Dropping the first tree frees the three nodes that only it has. *)
Example C52_frees_exact_ex : exists calls w w', calls ++ [WDrop 0] = firstn 12 x_good /\ mcalls_fit 1000 (map forget (calls ++ [WDrop 0])) /\
  n_allocs_ok sx sc 1 sid false nw_new (calls ++ [WDrop 0]) /\
  n_run sx sc 1 sid false nw_new calls = Ok w /\ n_call sx sc 1 sid false w (WDrop 0) = Ok w' /\ nw_freed w' = [700; 701; 702]%nat /\ length (nodup Nat.eq_dec (live (w_trees (nw_w w)))) = 10%nat.
Proof.
  exists (firstn 11 x_good). eexists _, _.
  assert (E : firstn 11 x_good ++ [WDrop 0] = firstn 12 x_good) by (unfold x_good; cbn [map app seq firstn]; reflexivity).
  split; [exact E|]. split; [rewrite E; split; [vm_compute; repeat (constructor; try discriminate)|vm_compute; discriminate]|]. split; [rewrite E; apply n_allocs_prefix; exact x_n_allocs|].
  repeat (split; [vm_compute; reflexivity|]). vm_compute. reflexivity.
Qed.
