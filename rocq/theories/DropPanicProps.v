(** Properties of destructors that panic. *)
From Coq Require Import List ZArith Bool Arith Lia Permutation.
From Verif Require Import Base Index Slice Tree Insert Range Spec Iter Hist LTree LInsert LRef LSpec DropPanic Samples LSamples DropPanicPropsP.
Import ListNotations.

(** A destructor that panics: no slice is dropped twice and no node freed twice, nothing of another tree is touched; it
    returns exactly if no slice panics, and then nothing is left over.  One panic unwinds, a second one aborts;
    either way at least one node is never freed. *)
Theorem C49_drop_panic_partial : forall (I V : Type) (X : index_ops I) (Y : slice_ops I V) (MAX : Z) (inj : Z -> I) (M : nat) (nop : bool)
    (m : @mem I V) (st : @values V) (j : nat) (t : ptree I V) (l : list (V * Z)) (bad : V -> bool) (ev : list (@dev V)) (e : dend),
  index_laws X MAX inj -> (1 <= M)%nat -> mem_reaches X Y MAX inj M nop m st ->
  nth_error (m_trees m) j = Some (Some t) -> nth_error (fst st) j = Some (Some l) -> pp_drop bad t = (ev, e) ->
  (exists lost_s lost_n, Permutation (drops ev ++ lost_s) (map fst l) /\ Permutation (frees ev ++ lost_n) (laddrs (pt_nodes t)) /\
     NoDup (frees ev ++ lost_n) /\ (forall a, In a (frees ev) -> ~ In a (m_freed m)) /\
     (e = DReturned <-> forall x, In x (map fst l) -> bad x = false) /\
     match e with
     | DReturned => lost_s = [] /\ lost_n = []
     | DUnwound => length (filter bad (drops ev)) = 1%nat /\ lost_n <> []
     | DAborted => length (filter bad (drops ev)) = 2%nat /\ lost_n <> []
     end) /\
  (forall j2 t2 a, j2 <> j -> nth_error (m_trees m) j2 = Some (Some t2) -> In a (frees ev) -> ~ In a (laddrs (pt_nodes t2))).
Proof. exact C49_drop_panic_partial_proof. Qed.
Print Assumptions C49_drop_panic_partial.


(** Eleven slices; three of the five kinds of ending. *)
Example C49_drop_panic_partial_ex : mem_reaches sx sc 1000 sid 1 false m_mem m_vals /\
  exists t, nth_error (m_trees m_mem) 1 = Some (Some t) /\
  (let (ev, e) := pp_drop (Nat.eqb 2) t in e = DUnwound /\ frees ev = [15; 11; 8; 16; 17; 9]%nat /\ drops ev = [1; 4; 9; 7; 7; 1; 3; 2]%nat) /\
  (let (ev, e) := pp_drop (fun x => Nat.eqb x 1 || Nat.eqb x 4) t in e = DAborted /\ ev = [DSlice 1%nat; DSlice 4%nat]) /\
  (let (ev, e) := pp_drop (Nat.eqb 8) t in e = DReturned /\ length ev = 21%nat).
Proof. split; [exact m_reaches|]. eexists. split; [reflexivity|]. vm_compute. auto. Qed.

(** The events come in the same order as without panics.  One panic: all slices of the node are dropped, and that node
    would have been the next to be freed.  Two panics in one node: the second is the last thing that happens. *)
Theorem C49_order : forall (I V : Type) (t : ptree I V) (bad : V -> bool) (ev : list (@dev V)) (e : dend),
  pp_drop bad t = (ev, e) ->
  exists rest, p_drop t = ev ++ rest /\
  match e with
  | DReturned => rest = []
  | DUnwound => exists a r, rest = DFree a :: r
  | DAborted => exists ev' x, ev = ev' ++ [DSlice x] /\ bad x = true
  end.
Proof. exact C49_order_proof. Qed.
Print Assumptions C49_order.


Example C49_order_ex : exists t rest, nth_error (m_trees m_mem) 0 = Some (Some t) /\
  pp_drop (Nat.eqb 7) t = ([DSlice 1%nat; DSlice 4%nat; DFree 6; DSlice 1%nat; DFree 2; DSlice 7%nat], DUnwound) /\
  p_drop t = [DSlice 1%nat; DSlice 4%nat; DFree 6; DSlice 1%nat; DFree 2; DSlice 7%nat] ++ DFree 0 :: rest.
Proof. eexists. eexists. split; [reflexivity|]. split; vm_compute; reflexivity. Qed.

(** A panic in the root: no node is freed and no slice of another node dropped. *)
Theorem C49_root_leaks_all : forall (I V : Type) (X : index_ops I) (Y : slice_ops I V) (MAX : Z) (inj : Z -> I) (M : nat) (nop : bool)
    (m : @mem I V) (st : @values V) (j : nat) (t : ptree I V) (r : @root I V) (bad : V -> bool) (x : V) (ev : list (@dev V)) (e : dend),
  index_laws X MAX inj -> (1 <= M)%nat -> mem_reaches X Y MAX inj M nop m st ->
  nth_error (m_trees m) j = Some (Some t) -> pt_rle t = Some r -> In x (map e_slice (keys (r_node r))) -> bad x = true ->
  pp_drop bad t = (ev, e) ->
  e <> DReturned /\ frees ev = [] /\ exists rest, map e_slice (keys (r_node r)) = drops ev ++ rest /\ (e = DUnwound -> rest = []).
Proof. exact C49_root_leaks_all_proof. Qed.
Print Assumptions C49_root_leaks_all.


Example C49_root_leaks_all_ex : mem_reaches sx sc 1000 sid 1 false m_mem m_vals /\
  exists t r, nth_error (m_trees m_mem) 0 = Some (Some t) /\ pt_rle t = Some r /\ map e_slice (keys (r_node r)) = [1; 4]%nat /\
  pp_drop (Nat.eqb 1) t = ([DSlice 1%nat; DSlice 4%nat], DUnwound) /\ length (laddrs (pt_nodes t)) = 10%nat.
Proof. split; [exact m_reaches|]. eexists. eexists. split; [reflexivity|]. split; [reflexivity|]. vm_compute. auto. Qed.

(** A tree of eleven slices and ten nodes: one slice panics, and seven nodes and six slices are lost. *)
Theorem C49_all_freed_refuted : exists (m : @mem Z nat) (st : @values nat) (j : nat) (t : ptree Z nat) (l : list (nat * Z)) (bad : nat -> bool)
    (ev : list (@dev nat)) (lost_s : list nat) (lost_n : list addr),
  mem_reaches sx sc 1000 sid 1 false m st /\ nth_error (m_trees m) j = Some (Some t) /\ nth_error (fst st) j = Some (Some l) /\
  length (filter bad (map fst l)) = 1%nat /\ pp_drop bad t = (ev, DUnwound) /\
  Permutation (drops ev ++ lost_s) (map fst l) /\ length lost_s = 6%nat /\
  Permutation (frees ev ++ lost_n) (laddrs (pt_nodes t)) /\ length lost_n = 7%nat.
Proof. exact C49_all_freed_refuted_proof. Qed.
Print Assumptions C49_all_freed_refuted.
