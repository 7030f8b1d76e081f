(** Properties of copy on write with weak memory. *)
From Coq Require Import List Arith Bool.
From Verif Require Import Base Cow CowSpec CowPropsP Weak WeakPropsP.
Import ListNotations.

(** In every history of the weak memory, with any number of threads and trees, any interleaving and any old values that
    loads may read: of two steps that use the same part of a node, not both only reading it, the first happens before the
    second, and so does every use of a node before the memory is freed.  No freed memory is used. *)
Theorem C50_no_race : forall D n es outs (w : wstate D), wrun code_ords (wstart n) es = Some (outs, w) -> ~ race w /\ ~ In BBad outs.
Proof. exact C50_no_race_proof. Qed.
Print Assumptions C50_no_race.


(** Thread 1 reads a shared node and drops its tree; thread 0, having read the count that thread 1 wrote, writes to the
    node without copying it. *)
Example C50_no_race_ex : exists outs w, wrun code_ords (wstart 2) then_insert = Some (outs, w) /\ nth_error outs 3 = Some (BData 10) /\
  (exists xs x, nth_error (w_log w) 3 = Some (1, xs) /\ In x xs /\ x_addr x = 0 /\ x_kind x = KRead) /\
  (exists ys y, nth_error (w_log w) 11 = Some (0, ys) /\ In y ys /\ x_addr y = 0 /\ x_kind y = KWrite /\ In 3 (x_hb y)).
Proof.
  eexists. eexists. split; [vm_compute; reflexivity|]. split; [reflexivity|]. split.
  - eexists. eexists. split; [reflexivity|]. split; [left; reflexivity|]. auto.
  - eexists. eexists. split; [reflexivity|]. split; [right; left; reflexivity|]. repeat split. cbn. tauto.
Qed.

(** These are the only orderings that matter: histories are free of races exactly if the load in `is_unique` acquires, the
    `fetch_sub` in `decrement` releases, and it or the load after it acquires.  The code has Acquire, Release and
    Acquire; the ordering of `increment` is irrelevant. *)
Theorem C50_exact : forall o,
  (forall D n es outs (w : wstate D), wrun o (wstart n) es = Some (outs, w) -> ~ race w) <->
  acquires (o_unique o) = true /\ releases (o_dec o) = true /\ (acquires (o_dec o) = true \/ acquires (o_last o) = true).
Proof. exact C50_exact_proof. Qed.
Print Assumptions C50_exact.


(** The orderings of the code, and one that is too weak. *)
Example C50_exact_ex : acquires (o_unique code_ords) = true /\ releases (o_dec code_ords) = true /\ acquires (o_last code_ords) = true /\
  exists outs w, wrun {| o_unique := Acquire; o_inc := AcqRel; o_dec := Release; o_last := Relaxed |} (wstart 2) then_drop = Some (outs, w) /\ race w.
Proof. repeat (split; [reflexivity|]). eexists. eexists. split; [vm_compute; reflexivity|]. apply races_race. vm_compute. reflexivity. Qed.

(** Trees are values of their own also with weak memory (C20): what readers see, and what memory shows at the end, is as
    if cloning copied. *)
Theorem C50_values : forall D n es outs (w : wstate D), wrun code_ords (wstart n) es = Some (outs, w) ->
  exists sp, srun (sstart n) (map fst es) = (outs, sp) /\ forall h, holds (c_mem (w_s w)) (nth_error (c_handles (w_s w)) h) (nth_error (s_trees sp) h).
Proof. exact C50_values_proof. Qed.
Print Assumptions C50_values.


(** Thread 0 reads an old count although thread 1 has dropped its tree, and copies the node. *)
Example C50_values_ex : exists outs w sp, wrun code_ords (wstart 2) old_count = Some (outs, w) /\ srun (sstart 2) (map fst old_count) = (outs, sp) /\
  nth_error (c_handles (w_s w)) 0 = Some (Some (Some 1)) /\ nth_error (s_trees sp) 0 = Some (Some (Some (Rose 11 []))) /\ look (c_mem (w_s w)) 0 = None.
Proof. eexists. eexists. eexists. split; [vm_compute; reflexivity|]. split; [vm_compute; reflexivity|]. vm_compute. auto. Qed.

(** The newest value of every count is the number of owners (C21), and when all trees are gone, all nodes are freed. *)
Theorem C50_counts : forall D n es outs (w : wstate D), wrun code_ords (wstart n) es = Some (outs, w) ->
  (forall a k, look (c_mem (w_s w)) a = Some k -> n_cnt k = owners (w_s w) a) /\
  ((forall t p, nth_error (c_threads (w_s w)) t = Some p -> p = PIdle) -> (forall h r, nth_error (c_handles (w_s w)) h <> Some (Some (Some r))) ->
   forall a, look (c_mem (w_s w)) a = None).
Proof. exact C50_counts_proof. Qed.
Print Assumptions C50_counts.


(** Both trees are dropped. *)
Example C50_counts_ex : exists outs w, wrun code_ords (wstart 2) then_drop = Some (outs, w) /\ c_threads (w_s w) = [PIdle; PIdle] /\ c_handles (w_s w) = [None; None] /\ c_mem (w_s w) = [None].
Proof. eexists. eexists. split; [vm_compute; reflexivity|]. vm_compute. auto. Qed.

(** If `is_unique` answers yes, whichever value it read, there is one owner at that moment. *)
Theorem C50_unique : forall D n es outs (w w' : wstate D) t h fr x j b a,
  wrun code_ords (wstart n) es = Some (outs, w) -> nth_error (c_threads (w_s w)) t = Some (PEns h fr ELoad) ->
  wstep code_ords w t (VStep x) j = WNext w' b -> nth_error (c_threads (w_s w')) t = Some (PEns h fr (EPar a)) ->
  owners (w_s w) a = 1.
Proof. exact C50_unique_proof. Qed.
Print Assumptions C50_unique.


(** The step of thread 0 that finds the node unique. *)
Example C50_unique_ex : exists outs w w', wrun code_ords (wstart 2) (firstn 9 then_insert) = Some (outs, w) /\ nth_error (c_threads (w_s w)) 0 = Some (PEns 0 [] ELoad) /\
  wstep code_ords w 0 (VStep 0) 0 = WNext w' None /\ nth_error (c_threads (w_s w')) 0 = Some (PEns 0 [] (EPar 0)).
Proof. eexists. eexists. eexists. split; [vm_compute; reflexivity|]. split; [reflexivity|]. split; [vm_compute; reflexivity|]. reflexivity. Qed.

(** Every history is one of the machine of Cow.v, where steps see the newest counts, except that `is_unique` may answer no
    when the answer would be yes. *)
Theorem C50_interleaving : forall D n es outs (w : wstate D), wrun code_ords (wstart n) es = Some (outs, w) ->
  exists es', Forall2 (fun x y => fst (fst x) = fst y /\ (snd y = snd (fst x) \/ snd y = VShared /\ match snd (fst x) with VStep _ | VFix _ _ => True | _ => False end)) es es' /\
    crun (start n) es' = Some (outs, w_s w).
Proof. exact C50_interleaving_proof. Qed.
Print Assumptions C50_interleaving.


(** The history in which thread 0 reads an old count: its load reads the second newest value. *)
Example C50_interleaving_ex : exists outs w, wrun code_ords (wstart 2) old_count = Some (outs, w) /\ nth_error old_count 9 = Some (0, VStep 0, 1) /\
  crun (start 2) (firstn 9 (map fst old_count) ++ (0, VShared) :: skipn 10 (map fst old_count)) = Some (outs, w_s w).
Proof. eexists. eexists. split; [vm_compute; reflexivity|]. split; vm_compute; reflexivity. Qed.
