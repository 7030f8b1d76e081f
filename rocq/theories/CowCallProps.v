(** Properties of calls on trees that share nodes. *)
From Coq Require Import List Arith Bool ZArith.
From Verif Require Import Base Index Slice Tree Insert Range Spec Iter Hist IterQ LRef LSpec Cow CowSpec CowP CowCall Samples CowCallSamples CowCallPropsP.
Import ListNotations.
Local Open Scope Z_scope.

(** Any number of threads, any interleaving of their steps: memory shows, for every tree that is not just being
    written, what the calls make of that tree if they are made one after another, in the order in which they were
    started; so does every reader on its way down a tree, at its node.  Trees may share nodes. *)
Theorem C55_one_after_another : forall (I V : Type) (X : index_ops I) (Y : slice_ops I V) (M n : nat) (xs : list act) (k : client),
  (1 <= M)%nat -> krun X Y M (kstart n) xs = Some k ->
  exists ts, seq X Y M [] (calls xs) = Some ts /\
    (forall j, existsb (writes j) (c_threads (k_c k)) = false ->
       holds (c_mem (k_c k)) (nth_error (c_handles (k_c k)) j) (option_map (option_map rle_rose) (nth_error ts j))) /\
    (forall t j is a, nth_error (c_threads (k_c k)) t = Some (PRead j is a) ->
       exists r x nd, nth_error ts j = Some (Some (Some r)) /\ sub (rose_of (r_height r) (r_node r)) (rev is) = Some x /\
         look (c_mem (k_c k)) a = Some nd /\ n_data nd = rdata x).
Proof. exact C55_one_after_another_proof. Qed.
Print Assumptions C55_one_after_another.


(** Threads 0 and 1 insert into trees 0 and 1, clones of each other, and both are in the middle of copying the root;
    thread 2 reads tree 2, which shares all nodes with both. *)
Example C55_one_after_another_ex : krun sx sc 1 (kstart 3) kk_mixed = Some kk_mid /\ length (calls kk_mixed) = 12%nat /\
  c_handles (k_c kk_mid) = [Some (Some 6); Some (Some 6); Some (Some 6)]%nat /\
  c_threads (k_c kk_mid) = [PEns 0 [] (EInc (Some 70, [(30, 4%nat)]) None [2%nat]); PEns 1 [] (EInc (Some 70, [(30, 4%nat)]) None [2%nat]); PRead 2 [1%nat] 5%nat].
Proof. repeat (split; [vm_compute; reflexivity|]). vm_compute. reflexivity. Qed.

(** The steps of calls are steps of the machine of Cow.v, of which C20 and C21 speak; no call uses freed memory. *)
Theorem C55_machine : forall (I V : Type) (X : index_ops I) (Y : slice_ops I V) (M n : nat) (xs : list act) (k : client),
  krun X Y M (kstart n) xs = Some k -> exists es outs, crun (start n) es = Some (outs, k_c k) /\ ~ In BBad outs.
Proof. exact C55_machine_proof. Qed.
Print Assumptions C55_machine.


(** 65 steps. *)
Example C55_machine_ex : krun sx sc 1 (kstart 3) kk_mixed = Some kk_mid /\ length kk_mixed = 65%nat /\ length (c_mem (k_c kk_mid)) = 7%nat.
Proof. repeat split; vm_compute; reflexivity. Qed.

(** No call waits for another thread: once it has been started, its thread alone can finish it, wherever the other
    threads have stopped. *)
Theorem C55_finish : forall (I V : Type) (X : index_ops I) (Y : slice_ops I V) (M n : nat) (xs : list act) (k : client) (t : nat),
  (1 <= M)%nat -> krun X Y M (kstart n) xs = Some k -> (t < n)%nat ->
  exists ys k', krun X Y M k ys = Some k' /\ Forall (fun y => who y = t) ys /\ calls ys = [] /\
    nth_error (k_todo k') t = Some [] /\ nth_error (c_threads (k_c k')) t = Some PIdle.
Proof. exact C55_finish_proof. Qed.
Print Assumptions C55_finish.


(** Thread 1 alone, while thread 0 is stopped in the middle of a copy of the same node. *)
Example C55_finish_ex : krun sx sc 1 (kstart 3) kk_mixed = Some kk_mid /\ (1 < 3)%nat /\ length (nth 1 (k_todo kk_mid) []) = 8%nat /\
  exists k, krun sx sc 1 kk_mid (kk_turns 60 [1]%nat [] kk_mid) = Some k /\ nth_error (k_todo k) 1 = Some [] /\ nth_error (c_threads (k_c k)) 1 = Some PIdle /\
    nth_error (c_threads (k_c k)) 0 = nth_error (c_threads (k_c kk_mid)) 0.
Proof. split; [vm_compute; reflexivity|]. split; [repeat constructor|]. split; [vm_compute; reflexivity|]. eexists. repeat (split; [vm_compute; reflexivity|]). vm_compute. reflexivity. Qed.

(** Nothing but a borrow of the tree keeps a thread from starting a call that would not panic. *)
Theorem C55_start : forall (I V : Type) (X : index_ops I) (Y : slice_ops I V) (M n : nat) (xs : list act) (k : client) (t : nat) (c : call) (ts : list (option rle)),
  (1 <= M)%nat -> krun X Y M (kstart n) xs = Some k -> nth_error (k_todo k) t = Some [] -> nth_error (c_threads (k_c k)) t = Some PIdle ->
  seq X Y M [] (calls xs ++ [c]) = Some ts ->
  match c with
  | CNew => True
  | CInsert _ j _ _ _ _ | CDrop j => existsb (uses j) (c_threads (k_c k)) = false
  | CClone j => existsb (writes j) (c_threads (k_c k)) = false
  end -> exists a k', kstep X Y M k (KCall t c a) = Some k'.
Proof. exact C55_start_proof. Qed.
Print Assumptions C55_start.


(** Tree 2 is being read: it can be cloned; an insertion into it has to wait. *)
Example C55_start_ex : krun sx sc 1 (kstart 3) kk_done = Some kk_end /\ nth_error (k_todo kk_end) 0 = Some [] /\ nth_error (c_threads (k_c kk_end)) 0 = Some PIdle /\
  existsb (writes 2) (c_threads (k_c kk_end)) = false /\ existsb (uses 2) (c_threads (k_c kk_end)) = true /\
  (exists ts, seq sx sc 1 [] (calls kk_done ++ [CClone 2]) = Some ts) /\ (exists ts, seq sx sc 1 [] (calls kk_done ++ [CInsert false 2 [] 0 9%nat 1]) = Some ts) /\
  kstep sx sc 1 kk_end (KCall 0 (CInsert false 2 [] 0 9%nat 1) 14%nat) = None.
Proof. repeat (split; [vm_compute; reflexivity|]). split; [eexists; vm_compute; reflexivity|]. split; [eexists; vm_compute; reflexivity|]. vm_compute. reflexivity. Qed.

(** The same for the lists of runs that trees stand for: whatever tree is not just being written has in memory a tree
    that holds the runs that the calls make one after another. *)
Theorem C55_values : forall (I V : Type) (X : index_ops I) (Y : slice_ops I V) (MAX : Z) (inj : Z -> I) (M n : nat) (nop : bool) (cs : list mcall) (xs : list act) (k : client),
  index_laws X MAX inj -> (1 <= M)%nat -> krun X Y M (kstart n) xs = Some k -> calls xs = map (as_call inj nop) cs -> mcalls_fit MAX cs ->
  exists st, val_run Y inj ([], []) cs = Ok st /\
    forall j, existsb (writes j) (c_threads (k_c k)) = false ->
    match nth_error (c_handles (k_c k)) j, nth_error (fst st) j with
    | Some (Some a), Some (Some l) => exists r, iter_collect X r [] SUnb EUnb = Ok (map (inj_item inj) (spans 0 l)) /\
        match a, rle_rose r with Some a, Some x => shows (c_mem (k_c k)) a x | None, None => True | _, _ => False end
    | Some None, Some None | None, None => True
    | _, _ => False
    end.
Proof. exact C55_values_proof. Qed.
Print Assumptions C55_values.


(** When both are done. *)
Example C55_values_ex : krun sx sc 1 (kstart 3) kk_done = Some kk_end /\ calls kk_done = map (as_call sid false) (kk_build ++ kk_more) /\
  mcalls_fit 1000 (kk_build ++ kk_more) /\ c_handles (k_c kk_end) = [Some (Some 8); Some (Some 7); Some (Some 6)]%nat /\
  exists d, val_run sc sid ([], []) (kk_build ++ kk_more) = Ok
    ([Some [(1%nat, 10); (2%nat, 10); (3%nat, 10); (4%nat, 10); (5%nat, 10); (6%nat, 10); (7%nat, 10); (8%nat, 10)];
      Some [(1%nat, 10); (2%nat, 10); (3%nat, 10); (4%nat, 5); (9%nat, 10); (4%nat, 5); (5%nat, 10); (6%nat, 10); (7%nat, 10)];
      Some [(1%nat, 10); (2%nat, 10); (3%nat, 10); (4%nat, 10); (5%nat, 10); (6%nat, 10); (7%nat, 10)]], d).
Proof.
  split; [vm_compute; reflexivity|]. split; [vm_compute; reflexivity|]. split; [split; [repeat constructor; vm_compute; discriminate|vm_compute; discriminate]|]. split; [vm_compute; reflexivity|].
  eexists. vm_compute. reflexivity.
Qed.
