(** Properties of calls on trees that share nodes, with weak memory. *)
From Coq Require Import List Arith Bool ZArith.
From Verif Require Import Base Index Slice Tree Insert Range Spec Iter Hist IterQ LRef LSpec Cow CowSpec CowP Weak CowCall CowCallWeak Samples CowCallSamples CowCallWeakSamples CowCallWeakPropsP.
Import ListNotations.
Local Open Scope Z_scope.

(** The orderings of the atomics are enough for C55: whatever old counts the threads read, memory shows, for every tree
    that is not just being written, what the calls make of it one after another, in the order in which they were
    started, and so does every reader at its node. *)
Theorem C57_one_after_another : forall (I V : Type) (X : index_ops I) (Y : slice_ops I V) (M n : nat) (xs : list (act * nat)) (q : wclient),
  (1 <= M)%nat -> qrun X Y M (qstart n) xs = Some q ->
  exists ts, seq X Y M [] (calls (map fst xs)) = Some ts /\
    (forall j, existsb (writes j) (c_threads (w_s (q_w q))) = false ->
       holds (c_mem (w_s (q_w q))) (nth_error (c_handles (w_s (q_w q))) j) (option_map (option_map rle_rose) (nth_error ts j))) /\
    (forall t j is a, nth_error (c_threads (w_s (q_w q))) t = Some (PRead j is a) ->
       exists r x nd, nth_error ts j = Some (Some (Some r)) /\ sub (rose_of (r_height r) (r_node r)) (rev is) = Some x /\
         look (c_mem (w_s (q_w q))) a = Some nd /\ n_data nd = rdata x).
Proof. exact C57_one_after_another_proof. Qed.
Print Assumptions C57_one_after_another.

(** Thread 0 has read an old count of the root of tree 0, and copied it although no other tree had it any more. *)
Example C57_one_after_another_ex : length (calls (map fst qk_mixed)) = 13%nat /\ existsb (fun x => Nat.eqb (snd x) 1) qk_mixed = true /\
  option_map (fun q => (c_handles (w_s (q_w q)), option_map n_cnt (look (c_mem (w_s (q_w q))) 6%nat), existsb (writes 0) (c_threads (w_s (q_w q)))))
    (qrun sx sc 1 (qstart 3) qk_mixed) = Some ([Some (Some 7%nat); None; None], Some 1%nat, true).
Proof. repeat split; vm_compute; reflexivity. Qed.

(** The steps of calls are steps of the machine of Weak.v.  There is no race between them, and none uses freed memory. *)
Theorem C57_no_race : forall (I V : Type) (X : index_ops I) (Y : slice_ops I V) (M n : nat) (xs : list (act * nat)) (q : wclient),
  qrun X Y M (qstart n) xs = Some q ->
  ~ race (q_w q) /\ exists es outs, wrun code_ords (wstart n) es = Some (outs, q_w q) /\ ~ In BBad outs.
Proof. exact C57_no_race_proof. Qed.
Print Assumptions C57_no_race.

(** The old root is freed by thread 0, after thread 2 has read it and thread 1 has given it back twice. *)
Example C57_no_race_ex : option_map (fun q => (look (c_mem (w_s (q_w q))) 6%nat, Nat.eqb (length (w_log (q_w q))) (length qk_done))) (qrun sx sc 1 (qstart 3) qk_done) = Some (None, true).
Proof. vm_compute. reflexivity. Qed.

(** Once started, a call can be finished by its thread alone. *)
Theorem C57_finish : forall (I V : Type) (X : index_ops I) (Y : slice_ops I V) (M n : nat) (xs : list (act * nat)) (q : wclient) (t : nat),
  (1 <= M)%nat -> qrun X Y M (qstart n) xs = Some q -> (t < n)%nat ->
  exists ys q', qrun X Y M q ys = Some q' /\ Forall (fun y => who (fst y) = t) ys /\ calls (map fst ys) = [] /\
    nth_error (q_todo q') t = Some [] /\ nth_error (c_threads (w_s (q_w q'))) t = Some PIdle.
Proof. exact C57_finish_proof. Qed.
Print Assumptions C57_finish.

Example C57_finish_ex : (0 < 3)%nat /\ option_map (fun q => (length (nth 0 (q_todo q) []),
    option_map (fun q' => (nth_error (q_todo q') 0, nth_error (c_threads (w_s (q_w q'))) 0)) (qrun sx sc 1 q (skipn (length qk_mixed) qk_done))))
  (qrun sx sc 1 (qstart 3) qk_mixed) = Some (8%nat, Some (Some [], Some PIdle)).
Proof. split; [repeat constructor|vm_compute; reflexivity]. Qed.

(** Nothing but a borrow of the tree keeps a thread from starting a call that would not panic. *)
Theorem C57_start : forall (I V : Type) (X : index_ops I) (Y : slice_ops I V) (M n : nat) (xs : list (act * nat)) (q : wclient) (t : nat) (c : call) (ts : list (option rle)),
  (1 <= M)%nat -> qrun X Y M (qstart n) xs = Some q -> nth_error (q_todo q) t = Some [] -> nth_error (c_threads (w_s (q_w q))) t = Some PIdle ->
  seq X Y M [] (calls (map fst xs) ++ [c]) = Some ts ->
  match c with
  | CNew => True
  | CInsert _ j _ _ _ _ | CDrop j => existsb (uses j) (c_threads (w_s (q_w q))) = false
  | CClone j => existsb (writes j) (c_threads (w_s (q_w q))) = false
  end -> exists a j q', qstep X Y M q (KCall t c a) j = Some q'.
Proof. exact C57_start_proof. Qed.
Print Assumptions C57_start.

(** Thread 1, while thread 0 is in the middle of its insertion: a new tree, but not a clone of tree 0. *)
Example C57_start_ex : (exists ts, seq sx sc 1 [] (calls (map fst qk_mixed) ++ [CNew]) = Some ts) /\ (exists ts, seq sx sc 1 [] (calls (map fst qk_mixed) ++ [CClone 0]) = Some ts) /\
  option_map (fun q => (nth_error (q_todo q) 1, nth_error (c_threads (w_s (q_w q))) 1, existsb (writes 0) (c_threads (w_s (q_w q))),
      match qstep sx sc 1 q (KCall 1 (CClone 0) 0%nat) 0 with Some _ => true | None => false end,
      match qstep sx sc 1 q (KCall 1 CNew 0%nat) 0 with Some _ => true | None => false end))
    (qrun sx sc 1 (qstart 3) qk_mixed) = Some (Some [], Some PIdle, true, false, true).
Proof. split; [eexists; vm_compute; reflexivity|]. split; [eexists; vm_compute; reflexivity|]. vm_compute. reflexivity. Qed.

(** The same for the lists of runs that trees stand for. *)
Theorem C57_values : forall (I V : Type) (X : index_ops I) (Y : slice_ops I V) (MAX : Z) (inj : Z -> I) (M n : nat) (nop : bool) (cs : list mcall) (xs : list (act * nat)) (q : wclient),
  index_laws X MAX inj -> (1 <= M)%nat -> qrun X Y M (qstart n) xs = Some q -> calls (map fst xs) = map (as_call inj nop) cs -> mcalls_fit MAX cs ->
  exists st, val_run Y inj ([], []) cs = Ok st /\
    forall j, existsb (writes j) (c_threads (w_s (q_w q))) = false ->
    match nth_error (c_handles (w_s (q_w q))) j, nth_error (fst st) j with
    | Some (Some a), Some (Some l) => exists r, iter_collect X r [] SUnb EUnb = Ok (map (inj_item inj) (spans 0 l)) /\
        match a, rle_rose r with Some a, Some x => shows (c_mem (w_s (q_w q))) a x | None, None => True | _, _ => False end
    | Some None, Some None | None, None => True
    | _, _ => False
    end.
Proof. exact C57_values_proof. Qed.
Print Assumptions C57_values.

Example C57_values_ex : calls (map fst qk_done) = map (as_call sid false) (kk_build ++ [MDrop 1; MDrop 2; kk_ins 0 70 8 10]%nat) /\
  mcalls_fit 1000 (kk_build ++ [MDrop 1; MDrop 2; kk_ins 0 70 8 10]%nat) /\
  option_map (fun q => c_handles (w_s (q_w q))) (qrun sx sc 1 (qstart 3) qk_done) = Some [Some (Some 7%nat); None; None] /\
  exists d, val_run sc sid ([], []) (kk_build ++ [MDrop 1; MDrop 2; kk_ins 0 70 8 10]%nat) = Ok
    ([Some [(1%nat, 10); (2%nat, 10); (3%nat, 10); (4%nat, 10); (5%nat, 10); (6%nat, 10); (7%nat, 10); (8%nat, 10)]; None; None], d).
Proof.
  split; [vm_compute; reflexivity|]. split; [split; [repeat constructor; vm_compute; discriminate|vm_compute; discriminate]|]. split; [vm_compute; reflexivity|].
  eexists. vm_compute. reflexivity.
Qed.
