(** How many steps a call takes. *)
From Coq Require Import List Arith Bool ZArith.
From Verif Require Import Base Index Slice Tree Insert Wild Spec Hist LSpec Cow CowSpec Weak CowCall CowCallWeak Samples CowCallSamples CowCallWeakSamples CowWait CowWaitPropsP.
Import ListNotations.

(** A call takes no more than [limit] steps after its first, however the steps of the other threads come between: an
    insertion a number that depends only on the height of its own tree and on M, a drop no more than two for each node of
    its tree.  Nothing another thread does makes a thread start again. *)
Theorem C58_bounded_steps : forall (I V : Type) (X : index_ops I) (Y : slice_ops I V) (M n : nat) (xs ys : list (act * nat)) (q q1 q2 : wclient)
    (t : nat) (c : call) (a j : nat) (ts : list (option rle)),
  index_any X -> 1 <= M -> qrun X Y M (qstart n) xs = Some q -> seq X Y M [] (calls (map fst xs)) = Some ts ->
  qstep X Y M q (KCall t c a) j = Some q1 -> qrun X Y M q1 ys = Some q2 -> existsb (begins t) (map fst ys) = false ->
  own t ys <= limit M ts c.
Proof. exact C58_bounded_steps_proof. Qed.
Print Assumptions C58_bounded_steps.

(** Thread 0 inserts into tree 0 while thread 1 inserts into tree 1: they share all nodes, and take turns. *)
Example C58_bounded_steps_ex :
  let xs := map (fun x => (x, 0%nat)) kk_done in let first := firstn (length kk_base) xs in let ys := skipn (length kk_base + 1) xs in
  existsb (begins 0) (map fst ys) = false /\ existsb (begins 1) (map fst ys) = true /\ own 0 ys = 27%nat /\ length ys = 57%nat /\
  option_map (fun ts => limit 1 ts (as_call sid false (kk_ins 0 70 8 10))) (seq sx sc 1 [] (calls (map fst first))) = Some 51%nat /\
  match qrun sx sc 1 (qstart 3) first with
  | Some q => match qstep sx sc 1 q (kk_call 0 (kk_ins 0 70 8 10) 0) 0 with
              | Some q1 => match qrun sx sc 1 q1 ys with Some q2 => nth_error (c_threads (w_s (q_w q2))) 0 | None => None end
              | None => None
              end
  | None => None
  end = Some PIdle.
Proof.
  cbv zeta. split; [vm_compute; reflexivity|]. split; [vm_compute; reflexivity|]. split; [vm_compute; reflexivity|]. split; [vm_compute; reflexivity|].
  split; [vm_compute; reflexivity|]. vm_compute. reflexivity.
Qed.
(** The drop of the last owner takes just as many steps as the bound allows. *)
Example C58_bounded_steps_drop : let ys := skipn (length qk_alone + 1) qk_last in own 0 ys = 15%nat /\
  option_map (fun ts => limit 1 ts (CDrop 0)) (seq sx sc 1 [] (calls (map fst qk_alone))) = Some 15%nat /\
  option_map (fun q => (nth_error (q_todo q) 0, nth_error (c_threads (w_s (q_w q))) 0, existsb (fun o => match o with Some _ => true | None => false end) (c_mem (w_s (q_w q)))))
    (qrun sx sc 1 (qstart 3) qk_last) = Some (Some [], Some PIdle, false).
Proof. cbv zeta. split; [vm_compute; reflexivity|]. split; vm_compute; reflexivity. Qed.

(** And a thread whose call is not over waits for nobody: it can take a step of that call right now. *)
Theorem C58_progress : forall (I V : Type) (X : index_ops I) (Y : slice_ops I V) (M n : nat) (xs : list (act * nat)) (q : wclient) (t : nat),
  1 <= M -> qrun X Y M (qstart n) xs = Some q -> t < n ->
  nth_error (q_todo q) t = Some [] /\ match nth_error (c_threads (w_s (q_w q))) t with Some PIdle | Some (PRead _ _ _) => True | _ => False end \/
  exists x j q', counted t x = true /\ qstep X Y M q x j = Some q'.
Proof. exact C58_progress_proof. Qed.
Print Assumptions C58_progress.

(** Thread 0 in the middle of its insertion, threads 1 and 2 in no call. *)
Example C58_progress_ex : option_map (fun q => (length (nth 0 (q_todo q) []), match qstep sx sc 1 q (KStep 0 8) 0 with Some _ => true | None => false end,
    nth_error (c_threads (w_s (q_w q))) 1, nth_error (c_threads (w_s (q_w q))) 2)) (qrun sx sc 1 (qstart 3) qk_mixed) = Some (8%nat, true, Some PIdle, Some PIdle).
Proof. vm_compute. reflexivity. Qed.
