(** Properties of calls beside calls that panic. *)
From Coq Require Import List Arith Bool ZArith.
From Verif Require Import Base Index Slice Tree Insert Spec Hist LRef LSpec Cow CowSpec Weak CowCall CowCallWeak Samples CowCallSamples CowLost CowLostSamples CowLostPropsP.
Import ListNotations.

(** However many calls panic, and wherever: every tree that was not given up and is not just being written shows what
    the calls that were finished make of it one after another, and so does every reader of such a tree at its node.
    That trees share nodes with trees that were given up makes no difference. *)
Theorem C60_others : forall (I V : Type) (X : index_ops I) (Y : slice_ops I V) (M n : nat) (xs : list (deed * nat)) (l : lclient),
  1 <= M -> drun X Y M (dstart n) xs = Some l ->
  exists ts, telling X Y M [] (map fst xs) = Some ts /\
    (forall j, ~ In j (l_lost l) -> existsb (writes j) (c_threads (w_s (q_w (l_q l)))) = false ->
       holds (c_mem (w_s (q_w (l_q l)))) (nth_error (c_handles (w_s (q_w (l_q l)))) j) (option_map (option_map rle_rose) (nth_error ts j))) /\
    (forall t j is a, ~ In j (l_lost l) -> nth_error (c_threads (w_s (q_w (l_q l)))) t = Some (PRead j is a) ->
       exists r x nd, nth_error ts j = Some (Some (Some r)) /\ sub (rose_of (r_height r) (r_node r)) (rev is) = Some x /\
         look (c_mem (w_s (q_w (l_q l)))) a = Some nd /\ n_data nd = rdata x).
Proof. exact C60_others_proof. Qed.
Print Assumptions C60_others.

(** Trees 0, 1 and 2 share their seven nodes.  Thread 1 panics in an insertion into tree 1, of which it has changed two
    nodes; thread 0, which takes turns with it, inserts into tree 0, and thread 2 reads tree 2.  Tree 1 is damaged, and
    trees 0 and 2 are as the calls make them. *)
Example C60_others_ex : match dk_run dk_panic, dk_run dk_done, telling sx sc 1 [] (map fst dk_done) with
  | Some l, Some l', Some ts =>
    (l_lost l' = [1] /\ nth_error (c_threads (w_s (q_w (l_q l)))) 2 = Some (PRead 2 [] 6)) /\
    (existsb (writes 0) (c_threads (w_s (q_w (l_q l)))) = true /\ existsb (writes 0) (c_threads (w_s (q_w (l_q l')))) = false) /\
    c_handles (w_s (q_w (l_q l'))) = [Some (Some 8); Some (Some 7); Some (Some 6)] /\
    (map (option_map rle_rose) ts = [Some (view 4 (c_mem (w_s (q_w (l_q l')))) 8); None; Some (view 4 (c_mem (w_s (q_w (l_q l')))) 6)] /\
     option_map rdata (view 4 (c_mem (w_s (q_w (l_q l')))) 7) = Some (None, [(5%Z, 99)]))
  | _, _, _ => False
  end.
Proof. vm_compute. repeat split; reflexivity. Qed.

(** There is no race even so, and no step uses freed memory. *)
Theorem C60_no_race : forall (I V : Type) (X : index_ops I) (Y : slice_ops I V) (M n : nat) (xs : list (deed * nat)) (l : lclient),
  drun X Y M (dstart n) xs = Some l ->
  ~ race (q_w (l_q l)) /\ exists es outs, wrun code_ords (wstart n) es = Some (outs, q_w (l_q l)) /\ ~ In BBad outs.
Proof. exact C60_no_race_proof. Qed.
Print Assumptions C60_no_race.

(** 107 steps of three threads, 27 of them after tree 1 was given up and before the panic is over. *)
Example C60_no_race_ex : match dk_run dk_done with Some l => length dk_done = 107 /\ length (c_mem (w_s (q_w (l_q l)))) = 12 | None => False end.
Proof. vm_compute. split; reflexivity. Qed.

(** A call that has been started can be finished by its thread alone, also if other threads panic or have stopped
    half-way in trees that share its nodes. *)
Theorem C60_finish : forall (I V : Type) (X : index_ops I) (Y : slice_ops I V) (M n : nat) (xs : list (deed * nat)) (l : lclient) (t : nat) (e : ev ndata) (es : list (ev ndata)),
  1 <= M -> drun X Y M (dstart n) xs = Some l -> nth_error (q_todo (l_q l)) t = Some (e :: es) -> t < n ->
  exists ys l', drun X Y M l ys = Some l' /\ Forall (fun y => exists x, fst y = DAct x /\ who x = t) ys /\
    nth_error (q_todo (l_q l')) t = Some [] /\ nth_error (c_threads (w_s (q_w (l_q l')))) t = Some PIdle /\
    telling X Y M [] (map fst (xs ++ ys)) = telling X Y M [] (map fst xs).
Proof. exact C60_finish_proof. Qed.
Print Assumptions C60_finish.

(** When thread 1 has panicked, thread 0 is in the middle of its insertion; it takes 22 more steps, and thread 2 one in between. *)
Example C60_finish_ex : match dk_run dk_panic, dk_run dk_done with
  | Some l, Some l' => match nth_error (q_todo (l_q l)) 0 with Some (_ :: _) => True | _ => False end /\
      nth_error (q_todo (l_q l')) 0 = Some [] /\ nth_error (c_threads (w_s (q_w (l_q l')))) 0 = Some PIdle /\ length dk_done - length dk_panic = 23
  | _, _ => False
  end.
Proof. vm_compute. repeat split; reflexivity. Qed.

(** And nothing but a borrow keeps a thread from starting a call on a tree that was not given up. *)
Theorem C60_start : forall (I V : Type) (X : index_ops I) (Y : slice_ops I V) (M n : nat) (xs : list (deed * nat)) (l : lclient) (t : nat) (c : call) (ts ts' : list (option rle)),
  1 <= M -> drun X Y M (dstart n) xs = Some l -> nth_error (q_todo (l_q l)) t = Some [] -> nth_error (c_threads (w_s (q_w (l_q l)))) t = Some PIdle ->
  telling X Y M [] (map fst xs) = Some ts -> seq1 X Y M ts c = Some ts' ->
  match c with
  | CNew => True
  | CInsert _ j _ _ _ _ | CDrop j => existsb (uses j) (c_threads (w_s (q_w (l_q l)))) = false
  | CClone j => existsb (writes j) (c_threads (w_s (q_w (l_q l)))) = false
  end -> exists a j l', dstep X Y M l (DAct (KCall t c a)) j = Some l'.
Proof. exact C60_start_proof. Qed.
Print Assumptions C60_start.

(** Thread 2 can insert into tree 2, and drop it, but not insert into tree 1. *)
Example C60_start_ex : match dk_run dk_done with
  | Some l => nth_error (q_todo (l_q l)) 2 = Some [] /\ nth_error (c_threads (w_s (q_w (l_q l)))) 2 = Some PIdle /\ existsb (uses 2) (c_threads (w_s (q_w (l_q l)))) = false /\
      match dstep sx sc 1 l (DAct (kk_call 2 (kk_ins 2 5 9 10) 0)) 0, dstep sx sc 1 l (DAct (kk_call 2 (MDrop 2) 0)) 0, dstep sx sc 1 l (DAct (kk_call 2 (kk_ins 1 5 9 10) 0)) 0 with
      | Some _, Some _, None => True
      | _, _, _ => False
      end
  | None => False
  end.
Proof. vm_compute. repeat split; reflexivity. Qed.
