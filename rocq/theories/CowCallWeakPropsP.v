(** Proofs of the properties of calls on trees that share nodes, with weak memory. *)
From Coq Require Import List Arith Bool ZArith Lia.
From Verif Require Import Base ListFacts Index Slice Tree Insert Range Spec Iter Hist IterQ LRef LSpec Cow CowSpec CowP Weak WeakPropsP CowCall CowCallS CowCallPropsP CowCallWeak CowCallWeakP.
Import ListNotations.

Lemma from_qstart : forall (I V : Type) (X : index_ops I) (Y : slice_ops I V) (M n : nat) xs (q : wclient), qrun X Y M (qstart n) xs = Some q ->
  qinv q /\ exists ys, krun X Y M (kstart n) ys = Some (sc_of q) /\ calls ys = calls (map fst xs).
Proof. intros I V X Y M n xs q H. exact (qrun_sim X Y M _ _ _ (qstart_inv n) H). Qed.

(** The orderings of the atomics are enough for C55: whatever old counts the threads read, memory shows, for every tree
    that is not just being written, what the calls make of it one after another, in the order in which they were
    started, and so does every reader at its node. *)
Lemma C57_one_after_another_proof : forall (I V : Type) (X : index_ops I) (Y : slice_ops I V) (M n : nat) (xs : list (act * nat)) (q : wclient),
  (1 <= M)%nat -> qrun X Y M (qstart n) xs = Some q ->
  exists ts, seq X Y M [] (calls (map fst xs)) = Some ts /\
    (forall j, existsb (writes j) (c_threads (w_s (q_w q))) = false ->
       holds (c_mem (w_s (q_w q))) (nth_error (c_handles (w_s (q_w q))) j) (option_map (option_map rle_rose) (nth_error ts j))) /\
    (forall t j is a, nth_error (c_threads (w_s (q_w q))) t = Some (PRead j is a) ->
       exists r x nd, nth_error ts j = Some (Some (Some r)) /\ sub (rose_of (r_height r) (r_node r)) (rev is) = Some x /\
         look (c_mem (w_s (q_w q))) a = Some nd /\ n_data nd = rdata x).
Proof.
  intros I V X Y M n xs q HM H. destruct (from_qstart _ _ _ _ _ _ _ _ H) as (_ & ys & KR & <-). exact (C55_one_after_another_proof _ _ _ _ _ _ _ _ HM KR).
Qed.

(** The steps of calls are steps of the machine of Weak.v.  There is no race between them, and none uses freed memory. *)
Lemma C57_no_race_proof : forall (I V : Type) (X : index_ops I) (Y : slice_ops I V) (M n : nat) (xs : list (act * nat)) (q : wclient),
  qrun X Y M (qstart n) xs = Some q ->
  ~ race (q_w q) /\ exists es outs, wrun code_ords (wstart n) es = Some (outs, q_w q) /\ ~ In BBad outs.
Proof.
  intros I V X Y M n xs q H. destruct (qrun_wrun X Y M _ _ _ H) as (es & outs & R). cbn [qstart q_w] in R. destruct (C50_no_race_proof _ _ _ _ _ R) as [NR NB].
  split; [exact NR|]. exists es, outs. auto.
Qed.

(** Once started, a call can be finished by its thread alone. *)
Lemma C57_finish_proof : forall (I V : Type) (X : index_ops I) (Y : slice_ops I V) (M n : nat) (xs : list (act * nat)) (q : wclient) (t : nat),
  (1 <= M)%nat -> qrun X Y M (qstart n) xs = Some q -> (t < n)%nat ->
  exists ys q', qrun X Y M q ys = Some q' /\ Forall (fun y => who (fst y) = t) ys /\ calls (map fst ys) = [] /\
    nth_error (q_todo q') t = Some [] /\ nth_error (c_threads (w_s (q_w q'))) t = Some PIdle.
Proof.
  intros I V X Y M n xs q t HM H LT. destruct (from_qstart _ _ _ _ _ _ _ _ H) as (Q & zs & KR & _).
  destruct (C55_ends _ _ _ _ _ _ _ _ _ HM KR LT) as (ys & k' & R & E & H1 & H2).
  destruct (krun_weak X Y M ys q k' Q R) as (q' & QR & <-); [eapply Forall_impl; [|exact E]; intros y [_ Z]; destruct y; auto|].
  exists (map (fun x => (x, 0%nat)) ys), q'. split; [exact QR|].
  assert (EM : map fst (map (fun x : @act I V => (x, 0%nat)) ys) = ys) by (rewrite map_map; cbn [fst]; apply map_id).
  split; [|split; [rewrite EM; eapply ends_calls; exact E|split; [exact H1|exact H2]]].
  apply Forall_forall. intros y IN. apply in_map_iff in IN. destruct IN as (x & <- & IN). rewrite Forall_forall in E. apply (E x IN).
Qed.

(** Nothing but a borrow of the tree keeps a thread from starting a call that would not panic. *)
Lemma C57_start_proof : forall (I V : Type) (X : index_ops I) (Y : slice_ops I V) (M n : nat) (xs : list (act * nat)) (q : wclient) (t : nat) (c : call) (ts : list (option rle)),
  (1 <= M)%nat -> qrun X Y M (qstart n) xs = Some q -> nth_error (q_todo q) t = Some [] -> nth_error (c_threads (w_s (q_w q))) t = Some PIdle ->
  seq X Y M [] (calls (map fst xs) ++ [c]) = Some ts ->
  match c with
  | CNew => True
  | CInsert _ j _ _ _ _ | CDrop j => existsb (uses j) (c_threads (w_s (q_w q))) = false
  | CClone j => existsb (writes j) (c_threads (w_s (q_w q))) = false
  end -> exists a j q', qstep X Y M q (KCall t c a) j = Some q'.
Proof.
  intros I V X Y M n xs q t c ts HM H NT NP SQ U. destruct (from_qstart _ _ _ _ _ _ _ _ H) as (Q & zs & KR & EC). rewrite <- EC in SQ.
  destruct (C55_start_proof _ _ _ _ _ _ _ _ _ _ _ HM KR NT NP SQ U) as (a & k' & KS). destruct (kstep_weak X Y M _ _ _ Q KS Logic.I) as (q' & QS & _). eauto.
Qed.

(** The same for the lists of runs that trees stand for. *)
Lemma C57_values_proof : forall (I V : Type) (X : index_ops I) (Y : slice_ops I V) (MAX : Z) (inj : Z -> I) (M n : nat) (nop : bool) (cs : list mcall) (xs : list (act * nat)) (q : wclient),
  index_laws X MAX inj -> (1 <= M)%nat -> qrun X Y M (qstart n) xs = Some q -> calls (map fst xs) = map (as_call inj nop) cs -> mcalls_fit MAX cs ->
  exists st, val_run Y inj ([], []) cs = Ok st /\
    forall j, existsb (writes j) (c_threads (w_s (q_w q))) = false ->
    match nth_error (c_handles (w_s (q_w q))) j, nth_error (fst st) j with
    | Some (Some a), Some (Some l) => exists r, iter_collect X r [] SUnb EUnb = Ok (map (inj_item inj) (spans 0 l)) /\
        match a, rle_rose r with Some a, Some x => shows (c_mem (w_s (q_w q))) a x | None, None => True | _, _ => False end
    | Some None, Some None | None, None => True
    | _, _ => False
    end.
Proof.
  intros I V X Y MAX inj M n nop cs xs q L HM H EC F. destruct (from_qstart _ _ _ _ _ _ _ _ H) as (_ & zs & KR & E2). rewrite <- E2 in EC.
  exact (C55_values_proof _ _ _ _ _ _ _ _ _ _ _ _ L HM KR EC F).
Qed.
