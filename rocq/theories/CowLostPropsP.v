(** Proofs of the properties of calls beside calls that panic. *)
From Coq Require Import List Arith Bool Lia.
From Verif Require Import Base ListFacts Index Slice Tree Insert LInsert LCow Cow CowSpec CowP CowT CowU CowV CowPropsP Weak WeakR WeakS WeakX WeakPropsP CowCall CowCallP CowCallQ CowCallR CowCallS CowCallPropsP CowCallWeak CowCallWeakP CowLost CowLostP.
Import ListNotations.

Lemma from_dstart : forall (I V : Type) (X : index_ops I) (Y : slice_ops I V) (M n : nat) xs (l : lclient), 1 <= M -> drun X Y M (dstart n) xs = Some l ->
  dinv l /\ telling X Y M [] (map fst xs) = Some (q_trees (l_q l)) /\ leafh (c_mem (w_s (q_w (l_q l)))) /\ length (c_threads (w_s (q_w (l_q l)))) = n.
Proof.
  intros I V X Y M n xs l HM H. destruct (dinv_run X Y M HM _ _ _ (dinv_start n) H) as [K T]. split; [exact K|]. split; [exact T|].
  destruct (drun_leaf X Y M HM _ _ _ (dinv_start n) ltac:(intros a nd L; destruct a; discriminate L) H) as [LH LN]. split; [exact LH|]. rewrite LN. apply repeat_length.
Qed.

(** However many calls panic, and wherever: every tree that was not given up and is not just being written shows what
    the calls that were finished make of it one after another, and so does every reader of such a tree at its node.
    That trees share nodes with trees that were given up makes no difference. *)
Lemma C60_others_proof : forall (I V : Type) (X : index_ops I) (Y : slice_ops I V) (M n : nat) (xs : list (deed * nat)) (l : lclient),
  1 <= M -> drun X Y M (dstart n) xs = Some l ->
  exists ts, telling X Y M [] (map fst xs) = Some ts /\
    (forall j, ~ In j (l_lost l) -> existsb (writes j) (c_threads (w_s (q_w (l_q l)))) = false ->
       holds (c_mem (w_s (q_w (l_q l)))) (nth_error (c_handles (w_s (q_w (l_q l)))) j) (option_map (option_map rle_rose) (nth_error ts j))) /\
    (forall t j is a, ~ In j (l_lost l) -> nth_error (c_threads (w_s (q_w (l_q l)))) t = Some (PRead j is a) ->
       exists r x nd, nth_error ts j = Some (Some (Some r)) /\ sub (rose_of (r_height r) (r_node r)) (rev is) = Some x /\
         look (c_mem (w_s (q_w (l_q l)))) a = Some nd /\ n_data nd = rdata x).
Proof.
  intros I V X Y M n xs l HM H. destruct (from_dstart _ _ _ _ _ _ _ _ HM H) as ([_ (sp & K)] & T & _). exists (q_trees (l_q l)). split; [exact T|]. split.
  - intros j NI U. exact (x_holds _ _ _ _ K NI U).
  - intros t j is a NI N. set (k := sc_of (l_q l)) in *. pose proof (r_threads _ _ (x_rel _ _ _ K) t) as Q. change (c_threads (w_s (q_w (l_q l)))) with (c_threads (k_c k)) in N. rewrite N in Q.
    destruct (nth_error (s_threads sp) t) as [q|] eqn:NQ; [|contradiction]. cbn [orel] in Q. destruct q; cbn [trel] in Q; try contradiction. destruct Q as [-> ->].
    pose proof (read_unwritten _ _ _ _ _ (x_inv _ _ _ K) (x_rel _ _ _ K) NQ) as UN. pose proof (x_tree _ _ _ K j NI UN) as TJ.
    pose proof (i_thread _ (x_inv _ _ _ K) t _ N) as TI. cbn [tinv] in TI. destruct TI as (top & RT & FO).
    pose proof (r_trees _ _ (x_rel _ _ _ K) j) as HR. rewrite (root_nth _ _ _ RT), TJ in HR. change (k_trees k) with (q_trees (l_q l)) in HR.
    destruct (nth_error (q_trees (l_q l)) j) as [[[r|]|]|]; cbn [option_map rle_rose holds] in HR; try contradiction.
    destruct (follow_sub _ _ _ _ _ FO HR) as (x & SX & SH). destruct (shows_elim _ _ _ SH) as (nd & LA & ED & _). exists r, x, nd. auto.
Qed.

(** There is no race even so, and no step uses freed memory. *)
Lemma C60_no_race_proof : forall (I V : Type) (X : index_ops I) (Y : slice_ops I V) (M n : nat) (xs : list (deed * nat)) (l : lclient),
  drun X Y M (dstart n) xs = Some l ->
  ~ race (q_w (l_q l)) /\ exists es outs, wrun code_ords (wstart n) es = Some (outs, q_w (l_q l)) /\ ~ In BBad outs.
Proof.
  intros I V X Y M n xs l H. destruct (drun_wrun X Y M _ _ _ H) as (es & outs & R). cbn [dstart l_q qstart q_w] in R. destruct (C50_no_race_proof _ _ _ _ _ R) as [NR NB].
  split; [exact NR|]. exists es, outs. auto.
Qed.

(** A call that has been started can be finished by its thread alone, also if other threads panic or have stopped
    half-way in trees that share its nodes. *)
Lemma C60_finish_proof : forall (I V : Type) (X : index_ops I) (Y : slice_ops I V) (M n : nat) (xs : list (deed * nat)) (l : lclient) (t : nat) (e : ev ndata) (es : list (ev ndata)),
  1 <= M -> drun X Y M (dstart n) xs = Some l -> nth_error (q_todo (l_q l)) t = Some (e :: es) -> t < n ->
  exists ys l', drun X Y M l ys = Some l' /\ Forall (fun y => exists x, fst y = DAct x /\ who x = t) ys /\
    nth_error (q_todo (l_q l')) t = Some [] /\ nth_error (c_threads (w_s (q_w (l_q l')))) t = Some PIdle /\
    telling X Y M [] (map fst (xs ++ ys)) = telling X Y M [] (map fst xs).
Proof.
  intros I V X Y M n xs l t e es HM H NT LT. destruct (from_dstart _ _ _ _ _ _ _ _ HM H) as (DI & T & LH & LN). pose proof DI as [Q (sp & K)].
  destruct (xfinish X Y M HM _ (length (e :: es)) (sc_of (l_q l)) sp t (e :: es) K LH NT ltac:(discriminate) (le_n _)) as (ys & k' & R & E & H1 & H2); [change (t < length (c_threads (w_s (q_w (l_q l))))); lia|].
  destruct (krun_weak X Y M ys (l_q l) k' Q R) as (q' & QR & <-); [eapply Forall_impl; [|exact E]; intros y [_ Z]; destruct y; auto|].
  pose proof (drun_acts X Y M _ _ _ (l_lost l) QR) as DR. destruct l as [q W]. cbn [l_q l_lost] in *.
  eexists. eexists. split; [exact DR|]. split; [|split; [exact H1|split; [exact H2|]]].
  - apply Forall_forall. intros y IN. apply in_map_iff in IN. destruct IN as (y' & <- & IN). apply in_map_iff in IN. destruct IN as (x & <- & IN). exists x. split; [reflexivity|].
    rewrite Forall_forall in E. apply (E x IN).
  - rewrite map_app, !map_map. cbn [fst]. clear - E T. rewrite T.
    assert (GO : forall ds ts ts', telling X Y M ts ds = Some ts' -> telling X Y M ts (ds ++ map (fun x => DAct x) ys) = Some ts'); [|exact (GO _ _ _ T)].
    induction ds as [|d ds IH]; intros ts ts' HT; cbn [telling app] in *; [|destruct (told X Y M ts d); [eauto|discriminate]].
    injection HT as <-. clear - E. induction E as [|x ys [_ Hx] E IH]; cbn [map telling]; [reflexivity|]. destruct x; try contradiction; exact IH.
Qed.

(** And nothing but a borrow keeps a thread from starting a call on a tree that was not given up. *)
Lemma C60_start_proof : forall (I V : Type) (X : index_ops I) (Y : slice_ops I V) (M n : nat) (xs : list (deed * nat)) (l : lclient) (t : nat) (c : call) (ts ts' : list (option rle)),
  1 <= M -> drun X Y M (dstart n) xs = Some l -> nth_error (q_todo (l_q l)) t = Some [] -> nth_error (c_threads (w_s (q_w (l_q l)))) t = Some PIdle ->
  telling X Y M [] (map fst xs) = Some ts -> seq1 X Y M ts c = Some ts' ->
  match c with
  | CNew => True
  | CInsert _ j _ _ _ _ | CDrop j => existsb (uses j) (c_threads (w_s (q_w (l_q l)))) = false
  | CClone j => existsb (writes j) (c_threads (w_s (q_w (l_q l)))) = false
  end -> exists a j l', dstep X Y M l (DAct (KCall t c a)) j = Some l'.
Proof.
  intros I V X Y M n xs l t c ts ts' HM H NT NP TS SQ U. destruct (from_dstart _ _ _ _ _ _ _ _ HM H) as ([Q (sp & K)] & T & _). rewrite TS in T. injection T as ->.
  destruct (xstart X Y M HM _ (sc_of (l_q l)) sp t c ts' K NT NP SQ U) as (a & k' & KS). destruct (kstep_weak X Y M _ _ _ Q KS Logic.I) as (q' & QS & _).
  exists a, 0. eexists. cbn [dstep]. rewrite QS. reflexivity.
Qed.
