(** Proofs about weak memory: loads, and what is common to all steps. *)
From Coq Require Import List Arith Bool Lia.
From Verif Require Import Base ListFacts Cow CowSpec CowP CowQ CowR CowS CowT Weak WeakP WeakQ.
Import ListNotations.

(** The orderings that are strong enough. *)
Definition strong (o : ords) : Prop :=
  acquires (o_unique o) = true /\ releases (o_dec o) = true /\ (acquires (o_dec o) = true \/ acquires (o_last o) = true).

Section WR.
  Context {D : Type}.
  Notation heap := (heap D).
  Notation cnode := (cnode D).
  Notation pc := (pc D).
  Notation cstate := (cstate D).
  Notation wstate := (wstate D).
  Variable o : ords.
  Hypothesis ST : strong o.
  Notation winv := (@winv D o).

  Lemma known_in : forall k m, In (g_ev m) k -> known k m = true.
  Proof. intros k m H. unfold known. apply existsb_exists. exists (g_ev m). split; auto. apply Nat.eqb_refl. Qed.

  Lemma newest_hist : forall (w : wstate) a m ms, w_hist w a = m :: ms -> newest w a = m.
  Proof. intros w a m ms H. unfold newest. rewrite H. auto. Qed.

  (** A load of one by a place that only this thread can get at reads the newest value. *)
  Lemma load_one : forall (w : wstate) t p l c n k r j g, winv w -> thr w t p -> mn t p l -> refers (w_s w) c l -> look (c_mem (w_s w)) c = Some n ->
    incl (w_k w t) k -> reads_count o w k (ALoad c r) j = Some (1, g) -> n_cnt n = 1 /\ (acquires r = true -> g = hview w c).
  Proof.
    intros w t p l c n k r j g V T M R L K E. cbn [reads_count] in E. destruct (nth_error (w_hist w c) j) as [m|] eqn:N; [|discriminate].
    destruct (existsb (known k) (firstn j (w_hist w c))) eqn:X; [discriminate|]. injection E as G <-.
    destruct (v_hist o w V c n L) as (m0 & ms & H & H0). destruct j as [|j].
    - rewrite H in N. injection N as <-. split; [congruence|]. intros A. unfold got, hview. rewrite A, (newest_hist _ _ _ _ H). auto.
    - exfalso. pose proof (remove_split _ _ _ _ N) as SP.
      destruct (v_old o w V c _ m _ l SP) as (m' & A & B); auto.
      + rewrite H. discriminate.
      + congruence.
      + assert (In (g_ev m') k) by (apply K; eapply mn_in; eauto).
        assert (existsb (known k) (firstn (S j) (w_hist w c)) = true) by (apply existsb_exists; exists m'; split; auto; apply known_in; auto). congruence.
  Qed.

  (** The load before a node is freed reads the newest value. *)
  Lemma load_last : forall (w : wstate) t p a k r j v g, winv w -> thr w t p -> In a (dying p) ->
    incl (w_k w t) k -> reads_count o w k (ALoad a r) j = Some (v, g) -> acquires r = true -> g = hview w a.
  Proof.
    intros w t p a k r j v g V T C K E A. cbn [reads_count] in E. destruct (nth_error (w_hist w a) j) as [m|] eqn:N; [|discriminate].
    destruct (existsb (known k) (firstn j (w_hist w a))) eqn:X; [discriminate|]. injection E as _ <-.
    destruct (claim_live _ t p a (v_inv o w V) T (dying_claims _ _ C)) as (n & L). destruct (v_hist o w V a n L) as (m0 & ms & H & H0). destruct j as [|j].
    - rewrite H in N. injection N as <-. unfold got, hview. rewrite A, (newest_hist _ _ _ _ H). auto.
    - exfalso. rewrite H in X. cbn in X. rewrite known_in in X; [discriminate|]. apply K. rewrite <- (newest_hist _ _ _ _ H). apply (proj1 (v_dying o w V t p a T C)).
  Qed.

  (** ** Before the nodes change *)

  Definition set_gone (w : wstate) (g : addr -> evs) : wstate :=
    {| w_s := w_s w; w_k := w_k w; w_hist := w_hist w; w_hw := w_hw w; w_hr := w_hr w; w_gone := g; w_log := w_log w |}.

  Lemma up_gone : forall (w : wstate) g a i, up w a i -> up (set_gone w g) a i.
  Proof.
    intros w g a i U. induction U as [a i X|a h i R X|a h t p i R T U K|a t p i T X K|a t p i T X K|a b n i L K U IH].
    all: first [apply up_view; assumption|eapply up_root; eassumption|eapply up_user; eassumption|eapply up_hand; eassumption|eapply up_dying; eassumption|eapply up_kid; eassumption].
  Qed.

  Lemma gone_grow : forall (w : wstate) g, winv w -> (forall a, look (c_mem (w_s w)) a = None -> incl (w_gone w a) (g a)) -> winv (set_gone w g).
  Proof.
    intros w g V H. destruct V as [V1 V2 V3 V4 V5 V6 V7 V8 V9 V10]. constructor; auto; cbn [set_gone w_s w_log w_gone].
    - intros i a X. pose proof (V6 i a X) as Y. destruct (look (c_mem (w_s w)) a) eqn:L; [apply up_gone; auto|apply H; auto].
    - intros a pre m post l E P G R LA. destruct (V9 a pre m post l E P G R LA) as (m' & A & B). exists m'. split; auto.
      destruct l; cbn in *; auto. apply up_gone. auto.
  Qed.

  (** Conditions on a use of a node, for a thread that knew [k] and now knows [k2]. *)
  Record fair (w : wstate) (t : nat) (p : pc) (k2 : evs) (gone2 : addr -> evs) (x : access) : Prop := {
    f_up : match look (c_mem (w_s w)) (x_addr x) with Some _ => exists E, mine t p E /\ ereach (w_s w) E (x_addr x) | None => In (length (w_log w)) (gone2 (x_addr x)) end;
    f_wr : heavy (x_kind x) -> forall E, ereach (w_s w) E (x_addr x) -> own t p E;
    f_all : heavy (x_kind x) -> forall i, used (w_log w) i (x_addr x) -> In i (x_hb x);
    f_some : forall i, wrote (w_log w) i (x_addr x) -> In i (x_hb x)
  }.

  Definition before (w : wstate) (t : nat) (k2 : evs) (gone2 : addr -> evs) (acc : list access) : wstate :=
    {| w_s := w_s w; w_k := upd (w_k w) t k2; w_hist := w_hist w; w_hw := w_hw w; w_hr := w_hr w; w_gone := gone2; w_log := w_log w ++ [(t, acc)] |}.

  Lemma before_ok : forall (w : wstate) t p k2 gone2 acc, winv w -> thr w t p -> incl (w_k w t) k2 -> In (length (w_log w)) k2 ->
    (forall a, look (c_mem (w_s w)) a = None -> incl (w_gone w a) (gone2 a)) ->
    (forall x, In x acc -> fair w t p k2 gone2 x) -> winv (before w t k2 gone2 acc).
  Proof.
    intros w t p k2 gone2 acc V T K ID G F.
    assert (KK : forall u, incl (w_k w u) (upd (w_k w) t k2 u)) by (intros u; unfold upd; destruct (Nat.eqb_spec u t) as [->|]; auto; apply incl_refl).
    pose proof (grow o w _ V KK) as V1. pose proof (gone_grow _ gone2 V1 G) as V2.
    apply (log_add o _ t acc) in V2; [exact V2| | | |]; cbn [set_gone set_k w_s w_log w_gone w_hist w_k].
    - intros x X. pose proof (f_up _ _ _ _ _ _ (F x X)) as Y. destruct (look (c_mem (w_s w)) (x_addr x)); auto. destruct Y as (E & M & R).
      eapply (mine_up (set_gone (set_k w (upd (w_k w) t k2)) gone2) t p E); eauto. cbn. rewrite upd_same. auto.
    - intros x E X H R. pose proof (f_wr _ _ _ _ _ _ (F x X) H E R) as O. apply (own_know (set_gone (set_k w (upd (w_k w) t k2)) gone2) t p E); auto. cbn. rewrite upd_same. auto.
    - intros x i X U H. apply (f_all _ _ _ _ _ _ (F x X) H i U).
    - intros x i X U. apply (f_some _ _ _ _ _ _ (F x X) i U).
  Qed.

  Lemma wrote_used : forall l i a, wrote l i a -> used l i a.
  Proof. intros l i a (u & xs & x & A & B & C & _). exists u, xs, x. auto. Qed.

  Lemma ereach_live : forall (s : cstate) E a, inv s -> ereach s E a -> exists n, look (c_mem s) a = Some n.
  Proof.
    intros s E a I (b & TP & R). destruct R as [|x n y R L K].
    - destruct E as [h|u].
      + destruct (refers_live s b (LRoot h) I TP) as (n & L & _). eauto.
      + destruct TP as (q & TQ & [X|X]); [|eapply claim_live; eauto; apply dying_claims; auto].
        destruct (refers_live s b (LHand u) I) as (n & L & _); [cbn; eauto|eauto].
    - destruct (refers_live s y (LKid x) I) as (n1 & L1 & _); [cbn; eauto|eauto].
  Qed.

  (** Reading, or using the count of, a node. *)
  Lemma fair_light : forall (w : wstate) t p k k2 gone2 a kd E, winv w -> thr w t p -> incl (w_k w t) k -> mine t p E -> ereach (w_s w) E a ->
    kd = KRead \/ kd = KCount -> fair w t p k2 gone2 {| x_addr := a; x_kind := kd; x_hb := k |}.
  Proof.
    intros w t p k k2 gone2 a kd E V T K M R KD. destruct (ereach_live _ _ _ (v_inv o w V) R) as (n & L). constructor; cbn [x_addr x_kind x_hb].
    - rewrite L. eauto.
    - intros [H|H]; destruct KD; congruence.
    - intros [H|H]; destruct KD; congruence.
    - intros i W. apply K. eapply mine_know; eauto. eapply (v_wr o w V); eauto.
  Qed.

  (** Writing or freeing a node: all that was done to it is known. *)
  Lemma fair_heavy : forall (w : wstate) t p k2 gone2 a kd n, winv w -> thr w t p -> look (c_mem (w_s w)) a = Some n ->
    (exists E, mine t p E /\ ereach (w_s w) E a) -> (forall E, ereach (w_s w) E a -> own t p E) -> (forall i, up w a i -> In i k2) ->
    fair w t p k2 gone2 {| x_addr := a; x_kind := kd; x_hb := k2 |}.
  Proof.
    intros w t p k2 gone2 a kd n V T L M OW U.
    assert (A : forall i, used (w_log w) i a -> In i k2) by (intros i X; pose proof (v_up o w V i a X) as Y; rewrite L in Y; auto).
    constructor; cbn [x_addr x_kind x_hb]; auto.
    - rewrite L. auto.
    - intros i W. apply A. apply wrote_used. auto.
  Qed.

  Lemma fair_claim : forall (w : wstate) t p k2 gone2 a kd, winv w -> thr w t p -> incl (w_k w t) k2 -> In a (frames p ++ tips p) ->
    fair w t p k2 gone2 {| x_addr := a; x_kind := kd; x_hb := k2 |}.
  Proof.
    intros w t p k2 gone2 a kd V T K C. pose proof (v_inv o w V) as I. pose proof (ft_claims _ _ C) as CC. destruct (claim_live _ t p a I T CC) as (n & L).
    eapply fair_heavy; eauto.
    - destruct (claim_reach _ t p a I T CC) as (E & O & R). exists E. split; auto. apply own_mine. auto.
    - intros E R. eapply claim_ent; eauto.
    - intros i U. apply K. eapply claim_up; eauto.
  Qed.

  (** The child of a claimed node that turns out to be unique. *)
  Lemma fair_unique : forall (w : wstate) t p k2 gone2 a kd l n, winv w -> thr w t p -> incl (w_k w t) k2 -> mn t p l -> refers (w_s w) a l -> look (c_mem (w_s w)) a = Some n ->
    n_cnt n = 1 -> incl (hview w a) k2 -> fair w t p k2 gone2 {| x_addr := a; x_kind := kd; x_hb := k2 |}.
  Proof.
    intros w t p k2 gone2 a kd l n V T K M R L C HV. pose proof (v_inv o w V) as I. assert (C1 : has_cnt (c_mem (w_s w)) 1 a) by (exists n; auto).
    assert (ND : forall u q, thr w u q -> ~ In a (dying q)).
    { intros u q TU X. destruct (dying_cnt _ _ _ _ (i_thread _ I u q TU) X) as (n1 & L1 & Z). congruence. }
    eapply fair_heavy; eauto.
    - destruct (mn_reach _ t p l a I T M R) as (E & O & X). exists E. split; auto. apply own_mine. auto.
    - intros E (b & TP & X). destruct X as [|x nx y X LX KX].
      + apply (mn_through (w_s w) t p l E); auto. destruct E as [h|u].
        * rewrite (refers_one _ _ l (LRoot h) I C1 R TP). reflexivity.
        * destruct TP as (q & TQ & [Y|Y]); [|exfalso; eapply ND; eauto].
          rewrite (refers_one _ _ l (LHand u) I C1 R); [reflexivity|cbn; eauto].
      + apply (mn_through (w_s w) t p l E); auto. rewrite (refers_one _ _ l (LKid x) I C1 R); [|cbn; eauto]. exists b. auto.
    - intros i U. destruct (up_cases _ _ _ U) as [X|[(u & q & TU & X & _)|(l' & R' & X)]]; auto.
      + exfalso. eapply ND; eauto.
      + rewrite <- (refers_one _ _ l l' I C1 R R') in X. apply K. eapply mn_in; eauto.
  Qed.

  Lemma fair_new : forall (w : wstate) t p k k2 gone2 a kd, winv w -> look (c_mem (w_s w)) a = None -> incl (w_gone w a) k -> In (length (w_log w)) (gone2 a) ->
    fair w t p k2 gone2 {| x_addr := a; x_kind := kd; x_hb := k |}.
  Proof.
    intros w t p k k2 gone2 a kd V L K G.
    assert (A : forall i, used (w_log w) i a -> In i k) by (intros i X; pose proof (v_up o w V i a X) as Y; rewrite L in Y; auto).
    constructor; cbn [x_addr x_kind x_hb]; auto.
    - rewrite L. auto.
    - intros _ E R. exfalso. destruct (ereach_live _ _ _ (v_inv o w V) R) as (n & L'). congruence.
    - intros i W. apply A. apply wrote_used. auto.
  Qed.

  Lemma fair_dying : forall (w : wstate) t p k2 gone2 a kd, winv w -> thr w t p -> incl (w_k w t) k2 -> In a (dying p) -> incl (hview w a) k2 ->
    fair w t p k2 gone2 {| x_addr := a; x_kind := kd; x_hb := k2 |}.
  Proof.
    intros w t p k2 gone2 a kd V T K C H. pose proof (v_inv o w V) as I. pose proof (dying_claims _ _ C) as CC. destruct (claim_live _ t p a I T CC) as (n & L).
    eapply fair_heavy; eauto.
    - exists (EThread t). split; [reflexivity|]. exists a. split; [cbn; eauto|constructor].
    - intros E R. eapply claim_ent; eauto.
    - intros i U. destruct (dying_up o w t p a i V T U C); auto.
  Qed.

  (** ** Places of a thread *)

  Lemma mn_inp : forall (w : wstate) t p l, winv w -> thr w t p -> mn t p l ->
    (forall i, know w l i -> In i (w_k w t)) /\ forall a, refers (w_s w) a l -> exists E, ereach (w_s w) E a /\ forall i, eknow w E i -> In i (w_k w t).
  Proof.
    intros w t p l V T M. split; [intros i K; eapply mn_in; eauto|]. intros a R. destruct (mn_reach _ t p l a (v_inv o w V) T M R) as (E & O & X). exists E. split; auto.
    intros i K. eapply mine_know; eauto. apply own_mine. auto.
  Qed.

  Lemma mn_outp : forall (w : wstate) t p l, inv (w_s w) -> thr w t p -> mn t p l ->
    (forall i, In i (w_k w t) -> know w l i) /\ forall E i, In i (w_k w t) -> through (w_s w) E l -> eknow w E i.
  Proof.
    intros w t p l I T M. split; [intros i K; eapply mn_out; eauto|]. intros E i K TH. eapply own_know; eauto. eapply mn_through; eauto.
  Qed.

  (** ** Handles *)

  Record hands (w w' : wstate) (t : nat) (p p' : pc) : Prop := {
    h_mono : forall h a, refers (w_s w) a (LRoot h) -> refers (w_s w') a (LRoot h) -> incl (w_hw w h) (w_hw w' h) /\ incl (w_hr w h) (w_hr w' h);
    h_use : forall h, uses h p = true -> uses h p' = true \/ incl (w_k w t) (w_hr w' h);
    h_wr : forall h, writes h p = true -> writes h p' = true \/ incl (w_k w t) (w_hw w' h);
    h_oth : forall h u q, other (w_s w) t u q -> uses h q = true -> w_hw w' h = w_hw w h /\ (writes h q = true -> w_hr w' h = w_hr w h);
    h_me : forall h, uses h p' = true -> incl (w_hw w' h) (w_k w t) /\ (writes h p' = true -> incl (w_hr w' h) (w_k w t))
  }.

  Lemma hands_same : forall (w w' : wstate) t p p', winv w -> thr w t p -> w_hw w' = w_hw w -> w_hr w' = w_hr w ->
    (forall h, uses h p' = uses h p) -> (forall h, writes h p' = writes h p) -> hands w w' t p p'.
  Proof.
    intros w w' t p p' V T EW ER U W. constructor.
    - intros h a _ _. rewrite EW, ER. split; apply incl_refl.
    - intros h X. left. rewrite U. auto.
    - intros h X. left. rewrite W. auto.
    - intros h u q _ _. rewrite EW, ER. auto.
    - intros h X. rewrite EW, ER. rewrite U in X. rewrite W. split; [eapply (v_read o w V); eauto|intros Y; eapply (v_write o w V); eauto].
  Qed.

  Lemma hands_hr : forall (w w' : wstate) t p p', thr w t p -> hands w w' t p p' -> c_threads (w_s w') = replace_at t p' (c_threads (w_s w)) -> (forall u, w_k w' u = w_k w u) ->
    forall h a, refers (w_s w) a (LRoot h) -> refers (w_s w') a (LRoot h) ->
      (forall i, know w (LRoot h) i -> know w' (LRoot h) i) /\ (forall i, eknow w (ETree h) i -> eknow w' (ETree h) i).
  Proof.
    intros w w' t p p' T H TH KE h a R R'. destruct (h_mono _ _ _ _ _ H h a R R') as [MW MR].
    assert (T' : thr w' t p') by (unfold thr; rewrite TH; apply replace_nth_same; eapply nth_error_lt; eauto).
    assert (O' : forall u q, u <> t -> thr w u q -> thr w' u q) by (intros u q N X; unfold thr; rewrite TH, replace_nth_other by auto; exact X).
    split; cbn; intros i [X|(u & q & TU & U & X)]; auto; destruct (Nat.eq_dec u t) as [->|N].
    - unfold thr in T, TU. rewrite T in TU. injection TU as <-. destruct (h_use _ _ _ _ _ H h U) as [U'|I']; [right; exists t, p'; rewrite KE; auto|left; auto].
    - right. exists u, q. rewrite KE. auto.
    - unfold thr in T, TU. rewrite T in TU. injection TU as <-. destruct (h_wr _ _ _ _ _ H h U) as [U'|I']; [right; exists t, p'; rewrite KE; auto|left; auto].
    - right. exists u, q. rewrite KE. auto.
  Qed.

  Lemma hands_uses : forall (w w' : wstate) t p p', winv w -> thr w t p -> hands w w' t p p' -> c_threads (w_s w') = replace_at t p' (c_threads (w_s w)) ->
    (forall u q h, thr w' u q -> uses h q = true -> incl (w_hw w' h) (w_k w u)) /\ (forall u q h, thr w' u q -> writes h q = true -> incl (w_hr w' h) (w_k w u)).
  Proof.
    intros w w' t p p' V T H TH.
    assert (TN : forall u q, thr w' u q -> (u = t /\ q = p') \/ other (w_s w) t u q).
    { intros u q E. unfold thr in E. rewrite TH in E. destruct (Nat.eq_dec u t) as [->|N].
      - rewrite replace_nth_same in E by (eapply nth_error_lt; eauto). injection E as <-. auto.
      - rewrite replace_nth_other in E by auto. right. split; auto. }
    split; intros u q h TU U; destruct (TN u q TU) as [[-> ->]|OT].
    - apply (h_me _ _ _ _ _ H h U).
    - destruct (h_oth _ _ _ _ _ H h u q OT U) as [-> _]. eapply (v_read o w V); eauto. apply OT.
    - apply (h_me _ _ _ _ _ H h (writes_uses _ _ U)). auto.
    - destruct (h_oth _ _ _ _ _ H h u q OT (writes_uses _ _ U)) as [_ E]. rewrite (E U). eapply (v_write o w V); eauto. apply OT.
  Qed.

  (** ** Steps that move no reference *)

  Record same_refs (m m' : heap) : Prop := {
    sr_fw : forall a n, look m a = Some n -> exists n', look m' a = Some n' /\ n_kids n' = n_kids n /\ n_cnt n' = n_cnt n;
    sr_bw : forall a, look m a = None -> look m' a = None
  }.

  Lemma same_refl : forall m : heap, same_refs m m.
  Proof. intros m. constructor; eauto. Qed.

  Lemma same_put : forall (m : heap) b n n', look m b = Some n -> n_kids n' = n_kids n -> n_cnt n' = n_cnt n -> same_refs m (put m b n').
  Proof.
    intros m b n n' L K C. constructor.
    - intros a x LA. rewrite (look_put _ _ _ _ a L). destruct (Nat.eqb_spec a b) as [->|]; [exists n'|eauto]. rewrite L in LA. injection LA as <-. auto.
    - intros a LA. rewrite (look_put _ _ _ _ a L). destruct (Nat.eqb_spec a b) as [->|]; congruence.
  Qed.

  Lemma quiet : forall (w w' : wstate) t p p', winv w -> thr w t p -> inv (w_s w') -> (forall u, w_k w' u = w_k w u) -> w_log w' = w_log w ->
    c_threads (w_s w') = replace_at t p' (c_threads (w_s w)) -> w_hist w' = w_hist w -> w_gone w' = w_gone w -> same_refs (c_mem (w_s w)) (c_mem (w_s w')) ->
    (forall h, root (c_handles (w_s w')) h = root (c_handles (w_s w)) h) ->
    (forall x, In x (in_hand p') <-> In x (in_hand p)) -> (forall x, In x (dying p') <-> In x (dying p)) ->
    (forall a, In a (frames p' ++ tips p') -> incl (hview w a) (w_k w t)) -> hands w w' t p p' -> winv w'.
  Proof.
    intros w w' t p p' V T I' EK EL TH EH EG SR RT HA DY CL HD.
    assert (RE : forall a l, refers (w_s w') a l <-> refers (w_s w) a l).
    { intros a [h|b|u]; cbn [refers].
      - rewrite RT. tauto.
      - split; intros (n & L & K).
        + destruct (look (c_mem (w_s w)) b) as [n0|] eqn:L0; [|rewrite (sr_bw _ _ SR b L0) in L; discriminate].
          destruct (sr_fw _ _ SR b n0 L0) as (n1 & L1 & K1 & _). rewrite L in L1. injection L1 as <-. exists n0. split; auto. congruence.
        + destruct (sr_fw _ _ SR b n L) as (n1 & L1 & K1 & _). exists n1. split; auto. congruence.
      - rewrite TH. destruct (Nat.eq_dec u t) as [->|N].
        + rewrite replace_nth_same by (eapply nth_error_lt; eauto). split; intros (q & E & K); [injection E as <-; exists p|unfold thr in T; rewrite T in E; injection E as <-; exists p']; split; auto; apply HA; auto.
        + rewrite replace_nth_other by auto. tauto. }
    assert (HV : forall a, hview w' a = hview w a) by (intros a; unfold hview, newest; rewrite EH; auto).
    destruct (hands_uses w w' t p p' V T HD TH) as [HR HW].
    apply (moved o w w' t p p' (fun _ => False) (fun _ => False) V T). constructor; auto; try contradiction.
    - intros a n' L'. right. left. unfold mem_of in *. destruct (look (c_mem (w_s w)) a) as [n|] eqn:L; [|rewrite (sr_bw _ _ SR a L) in L'; discriminate].
      destruct (sr_fw _ _ SR a n L) as (n1 & L1 & _ & C1). rewrite L' in L1. injection L1 as <-. exists n. rewrite EH. auto.
    - intros a l R _. left. apply RE. auto.
    - intros a l R _. left. apply RE. auto.
    - intros a X _. apply DY. auto.
    - intros a X _. left. apply DY. auto.
    - intros a L'. unfold mem_of in *. destruct (look (c_mem (w_s w)) a) as [n|] eqn:L.
      + destruct (sr_fw _ _ SR a n L) as (n1 & L1 & _). congruence.
      + rewrite EG. apply incl_refl.
    - intros a L L'. exfalso. apply L'. apply (sr_bw _ _ SR). auto.
    - intros h a R R'. eapply (hands_hr w w' t p p'); eauto.
    - intros a C. rewrite HV. auto.
    - intros a C. unfold newest. rewrite HV, EH. apply (v_dying o w V t p a T). apply DY. auto.
  Qed.
End WR.
