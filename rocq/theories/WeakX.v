(** Proofs about weak memory: every step keeps the invariant, part 4; histories. *)
From Coq Require Import List Arith Bool Lia.
From Verif Require Import Base ListFacts Cow CowSpec CowP CowQ CowR CowS CowT CowPropsP Weak WeakP WeakQ WeakR WeakS WeakT WeakU WeakV WeakW.
Import ListNotations.

Section WX.
  Context {D : Type}.
  Notation heap := (heap D).
  Notation cnode := (cnode D).
  Notation pc := (pc D).
  Notation cstate := (cstate D).
  Notation wstate := (wstate D).
  Variable o : ords.
  Hypothesis ST : strong o.
  Notation winv := (@winv D o).

  Lemma unused : forall (s : cstate) f t q, existsb f (c_threads s) = false -> nth_error (c_threads s) t = Some q -> f q = false.
  Proof.
    intros s f t q E N. destruct (f q) eqn:F; auto. assert (existsb f (c_threads s) = true); [|congruence]. apply existsb_exists. exists q. split; auto. eapply nth_error_In; eauto.
  Qed.

  Lemma join_hw : forall (w : wstate) t e h g, match e with VRead h' | VClone h' | VNew h' _ _ | VDrop h' | VInsert h' => h' = h | _ => False end -> incl (w_hw w h) (k2 w t e g).
  Proof.
    intros w t e h g E i X. apply k1_k2. unfold k1. apply in_or_app. right. unfold joins. apply in_or_app. left. destruct e; try contradiction; subst; auto; apply in_or_app; auto.
  Qed.
  Lemma join_hr : forall (w : wstate) t e h g, match e with VNew h' _ _ | VDrop h' | VInsert h' => h' = h | _ => False end -> incl (w_hr w h) (k2 w t e g).
  Proof.
    intros w t e h g E i X. apply k1_k2. unfold k1. apply in_or_app. right. unfold joins. apply in_or_app. left. destruct e; try contradiction; subst; auto; apply in_or_app; auto.
  Qed.

  Lemma idle_root : forall (s : cstate) t, inv s -> nth_error (c_threads s) t = Some PIdle -> forall u q, other s t u q -> forall h, uses h q = true -> h < length (c_handles s).
  Proof. intros s t I N u q [NU _] h U. destruct (uses_root _ _ q h (i_thread s I u q NU) U) as (r & R). eapply root_lt; eauto. Qed.

  Lemma root_end : forall hs h, root (hs ++ [Some None]) h = root hs h.
  Proof.
    intros hs h. unfold root. destruct (lt_eq_lt_dec h (length hs)) as [[L| ->]|L].
    - rewrite nth_error_app1 by auto. auto.
    - rewrite nth_snoc. rewrite (proj2 (nth_error_None hs (length hs))); auto.
    - rewrite (proj2 (nth_error_None (hs ++ [Some None]) h)) by (rewrite app_length; cbn; lia). rewrite (proj2 (nth_error_None hs h)) by lia. auto.
  Qed.

  Lemma idle_case : forall (w : wstate) t e j v g s' b, winv w -> thr w t PIdle -> inv s' ->
    reads_count o w (k1 w t e) (atomic o (w_s w) t e) j = Some (v, g) -> vstep (w_s w) t e v = Next s' b -> simple e -> winv (mk o w t e g s' (logged o w t e v g)).
  Proof.
    intros w t e j v g s' b V T I' RC VS SI. pose proof (staged_ok o ST w t _ e j v g s' b V T SI RC VS) as V2. pose proof (base_staged o w t e v g) as B.
    pose proof (v_inv o w V) as I. unfold thr in T. pose proof (base_kt _ _ _ _ _ _ B) as KT.
    assert (LT : t < length (c_threads (w_s w))) by (eapply nth_error_lt; eauto).
    assert (SAME : c_threads (w_s w) = replace_at t PIdle (c_threads (w_s w))) by (symmetry; apply replace_same; auto).
    assert (T2 : thr (staged o w t e v g) t PIdle) by exact T.
    unfold vstep in VS. rewrite T in VS. unfold cstep in VS. rewrite T in VS. destruct e; try discriminate; try contradiction.
    - (* VEmpty *)
      injection VS as <- <-. eapply (quiet_case o w t _ g _ _ _ _ PIdle B V2 T I'); try reflexivity; try (calc T); auto.
      + apply same_refl.
      + intros h. apply root_end.
      + apply (hands_idle o) with (h := length (c_handles (w_s w))); auto.
        * intros h' N. unfold hw', hr'. rewrite T, !upd_other by auto. split; auto. split; [apply incl_refl|auto].
        * intros u q OT. destruct (uses (length (c_handles (w_s w))) q) eqn:U; auto. pose proof (idle_root _ t I T u q OT _ U). lia.
        * intros a R. cbn in R. apply root_lt in R. lia.
    - (* VNew *)
      destruct (nth_error (c_handles (w_s w)) h) as [[[r|]|]|] eqn:H; try discriminate. destruct (existsb (uses h) (c_threads (w_s w))) eqn:U; [discriminate|].
      destruct (alloc (c_mem (w_s w)) a {| n_data := d; n_kids := []; n_cnt := 1; n_par := None; n_h := 0 |}) as [m|] eqn:AL; [|discriminate]. injection VS as <- <-.
      pose proof (alloc_none _ _ _ _ AL) as LN. assert (LK : forall x, look m x = if x =? a then Some {| n_data := d; n_kids := []; n_cnt := 1; n_par := None; n_h := 0 |} else look (c_mem (w_s w)) x) by (intros x; apply (look_alloc _ _ _ _ x AL)).
      assert (LH : h < length (c_handles (w_s w))) by (eapply nth_error_lt; eauto).
      assert (RH : root (c_handles (w_s w)) h = None) by (unfold root; rewrite H; auto).
      set (w' := mk o w t (VNew h a d) g (hand (mem (w_s w) m) h (Some (Some a))) (logged o w t (VNew h a d) v g)).
      assert (EW : w_hw w' = upd (w_hw w) h (k2 w t (VNew h a d) g)) by (unfold w'; cbn [mk w_hw]; calc T).
      assert (ER : w_hr w' = upd (w_hr w) h (k2 w t (VNew h a d) g)) by (unfold w'; cbn [mk w_hr]; calc T).
      assert (EH : w_hist w' = upd (w_hist w) a [{| g_val := 1; g_view := []; g_ev := length (w_log w) |}]) by (unfold w'; cbn [mk w_hist]; calc T).
      assert (EG : w_gone w' = w_gone w) by (unfold w'; cbn [mk w_gone]; calc T).
      assert (AA : allocates (w_s w) t (VNew h a d) = Some a) by (calc T).
      assert (BA : basics (staged o w t (VNew h a d) v g) w' t PIdle PIdle).
      { apply (basics_of o); auto. apply (hands_idle o) with (h := h); auto.
        - intros h' N. unfold w' in EW, ER. cbn [mk w_hw w_hr] in EW, ER. rewrite EW, ER, !upd_other by auto. split; auto. split; [apply incl_refl|auto].
        - intros u q [N _]. eapply (unused _ (uses h)); eauto.
        - intros x R. cbn in R. congruence. }
      assert (RT : root (c_handles (w_s w')) h = Some a) by (cbn; unfold root; rewrite replace_nth_same; auto).
      assert (RO : forall h', h' <> h -> root (c_handles (w_s w')) h' = root (c_handles (w_s w)) h') by (intros h' N; cbn; unfold root; rewrite replace_nth_other; auto).
      apply (shuffle o (staged o w t (VNew h a d) v g) w' t PIdle PIdle (fun _ => False) (fun l => l = LRoot h) (Some a) V2 T2 BA); try contradiction; unfold mem_of.
      + intros l ->. split.
        * intros i X. left. rewrite ER, upd_same. cbn in X. rewrite upd_same in X. exact X.
        * intros E i X ->. left. rewrite EW, upd_same. cbn in X. rewrite upd_same in X. exact X.
      + intros x N. rewrite EH, EG. cbn [staged before w_hist w_gone]. unfold gone2. rewrite AA, !upd_other by congruence. auto.
      + intros x nx LX. cbn in *. rewrite LK. destruct (Nat.eqb_spec x a) as [->|]; [congruence|eauto].
      + intros x LX N. cbn in *. rewrite LK. destruct (Nat.eqb_spec x a) as [->|]; [congruence|auto].
      + intros x E. injection E as <-. split; auto. split.
        * rewrite KT. cbn [staged before w_gone]. unfold gone2. rewrite AA, upd_same. apply incl_refl.
        * split; [eexists; cbn; rewrite LK, Nat.eqb_refl; split; reflexivity|]. split; [eexists; rewrite EH, upd_same; auto|]. exists (LRoot h). split; auto.
      + intros x [h'|z|u] R; left; cbn [refers] in *.
        * rewrite RO; auto. intros ->. cbn in R. congruence.
        * destruct R as (n & L & X). cbn in *. rewrite LK. destruct (Nat.eqb_spec z a) as [->|]; [congruence|eauto].
        * exact R.
      + intros x [h'|z|u] R; cbn [refers] in R.
        * destruct (Nat.eq_dec h' h) as [->|N]; [left; congruence|]. right. left. cbn. rewrite <- RO; auto.
        * right. left. destruct R as (n & L & X). cbn in L. rewrite LK in L. destruct (Nat.eqb_spec z a) as [->|]; [injection L as <-; destruct X|]. cbn. eauto.
        * right. left. exact R.
      + intros x. tauto.
    - (* VDrop *)
      destruct (nth_error (c_handles (w_s w)) h) as [[r|]|] eqn:H; try discriminate. destruct (existsb (uses h) (c_threads (w_s w))) eqn:U; [discriminate|]. injection VS as <- <-.
      assert (RH : root (c_handles (w_s w)) h = r) by (unfold root; rewrite H; auto).
      assert (LH : h < length (c_handles (w_s w))) by (eapply nth_error_lt; eauto).
      set (p' := PDrop match r with Some a => [WDec a] | None => [] end : pc).
      set (w' := mk o w t (VDrop h) g (go (hand (w_s w) h None) t p') (logged o w t (VDrop h) v g)).
      assert (EW : w_hw w' = w_hw w) by (unfold w'; cbn [mk w_hw]; calc T).
      assert (ER : w_hr w' = w_hr w) by (unfold w'; cbn [mk w_hr]; calc T).
      assert (EH : w_hist w' = w_hist w) by (unfold w'; cbn [mk w_hist]; calc T).
      assert (EG : w_gone w' = w_gone w) by (unfold w'; cbn [mk w_gone]; calc T).
      assert (AA : allocates (w_s w) t (VDrop h) = None) by (calc T).
      assert (RT : root (c_handles (w_s w')) h = None) by (cbn; unfold root; rewrite replace_nth_same; auto).
      assert (RO : forall h', h' <> h -> root (c_handles (w_s w')) h' = root (c_handles (w_s w)) h') by (intros h' N; cbn; unfold root; rewrite replace_nth_other; auto).
      assert (BA : basics (staged o w t (VDrop h) v g) w' t PIdle p').
      { apply (basics_of o); auto. apply (hands_idle o) with (h := h); auto.
        - intros h' N. unfold w' in EW, ER. cbn [mk w_hw w_hr] in EW, ER. rewrite EW, ER. split; auto. split; [apply incl_refl|auto].
        - intros u q [N _]. eapply (unused _ (uses h)); eauto.
        - intros x R R'. cbn in R'. fold p' in R'. change (root (replace_at h None (c_handles (w_s w))) h) with (root (c_handles (w_s w')) h) in R'. congruence. }
      assert (T' : nth_error (c_threads (w_s w')) t = Some p') by (cbn; apply replace_nth_same; auto).
      apply (shuffle o (staged o w t (VDrop h) v g) w' t PIdle p' (fun l => l = LRoot h) (fun _ => False) None V2 T2 BA); try contradiction; try discriminate; unfold mem_of.
      + intros l ->. split.
        * intros i [X|(u & q & TU & UQ & _)]; [rewrite KT; apply join_hr with (h := h); auto|]. rewrite (unused _ _ u q U TU) in UQ. discriminate.
        * intros x R. exists (ETree h). split; [exists x; split; [exact R|constructor]|]. intros i [X|(u & q & TU & WQ & _)]; [rewrite KT; apply join_hw with (h := h); auto|].
          apply writes_uses in WQ. rewrite (unused _ _ u q U TU) in WQ. discriminate.
      + intros x _. rewrite EH, EG. cbn [staged before w_hist w_gone]. unfold gone2. rewrite AA. auto.
      + intros x nx LX. eauto.
      + intros x LX _. exact LX.
      + intros x [h'|z|u] R; cbn [refers] in R.
        * destruct (Nat.eq_dec h' h) as [->|N]; [|left; cbn [refers]; rewrite RO; auto]. right. split; auto. exists (LHand t). split; [left; reflexivity|]. cbn [refers]. exists p'. split; auto.
          cbn in R. unfold p'. rewrite <- RH, R. left. auto.
        * left. exact R.
        * left. destruct R as (q & N & X). cbn [refers]. exists q. split; auto. destruct (Nat.eq_dec u t) as [->|NE].
          -- cbn in N. rewrite T in N. injection N as <-. destruct X.
          -- cbn. rewrite replace_nth_other; auto.
      + intros x [h'|z|u] R; right; cbn [refers] in R.
        * left. destruct (Nat.eq_dec h' h) as [->|N]; [congruence|]. cbn [refers]. rewrite <- RO; auto.
        * left. exact R.
        * destruct R as (q & N & X). destruct (Nat.eq_dec u t) as [->|NE].
          -- rewrite T' in N. injection N as <-. right. split; [left; reflexivity|]. exists (LRoot h). split; auto. cbn. rewrite RH. unfold p' in X. destruct r as [y|]; [|destruct X]. cbn in X. destruct X as [->|[]]. auto.
          -- left. cbn in N. rewrite replace_nth_other in N by auto. cbn. eauto.
      + intros x. unfold p'. destruct r; cbn; tauto.
    - (* VInsert *)
      destruct (nth_error (c_handles (w_s w)) h) as [[[r|]|]|] eqn:H; try discriminate. destruct (existsb (uses h) (c_threads (w_s w))) eqn:U; [discriminate|]. injection VS as <- <-.
      eapply (quiet_case o w t _ g _ _ _ _ (PEns h [] ELoad) B V2 T I'); try reflexivity; try (calc T); auto; try (cbn; tauto); [apply same_refl|].
      apply (hands_begin o) with (h := h); auto; try (calc T); [apply join_hw; auto|intros _; apply join_hr; auto].
  Qed.

  (** Starting to read, and cloning: the thread has no access to the tree before. *)
  Definition learned (w : wstate) (t : nat) (e : ev D) (g : evs) : wstate := set_k w (upd (w_k w) t (k2 w t e g)).

  Lemma base_learned : forall w t e g, allocates (w_s w) t e = None -> base w t e g (w_log w) (learned w t e g).
  Proof. intros w t e g A. constructor; try reflexivity. cbn. unfold gone2. rewrite A. auto. Qed.

  Lemma learned_ok : forall w t e g, winv w -> winv (learned w t e g).
  Proof.
    intros w t e g V. apply grow; auto. intros u. unfold upd. destruct (Nat.eqb_spec u t) as [->|]; [apply k_k2|apply incl_refl].
  Qed.

  Lemma log_mk : forall (w : wstate) t e v g s', winv (mk o w t e g s' (w_log w)) ->
    (forall x, In x (uses_of o (w_s w) t e v (k1 w t e) (k2 w t e g)) -> ~ heavy (x_kind x) /\ up (mk o w t e g s' (w_log w)) (x_addr x) (length (w_log w)) /\ look (c_mem s') (x_addr x) <> None /\
       (forall i, wrote (w_log w) i (x_addr x) -> In i (x_hb x))) ->
    winv (mk o w t e g s' (logged o w t e v g)).
  Proof.
    intros w t e v g s' V H. change (mk o w t e g s' (logged o w t e v g)) with (set_log (mk o w t e g s' (w_log w)) (w_log (mk o w t e g s' (w_log w)) ++ [(t, uses_of o (w_s w) t e v (k1 w t e) (k2 w t e g))])).
    apply log_add; auto.
    - intros x X. destruct (H x X) as (_ & U & L & _). cbn [mk w_s w_log]. destruct (look (c_mem s') (x_addr x)); [auto|congruence].
    - intros x E X HV. destruct (H x X) as (NH & _). contradiction.
    - intros x i X _ HV. destruct (H x X) as (NH & _). contradiction.
    - intros x i X W. apply (H x X). auto.
  Qed.

  Lemma light : forall k, k = KRead \/ k = KCount -> ~ heavy k.
  Proof. intros k [-> | ->] [E|E]; discriminate. Qed.

  Lemma tree_wrote : forall (w : wstate) h a i, winv w -> root (c_handles (w_s w)) h = Some a -> existsb (writes h) (c_threads (w_s w)) = false ->
    wrote (w_log w) i a -> In i (w_hw w h).
  Proof.
    intros w h a i V R U W. assert (ER : ereach (w_s w) (ETree h) a) by (exists a; split; [exact R|constructor]).
    destruct (v_wr o w V i a W _ ER) as [X|(u & q & TU & WQ & _)]; auto. rewrite (unused _ _ u q U TU) in WQ. discriminate.
  Qed.

  Lemma vread_case : forall (w : wstate) t h j v g s' b, winv w -> thr w t PIdle -> inv s' ->
    reads_count o w (k1 w t (VRead h)) (atomic o (w_s w) t (VRead h)) j = Some (v, g) -> vstep (w_s w) t (VRead h) v = Next s' b -> winv (mk o w t (VRead h) g s' (logged o w t (VRead h) v g)).
  Proof.
    intros w t h j v g s' b V T I' RC VS. pose proof (learned_ok w t (VRead h) g V) as V2. unfold thr in T.
    assert (AA : allocates (w_s w) t (VRead h) = None) by (calc T). pose proof (base_learned w t (VRead h) g AA) as B.
    assert (LT : t < length (c_threads (w_s w))) by (eapply nth_error_lt; eauto).
    unfold vstep in VS. rewrite T in VS. unfold cstep in VS. rewrite T in VS. destruct (nth_error (c_handles (w_s w)) h) as [[[a|]|]|] eqn:H; try discriminate.
    destruct (existsb (writes h) (c_threads (w_s w))) eqn:U; [discriminate|]. destruct (look (c_mem (w_s w)) a) as [n|] eqn:L; [|discriminate]. injection VS as <- <-.
    assert (RT : root (c_handles (w_s w)) h = Some a) by (unfold root; rewrite H; auto).
    apply log_mk.
    - eapply (quiet_case o w t _ g _ _ _ _ (PRead h [] a) B V2 T I'); try reflexivity; try (calc T); auto; try (cbn; tauto); [apply same_refl|].
      apply (hands_begin o) with (h := h); auto; try (calc T); [apply join_hw; auto|discriminate].
    - intros x X. unfold uses_of in X. unfold rd_nodes, atomic, wr_nodes, releases_mem in X. rewrite AA, T, H in X. cbn in X. destruct X as [<-|[]]. cbn [x_kind x_addr x_hb go c_mem]. split; [apply light; auto|]. split; [|split; [congruence|]].
      + eapply (up_user _ a h t (PRead h [] a)); [exact RT|unfold thr; cbn; apply replace_nth_same; auto|cbn; apply Nat.eqb_refl|]. cbn. rewrite upd_same. left. auto.
      + intros i W. unfold k1. apply in_or_app. right. unfold joins. apply in_or_app. left. eapply tree_wrote; eauto.
  Qed.

  Lemma vclone_case : forall (w : wstate) t h j v g s' b, winv w -> thr w t PIdle -> inv s' ->
    reads_count o w (k1 w t (VClone h)) (atomic o (w_s w) t (VClone h)) j = Some (v, g) -> vstep (w_s w) t (VClone h) v = Next s' b -> winv (mk o w t (VClone h) g s' (logged o w t (VClone h) v g)).
  Proof.
    intros w t h j v g s' b V T I' RC VS. pose proof (learned_ok w t (VClone h) g V) as V2. unfold thr in T. pose proof (v_inv o w V) as I.
    assert (AA : allocates (w_s w) t (VClone h) = None) by (calc T). pose proof (base_learned w t (VClone h) g AA) as B. pose proof (base_kt _ _ _ _ _ _ B) as KT.
    assert (LT : t < length (c_threads (w_s w))) by (eapply nth_error_lt; eauto).
    assert (SAME : c_threads (w_s w) = replace_at t PIdle (c_threads (w_s w))) by (symmetry; apply replace_same; auto).
    assert (T2 : thr (learned w t (VClone h) g) t PIdle) by exact T.
    unfold vstep in VS. rewrite T in VS. unfold cstep in VS. rewrite T in VS. destruct (nth_error (c_handles (w_s w)) h) as [[r|]|] eqn:H; try discriminate.
    destruct (existsb (writes h) (c_threads (w_s w))) eqn:U; [discriminate|].
    assert (LH : h < length (c_handles (w_s w))) by (eapply nth_error_lt; eauto).
    assert (EW : hw' w t (VClone h) (k2 w t (VClone h) g) = upd (w_hw w) (length (c_handles (w_s w))) (k2 w t (VClone h) g)) by (calc T).
    assert (ER : hr' w t (VClone h) (k2 w t (VClone h) g) = upd (upd (w_hr w) h (k2 w t (VClone h) g ++ w_hr w h)) (length (c_handles (w_s w))) (k2 w t (VClone h) g)) by (calc T).
    assert (HD : forall s2, hands (learned w t (VClone h) g) (mk o w t (VClone h) g s2 (w_log w)) t PIdle PIdle).
    { intros s2. apply (hands_idle o) with (h := length (c_handles (w_s w))); auto.
      - intros h' N. rewrite EW, ER, !(upd_other _ _ (length (c_handles (w_s w)))) by auto. split; auto. unfold upd. destruct (Nat.eqb_spec h' h) as [->|NE].
        + split; [intros i X; apply in_or_app; auto|]. intros u q [NU _] WQ. rewrite (unused _ _ u q U NU) in WQ. discriminate.
        + split; [apply incl_refl|auto].
      - intros u q OT. destruct (uses (length (c_handles (w_s w))) q) eqn:UQ; auto. pose proof (idle_root _ t I T u q OT _ UQ). lia.
      - intros a R. cbn in R. apply root_lt in R. lia. }
    destruct r as [a|].
    - destruct (look (c_mem (w_s w)) a) as [n|] eqn:L; [|discriminate]. injection VS as <- <-.
      assert (RT : root (c_handles (w_s w)) h = Some a) by (unfold root; rewrite H; auto).
      assert (AT : atomic o (w_s w) t (VClone h) = AAdd a) by (unfold atomic; rewrite T, H; auto).
      assert (RH : refers (w_s w) a (LRoot h)) by exact RT.
      destruct (refers_live _ _ _ I RH) as (n0 & L0 & POS). rewrite L in L0. injection L0 as <-.
      destruct (v_hist o w V a n L) as (m0 & ms & H0 & G0).
      set (s2 := {| c_mem := put (c_mem (w_s w)) a (with_cnt n (n_cnt n + 1)); c_handles := c_handles (w_s w) ++ [Some (Some a)]; c_threads := c_threads (w_s w) |} : cstate) in *.
      set (w' := mk o w t (VClone h) g s2 (w_log w)).
      assert (BA : basics (learned w t (VClone h) g) w' t PIdle PIdle) by (apply (basics_of o); auto).
      assert (HE : w_hist w' = upd (w_hist w) a (message w a (g_val m0 + 1) (o_inc o) (k2 w t (VClone h) g))).
      { unfold w'. cbn [mk w_hist]. unfold hist'. rewrite AT. rewrite (newest_hist _ _ _ _ H0). auto. }
      unfold message in HE. rewrite (newest_hist _ _ _ _ H0) in HE.
      assert (ER' : w_hr w' = upd (upd (w_hr w) h (k2 w t (VClone h) g ++ w_hr w h)) (length (c_handles (w_s w))) (k2 w t (VClone h) g)) by exact ER.
      assert (EW' : w_hw w' = upd (w_hw w) (length (c_handles (w_s w))) (k2 w t (VClone h) g)) by exact EW.
      assert (KW : forall i, In i (k2 w t (VClone h) g) -> know w' (LRoot h) i).
      { intros i X. left. rewrite ER', upd_other, upd_same by lia. apply in_or_app. auto. }
      apply log_mk.
      + eapply (bump o (learned w t (VClone h) g) w' t PIdle PIdle (fun l => l = LRoot (length (c_handles (w_s w)))) a n _ (LRoot (length (c_handles (w_s w)))) (ETree h) V2 T2 BA);
          [|exact L|exact POS|reflexivity| |exact HE| | | | | | | | | |reflexivity|reflexivity|reflexivity].
        * intros l ->. split.
          -- intros i X. left. rewrite ER', upd_same. cbn in X. rewrite upd_same in X. exact X.
          -- intros E i X ->. left. rewrite EW', upd_same. cbn in X. rewrite upd_same in X. exact X.
        * unfold w'. cbn [mk w_gone]. replace (releases_mem (w_s w) t (VClone h)) with (@None addr) by (symmetry; calc T). reflexivity.
        * cbn [g_val]. congruence.
        * cbn [g_view]. rewrite (base_view _ _ _ _ _ _ a B). unfold hview. rewrite (newest_hist _ _ _ _ H0). intros i X. apply in_or_app. auto.
        * cbn [g_ev]. rewrite KT. left. auto.
        * intros x [h'|z|u]; cbn [refers w' mk w_s s2 c_handles c_mem c_threads learned set_k].
          -- destruct (lt_eq_lt_dec h' (length (c_handles (w_s w)))) as [[L1| ->]|L1].
             ++ rewrite root_snoc by auto. split; [auto|]. intros [X|[_ X]]; [auto|]. injection X as ->. lia.
             ++ unfold root at 1. rewrite nth_snoc. split; [intros X; injection X as ->; auto|]. intros [X|[-> _]]; auto. apply root_lt in X. lia.
             ++ split; [intros X; apply root_lt in X; rewrite app_length in X; cbn in X; lia|]. intros [X|[_ X]]; [apply root_lt in X; lia|injection X as ->; lia].
          -- rewrite (look_put _ _ _ _ z L). destruct (Nat.eqb_spec z a) as [->|NE].
             ++ rewrite L. split; [intros (nn & E & X); injection E as <-; left; eauto|]. intros [(nn & E & X)|[_ X]]; [|discriminate]. injection E as <-. eexists. split; [reflexivity|exact X].
             ++ split; [auto|]. intros [X|[_ X]]; [auto|discriminate].
          -- split; [auto|]. intros [X|[_ X]]; [auto|discriminate].
        * right. reflexivity.
        * intros u q [NU NE] C. pose proof (sole _ u q a (LRoot h) I NU C RT) as O. cbn in O. rewrite (unused _ _ u q U NU) in O. discriminate.
        * intros C1 l R. assert (l = LRoot h) by (eapply (refers_one (w_s w) a); eauto; exists n; auto). subst l. apply KW. left. auto.
        * exists a. split; [exact RT|constructor].
        * intros i [X|(u & q & TU & WQ & _)]; [rewrite KT; apply join_hw with (h := h); auto|]. rewrite (unused _ _ u q U TU) in WQ. discriminate.
      + intros x X. unfold uses_of in X. rewrite AT in X. unfold rd_nodes, wr_nodes, releases_mem in X. rewrite AA, T in X. cbn in X. destruct X as [<-|[]]. cbn [x_kind x_addr x_hb]. split; [apply light; auto|]. split; [|split].
        * fold w'. eapply (up_root _ a (length (c_handles (w_s w)))).
          -- cbn. unfold root. rewrite nth_snoc. auto.
          -- rewrite ER', upd_same. left. auto.
        * cbn. rewrite (look_put _ _ _ _ a L), Nat.eqb_refl. discriminate.
        * intros i W. unfold k1. apply in_or_app. right. unfold joins. apply in_or_app. left. eapply tree_wrote; eauto.
    - injection VS as <- <-. apply log_mk.
      + eapply (quiet_case o w t _ g _ _ _ _ PIdle B V2 T I'); try reflexivity; try (calc T); auto.
        * unfold hist', atomic, allocates. rewrite T, H. reflexivity.
        * apply same_refl.
        * intros h'. apply root_end.
      + intros x X. unfold uses_of in X. unfold rd_nodes, atomic, wr_nodes, releases_mem in X. rewrite AA, T, H in X. destruct X.
  Qed.

  (** ** Any step *)

  Theorem wstep_ok : forall (w : wstate) t e j, winv w ->
    match wstep o w t e j with
    | WBlocked => True
    | WBad => False
    | WNext w' b => winv w' /\ exists e', alike e e' /\ cstep (w_s w) t e' = Next (w_s w') b
    end.
  Proof.
    intros w t e j V. pose proof (v_inv o w V) as I. unfold wstep. fold (k1 w t e). destruct (reads_count o w (k1 w t e) (atomic o (w_s w) t e) j) as [[v g]|] eqn:RC; [|exact Logic.I].
    fold (k2 w t e g). destruct (nth_error (c_threads (w_s w)) t) as [p|] eqn:T.
    2: { unfold vstep. rewrite T. destruct e; auto; unfold cstep; rewrite T; exact Logic.I. }
    pose proof (vstep_cow o w t p e j v g V T RC) as VC. destruct (vstep (w_s w) t e v) as [| |s' b] eqn:VS; [exact Logic.I| |].
    - destruct VC as (e' & _ & E). pose proof (step_good (w_s w) t e' I) as G. rewrite E in G. exact G.
    - destruct VC as (e' & A & E). pose proof (step_good (w_s w) t e' I) as I'. rewrite E in I'. cbn in I'. split; [|exists e'; auto].
      change (winv (mk o w t e g s' (logged o w t e v g))).
      destruct (match e with VRead _ | VClone _ => true | _ => false end) eqn:SI.
      + assert (p = PIdle) as ->.
        { unfold vstep in VS. rewrite T in VS. destruct e; try discriminate; destruct p as [|h0 is x|ws|h0 fr en|h0 fr x fl old]; auto; unfold cstep in VS; rewrite T in VS; try discriminate.
          all: try (destruct en; cbn in VS; discriminate). all: unfold at_step in VS; destruct (look (c_mem (w_s w)) x); discriminate. }
        destruct e; try discriminate; [eapply vclone_case|eapply vread_case]; eauto.
      + assert (SE : simple e) by (destruct e; try discriminate; exact Logic.I).
        destruct p as [|h is a|ws|h fr en|h fr a fl old].
        * eapply idle_case; eauto.
        * eapply (read_case o ST); eauto.
        * eapply (drop_case o ST); eauto.
        * eapply (ens_case o ST); eauto.
        * eapply (at_case o ST); eauto.
  Qed.

  Lemma wstart_inv : forall n, winv (wstart n).
  Proof.
    intros n. assert (P : forall t (p : pc), nth_error (repeat PIdle n) t = Some p -> p = PIdle).
    { intros t p H. apply nth_error_In in H. apply repeat_spec in H. auto. }
    assert (NL : forall i a, ~ used ([] : list (nat * list access)) i a) by (intros i a (u & xs & x & E & _); destruct i; discriminate).
    constructor; cbn [wstart w_s w_log w_hist w_hw w_hr w_k w_gone].
    - apply start_inv.
    - intros a m L. destruct a; discriminate.
    - intros i a (u & xs & x & E & _). destruct i; discriminate.
    - intros t p h T U. apply P in T. subst. discriminate.
    - intros t p h T U. apply P in T. subst. discriminate.
    - intros i a U. exfalso. eapply NL; eauto.
    - intros t p a T C. apply P in T. subst. destruct C.
    - intros t p a T C. apply P in T. subst. destruct C.
    - intros a pre m post l E. destruct pre; discriminate.
    - intros (i & j & u & u' & xs & ys & x & y & _ & E & _). destruct i; discriminate.
  Qed.

  (** Histories: the steps of the machine of Cow.v that are taken. *)
  Definition same_steps (es : list (nat * ev D * nat)) (es' : list (nat * ev D)) : Prop :=
    Forall2 (fun x y => fst (fst x) = fst y /\ alike (snd (fst x)) (snd y)) es es'.

  Lemma wrun_ok : forall es (w w' : wstate) outs, winv w -> wrun o w es = Some (outs, w') ->
    winv w' /\ ~ In BBad outs /\ exists es', same_steps es es' /\ crun (w_s w) es' = Some (outs, w_s w').
  Proof.
    induction es as [|[[t e] j] es IH]; intros w w' outs V R; cbn [wrun] in R.
    - injection R as <- <-. split; auto. split; [intros []|]. exists []. split; [constructor|reflexivity].
    - pose proof (wstep_ok w t e j V) as G. destruct (wstep o w t e j) as [| |w1 b]; [discriminate|contradiction|]. destruct G as [V1 (e' & A & E)].
      destruct (wrun o w1 es) as [[os w2]|] eqn:E2; [|discriminate]. injection R as <- <-. destruct (IH _ _ _ V1 E2) as (V2 & NB & es' & SS & CR).
      split; auto. split.
      + intros [X|X]; [destruct b; discriminate|auto].
      + exists ((t, e') :: es'). split; [constructor; auto|]. cbn [crun]. rewrite E, CR. auto.
  Qed.

  Lemma sstep_alike : forall (sp : sstate D) t e e', alike e e' -> sstep sp t e' = sstep sp t e.
  Proof.
    intros sp t e e' [->|[-> A]]; auto. destruct e; try contradiction; unfold sstep; destruct (nth_error (s_threads sp) t) as [[]|]; auto.
  Qed.

  Lemma srun_alike : forall es es' (sp : sstate D), same_steps es es' -> srun sp es' = srun sp (map fst es).
  Proof.
    intros es es' sp H. revert sp. induction H as [|[[t e] j] [t' e'] es es' [Et A] H IH]; intros sp; [reflexivity|]. cbn in Et, A. subst t'. cbn [map fst srun].
    rewrite (sstep_alike _ _ _ _ A). destruct (sstep sp t e) as [sp1 b]. rewrite IH. auto.
  Qed.
End WX.
