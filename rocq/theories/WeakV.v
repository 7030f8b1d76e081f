(** Proofs about weak memory: every step keeps the invariant, part 2. *)
From Coq Require Import List Arith Bool Lia Permutation.
From Verif Require Import Base ListFacts Cow CowSpec CowP CowQ CowR CowS CowT CowPropsP Weak WeakP WeakQ WeakR WeakS WeakT WeakU.
Import ListNotations.

Ltac calc T := unfold hist', hw', hr', atomic, allocates, releases_mem, thr in *; rewrite ?T; reflexivity.

Section WV.
  Context {D : Type}.
  Notation heap := (heap D).
  Notation cnode := (cnode D).
  Notation pc := (pc D).
  Notation cstate := (cstate D).
  Notation wstate := (wstate D).
  Variable o : ords.
  Hypothesis ST : strong o.
  Notation winv := (@winv D o).

  Definition logged (w : wstate) (t : nat) (e : ev D) (v : nat) (g : evs) : list (nat * list access) :=
    w_log w ++ [(t, uses_of o (w_s w) t e v (k1 w t e) (k2 w t e g))].

  Lemma base_staged : forall w t e v g, base w t e g (logged w t e v g) (staged o w t e v g).
  Proof. intros. constructor; reflexivity. Qed.

  (** ** Readers *)

  Lemma read_case : forall (w : wstate) t e j v g s' b h is a, winv w -> thr w t (PRead h is a) -> inv s' ->
    reads_count o w (k1 w t e) (atomic o (w_s w) t e) j = Some (v, g) -> vstep (w_s w) t e v = Next s' b -> simple e -> winv (mk o w t e g s' (logged w t e v g)).
  Proof.
    intros w t e j v g s' b h is a V T I' RC VS SI. pose proof (staged_ok o ST w t _ e j v g s' b V T SI RC VS) as V2. pose proof (base_staged w t e v g) as B.
    unfold vstep, thr in *. rewrite T in VS. unfold cstep in VS. rewrite T in VS. destruct e; try discriminate.
    - destruct (look (c_mem (w_s w)) a) as [n|] eqn:L; [|discriminate]. destruct (nth_error (n_kids n) i) as [c|] eqn:K; [|discriminate].
      destruct (look (c_mem (w_s w)) c) as [nc|] eqn:LC; [|discriminate]. injection VS as <- <-.
      eapply (quiet_case o w t _ g _ _ _ _ (PRead h (i :: is) c) B V2 T I'); try reflexivity; try (calc T); try (cbn; tauto); [apply same_refl|].
      apply (hands_still o); auto; calc T.
    - injection VS as <- <-. eapply (quiet_case o w t _ g _ _ _ _ PIdle B V2 T I'); try reflexivity; try (calc T); try (cbn; tauto); [apply same_refl|].
      apply (hands_read_end o) with (h := h); auto; calc T.
  Qed.

  (** ** Drops *)

  Lemma drop_case : forall (w : wstate) t e j v g s' b ws, winv w -> thr w t (PDrop ws) -> inv s' ->
    reads_count o w (k1 w t e) (atomic o (w_s w) t e) j = Some (v, g) -> vstep (w_s w) t e v = Next s' b -> simple e -> winv (mk o w t e g s' (logged w t e v g)).
  Proof.
    intros w t e j v g s' b ws V T I' RC VS SI. pose proof (staged_ok o ST w t _ e j v g s' b V T SI RC VS) as V2. pose proof (base_staged w t e v g) as B.
    unfold vstep in VS. unfold thr in T. rewrite T in VS. assert (E : exists a, e = VStep a) by (unfold cstep in VS; rewrite T in VS; destruct e; try discriminate; eauto). destruct E as (a & ->).
    unfold cstep in VS. rewrite T in VS. destruct ws as [|x ws].
    - injection VS as <- <-. eapply (quiet_case o w t _ g _ _ _ _ PIdle B V2 T I'); try reflexivity; try (calc T); try (cbn; tauto); [apply same_refl|].
      apply (hands_still o); auto; calc T.
    - destruct (work_step (c_mem (w_s w)) x) as [[m' ws2]|] eqn:WS; [|discriminate]. injection VS as <- <-.
      eapply (work_case o w t _ j v g _ (PDrop (x :: ws)) (PDrop (ws2 ++ ws)) x ws m' ws2 V2 ST V T I' RC); try reflexivity; auto; destruct x; calc T.
  Qed.

  (** ** Making nodes unique *)

  Lemma slot_mn : forall (w : wstate) t h fr en a, thr w t (PEns h fr en) -> chain (c_mem (w_s w)) (c_handles (w_s w)) h fr a ->
    exists l, refers (w_s w) a l /\ mn t (PEns h fr en : pc) l.
  Proof.
    intros w t h fr en a T CH. destruct (chain_refers (w_s w) t _ h fr a T CH) as (l & R & O & _); [reflexivity|cbn; apply Nat.eqb_refl|]. exists l. split; auto. apply own_mn. auto.
  Qed.

  Lemma ens_case : forall (w : wstate) t e j v g s' b h fr en, winv w -> thr w t (PEns h fr en) -> inv s' ->
    reads_count o w (k1 w t e) (atomic o (w_s w) t e) j = Some (v, g) -> vstep (w_s w) t e v = Next s' b -> simple e -> winv (mk o w t e g s' (logged w t e v g)).
  Proof.
    intros w t e j v g s' b h fr en V T I' RC VS SI. pose proof (staged_ok o ST w t _ e j v g s' b V T SI RC VS) as V2. pose proof (base_staged w t e v g) as B.
    pose proof (v_inv o w V) as I. pose proof (i_thread _ I t _ T) as TI. cbn [tinv] in TI. destruct TI as (FO & y & CH & EI). pose proof (slot_chain _ _ _ _ CH) as SL.
    destruct (tip_live _ _ _ _ I CH) as (n & L & _). unfold thr in T.
    assert (NS : match en, e with ELoad, VAbort => True | _, VStep _ => True | _, _ => False end).
    { unfold vstep in VS. rewrite T in VS. destruct en, e; auto; try discriminate; unfold cstep in VS; rewrite T in VS; discriminate. }
    destruct en as [|d q done|z ws|z].
    - (* is_unique *)
      destruct e; try contradiction.
      + unfold vstep in VS. rewrite T, SL, L in VS. injection VS as <- <-.
        assert (EH : hist' o w t (VStep a) (k2 w t (VStep a) g) = w_hist w) by (unfold hist', atomic, allocates; rewrite T, SL; reflexivity).
        destruct (Nat.eqb_spec v 1) as [->|NV].
        * eapply (quiet_case o w t _ g _ _ _ _ (PEns h fr (EPar y)) B V2 T I'); try reflexivity; try (calc T); auto; try (cbn; tauto); [apply same_refl| |apply (hands_still o); auto; calc T].
          intros x C. cbn [frames tips] in C. apply in_app_or in C. destruct C as [C|[<-|[]]]; [left; cbn; apply in_or_app; auto|]. right.
          unfold atomic in RC. rewrite T, SL in RC. cbn [oload] in RC. destruct (slot_mn w t h fr _ y T CH) as (l & R & M).
          destruct (load_one o w t _ _ _ _ _ _ _ _ V T M R L (k_k1 w t _) RC) as [_ G]. rewrite <- (G (proj1 ST)). apply g_k2.
        * eapply (quiet_case o w t _ g _ _ _ _ (PEns h fr (EInc (n_data n) (n_par n) [])) B V2 T I'); try reflexivity; try (calc T); auto; try (cbn; tauto); [apply same_refl|apply (hands_still o); auto; calc T].
      + unfold vstep in VS. rewrite T in VS. unfold cstep in VS. rewrite T in VS. injection VS as <- <-.
        eapply (quiet_case o w t _ g _ _ _ _ PIdle B V2 T I'); try reflexivity; try (calc T); auto; try (cbn; tauto); [apply same_refl|].
        apply (hands_end o) with (h := h); auto; calc T.
    - (* shallow_clone *)
      destruct e; try contradiction. unfold vstep in VS. rewrite T in VS. unfold cstep in VS. rewrite T in VS. cbn [ens_step] in VS. rewrite SL, L in VS. destruct EI as (n0 & L0 & ED & DN). rewrite L in L0. injection L0 as <-.
      assert (NK : next_kid (w_s w) h fr done = nth_error (n_kids n) (length done)) by (unfold next_kid; rewrite SL, L; auto).
      destruct (nth_error (n_kids n) (length done)) as [c|] eqn:K.
      + (* increment *)
        destruct (look (c_mem (w_s w)) c) as [k|] eqn:LC; [|discriminate]. injection VS as <- <-.
        assert (AT : atomic o (w_s w) t (VStep a) = AAdd c) by (unfold atomic; rewrite T, NK; auto).
        assert (AL : allocates (w_s w) t (VStep a) = None) by (unfold allocates; rewrite T, NK; auto).
        assert (KC : In c (n_kids n)) by (eapply nth_error_In; eauto).
        assert (RK : refers (w_s w) c (LKid y)) by (cbn; eauto).
        destruct (refers_live _ _ _ I RK) as (k0 & LC0 & POS). rewrite LC in LC0. injection LC0 as <-.
        destruct (v_hist o w V c k LC) as (m0 & ms & H0 & G0).
        set (w2 := staged o w t (VStep a) v g). set (w' := mk o w t (VStep a) g (go (mem (w_s w) (put (c_mem (w_s w)) c (with_cnt k (n_cnt k + 1)))) t (PEns h fr (EInc d q (done ++ [c])))) (logged w t (VStep a) v g)).
        assert (BA : basics w2 w' t (PEns h fr (EInc d q done)) (PEns h fr (EInc d q (done ++ [c])))) by (apply (basics_of o); auto; apply (hands_still o); auto; calc T).
        assert (HE : w_hist w' = upd (w_hist w) c (message w c (g_val m0 + 1) (o_inc o) (k2 w t (VStep a) g))).
        { unfold w'. cbn [mk w_hist]. unfold hist'. rewrite AT. rewrite (newest_hist _ _ _ _ H0). auto. }
        unfold message in HE. rewrite (newest_hist _ _ _ _ H0) in HE.
        assert (T' : thr w' t (PEns h fr (EInc d q (done ++ [c])))) by (unfold thr; cbn; apply replace_nth_same; eapply nth_error_lt; eauto).
        assert (T2 : thr w2 t (PEns h fr (EInc d q done))) by exact T.
        destruct (chain_reach _ _ _ _ CH) as [RY _].
        eapply (bump o w2 w' t _ _ (fun _ => False) c k _ (LHand t) (ETree h) V2 T2 BA); [contradiction|exact LC|exact POS|reflexivity| |exact HE| | | | | | | | | | |reflexivity|reflexivity].
        * unfold w'. cbn [mk w_gone]. replace (releases_mem (w_s w) t (VStep a)) with (@None addr) by (symmetry; calc T). cbn [w2 staged before w_gone]. unfold gone2. rewrite AL. auto.
        * cbn [g_val]. congruence.
        * cbn [g_view]. unfold w2. rewrite (base_view _ _ _ _ _ _ c B). unfold hview. rewrite (newest_hist _ _ _ _ H0). intros i X. apply in_or_app. auto.
        * cbn [g_ev]. unfold w2. rewrite (base_kt _ _ _ _ _ _ B). left. auto.
        * intros x [h'|z|u]; cbn [refers w' mk w_s go mem c_handles c_mem c_threads w2 staged before].
          -- split; [auto|]. intros [X|[_ X]]; [auto|discriminate].
          -- rewrite (look_put _ _ _ _ z LC). destruct (Nat.eqb_spec z c) as [->|NE].
             ++ rewrite LC. split; [intros (nn & E & X); injection E as <-; left; eauto|]. intros [(nn & E & X)|[_ X]]; [|discriminate]. injection E as <-. eexists. split; [reflexivity|exact X].
             ++ split; [auto|]. intros [X|[_ X]]; [auto|discriminate].
          -- destruct (Nat.eq_dec u t) as [->|NE].
             ++ rewrite replace_nth_same by (eapply nth_error_lt; eauto). split.
                ** intros (pp & E & X). injection E as <-. cbn [in_hand] in X. apply in_app_or in X. destruct X as [X|[->|[]]]; auto. left. eexists. split; [exact T|exact X].
                ** intros [(pp & E & X)|[-> _]]; eexists; (split; [reflexivity|]); cbn [in_hand]; apply in_or_app; [left|right; left; auto]. rewrite T in E. injection E as <-. exact X.
             ++ rewrite replace_nth_other by auto. split; [auto|]. intros [X|[_ X]]; [auto|congruence].
        * left. reflexivity.
        * intros u r OT. destruct (chain_refers (w_s w) t _ h fr y T CH) as (l & R & O & _); [reflexivity|cbn; apply Nat.eqb_refl|].
          eapply kid_unclaimed; [exact I|apply OT|exact L|exact KC|]. intros X. apply (not_claimed _ t _ y l u r I T R O OT). apply frames_claims. auto.
        * intros C1 l R. assert (l = LKid y) by (eapply (refers_one (w_s w) c); eauto; exists k; auto). subst l. cbn [know g_ev].
          destruct (chain_up w' h fr y (length (w_log w))) as [U _]; auto.
          -- pose proof (i_thread _ I' t _ T') as TI'. cbn [tinv] in TI'. destruct TI' as (_ & y' & CH' & _). pose proof (slot_chain _ _ _ _ CH') as SL'.
             assert (E : slot (w_s w') h fr = slot (w_s w) h fr).
             { destruct fr as [|[q' i'] fr]; [reflexivity|]. cbn [slot w' mk w_s go mem c_mem]. rewrite (look_put _ _ _ _ q' LC). destruct (Nat.eqb_spec q' c) as [->|]; auto. rewrite LC. auto. }
             unfold w' in E. cbn [mk w_s] in E. rewrite E, SL in SL'. injection SL' as <-. exact CH'.
          -- eapply user_know; eauto; [cbn; apply Nat.eqb_refl|]. unfold w'. cbn [mk w_k]. rewrite upd_same. left. auto.
        * eapply ereach_kid; eauto.
        * intros i X. eapply (mine_know o w2 t _ (ETree h) i V2 T2); [cbn; apply Nat.eqb_refl|exact X].
        * reflexivity.
      + (* the copy *)
        destruct (alloc (c_mem (w_s w)) a {| n_data := d; n_kids := n_kids n; n_cnt := 1; n_par := q; n_h := n_h n |}) as [m|] eqn:AL; [|discriminate].
        destruct (set_slot (mem (w_s w) m) h fr a) as [s1|] eqn:SS; [|discriminate]. injection VS as <- <-.
        pose proof (alloc_none _ _ _ _ AL) as LN.
        assert (AA : allocates (w_s w) t (VStep a) = Some a) by (unfold allocates; rewrite T, NK; auto).
        assert (EH : hist' o w t (VStep a) (k2 w t (VStep a) g) = upd (w_hist w) a [{| g_val := 1; g_view := []; g_ev := length (w_log w) |}]) by (unfold hist'; rewrite AA; unfold atomic; rewrite T, NK; reflexivity).
        assert (DD : done = n_kids n) by (rewrite DN; apply firstn_all2; apply nth_error_None; auto).
        assert (T' : nth_error (c_threads (go s1 t (PEns h fr (EWork a [WDec y])))) t = Some (PEns h fr (EWork a [WDec y]))).
        { assert (ET : c_threads s1 = c_threads (w_s w)) by (unfold set_slot in SS; destruct fr as [|[q' i'] fr]; [injection SS as <-; reflexivity|]; destruct (look _ q'); [|discriminate]; injection SS as <-; reflexivity).
          cbn. rewrite ET. apply replace_nth_same. eapply nth_error_lt; eauto. }
        assert (HND : forall x, In x (in_hand (PEns h fr (EInc d q done) : pc)) -> exists l', mn t (PEns h fr (EWork a [WDec y]) : pc) l' /\ refers (go s1 t (PEns h fr (EWork a [WDec y]))) x l').
        { intros x X. cbn [in_hand] in X. exists (LKid a). split; [cbn; apply in_or_app; right; left; auto|]. cbn [refers go c_mem]. unfold set_slot in SS. destruct fr as [|[q' i'] fr].
          - injection SS as <-. cbn. rewrite (look_alloc _ _ _ _ a AL), Nat.eqb_refl. eexists. split; [reflexivity|]. cbn. congruence.
          - cbn [mem c_mem] in SS. destruct (look m q') as [nq|] eqn:LQ; [|discriminate]. injection SS as <-. cbn. rewrite (look_put _ _ _ _ a LQ). destruct (Nat.eqb_spec a q') as [EQ|].
            + exfalso. subst q'. cbn [chain] in CH. destruct CH as [KK _]. unfold kid in KK. rewrite LN in KK. discriminate.
            + rewrite (look_alloc _ _ _ _ a AL), Nat.eqb_refl. eexists. split; [reflexivity|]. cbn. congruence. }
        assert (HNDY : refers (go s1 t (PEns h fr (EWork a [WDec y]))) y (LHand t)) by (cbn; eexists; split; [exact T'|cbn; auto]).
        destruct (slot_mn w t h fr _ y T CH) as (ly & RY & MY).
        assert (SLY : forall x, (x = y \/ In x (n_kids n)) -> exists l', mn t (PEns h fr (EInc d q done) : pc) l' /\ refers (w_s w) x l').
        { intros x [->|X]; [eauto|]. exists (LHand t). split; [reflexivity|]. cbn. eexists. split; [exact T|]. cbn. congruence. }
        destruct fr as [|[q' i'] fr]; cbn [set_slot] in SS.
        * injection SS as <-. cbn [chain] in CH.
          eapply (shuffle_case o w t _ g _ _ _ _ (PEns h [] (EWork a [WDec y])) [a] (Some a) B V2 T I'); try reflexivity; try (calc T); auto.
          -- intros h'. cbn [go hand mem c_handles writes]. destruct (Nat.eqb_spec h' h) as [->|NE]; auto. left. unfold root. rewrite replace_nth_other by auto. auto.
          -- intros x nx LX. cbn. rewrite (look_alloc _ _ _ _ x AL). destruct (Nat.eqb_spec x a) as [->|]; [congruence|eauto].
          -- intros x LX NX. cbn. rewrite (look_alloc _ _ _ _ x AL). destruct (Nat.eqb_spec x a) as [->|]; [congruence|auto].
          -- intros x E. injection E as <-. split; auto. split.
             ++ eexists. cbn. rewrite (look_alloc _ _ _ _ a AL), Nat.eqb_refl. split; reflexivity.
             ++ exists (LRoot h). split; [cbn; apply Nat.eqb_refl|]. cbn. unfold root. rewrite replace_nth_same; [reflexivity|]. apply root_nth in CH. eapply nth_error_lt; eauto.
          -- intros z x NZ. cbn. rewrite (look_alloc _ _ _ _ z AL). destruct (Nat.eqb_spec z a) as [->|]; [exfalso; apply NZ; left; auto|tauto].
          -- intros z [<-|[]]. auto.
          -- intros x [h'|z|u] C R; cbn [changed] in C.
             ++ cbn in C. apply Nat.eqb_eq in C. subst h'. cbn in R. rewrite CH in R. injection R as <-. exists (LHand t). split; [reflexivity|exact HNDY].
             ++ destruct C as [<-|[]]. destruct R as (nn & E & _). congruence.
             ++ subst u. destruct R as (pp & E & X). rewrite T in E. injection E as <-. apply HND. auto.
          -- intros x [h'|z|u] C R; cbn [changed] in C.
             ++ cbn in C. apply Nat.eqb_eq in C. subst h'. left. cbn in R. unfold root in R. rewrite replace_nth_same in R by (apply root_nth in CH; eapply nth_error_lt; eauto). congruence.
             ++ destruct C as [<-|[]]. right. apply SLY. right. destruct R as (nn & E & X). cbn in E. rewrite (look_alloc _ _ _ _ a AL), Nat.eqb_refl in E. injection E as <-. exact X.
             ++ subst u. right. apply SLY. left. destruct R as (pp & E & X). rewrite T' in E. injection E as <-. cbn in X. destruct X as [X|[]]. auto.
          -- intros x C. cbn in C. destruct C as [C|[]]. left. congruence.
        * cbn [mem c_mem] in SS. destruct (look m q') as [nq|] eqn:LQ; [|discriminate]. injection SS as <-. cbn [chain] in CH. destruct CH as [KK CH]. unfold kid in KK.
          rewrite (look_alloc _ _ _ _ q' AL) in LQ. assert (NQ : q' <> a) by (intros ->; rewrite LN in KK; discriminate). rewrite (proj2 (Nat.eqb_neq q' a) NQ) in LQ. rewrite LQ in KK.
          assert (LQM : look m q' = Some nq) by (rewrite (look_alloc _ _ _ _ q' AL), (proj2 (Nat.eqb_neq q' a) NQ); auto).
          assert (LK : forall z, look (put m q' (with_body nq (n_data nq) (replace_at i' a (n_kids nq)))) z =
                    if z =? q' then Some (with_body nq (n_data nq) (replace_at i' a (n_kids nq))) else if z =? a then Some {| n_data := d; n_kids := n_kids n; n_cnt := 1; n_par := q; n_h := n_h n |} else look (c_mem (w_s w)) z).
          { intros z. rewrite (look_put _ _ _ _ z LQM). destruct (z =? q'); auto. apply (look_alloc _ _ _ _ z AL). }
          assert (LI : i' < length (n_kids nq)) by (eapply nth_error_lt; eauto).
          assert (INR : forall x, In x (n_kids nq) -> x = y \/ In x (replace_at i' a (n_kids nq))).
          { intros x X. apply In_nth_error in X. destruct X as (i & X). destruct (Nat.eq_dec i i') as [->|NE]; [left; congruence|]. right. apply nth_error_In with i. rewrite replace_nth_other; auto. }
          assert (INB : forall x, In x (replace_at i' a (n_kids nq)) -> x = a \/ In x (n_kids nq)).
          { intros x X. apply In_nth_error in X. destruct X as (i & X). destruct (Nat.eq_dec i i') as [->|NE]; [rewrite replace_nth_same in X by auto; left; congruence|]. right. rewrite replace_nth_other in X by auto. eapply nth_error_In; eauto. }
          assert (INA : In a (replace_at i' a (n_kids nq))) by (apply nth_error_In with i'; apply replace_nth_same; auto).
          eapply (shuffle_case o w t _ g _ _ _ _ (PEns h ((q', i') :: fr) (EWork a [WDec y])) [q'; a] (Some a) B V2 T I'); try reflexivity; try (calc T); auto.
          -- intros x nx LX. cbn. rewrite LK. destruct (Nat.eqb_spec x q') as [->|].
             ++ eexists. split; [reflexivity|]. cbn. congruence.
             ++ destruct (Nat.eqb_spec x a) as [->|]; [congruence|eauto].
          -- intros x LX NX. cbn. rewrite LK. destruct (Nat.eqb_spec x q') as [->|]; [congruence|]. destruct (Nat.eqb_spec x a) as [->|]; [congruence|auto].
          -- intros x E. injection E as <-. split; auto. split.
             ++ eexists. cbn. rewrite LK, (proj2 (Nat.eqb_neq a q') ltac:(congruence)), Nat.eqb_refl. split; reflexivity.
             ++ exists (LKid q'). split; [cbn; auto|]. cbn. rewrite LK, Nat.eqb_refl. eexists. split; [reflexivity|]. exact INA.
          -- intros z x NZ. cbn. rewrite LK. destruct (Nat.eqb_spec z q') as [->|]; [exfalso; apply NZ; left; auto|]. destruct (Nat.eqb_spec z a) as [->|]; [exfalso; apply NZ; right; left; auto|]. tauto.
          -- intros z [<-|[<-|[]]]; auto. right. left. auto.
          -- intros z [<-|[<-|[]]]; cbn; auto. right. apply in_or_app. right. left. auto.
          -- intros x [h'|z|u] C R; cbn [changed] in C.
             ++ exists (LRoot h'). split; [exact C|exact R].
             ++ destruct C as [<-|[<-|[]]]; destruct R as (nn & E & X).
                ** rewrite LQ in E. injection E as <-. destruct (INR x X) as [->|X']; [exists (LHand t); split; [reflexivity|exact HNDY]|]. exists (LKid q'). split; [cbn; auto|]. cbn. rewrite LK, Nat.eqb_refl. eexists. split; [reflexivity|exact X'].
                ** congruence.
             ++ subst u. destruct R as (pp & E & X). rewrite T in E. injection E as <-. apply HND. auto.
          -- intros x [h'|z|u] C R; cbn [changed] in C.
             ++ right. exists (LRoot h'). split; [exact C|exact R].
             ++ destruct C as [<-|[<-|[]]]; destruct R as (nn & E & X); cbn in E; rewrite LK in E.
                ** rewrite Nat.eqb_refl in E. injection E as <-. destruct (INB x X) as [->|X']; auto. right. exists (LKid q'). split; [cbn; auto|]. cbn. eauto.
                ** rewrite (proj2 (Nat.eqb_neq a q') ltac:(congruence)), Nat.eqb_refl in E. injection E as <-. right. apply SLY. right. exact X.
             ++ subst u. right. apply SLY. left. destruct R as (pp & E & X). rewrite T' in E. injection E as <-. cbn in X. destruct X as [X|[]]. auto.
          -- intros x C. cbn [frames tips] in C. apply in_app_or in C. destruct C as [C|[<-|[]]]; auto. right. cbn [frames]. apply in_or_app. auto.
    - (* giving back the old node *)
      destruct e; try contradiction. unfold vstep in VS. rewrite T in VS. unfold cstep in VS. rewrite T in VS. cbn [ens_step] in VS. destruct ws as [|x ws].
      + injection VS as <- <-. eapply (quiet_case o w t _ g _ _ _ _ (PEns h fr (EPar z)) B V2 T I'); try reflexivity; try (calc T); auto; try (cbn; tauto); [apply same_refl|apply (hands_still o); auto; calc T].
      + destruct (work_step (c_mem (w_s w)) x) as [[m' ws2]|] eqn:WS; [|discriminate]. injection VS as <- <-.
        eapply (work_case o w t _ j v g _ (PEns h fr (EWork z (x :: ws))) (PEns h fr (EWork z (ws2 ++ ws))) x ws m' ws2 V2 ST V T I' RC); try reflexivity; auto; destruct x; calc T.
    - (* the parent *)
      destruct e; try contradiction. unfold vstep in VS. rewrite T in VS. unfold cstep in VS. rewrite T in VS. cbn [ens_step] in VS. destruct (look (c_mem (w_s w)) z) as [nz|] eqn:LZ; [|discriminate]. injection VS as <- <-.
      eapply (quiet_case o w t _ g _ _ _ _ (PAt h fr z [] []) B V2 T I'); try reflexivity; try (calc T); auto; try (cbn; tauto); [eapply same_put; eauto|apply (hands_still o); auto; calc T].
  Qed.
End WV.
