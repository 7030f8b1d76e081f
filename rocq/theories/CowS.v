(** Proofs about copy on write: giving back and making nodes unique. *)
From Coq Require Import List Arith Bool Lia.
From Verif Require Import Base ListFacts Cow CowSpec CowP CowQ CowR.
Import ListNotations.

Section S.
  Context {D : Type}.
  Notation heap := (heap D).
  Notation cnode := (cnode D).
  Notation pc := (pc D).
  Notation cstate := (cstate D).

  Definition waddr (w : work) : addr := match w with WDec b | WFree b => b end.

  Lemma keeps_incl : forall (m m' : heap) cl cl', keeps m m' cl -> incl cl cl' -> keeps m m' cl'.
  Proof. intros m m' cl cl' K I a n L U. apply K; auto. Qed.

  Lemma has_same : forall (m m' : heap) c a, look m' a = look m a -> has_cnt m c a -> has_cnt m' c a.
  Proof. intros m m' c a E H. unfold has_cnt. rewrite E. exact H. Qed.

  Lemma nodup_app : forall A (l m : list A), NoDup l -> NoDup m -> (forall x, In x l -> ~ In x m) -> NoDup (l ++ m).
  Proof.
    intros A l m L M H. induction L as [|x l N L IH]; cbn; auto. constructor.
    - intros I. apply in_app_or in I. destruct I as [I|I]; [contradiction|]. apply (H x); cbn; auto.
    - apply IH. intros y Y. apply H. cbn. auto.
  Qed.
  Lemma nodup_app_inv : forall A (l m : list A), NoDup (l ++ m) -> NoDup l /\ NoDup m /\ forall x, In x l -> ~ In x m.
  Proof.
    intros A l m H. induction l as [|x l IH]; cbn in *; [repeat split; auto; constructor|]. inversion H as [|y l' N ND]; subst. destruct (IH ND) as (A1 & A2 & A3).
    repeat split; auto.
    - constructor; auto. intros I. apply N. apply in_or_app. auto.
    - intros y [->|Y]; auto. intros I. apply N. apply in_or_app. auto.
  Qed.

  (** One step of giving back, in whatever state. *)
  Lemma work_local : forall (s : cstate) t (p p' : pc) w ws m' ws', inv s -> nth_error (c_threads s) t = Some p ->
    in_hand p = decs (w :: ws) -> dying p = frees (w :: ws) -> in_hand p' = decs (ws' ++ ws) -> dying p' = frees (ws' ++ ws) ->
    frames p' = frames p -> tips p' = tips p -> (forall h, writes h p' = writes h p) -> (forall h, uses h p' = uses h p) ->
    work_ok (c_mem s) w m' ws' ->
    (Forall (has_cnt m' 0) (frees ws) -> (forall x, In x (claims p) -> (w <> WDec x -> w <> WFree x -> look m' x = look (c_mem s) x)) -> tinv m' (c_handles s) p') ->
    (forall x, w = WDec x -> ~ In x (claims p)) ->
    local s t p m' (c_handles s) p'.
  Proof.
    intros s t p p' w ws m' ws' I N H1 H2 H3 H4 H5 H6 HW HU W HT HN.
    assert (DEC : forall x, w = WDec x -> refers s x (LHand t)).
    { intros x ->. exists p. split; auto. rewrite H1. cbn. auto. }
    assert (NC : forall t' q x, other s t t' q -> In x (claims q) -> waddr w <> x).
    { intros t' q x O C E. destruct w as [b|b]; cbn in E; subst b.
      - eapply (not_claimed s t p x (LHand t)); eauto. reflexivity.
      - destruct O as [O T]. eapply (i_dis s I t p t' q x); eauto. apply dying_claims. rewrite H2. cbn. auto. }
    pose proof (i_own s I t p N) as ND. unfold claims in ND. rewrite H2 in ND.
    assert (ND' : NoDup (frees [w] ++ (frees ws ++ frames p ++ tips p))) by (destruct w; exact ND).
    destruct (nodup_app_inv _ _ _ ND') as (ND1 & ND2 & ND3).
    assert (ZS : Forall (has_cnt (c_mem s) 0) (frees ws)).
    { apply Forall_forall. intros x X. eapply (dying_cnt (c_mem s) (c_handles s) p); [apply (i_thread s I t p N)|]. rewrite H2. destruct w; cbn; auto. }
    constructor.
    - intros a. pose proof (w_cnt _ _ _ _ W a) as Q. rewrite H1, H3. rewrite decs_app, occ_app.
      change (w :: ws) with ([w] ++ ws). rewrite decs_app, occ_app. lia.
    - intros a n' L Z. rewrite H4, frees_app. destruct (w_zero _ _ _ _ W a n' L Z) as [A|[A B]]; [left; apply in_or_app; auto|].
      destruct (in_dec Nat.eq_dec a (frees ws)) as [X|X]; [left; apply in_or_app; auto|]. right. split; auto.
      rewrite H2. change (w :: ws) with ([w] ++ ws). rewrite frees_app. intros Y. apply in_app_or in Y. tauto.
    - unfold claims. rewrite H4, H5, H6, frees_app. rewrite <- app_assoc. apply nodup_app; auto; [apply (w_nodup _ _ _ _ W)|].
      intros x X Y. pose proof (w_new _ _ _ _ W x X) as E. apply (HN x E). unfold claims. rewrite H2. rewrite E. cbn [frees]. auto.
    - intros a A. unfold claims in A. rewrite H4, H5, H6, frees_app, <- app_assoc in A. apply in_app_or in A. destruct A as [A|A].
      + right. intros t' q O C. pose proof (w_new _ _ _ _ W a A) as E. apply (NC t' q a O C). rewrite E. auto.
      + left. unfold claims. rewrite H2. change (w :: ws) with ([w] ++ ws). rewrite frees_app, <- app_assoc. apply in_or_app. auto.
    - apply (w_heights _ _ _ _ W).
    - apply HT.
      + apply Forall_forall. intros x X. rewrite Forall_forall in ZS. eapply has_same; [apply (w_same _ _ _ _ W)|apply ZS; auto]. intros E.
        destruct w as [b|b]; subst b.
        * eapply (refers_zero s x (LHand t) I); [apply ZS; auto|]. apply DEC. auto.
        * apply (ND3 x); cbn; auto. apply in_or_app. auto.
      + intros x C E1 E2. apply (w_same _ _ _ _ W). destruct w; congruence.
    - eapply lock_same; eauto; intros h; rewrite ?HW, ?HU; auto.
    - eapply keeps_incl; [apply (w_keeps _ _ _ _ W)|]. intros x X. apply dying_claims. rewrite H2. destruct w; cbn in *; tauto.
    - intros t' q a c O C X. eapply has_same; [|exact X]. apply (w_same _ _ _ _ W). apply (NC t' q a O C).
    - intros t' q h O U. auto.
  Qed.

  Lemma drop_local : forall (s : cstate) t w ws m' ws', inv s -> nth_error (c_threads s) t = Some (PDrop (w :: ws)) ->
    work_ok (c_mem s) w m' ws' -> local s t (PDrop (w :: ws)) m' (c_handles s) (PDrop (ws' ++ ws)).
  Proof.
    intros s t w ws m' ws' I N W. apply (work_local s t _ _ w ws m' ws' I N); try reflexivity; auto.
    - intros F _. cbn. rewrite frees_app. apply Forall_app. split; auto. apply (w_zeros _ _ _ _ W).
    - intros x -> C. unfold claims in C. cbn [dying frames tips] in C. rewrite !app_nil_r in C. cbn in C.
      eapply (refers_zero s x (LHand t) I).
      + eapply (dying_cnt (c_mem s) (c_handles s)); [apply (i_thread s I t _ N)|]. exact C.
      + exists (PDrop (WDec x :: ws)). split; auto. cbn. auto.
  Qed.

  Lemma chain_height : forall (s : cstate) h fr a n x, inv s -> chain (c_mem s) (c_handles s) h fr a -> look (c_mem s) a = Some n ->
    In x (map fst fr) -> exists k, look (c_mem s) x = Some k /\ n_h n < n_h k.
  Proof.
    intros s h. induction fr as [|[q i] fr IH]; intros a n x I C L X; cbn in *; [contradiction|]. destruct C as [K C].
    unfold kid in K. destruct (look (c_mem s) q) as [nq|] eqn:LQ; [|discriminate]. destruct (i_height s I q nq a LQ) as (k & LK & E); [eapply nth_error_In; eauto|].
    rewrite L in LK. injection LK as <-. destruct X as [->|X].
    - exists nq. split; auto. lia.
    - destruct (IH q nq x I C LQ X) as (k & LX & LT). exists k. split; auto. lia.
  Qed.

  Lemma slot_chain : forall (s : cstate) h fr a, chain (c_mem s) (c_handles s) h fr a -> slot s h fr = Some a.
  Proof. intros s h [|[q i] fr] a C; cbn in *; [exact C|apply C]. Qed.

  Lemma chain_refers : forall (s : cstate) t (p : pc) h fr a, nth_error (c_threads s) t = Some p -> chain (c_mem s) (c_handles s) h fr a ->
    frames p = map fst fr -> writes h p = true -> exists l, refers s a l /\ own_place t p l /\ match l with LHand _ => False | _ => True end.
  Proof.
    intros s t p h fr a N C F W. destruct (chain_tip _ _ _ _ C) as [R|(q & Q & R)].
    - exists (LRoot h). auto.
    - exists (LKid q). cbn. rewrite F. auto.
  Qed.

  Lemma tip_live : forall (s : cstate) h fr a, inv s -> chain (c_mem s) (c_handles s) h fr a -> exists n, look (c_mem s) a = Some n /\ 1 <= n_cnt n.
  Proof. intros s h fr a I C. destruct (chain_tip _ _ _ _ C) as [R|(q & Q & R)]; eapply refers_live; eauto. Qed.

  (** ** Making a node unique *)

  Lemma load_local : forall (s : cstate) t h fr a n, inv s -> nth_error (c_threads s) t = Some (PEns h fr ELoad) ->
    chain (c_mem s) (c_handles s) h fr a -> look (c_mem s) a = Some n ->
    local s t (PEns h fr ELoad) (c_mem s) (c_handles s) (PEns h fr (if n_cnt n =? 1 then EPar a else EInc (n_data n) (n_par n) [])).
  Proof.
    intros s t h fr a n I N C L. pose proof (i_thread s I t _ N) as T. cbn [tinv] in T. destruct T as (F & a0 & C0 & _).
    pose proof (i_own s I t _ N) as ND. unfold claims in ND. cbn [dying frames tips app] in ND. rewrite app_nil_r in ND.
    assert (U : ~ In a (map fst fr)).
    { intros X. destruct (chain_height s h fr a n a I C L X) as (k & LK & LT). rewrite L in LK. injection LK as <-. lia. }
    destruct (Nat.eqb_spec (n_cnt n) 1) as [E|E]; apply local_pc; auto.
    - unfold claims. cbn [dying frames tips app]. apply nodup_app; auto; [repeat constructor; intros []|]. intros x X [->|[]]. auto.
    - intros x X. unfold claims in X. cbn [dying frames tips app] in X. apply in_app_or in X. destruct X as [X|[<-|[]]]; [left; apply frames_claims; auto|].
      right. destruct (chain_refers s t _ h fr a N C) as (l & R & O & _); [reflexivity|cbn; apply Nat.eqb_refl|]. intros t' q OT. eapply (not_claimed s t); eauto.
    - cbn [tinv]. split; auto. exists a. split; auto. split; auto. exists n. auto.
    - eapply lock_same; eauto.
    - exact (i_own s I t _ N).
    - cbn [tinv]. split; auto. exists a. split; auto. exists n. auto.
    - eapply lock_same; eauto.
  Qed.

  Lemma shared_local : forall (s : cstate) t h fr a n, inv s -> nth_error (c_threads s) t = Some (PEns h fr ELoad) ->
    chain (c_mem s) (c_handles s) h fr a -> look (c_mem s) a = Some n ->
    local s t (PEns h fr ELoad) (c_mem s) (c_handles s) (PEns h fr (EInc (n_data n) (n_par n) [])).
  Proof.
    intros s t h fr a n I N C L. pose proof (i_thread s I t _ N) as T. cbn [tinv] in T. destruct T as (F & a0 & C0 & _).
    apply local_pc; auto.
    - exact (i_own s I t _ N).
    - cbn [tinv]. split; auto. exists a. split; auto. exists n. auto.
    - eapply lock_same; eauto.
  Qed.

  Lemma inc_local : forall (s : cstate) t h fr d pr done a n c k, inv s -> nth_error (c_threads s) t = Some (PEns h fr (EInc d pr done)) ->
    chain (c_mem s) (c_handles s) h fr a -> look (c_mem s) a = Some n -> nth_error (n_kids n) (length done) = Some c -> look (c_mem s) c = Some k ->
    local s t (PEns h fr (EInc d pr done)) (put (c_mem s) c (with_cnt k (n_cnt k + 1))) (c_handles s) (PEns h fr (EInc d pr (done ++ [c]))).
  Proof.
    intros s t h fr d pr done a n c k I N C L K LC. pose proof (i_thread s I t _ N) as T. cbn [tinv] in T. destruct T as (F & a0 & C0 & n0 & L0 & ED & EK).
    assert (a0 = a) by (apply slot_chain in C; apply slot_chain in C0; congruence). subst a0. rewrite L in L0. injection L0 as <-.
    assert (IK : In c (n_kids n)) by (eapply nth_error_In; eauto).
    destruct (i_height s I a n c L IK) as (k' & LK' & EH). rewrite LC in LK'. injection LK' as <-.
    assert (UF : ~ In c (map fst fr)).
    { intros X. destruct (chain_height s h fr a n c I C L X) as (k' & LK' & LT). rewrite LC in LK'. injection LK' as <-. lia. }
    assert (UO : forall t' q, other s t t' q -> ~ In c (claims q)).
    { intros t' q O X. pose proof O as [O1 O2]. destruct (chain_refers s t _ h fr a N C) as (l & R & OW & _); [reflexivity|cbn; apply Nat.eqb_refl|].
      apply (not_claimed s t _ a l t' q I N R OW O). apply frames_claims. apply (sole s t' q c (LKid a) I O1 X). cbn. eauto. }
    constructor.
    - intros x. rewrite (cnt_put _ _ _ _ x LC). pose proof (kids_put _ _ _ (with_cnt k (n_cnt k + 1)) x LC) as Q. cbn [n_kids n_cnt with_cnt in_hand] in *.
      rewrite occ_app, occ_one, (Nat.eqb_sym c x). destruct (Nat.eqb_spec x c) as [E|]; [subst x; rewrite (cnt_some _ _ _ LC)|]; lia.
    - intros x n' LX Z. right. split; [|intros []]. rewrite (look_put _ _ _ _ x LC) in LX. destruct (Nat.eqb_spec x c); [|exists n'; auto]. injection LX as <-. cbn in Z. lia.
    - apply (i_own s I t _ N).
    - intros x X. left. exact X.
    - eapply heights_put; eauto; [exact (i_height s I)|]. intros c' IC. eapply (i_height s I); eauto.
    - cbn [tinv]. split.
      + rewrite Forall_forall in *. intros x X. eapply has_put_other; eauto. intros ->. contradiction.
      + exists a. split.
        * eapply chain_keeps; [exact C| |auto]. intros q x X LX. rewrite (look_put _ _ _ _ q LC). destruct (Nat.eqb_spec q c) as [E|]; [subst q; contradiction|eauto].
        * rewrite (look_put _ _ _ _ a LC). destruct (Nat.eqb_spec a c) as [E|].
          -- subst c. rewrite L in LC. injection LC as <-. lia.
          -- exists n. split; auto. split; auto. rewrite app_length. cbn [length]. replace (length done + 1) with (S (length done)) by lia.
             rewrite (firstn_succ _ _ _ _ K). rewrite <- EK. auto.
    - eapply lock_same; eauto.
    - eapply keeps_put; eauto. left. repeat split.
    - intros t' q x c' O CQ X. eapply has_put_other; eauto. intros ->. eapply UO; eauto.
    - intros t' q h' O U. auto.
  Qed.

  Lemma copy_local : forall (s : cstate) t h fr d pr done a n new m s', inv s -> nth_error (c_threads s) t = Some (PEns h fr (EInc d pr done)) ->
    chain (c_mem s) (c_handles s) h fr a -> look (c_mem s) a = Some n -> nth_error (n_kids n) (length done) = None ->
    alloc (c_mem s) new {| n_data := d; n_kids := n_kids n; n_cnt := 1; n_par := pr; n_h := n_h n |} = Some m ->
    set_slot (mem s m) h fr new = Some s' ->
    local s t (PEns h fr (EInc d pr done)) (c_mem s') (c_handles s') (PEns h fr (EWork new [WDec a])) /\ c_threads s' = c_threads s.
  Proof.
    intros s t h fr d pr done a n new m s' I N C L K A SS. pose proof (i_thread s I t _ N) as T. cbn [tinv] in T. destruct T as (F & a0 & C0 & n0 & L0 & ED & EK).
    assert (a0 = a) by (apply slot_chain in C; apply slot_chain in C0; congruence). subst a0. rewrite L in L0. injection L0 as <-.
    assert (DK : done = n_kids n). { apply nth_error_None in K. rewrite EK. apply firstn_all2. auto. }
    pose proof (alloc_none _ _ _ _ A) as NA. assert (NE : a <> new) by congruence.
    pose proof (i_own s I t _ N) as ND. unfold claims in ND. cbn [dying frames tips app] in ND. rewrite app_nil_r in ND.
    assert (UN : ~ In new (map fst fr)).
    { intros X. apply (new_unclaimed s new I NA t _ N). apply frames_claims. exact X. }
    assert (H0 : heights m).
    { eapply heights_alloc; eauto; [exact (i_height s I)|]. cbn [n_kids n_h]. intros c IC. eapply (i_height s I); eauto. }
    (* what the new state has in common with [s] whatever the slot *)
    assert (ZERO : forall m' : heap, (forall x n', look m' x = Some n' -> n_cnt n' = 0 -> exists n0, look m x = Some n0 /\ n_cnt n0 = 0) ->
      forall x n', look m' x = Some n' -> n_cnt n' = 0 -> In x (dying (PEns h fr (EWork new [WDec a]) : pc)) \/ (has_cnt (c_mem s) 0 x /\ ~ In x (dying (PEns h fr (EInc d pr done))))).
    { intros m' Q x n' LX Z. right. split; [|intros []]. destruct (Q x n' LX Z) as (n1 & L1 & Z1). rewrite (look_alloc _ _ _ _ x A) in L1.
      destruct (Nat.eqb_spec x new); [injection L1 as <-; discriminate|exists n1; auto]. }
    assert (OWN : NoDup (claims (PEns h fr (EWork new [WDec a]) : pc))).
    { unfold claims. cbn [dying frees frames tips app]. apply nodup_app; auto; [repeat constructor; intros []|]. intros x X [->|[]]. auto. }
    assert (NEW : forall x, In x (claims (PEns h fr (EWork new [WDec a]) : pc)) -> In x (claims (PEns h fr (EInc d pr done))) \/ forall t' q, other s t t' q -> ~ In x (claims q)).
    { intros x X. unfold claims in X. cbn [dying frees frames tips app] in X. apply in_app_or in X. destruct X as [X|[<-|[]]]; [left; apply frames_claims; auto|].
      right. intros t' q [O _]. apply (new_unclaimed s new I NA t' q O). }
    destruct fr as [|[q i] fr]; cbn [set_slot mem c_mem] in SS.
    - injection SS as <-. cbn [hand mem c_mem c_handles c_threads]. split; auto. cbn in C. pose proof (root_nth _ _ _ C) as RN. constructor; auto.
      + intros x. rewrite (cnt_alloc _ _ _ _ x A), (kids_alloc _ _ _ _ x A). cbn [n_cnt n_kids in_hand decs]. pose proof (root_owners_replace _ _ _ (Some (Some new)) x RN) as Q.
        cbn beta iota in Q. rewrite !occ_one, DK in *. rewrite (Nat.eqb_sym new x) in Q.
        destruct (Nat.eqb_spec x new) as [E|]; [subst x; rewrite (cnt_none _ _ NA)|]; lia.
      + apply (ZERO m). eauto.
      + cbn [tinv map]. split; [constructor|]. exists new. split; [|split; [auto|split; [|constructor]]].
        * cbn. unfold root. rewrite replace_nth_same; auto. eapply nth_error_lt; eauto.
        * eexists. rewrite (look_alloc _ _ _ _ new A), Nat.eqb_refl. split; [reflexivity|reflexivity].
      + eapply lock_same; eauto.
      + eapply keeps_alloc; eauto.
      + intros t' q x c O CQ X. eapply has_alloc; eauto.
      + apply keeps_root_replace. intros t' q [O1 O2]. apply (i_lock s I t _ t' q h N O1); [congruence|]. cbn. apply Nat.eqb_refl.
    - cbn [chain] in C. destruct C as [KQ C]. assert (NQ : q <> new) by (intros ->; apply UN; cbn; auto).
      assert (LQ0 : look m q = look (c_mem s) q) by (rewrite (look_alloc _ _ _ _ q A); destruct (Nat.eqb_spec q new); congruence).
      rewrite LQ0 in SS. unfold kid in KQ. destruct (look (c_mem s) q) as [nq|] eqn:LQ; [|discriminate]. injection SS as <-. cbn [mem c_mem c_handles c_threads]. split; auto.
      set (nq' := with_body nq (n_data nq) (replace_at i new (n_kids nq))).
      destruct (i_height s I q nq a LQ) as (ka & LKA & EH); [eapply nth_error_In; eauto|]. rewrite L in LKA. injection LKA as <-.
      assert (LK2 : forall x, look (put m q nq') x = if x =? q then Some nq' else if x =? new then Some {| n_data := d; n_kids := n_kids n; n_cnt := 1; n_par := pr; n_h := n_h n |} else look (c_mem s) x).
      { intros x. rewrite (look_put _ _ _ _ x LQ0), (look_alloc _ _ _ _ x A). auto. }
      constructor; auto.
      + intros x. rewrite (cnt_put _ _ _ _ x LQ0), (cnt_alloc _ _ _ _ x A). cbn [n_cnt in_hand decs]. pose proof (kids_put _ _ _ nq' x LQ0) as Q. rewrite (kids_alloc _ _ _ _ x A) in Q.
        cbn [n_kids nq' with_body n_cnt] in *. pose proof (occ_replace _ _ _ new x KQ) as Q2. rewrite !occ_one, DK in *. rewrite (Nat.eqb_sym new x) in Q2.
        destruct (Nat.eqb_spec x q) as [E|]; [subst x; rewrite (cnt_some _ _ _ LQ); destruct (Nat.eqb_spec q new); [contradiction|lia]|].
        destruct (Nat.eqb_spec x new) as [E|]; [subst x; rewrite (cnt_none _ _ NA)|]; lia.
      + apply (ZERO (put m q nq')). intros x n' LX Z. rewrite (look_put _ _ _ _ x LQ0) in LX. destruct (Nat.eqb_spec x q); [|eauto]. injection LX as <-. cbn in Z. subst x. eauto.
      + eapply heights_put; eauto. cbn [nq' with_body n_kids]. intros c IC. apply In_nth_error in IC. destruct IC as (j & J). destruct (Nat.eq_dec j i) as [->|NJ].
        * rewrite replace_nth_same in J by (eapply nth_error_lt; eauto). injection J as <-. eexists. rewrite (look_alloc _ _ _ _ new A), Nat.eqb_refl. split; [reflexivity|]. cbn. auto.
        * rewrite replace_nth_other in J by auto. eapply H0; eauto. eapply nth_error_In; eauto.
      + cbn [tinv]. inversion F as [|? ? F1 F2]; subst. cbn [map fst] in *. split.
        * rewrite Forall_forall in *. intros x X. eapply has_put; [exact LQ0|reflexivity|]. eapply has_alloc; eauto.
        * exists new. split; [|split; [auto|split; [|constructor]]].
          -- cbn [chain]. split.
             ++ unfold kid. rewrite LK2, Nat.eqb_refl. cbn. apply replace_nth_same. eapply nth_error_lt; eauto.
             ++ eapply chain_keeps; [exact C| |auto]. intros y x X LY. inversion ND as [|? ? ND1 ND2]; subst. rewrite LK2. destruct (Nat.eqb_spec y q) as [E|]; [subst y; contradiction|].
                destruct (Nat.eqb_spec y new) as [E|]; [subst y; congruence|eauto].
          -- eexists. rewrite LK2. destruct (Nat.eqb_spec new q); [congruence|]. rewrite Nat.eqb_refl. split; reflexivity.
      + eapply lock_same; eauto.
      + eapply keeps_trans; [eapply keeps_alloc; eauto|]. eapply keeps_put; eauto. right. apply frames_claims. cbn. auto.
      + intros t' u x c O CQ X. eapply has_put; [exact LQ0|reflexivity|]. eapply has_alloc; eauto.
      + intros t' u h' O U. auto.
  Qed.

  Lemma ens_work_local : forall (s : cstate) t h fr a w ws m' ws', inv s -> nth_error (c_threads s) t = Some (PEns h fr (EWork a (w :: ws))) ->
    work_ok (c_mem s) w m' ws' -> local s t (PEns h fr (EWork a (w :: ws))) m' (c_handles s) (PEns h fr (EWork a (ws' ++ ws))).
  Proof.
    intros s t h fr a w ws m' ws' I N W. pose proof (i_thread s I t _ N) as T. cbn [tinv] in T. destruct T as (F & a0 & C & -> & H1 & F0).
    pose proof (i_own s I t _ N) as ND. unfold claims in ND. cbn [dying frames tips] in ND.
    assert (U : forall x, w = WDec x -> ~ In x (claims (PEns h fr (EWork a0 (w :: ws)) : pc))).
    { intros x E X. assert (R : refers s x (LHand t)). { eexists. split; [exact N|]. cbn. rewrite E. cbn. auto. }
      unfold claims in X. apply in_app_or in X. destruct X as [X|X].
      - eapply (refers_zero s x _ I); [|exact R]. eapply dying_cnt; [apply (i_thread s I t _ N)|]. exact X.
      - apply in_app_or in X. cbn [frames tips] in X. destruct X as [X|[<-|[]]].
        + rewrite Forall_forall in F. destruct (chain_in _ _ _ _ _ C X) as [R'|(q & _ & R')]; pose proof (refers_one s x _ _ I (F x X) R R'); discriminate.
        + destruct (chain_tip _ _ _ _ C) as [R'|(q & _ & R')]; pose proof (refers_one s _ _ _ I H1 R R'); discriminate. }
    apply (work_local s t _ _ w ws m' ws' I N); try reflexivity; auto. intros FZ SAME.
    assert (SM : forall x, In x (map fst fr ++ [a0]) -> look m' x = look (c_mem s) x).
    { intros x X. assert (CX : In x (claims (PEns h fr (EWork a0 (w :: ws)) : pc))) by (unfold claims; apply in_or_app; right; exact X).
      apply SAME; auto; intros E; [apply (U x E); auto|]. rewrite E in ND. cbn [frees app] in ND. inversion ND as [|? ? N1 N2]; subst. apply N1. apply in_or_app. right. exact X. }
    cbn [tinv]. split.
    - rewrite Forall_forall in *. intros x X. eapply has_same; [apply SM; apply in_or_app; auto|auto].
    - exists a0. split; [|split; [auto|split]].
      + eapply chain_keeps; [exact C| |auto]. intros q x X LX. rewrite SM by (apply in_or_app; auto). eauto.
      + eapply has_same; [apply SM; apply in_or_app; right; cbn; auto|auto].
      + rewrite frees_app. apply Forall_app. split; auto. apply (w_zeros _ _ _ _ W).
  Qed.

  Lemma par_local : forall (s : cstate) t h fr a n pr, inv s -> nth_error (c_threads s) t = Some (PEns h fr (EPar a)) -> look (c_mem s) a = Some n ->
    local s t (PEns h fr (EPar a)) (put (c_mem s) a (with_par n pr)) (c_handles s) (PAt h fr a [] []).
  Proof.
    intros s t h fr a n pr I N L. pose proof (i_thread s I t _ N) as T. cbn [tinv] in T. destruct T as (F & a0 & C & -> & H1).
    pose proof (i_own s I t _ N) as ND. constructor; auto.
    - intros x. rewrite (cnt_put _ _ _ _ x L). pose proof (kids_put _ _ _ (with_par n pr) x L) as Q. cbn [n_kids n_cnt with_par in_hand app] in *. rewrite occ_nil.
      destruct (Nat.eqb_spec x a0) as [E|]; [subst x; rewrite (cnt_some _ _ _ L)|]; lia.
    - intros x n' LX Z. right. split; [|intros []]. rewrite (look_put _ _ _ _ x L) in LX. destruct (Nat.eqb_spec x a0); [|exists n'; auto]. injection LX as <-. cbn in Z. subst. exists n. auto.
    - eapply heights_put; eauto; [exact (i_height s I)|]. intros c' IC. eapply (i_height s I); eauto.
    - cbn [tinv]. split; [|split; [|split; [|constructor]]].
      + rewrite Forall_forall in *. intros x X. eapply has_put; eauto.
      + eapply chain_keeps; [exact C| |auto]. intros q x X LX. rewrite (look_put _ _ _ _ q L). destruct (Nat.eqb_spec q a0) as [E|]; [|eauto]. subst q. rewrite L in LX. injection LX as <-. eauto.
      + eapply has_put; eauto.
    - eapply lock_same; eauto.
    - eapply keeps_put; eauto. left. repeat split.
    - intros t' q x c O CQ X. eapply has_put; eauto.
    - intros t' q h' O U. auto.
  Qed.
End S.
