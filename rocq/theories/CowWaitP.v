(** Proofs about the number of steps of a call: one thread of the machine of Cow.v. *)
From Coq Require Import List Arith Bool Lia.
From Verif Require Import Base ListFacts Cow CowSpec CowP CowQ CowR CowS CowT CowU CowWait.
Import ListNotations.

Lemma Forall2_in : forall A B (P Q : A -> B -> Prop) l r, (forall a b, In a l -> P a b -> Q a b) -> Forall2 P l r -> Forall2 Q l r.
Proof. intros A B P Q l r H F. induction F; constructor; auto; [apply H; auto; left; auto|apply IHF; intros; apply H; auto; right; auto]. Qed.

Section W.
  Context {D : Type} (K : nat).
  Notation heap := (heap D).
  Notation cnode := (cnode D).
  Notation pc := (pc D).
  Notation cstate := (cstate D).
  Notation rose := (rose D).

  Lemma nodes_kids : forall r : rose, nodes r = 1 + sum (map nodes (rkids r)).
  Proof. destruct r as [d ks]. reflexivity. Qed.

  Definition at_work (w : work) : addr := match w with WDec a | WFree a => a end.
  Definition wcost (w : work) (r : rose) : nat := match w with WDec _ => 2 * nodes r | WFree _ => 2 * nodes r - 1 end.
  Fixpoint costs (ws : list work) (rs : list rose) : nat :=
    match ws, rs with w :: ws', r :: rs' => wcost w r + costs ws' rs' | _, _ => 0 end.
  Definition pile (m : heap) (ws : list work) (rs : list rose) : Prop := Forall2 (fun w r => shows m (at_work w) r) ws rs.

  Definition narrow (m : heap) (hs : list (option (option addr))) (h : nat) (fr : list (addr * nat)) : Prop :=
    forall a n, chain m hs h fr a -> look m a = Some n -> length (n_kids n) <= K.

  (** Thread state [p] is over after at most [n] more steps. *)
  Definition pays (m : heap) (hs : list (option (option addr))) (p : pc) (n : nat) : Prop :=
    match p with
    | PDrop ws => exists rs, pile m ws rs /\ costs ws rs + 1 <= n
    | PEns h fr ELoad => narrow m hs h fr /\ 2 * K + 6 <= n
    | PEns h fr (EInc _ _ done) => narrow m hs h fr /\ 2 * K + 5 <= n + length done
    | PEns h fr (EWork new ws) =>
      exists nn, look m new = Some nn /\ length (n_kids nn) <= K /\
        ((exists a na, (ws = [WDec a] /\ K + 4 <= n \/ ws = [WFree a] /\ K + 3 <= n) /\ look m a = Some na /\ n_kids na = n_kids nn) \/
         (exists l, ws = map WDec l /\ incl l (n_kids nn) /\ length l + 2 <= n))
    | PEns _ _ (EPar _) => 1 <= n
    | _ => True
    end.

  Lemma chain_fun : forall (m : heap) hs h fr a b, chain m hs h fr a -> chain m hs h fr b -> a = b.
  Proof. intros m hs h [|[q i] fr] a b A B; cbn in *; [congruence|]. destruct A as [A _], B as [B _]. congruence. Qed.

  Lemma decs_in : forall a ws, In (WDec a) ws -> In a (decs ws).
  Proof. induction ws as [|w ws IH]; intros H; [destruct H|]; destruct H as [E|H]; [subst; left; auto|]. destruct w; cbn; auto. Qed.
  Lemma frees_in : forall a ws, In (WFree a) ws -> In a (frees ws).
  Proof. induction ws as [|w ws IH]; intros H; [destruct H|]; destruct H as [E|H]; [subst; left; auto|]. destruct w; cbn; auto. Qed.

  (** ** The steps of other threads *)

  Section Other.
    Variables (s : cstate) (u : nat) (pu pu' : pc) (m' : heap) (hs' : list (option (option addr))).
    Hypotheses (I0 : inv s) (NU : nth_error (c_threads s) u = Some pu) (L : local s u pu m' hs' pu').

    Section T.
      Variables (t : nat) (p : pc).
      Hypotheses (NT : nth_error (c_threads s) t = Some p) (NE : u <> t).

      Lemma oth : other s t u pu.
      Proof. split; auto. Qed.
      Lemma oth' : other s u t p.
      Proof. split; auto. Qed.

      Lemma hand_free : forall a, In a (in_hand p) -> ~ In a (claims pu).
      Proof. intros a H. eapply (not_claimed s t p a (LHand t) u pu); eauto; [exists p; auto|reflexivity|apply oth]. Qed.
      Lemma claim_free : forall a, In a (claims p) -> ~ In a (claims pu).
      Proof. intros a H. eapply (i_dis s I0 t p u pu a); eauto. Qed.
      Lemma tip_free : forall h fr a, writes h p = true -> frames p = map fst fr -> chain (c_mem s) (c_handles s) h fr a -> ~ In a (claims pu).
      Proof.
        intros h fr a W F C. destruct (chain_tip _ _ _ _ C) as [R|(q & Q & R)].
        - eapply (not_claimed s t p a (LRoot h) u pu); eauto. apply oth.
        - eapply (not_claimed s t p a (LKid q) u pu); eauto; [cbn; rewrite F; exact Q|apply oth].
      Qed.
      Lemma root_free : forall h a, writes h p = true -> root (c_handles s) h = Some a -> ~ In a (claims pu).
      Proof. intros h a W R. eapply (not_claimed s t p a (LRoot h) u pu); eauto. apply oth. Qed.
      Lemma root_kept : forall h, writes h p = true -> root hs' h = root (c_handles s) h.
      Proof. intros h W. apply (l_keeps_root _ _ _ _ _ _ L t p h oth'). destruct p; cbn in *; auto; discriminate. Qed.
      Lemma node_kept : forall a n, look (c_mem s) a = Some n -> ~ In a (claims pu) -> exists n', look m' a = Some n' /\ n_kids n' = n_kids n.
      Proof. intros a n LA U. destruct (l_keeps _ _ _ _ _ _ L a n LA U) as (n' & LA' & _ & E & _). eauto. Qed.

      Lemma narrow_kept : forall h fr e, p = PEns h fr e -> narrow (c_mem s) (c_handles s) h fr -> narrow m' hs' h fr.
      Proof.
        intros h fr e E NW a n C LA. pose proof (i_thread s I0 t p NT) as T. rewrite E in T. cbn [tinv] in T. destruct T as (F & b & CB & _).
        assert (W : writes h p = true) by (rewrite E; cbn; apply Nat.eqb_refl).
        assert (FR : frames p = map fst fr) by (rewrite E; reflexivity).
        assert (CB' : chain m' hs' h fr b).
        { eapply chain_keeps; [exact CB| |apply root_kept; exact W]. intros q nq Q LQ. apply node_kept; auto. apply claim_free. apply frames_claims. rewrite FR. exact Q. }
        assert (EA := chain_fun _ _ _ _ _ _ C CB'). subst b. destruct (tip_live s h fr a I0 CB) as (n0 & L0 & _).
        destruct (node_kept a n0 L0 (tip_free _ _ _ W FR CB)) as (n1 & L1 & E1). rewrite LA in L1. injection L1 as <-. rewrite E1. eapply NW; eauto.
      Qed.
    End T.

    Lemma pays_other : forall t (p : pc) n, nth_error (c_threads s) t = Some p -> u <> t -> pays (c_mem s) (c_handles s) p n -> pays m' hs' p n.
    Proof.
      intros t p n NT NE P. pose proof (hand_free t p NT NE) as HF. pose proof (claim_free t p NT NE) as CF. pose proof (narrow_kept t p NT NE) as NK.
      destruct p as [|h is a|ws|h fr e|h fr a fl old]; cbn [pays] in *; auto.
      - destruct P as (rs & PL & C). exists rs. split; auto.
        assert (G : forall w, In w ws -> ~ In (at_work w) (claims pu)).
        { intros [a|a] H; cbn [at_work]; [apply HF; cbn; apply decs_in; auto|apply CF; unfold claims; cbn; rewrite app_nil_r; apply frees_in; auto]. }
        eapply Forall2_in; [|exact PL]. cbn beta. intros w r HW S0. eapply (shows_keeps s u pu); eauto. apply L.
      - destruct e as [|d pp done|new ws|new].
        + destruct P as [P Q]. split; auto. eapply NK; eauto.
        + destruct P as [P Q]. split; auto. eapply NK; eauto.
        + destruct P as (nn & LN & B & P).
          assert (U : ~ In new (claims pu)) by (apply CF; apply tips_claims; left; auto).
          destruct (node_kept new nn LN U) as (nn' & LN' & EN). exists nn'. rewrite EN. split; [exact LN'|]. split; [exact B|]. destruct P as [(a & na & W & LA & EA)|P]; [left|right; exact P].
          exists a. assert (UA : ~ In a (claims pu)).
          { destruct W as [[-> _]|[-> _]]; [apply HF; cbn; auto|apply CF; unfold claims; cbn; auto]. }
          destruct (node_kept a na LA UA) as (na' & LA' & EA'). exists na'. rewrite EA'. auto.
        + exact P.
    Qed.
  End Other.

  (** ** The thread's own steps *)

  Lemma narrow_move : forall (s : cstate) (m' : heap) hs' h fr b, chain (c_mem s) (c_handles s) h fr b ->
    (forall q n, look (c_mem s) q = Some n -> exists n', look m' q = Some n' /\ n_kids n' = n_kids n) -> root hs' h = root (c_handles s) h ->
    (exists n, look (c_mem s) b = Some n) -> narrow (c_mem s) (c_handles s) h fr -> narrow m' hs' h fr.
  Proof.
    intros s m' hs' h fr b C KP R (n0 & L0) NW a n CA LA.
    assert (CB : chain m' hs' h fr b) by (eapply chain_keeps; eauto).
    assert (EA := chain_fun _ _ _ _ _ _ CA CB). subst b. destruct (KP a n0 L0) as (n1 & L1 & E1). rewrite LA in L1. injection L1 as <-. rewrite E1. eapply NW; eauto.
  Qed.

  Lemma cnt_kids : forall (m : heap) c k x q n, look m c = Some k -> look m q = Some n -> exists n', look (put m c (with_cnt k x)) q = Some n' /\ n_kids n' = n_kids n.
  Proof. intros m c k x q n LC LQ. rewrite (look_put _ _ _ _ _ LC). destruct (Nat.eqb_spec q c) as [->|]; [|eauto]. exists (with_cnt k x). split; auto. cbn. congruence. Qed.

  Lemma cnt_shows : forall (m : heap) c k x a r, look m c = Some k -> shows m a r -> shows (put m c (with_cnt k x)) a r.
  Proof.
    intros m c k x a r LC S0. apply (shows_frame (fun _ => True) m); [|exact Logic.I|exact S0]. intros b n _ LB. split; auto. rewrite (look_put _ _ _ _ _ LC).
    destruct (Nat.eqb_spec b c) as [->|]; [|eauto]. exists (with_cnt k x). cbn. rewrite LC in LB. injection LB as <-. auto.
  Qed.

  Lemma costs_app : forall ws ws' rs rs', length ws = length rs -> costs (ws ++ ws') (rs ++ rs') = costs ws rs + costs ws' rs'.
  Proof. induction ws as [|w ws IH]; intros ws' [|r rs] rs' E; cbn in *; try discriminate; auto. rewrite IH by lia. lia. Qed.
  Lemma costs_decs : forall l (rs : list rose), length l = length rs -> costs (map WDec l) rs = 2 * sum (map nodes rs).
  Proof. induction l as [|a l IH]; intros [|r rs] E; cbn in *; try discriminate; auto. rewrite IH by lia. unfold sum. lia. Qed.

  (** One step of dropping. *)
  Lemma drop_pays : forall (s : cstate) t w ws m' ws' n, inv s -> nth_error (c_threads s) t = Some (PDrop (w :: ws)) -> work_step (c_mem s) w = Some (m', ws') ->
    pays (c_mem s) (c_handles s) (PDrop (w :: ws)) n -> exists n', pays m' (c_handles s) (PDrop (ws' ++ ws)) n' /\ n = S n'.
  Proof.
    intros s t w ws m' ws' n I0 NT E (rs & PL & C). inversion PL as [|? r ? rs0 S0 PL0]; subst. cbn [costs] in C.
    pose proof (nodes_kids r) as NK. destruct n as [|n]; [lia|]. exists n. split; [|reflexivity]. destruct w as [a|a]; cbn [work_step at_work wcost] in *.
    - destruct (look (c_mem s) a) as [k|] eqn:LA; [|discriminate]. destruct (n_cnt k) as [|[|c]]; [discriminate| |]; injection E as <- <-.
      + exists (r :: rs0). split; [constructor; [apply cnt_shows; auto|]|cbn [app costs wcost]; lia].
        eapply Forall2_impl; [|exact PL0]. cbn beta. intros. apply cnt_shows; auto.
      + exists rs0. split; [|cbn [app]; lia]. eapply Forall2_impl; [|exact PL0]. cbn beta. intros. apply cnt_shows; auto.
    - destruct (look (c_mem s) a) as [k|] eqn:LA; [|discriminate]. injection E as <- <-.
      destruct (shows_elim _ _ _ S0) as (k' & LK & _ & FK). rewrite LA in LK. injection LK as <-.
      pose proof (i_thread s I0 t _ NT) as T. cbn [tinv frees] in T. inversion T as [|? ? Z _]; subst.
      pose proof (i_own s I0 t _ NT) as ND. unfold claims in ND. cbn in ND. rewrite app_nil_r in ND. inversion ND as [|? ? NA _]; subst.
      assert (KP : forall b x, b <> a -> shows (c_mem s) b x -> shows (free (c_mem s) a) b x).
      { intros b x NB SB. apply (shows_frame (fun y => y <> a) (c_mem s)); [|exact NB|exact SB]. intros y ny NY LY. split.
        - rewrite (look_free _ _ _ _ LA). destruct (Nat.eqb_spec y a); [contradiction|eauto].
        - intros c IC ->. eapply (refers_zero s a (LKid y)); eauto. exists ny. auto. }
      exists (rkids r ++ rs0). split.
      + apply Forall2_app.
        * clear - FK KP Z LA I0. assert (NK : forall c, In c (n_kids k) -> c <> a) by (intros c IC ->; eapply (refers_zero s a (LKid a)); eauto; exists k; auto).
          induction FK as [|c x l l' SC F IH]; cbn [map]; constructor; [apply KP; auto; apply NK; left; auto|apply IH; intros; apply NK; right; auto].
        * eapply Forall2_in; [|exact PL0]. cbn beta. intros w x HW SW. apply KP; auto. intros EW. destruct w as [b|b]; cbn [at_work] in *; subst b.
          -- eapply (refers_zero s a (LHand t)); eauto. exists (PDrop (WFree a :: ws)). split; auto. cbn. apply decs_in. auto.
          -- apply NA. apply frees_in. auto.
      + pose proof (Forall2_length _ _ _ _ _ FK) as LE. rewrite costs_app by (rewrite map_length; auto). rewrite costs_decs by auto. lia.
  Qed.

  (** One step of making a node unique. *)
  Lemma ens_pays : forall (s : cstate) t h fr e new s' o n, inv s -> nth_error (c_threads s) t = Some (PEns h fr e) -> ens_step s t h fr e new = Next s' o ->
    pays (c_mem s) (c_handles s) (PEns h fr e) n ->
    exists p' n', nth_error (c_threads s') t = Some p' /\ pays (c_mem s') (c_handles s') p' n' /\ n = S n'.
  Proof.
    intros s t h fr e new s' o n I0 NT E P. pose proof (i_thread s I0 t _ NT) as T. cbn [tinv] in T. destruct T as (F & a & CH & T).
    pose proof (slot_chain s h fr a CH) as SL. destruct (tip_live s h fr a I0 CH) as (na & LA & CA). pose proof (nth_error_lt _ _ _ NT) as LT.
    destruct e as [|d pp done|b ws|b]; cbn [ens_step pays] in *.
    - rewrite SL, LA in E. injection E as <- <-. destruct P as [NW B]. destruct n as [|n]; [lia|]. eexists. exists n.
      split; [cbn [go c_threads]; apply replace_nth_same; auto|]. split; [|reflexivity]. cbn [go c_mem c_handles]. destruct (n_cnt na =? 1); cbn [pays length]; [lia|]. split; [exact NW|lia].
    - rewrite SL, LA in E. destruct P as [NW B]. destruct T as (na' & LA' & _ & ED). rewrite LA in LA'. injection LA' as <-.
      assert (LD : length done <= K).
      { pose proof (NW a na CH LA) as Q. apply (f_equal (@length _)) in ED. rewrite firstn_length in ED. lia. }
      destruct n as [|n]; [lia|]. destruct (nth_error (n_kids na) (length done)) as [c|] eqn:EC.
      + destruct (look (c_mem s) c) as [k|] eqn:LC; [|discriminate]. injection E as <- <-. eexists. exists n.
        split; [cbn [go mem c_threads]; apply replace_nth_same; auto|]. split; [|reflexivity]. cbn [go mem c_mem c_handles pays]. split; [|rewrite app_length; cbn [length]; lia].
        eapply (narrow_move s); eauto. intros q nq LQ. eapply cnt_kids; eauto.
      + destruct (alloc (c_mem s) new _) as [m|] eqn:EA; [|discriminate].
        assert (NA : new <> a) by (intros ->; apply alloc_none in EA; congruence).
        assert (LN : look m new = Some {| n_data := d; n_kids := n_kids na; n_cnt := 1; n_par := pp; n_h := n_h na |}) by (rewrite (look_alloc _ _ _ _ _ EA), Nat.eqb_refl; reflexivity).
        assert (LA1 : look m a = Some na) by (rewrite (look_alloc _ _ _ _ _ EA); destruct (Nat.eqb_spec a new); [congruence|exact LA]).
        destruct (set_slot (mem s m) h fr new) as [s1|] eqn:ES; [|discriminate]. injection E as <- <-. eexists. exists n.
        assert (TH : c_threads s1 = c_threads s).
        { destruct fr as [|[q i] fr]; cbn in ES; [injection ES as <-; reflexivity|]. destruct (look m q); [|discriminate]. injection ES as <-. reflexivity. }
        split; [cbn [go c_threads]; rewrite TH; apply replace_nth_same; auto|]. split; [|reflexivity]. cbn [go c_mem c_handles pays].
        assert (QQ : exists nn na1, look (c_mem s1) new = Some nn /\ n_kids nn = n_kids na /\ look (c_mem s1) a = Some na1 /\ n_kids na1 = n_kids na).
        { destruct fr as [|[q i] fr]; cbn in ES; [injection ES as <-; cbn; eexists; eexists; split; [exact LN|]; split; [reflexivity|]; split; [exact LA1|reflexivity]|].
          destruct (look m q) as [nq|] eqn:LQ; [|discriminate]. injection ES as <-. cbn [mem c_mem].
          destruct CH as [KI CH]. unfold kid in KI. destruct (look (c_mem s) q) as [nq0|] eqn:LQ0; [|discriminate].
          assert (q <> new) by (intros ->; apply alloc_none in EA; congruence).
          assert (q <> a). { intros ->. destruct (i_height s I0 a nq0 a LQ0) as (x & LX & HX); [eapply nth_error_In; eauto|]. rewrite LQ0 in LX. injection LX as <-. lia. }
          rewrite !(look_put _ _ _ _ _ LQ). destruct (Nat.eqb_spec new q); [congruence|]. destruct (Nat.eqb_spec a q); [congruence|]. rewrite LN, LA1. eexists. eexists. split; [reflexivity|]. split; [reflexivity|]. split; reflexivity. }
        destruct QQ as (nn & na1 & Q1 & Q2 & Q3 & Q4). exists nn. split; [exact Q1|]. rewrite Q2. split; [eapply NW; eauto|]. left. exists a, na1. split; [left; split; [reflexivity|lia]|]. split; [exact Q3|congruence].
    - destruct T as (-> & H1 & F0). destruct P as (nn & LN & B & P). destruct ws as [|w ws].
      + injection E as <- <-. destruct P as [(x & nx & [[W _]|[W _]] & _)|(l & W & IL & LE)]; [discriminate|discriminate|]. destruct n as [|n]; [lia|]. eexists. exists n.
        split; [cbn [go c_threads]; apply replace_nth_same; auto|]. split; [cbn [pays]; lia|reflexivity].
      + destruct (work_step (c_mem s) w) as [[m ws']|] eqn:EW; [|discriminate]. injection E as <- <-.
        assert (NX : exists n', n = S n') by (destruct P as [(x & nx & [[_ W]|[_ W]] & _)|(l & _ & _ & W)]; destruct n; try lia; eauto). destruct NX as [n' ->]. eexists. exists n'.
        split; [cbn [go mem c_threads]; apply replace_nth_same; auto|]. split; [|reflexivity]. cbn [go mem c_mem c_handles pays].
        destruct P as [(x & nx & W & LX & EX)|(l & W & IL & LE)].
        * destruct W as [[W WN]|[W WN]]; injection W as -> ->; cbn [work_step] in EW; rewrite LX in EW.
          -- destruct (n_cnt nx) as [|[|c]] eqn:CX; [discriminate| |]; injection EW as <- <-.
             ++ destruct (cnt_kids _ _ _ 0 _ _ LX LN) as (n1 & L1 & E1). exists n1. rewrite E1. split; [exact L1|]. split; [exact B|]. left.
                destruct (cnt_kids _ _ _ 0 _ _ LX LX) as (n2 & L2 & E2). exists x, n2. split; [right; split; [reflexivity|lia]|]. split; [exact L2|congruence].
             ++ destruct (cnt_kids _ _ _ (S c) _ _ LX LN) as (n1 & L1 & E1). exists n1. rewrite E1. split; [exact L1|]. split; [exact B|]. right.
                exists []. split; [reflexivity|]. split; [intros y []|cbn; lia].
          -- injection EW as <- <-. pose proof (i_own s I0 t _ NT) as ND. unfold claims in ND. cbn in ND. inversion ND as [|? ? NI _]; subst.
             assert (a <> x) by (intros ->; apply NI; apply in_or_app; right; left; auto).
             exists nn. rewrite (look_free _ _ _ _ LX). destruct (Nat.eqb_spec a x); [contradiction|]. split; [exact LN|]. split; [exact B|]. right.
             exists (n_kids nx). rewrite app_nil_r. split; [reflexivity|]. rewrite EX. split; [apply incl_refl|lia].
        * destruct l as [|c l]; [discriminate|]. cbn [map] in W. injection W as -> ->. cbn [work_step] in EW.
          assert (IC : In c (n_kids nn)) by (apply IL; left; auto).
          assert (TWO : 2 <= owners s c).
          { assert (R1 : refers s c (LKid a)) by (exists nn; auto). assert (R2 : refers s c (LHand t)) by (eexists; split; [exact NT|cbn; auto]).
            apply refers_amount in R1. apply refers_amount in R2. pose proof (amount_two s c (LKid a) (LHand t) ltac:(discriminate)). lia. }
          pose proof (i_cnt s I0 c) as CC. unfold cnt_at in CC. destruct (look (c_mem s) c) as [nc|] eqn:LC; [|discriminate].
          destruct (n_cnt nc) as [|[|k]]; [discriminate|lia|]. injection EW as <- <-.
          destruct (cnt_kids _ _ _ (S k) _ _ LC LN) as (n1 & L1 & E1). exists n1. rewrite E1. split; [exact L1|]. split; [exact B|]. right.
          exists l. split; [reflexivity|]. split; [intros y HY; apply IL; right; auto|cbn [length] in LE; lia].
    - destruct (look (c_mem s) b) as [nb|]; [|discriminate]. injection E as <- <-. destruct n as [|n]; [lia|]. eexists. exists n.
      split; [cbn [go mem c_threads]; apply replace_nth_same; auto|]. split; [exact Logic.I|reflexivity].
  Qed.

  Definition sharing (p : pc) (e : ev D) : Prop :=
    match e with VStep _ => True | VShared => match p with PEns _ _ ELoad => True | _ => False end | _ => False end.

  Lemma pays_own : forall (s : cstate) t p e s' o n, inv s -> nth_error (c_threads s) t = Some p -> cstep s t e = Next s' o -> sharing p e -> pays (c_mem s) (c_handles s) p n ->
    exists p' n', nth_error (c_threads s') t = Some p' /\ pays (c_mem s') (c_handles s') p' n' /\ n = S n'.
  Proof.
    intros s t p e s' o n I0 NT E SH P. pose proof (nth_error_lt _ _ _ NT) as LT. unfold cstep in E. rewrite NT in E.
    destruct e; try contradiction.
    - destruct p as [|h is a0|ws|h fr e|h fr a0 fl old]; try discriminate.
      + destruct ws as [|w ws].
        * injection E as <- <-. cbn [pays] in P. destruct P as (rs & PL & C). destruct n as [|n]; [lia|]. eexists. exists n.
          split; [cbn [go c_threads]; apply replace_nth_same; auto|]. split; [exact Logic.I|reflexivity].
        * destruct (work_step (c_mem s) w) as [[m ws']|] eqn:EW; [|discriminate]. injection E as <- <-.
          destruct (drop_pays s t w ws m ws' n I0 NT EW P) as (n' & P' & ->). eexists. exists n'.
          split; [cbn [go mem c_threads]; apply replace_nth_same; auto|]. split; [exact P'|reflexivity].
      + eapply ens_pays; eauto.
      + unfold at_step in E. destruct (look (c_mem s) a0); discriminate.
    - destruct p as [|h is a0|ws|h fr e|h fr a0 fl old]; try contradiction. destruct e; try contradiction.
      destruct (slot s h fr) as [x|]; [|discriminate]. destruct (look (c_mem s) x) as [k|]; [|discriminate]. injection E as <- <-.
      destruct P as [NW B]. destruct n as [|n]; [lia|]. eexists. exists n. split; [cbn [go c_threads]; apply replace_nth_same; auto|]. split; [|reflexivity]. cbn. split; [exact NW|lia].
  Qed.
End W.
