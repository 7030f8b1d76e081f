(** Proofs about weak memory: every step keeps the invariant, part 1. *)
From Coq Require Import List Arith Bool Lia Permutation.
From Verif Require Import Base ListFacts Cow CowSpec CowP CowQ CowR CowS CowT CowPropsP Weak WeakP WeakQ WeakR WeakS WeakT.
Import ListNotations.

Section WU.
  Context {D : Type}.
  Notation heap := (heap D).
  Notation cnode := (cnode D).
  Notation pc := (pc D).
  Notation cstate := (cstate D).
  Notation wstate := (wstate D).
  Variable o : ords.
  Notation winv := (@winv D o).

  (** The state after a step, with any log. *)
  Definition mk (w : wstate) (t : nat) (e : ev D) (g : evs) (s' : cstate) (lg : list (nat * list access)) : wstate :=
    {| w_s := s'; w_k := upd (w_k w) t (k2 w t e g); w_hist := hist' o w t e (k2 w t e g); w_hw := hw' w t e (k2 w t e g); w_hr := hr' w t e (k2 w t e g);
       w_gone := match releases_mem (w_s w) t e with Some a => upd (w_gone w) a (k2 w t e g) | None => w_gone w end; w_log := lg |}.

  (** The state before, but with what the step learns. *)
  Record base (w : wstate) (t : nat) (e : ev D) (g : evs) (lg : list (nat * list access)) (w2 : wstate) : Prop := {
    e_s : w_s w2 = w_s w;
    e_k : w_k w2 = upd (w_k w) t (k2 w t e g);
    e_hist : w_hist w2 = w_hist w;
    e_hw : w_hw w2 = w_hw w;
    e_hr : w_hr w2 = w_hr w;
    e_gone : w_gone w2 = gone2 w t e g;
    e_log : w_log w2 = lg
  }.

  Lemma base_kt : forall w t e g lg w2, base w t e g lg w2 -> w_k w2 t = k2 w t e g.
  Proof. intros w t e g lg w2 B. rewrite (e_k _ _ _ _ _ _ B). apply upd_same. Qed.

  Lemma base_view : forall w t e g lg w2 a, base w t e g lg w2 -> hview w2 a = hview w a.
  Proof. intros w t e g lg w2 a B. unfold hview, newest. rewrite (e_hist _ _ _ _ _ _ B). auto. Qed.

  Lemma basics_of : forall w t e g lg w2 s' p p', base w t e g lg w2 -> inv s' -> c_threads s' = replace_at t p' (c_threads (w_s w)) ->
    hands w2 (mk w t e g s' lg) t p p' -> basics w2 (mk w t e g s' lg) t p p'.
  Proof.
    intros w t e g lg w2 s' p p' B I' TH H. constructor; auto.
    - intros u. rewrite (e_k _ _ _ _ _ _ B). auto.
    - rewrite (e_log _ _ _ _ _ _ B). auto.
    - rewrite (e_s _ _ _ _ _ _ B). auto.
  Qed.

  Lemma base_thr : forall w t e g lg w2 u p, base w t e g lg w2 -> thr w u p -> thr w2 u p.
  Proof. intros w t e g lg w2 u p B T. unfold thr. rewrite (e_s _ _ _ _ _ _ B). auto. Qed.

  (** ** Handles *)

  Lemma hands_still : forall w t e g lg w2 s' p p', base w t e g lg w2 -> winv w2 -> thr w t p -> hw' w t e (k2 w t e g) = w_hw w -> hr' w t e (k2 w t e g) = w_hr w ->
    (forall h, uses h p' = uses h p) -> (forall h, writes h p' = writes h p) -> hands w2 (mk w t e g s' lg) t p p'.
  Proof.
    intros w t e g lg w2 s' p p' B V T EW ER U W. apply (hands_same o); auto.
    - eapply base_thr; eauto.
    - rewrite (e_hw _ _ _ _ _ _ B). auto.
    - rewrite (e_hr _ _ _ _ _ _ B). auto.
  Qed.

  (** An insertion ends. *)
  Lemma hands_end : forall w t e g lg w2 s' p p' h, base w t e g lg w2 -> winv w2 -> thr w t p -> hw' w t e (k2 w t e g) = upd (w_hw w) h (k2 w t e g) ->
    hr' w t e (k2 w t e g) = upd (w_hr w) h (k2 w t e g) -> (forall h', uses h' p = (h' =? h)) -> (forall h', writes h' p = (h' =? h)) -> (forall h', uses h' p' = false) ->
    hands w2 (mk w t e g s' lg) t p p'.
  Proof.
    intros w t e g lg w2 s' p p' h B V T EW ER U W U'. pose proof (base_thr _ _ _ _ _ _ _ _ B T) as T2. pose proof (base_kt _ _ _ _ _ _ B) as KT.
    assert (W' : forall h', writes h' p' = false) by (intros h'; destruct (writes h' p') eqn:E; auto; apply writes_uses in E; rewrite U' in E; discriminate).
    assert (UH : uses h p = true) by (rewrite U; apply Nat.eqb_refl). assert (WH : writes h p = true) by (rewrite W; apply Nat.eqb_refl).
    constructor; cbn [mk w_hw w_hr w_s].
    - intros h' a _ _. rewrite EW, ER, (e_hw _ _ _ _ _ _ B), (e_hr _ _ _ _ _ _ B). destruct (Nat.eq_dec h' h) as [->|N].
      + rewrite !upd_same, <- KT, <- (e_hw _ _ _ _ _ _ B), <- (e_hr _ _ _ _ _ _ B). split; [eapply (v_read o w2 V); eauto|eapply (v_write o w2 V); eauto].
      + rewrite !upd_other by auto. split; apply incl_refl.
    - intros h' X. right. rewrite ER, KT. rewrite U in X. apply Nat.eqb_eq in X. subst. rewrite upd_same. apply incl_refl.
    - intros h' X. right. rewrite EW, KT. rewrite W in X. apply Nat.eqb_eq in X. subst. rewrite upd_same. apply incl_refl.
    - intros h' u q [TU NE] UQ. rewrite EW, ER, (e_hw _ _ _ _ _ _ B), (e_hr _ _ _ _ _ _ B). destruct (Nat.eq_dec h' h) as [->|N].
      + exfalso. apply NE. eapply (own_tree o w2 t p h u q); eauto.
      + rewrite !upd_other by auto. auto.
    - intros h' X. rewrite U' in X. discriminate.
  Qed.

  (** A reader ends. *)
  Lemma hands_read_end : forall w t e g lg w2 s' p p' h, base w t e g lg w2 -> winv w2 -> thr w t p -> hw' w t e (k2 w t e g) = w_hw w ->
    hr' w t e (k2 w t e g) = upd (w_hr w) h (k2 w t e g ++ w_hr w h) -> (forall h', uses h' p = (h' =? h)) -> (forall h', writes h' p = false) -> (forall h', uses h' p' = false) ->
    hands w2 (mk w t e g s' lg) t p p'.
  Proof.
    intros w t e g lg w2 s' p p' h B V T EW ER U W U'. pose proof (base_thr _ _ _ _ _ _ _ _ B T) as T2. pose proof (base_kt _ _ _ _ _ _ B) as KT.
    assert (UH : uses h p = true) by (rewrite U; apply Nat.eqb_refl).
    constructor; cbn [mk w_hw w_hr w_s].
    - intros h' a _ _. rewrite EW, ER, (e_hw _ _ _ _ _ _ B), (e_hr _ _ _ _ _ _ B). split; [apply incl_refl|]. destruct (Nat.eq_dec h' h) as [->|N].
      + rewrite upd_same. intros i X. apply in_or_app. auto.
      + rewrite !upd_other by auto. apply incl_refl.
    - intros h' X. right. rewrite ER, KT. rewrite U in X. apply Nat.eqb_eq in X. subst. rewrite upd_same. intros i Y. apply in_or_app. auto.
    - intros h' X. rewrite W in X. discriminate.
    - intros h' u q [TU NE] UQ. rewrite EW, ER, (e_hw _ _ _ _ _ _ B), (e_hr _ _ _ _ _ _ B). split; auto. intros WQ. destruct (Nat.eq_dec h' h) as [->|N].
      + exfalso. apply NE. symmetry. eapply (own_tree o w2 u q h t p); eauto.
      + rewrite !upd_other by auto. auto.
    - intros h' X. rewrite U' in X. discriminate.
  Qed.

  (** A thread starts to use a tree. *)
  Lemma hands_begin : forall w t e g lg w2 s' p p' h, base w t e g lg w2 -> winv w2 -> thr w t p -> hw' w t e (k2 w t e g) = w_hw w -> hr' w t e (k2 w t e g) = w_hr w ->
    (forall h', uses h' p = false) -> (forall h', uses h' p' = (h' =? h)) -> incl (w_hw w h) (k2 w t e g) -> (writes h p' = true -> incl (w_hr w h) (k2 w t e g)) ->
    hands w2 (mk w t e g s' lg) t p p'.
  Proof.
    intros w t e g lg w2 s' p p' h B V T EW ER U U' JW JR. pose proof (base_kt _ _ _ _ _ _ B) as KT.
    assert (W : forall h', writes h' p = false) by (intros h'; destruct (writes h' p) eqn:E; auto; apply writes_uses in E; rewrite U in E; discriminate).
    constructor; cbn [mk w_hw w_hr w_s].
    - intros h' a _ _. rewrite EW, ER, (e_hw _ _ _ _ _ _ B), (e_hr _ _ _ _ _ _ B). split; apply incl_refl.
    - intros h' X. rewrite U in X. discriminate.
    - intros h' X. rewrite W in X. discriminate.
    - intros h' u q _ _. rewrite EW, ER, (e_hw _ _ _ _ _ _ B), (e_hr _ _ _ _ _ _ B). auto.
    - intros h' X. rewrite U' in X. apply Nat.eqb_eq in X. subst h'. rewrite EW, ER, KT. auto.
  Qed.

  (** A tree that no thread uses gets a root, or loses it, or is new. *)
  Lemma hands_idle : forall w t e g lg w2 s' (p p' : pc) h, base w t e g lg w2 -> winv w2 -> thr w t p ->
    (forall h', h' <> h -> hw' w t e (k2 w t e g) h' = w_hw w h' /\ incl (w_hr w h') (hr' w t e (k2 w t e g) h') /\ (forall u q, other (w_s w) t u q -> writes h' q = true -> hr' w t e (k2 w t e g) h' = w_hr w h')) ->
    (forall h', uses h' p = false) -> (forall h', uses h' p' = false) -> (forall u q, other (w_s w) t u q -> uses h q = false) ->
    (forall a, refers (w_s w) a (LRoot h) -> ~ refers s' a (LRoot h)) ->
    hands w2 (mk w t e g s' lg) t p p'.
  Proof.
    intros w t e g lg w2 s' p p' h B V T E U U' UO NR. 
    assert (W : forall h', writes h' p = false) by (intros h'; destruct (writes h' p) eqn:X; auto; apply writes_uses in X; rewrite U in X; discriminate).
    constructor; cbn [mk w_hw w_hr w_s].
    - intros h' a R R'. rewrite (e_hw _ _ _ _ _ _ B), (e_hr _ _ _ _ _ _ B). rewrite (e_s _ _ _ _ _ _ B) in R. destruct (Nat.eq_dec h' h) as [->|N]; [exfalso; eapply NR; eauto|].
      destruct (E h' N) as (A & C & _). rewrite A. split; [apply incl_refl|auto].
    - intros h' X. rewrite U in X. discriminate.
    - intros h' X. rewrite W in X. discriminate.
    - intros h' u q OT UQ. unfold other in *. rewrite (e_s _ _ _ _ _ _ B) in OT. rewrite (e_hw _ _ _ _ _ _ B), (e_hr _ _ _ _ _ _ B).
      destruct (Nat.eq_dec h' h) as [->|N]; [rewrite (UO u q OT) in UQ; discriminate|]. destruct (E h' N) as (A & _ & C). split; auto. intros X. apply (C u q OT X).
    - intros h' X. rewrite U' in X. discriminate.
  Qed.

  (** ** Steps that move no reference *)

  Lemma quiet_case : forall w t e g lg w2 s' p p', base w t e g lg w2 -> winv w2 -> thr w t p -> inv s' -> c_threads s' = replace_at t p' (c_threads (w_s w)) ->
    hist' o w t e (k2 w t e g) = w_hist w -> allocates (w_s w) t e = None -> releases_mem (w_s w) t e = None ->
    same_refs (c_mem (w_s w)) (c_mem s') -> (forall h, root (c_handles s') h = root (c_handles (w_s w)) h) ->
    (forall x, In x (in_hand p') <-> In x (in_hand p)) -> (forall x, In x (dying p') <-> In x (dying p)) ->
    (forall a, In a (frames p' ++ tips p') -> In a (frames p ++ tips p) \/ incl (hview w a) (k2 w t e g)) -> hands w2 (mk w t e g s' lg) t p p' -> winv (mk w t e g s' lg).
  Proof.
    intros w t e g lg w2 s' p p' B V T I' TH EH AL RM SR RT HA DY CL HD. pose proof (base_thr _ _ _ _ _ _ _ _ B T) as T2. pose proof (base_kt _ _ _ _ _ _ B) as KT.
    apply (quiet o w2 (mk w t e g s' lg) t p p'); auto.
    - intros u. rewrite (e_k _ _ _ _ _ _ B). auto.
    - rewrite (e_log _ _ _ _ _ _ B). auto.
    - rewrite (e_s _ _ _ _ _ _ B). auto.
    - rewrite (e_hist _ _ _ _ _ _ B). auto.
    - rewrite (e_gone _ _ _ _ _ _ B). cbn [mk w_gone]. rewrite RM. unfold gone2. rewrite AL. auto.
    - rewrite (e_s _ _ _ _ _ _ B). auto.
    - intros h. rewrite (e_s _ _ _ _ _ _ B). apply RT.
    - intros a C. rewrite (base_view _ _ _ _ _ _ a B), KT. destruct (CL a C) as [X|X]; auto. rewrite <- KT, <- (base_view _ _ _ _ _ _ a B). eapply (v_claim o w2 V); eauto.
  Qed.

  (** ** Steps that move references between places of the thread *)

  Definition changed (t : nat) (p : pc) (bs : list addr) (l : place) : Prop :=
    match l with LRoot h => writes h p = true | LKid b => In b bs | LHand u => u = t end.

  Lemma shuffle_case : forall w t e g lg w2 s' p p' bs nw, base w t e g lg w2 -> winv w2 -> thr w t p -> inv s' -> c_threads s' = replace_at t p' (c_threads (w_s w)) ->
    allocates (w_s w) t e = nw -> releases_mem (w_s w) t e = None ->
    hist' o w t e (k2 w t e g) = match nw with Some a => upd (w_hist w) a [{| g_val := 1; g_view := []; g_ev := length (w_log w) |}] | None => w_hist w end ->
    hw' w t e (k2 w t e g) = w_hw w -> hr' w t e (k2 w t e g) = w_hr w -> (forall h, uses h p' = uses h p) -> (forall h, writes h p' = writes h p) ->
    (forall h, root (c_handles s') h = root (c_handles (w_s w)) h \/ writes h p = true) ->
    (forall a n, look (c_mem (w_s w)) a = Some n -> exists n', look (c_mem s') a = Some n' /\ n_cnt n' = n_cnt n) ->
    (forall a, look (c_mem (w_s w)) a = None -> nw <> Some a -> look (c_mem s') a = None) ->
    (forall a, nw = Some a -> look (c_mem (w_s w)) a = None /\ has_cnt (c_mem s') 1 a /\ exists l', mn t p' l' /\ refers s' a l') ->
    (forall z x, ~ In z bs -> refers (w_s w) x (LKid z) <-> refers s' x (LKid z)) ->
    (forall z, In z bs -> nw = Some z \/ In z (frames p ++ tips p)) -> (forall z, In z bs -> In z (frames p' ++ tips p')) ->
    (forall x l, changed t p bs l -> refers (w_s w) x l -> exists l', mn t p' l' /\ refers s' x l') ->
    (forall x l, changed t p bs l -> refers s' x l -> nw = Some x \/ exists l', mn t p l' /\ refers (w_s w) x l') ->
    dying p' = dying p -> (forall a, In a (frames p' ++ tips p') -> nw = Some a \/ In a (frames p ++ tips p)) ->
    winv (mk w t e g s' lg).
  Proof.
    intros w t e g lg w2 s' p p' bs nw B V T I' TH AL RM EH EW ER U W RT FW BW NW KS BI BO LO GA DY CL.
    pose proof (base_thr _ _ _ _ _ _ _ _ B T) as T2. pose proof (base_kt _ _ _ _ _ _ B) as KT. pose proof (e_s _ _ _ _ _ _ B) as ES.
    assert (BA : basics w2 (mk w t e g s' lg) t p p') by (apply basics_of; auto; apply hands_still; auto).
    assert (T' : nth_error (c_threads s') t = Some p') by (rewrite TH; apply replace_nth_same; eapply nth_error_lt; eauto).
    assert (BD : forall z, In z bs \/ ~ In z bs) by (intros z; destruct (in_dec Nat.eq_dec z bs); auto).
    assert (CASE : forall x l, (refers (w_s w) x l <-> refers s' x l) \/ changed t p bs l).
    { intros x [h|b|u]; cbn [changed].
      - destruct (RT h) as [E|E]; auto. left. cbn. rewrite E. tauto.
      - destruct (BD b) as [X|X]; auto.
      - destruct (Nat.eq_dec u t) as [|N]; auto. left. cbn. rewrite TH. rewrite replace_nth_other by auto. tauto. }
    assert (MNI : forall x l, changed t p bs l -> refers (w_s w) x l -> mn t p l).
    { intros x [h|b|u] C R; cbn [changed mn] in *; auto. destruct (BI b C) as [N|X]; auto. exfalso. destruct (NW b N) as (L & _). destruct R as (n & L1 & _). congruence. }
    assert (MNO : forall l, changed t p bs l -> mn t p' l).
    { intros [h|b|u] C; cbn [changed mn] in *; auto. rewrite W. auto. }
    apply (shuffle o w2 (mk w t e g s' lg) t p p' (fun _ => False) (fun _ => False) nw V T2 BA); unfold mem_of; cbn [mk w_s w_hist w_gone]; rewrite ?ES; try contradiction; auto.
    - intros a N. rewrite RM, EH, (e_hist _ _ _ _ _ _ B), (e_gone _ _ _ _ _ _ B). unfold gone2. rewrite AL. destruct nw as [b|]; auto.
      rewrite !upd_other by congruence. auto.
    - intros a N. destruct (NW a N) as (A & C & l & M & R). split; auto. rewrite N in AL, EH. split.
      + rewrite (e_gone _ _ _ _ _ _ B), KT. unfold gone2. rewrite AL, upd_same. apply incl_refl.
      + split; auto. split; [|exists l; auto]. exists {| g_val := 1; g_view := []; g_ev := length (w_log w) |}. rewrite EH, upd_same. auto.
    - intros x l R. destruct (CASE x l) as [E|C]; [left; apply E; auto|]. right. split; [left; eapply MNI; eauto|]. destruct (LO x l C R) as (l' & M & R'). eauto.
    - intros x l R. destruct (CASE x l) as [E|C]; [right; left; apply E; auto|]. destruct (GA x l C R) as [N|(l' & M & R')]; auto. right. right. split; [left; apply MNO; auto|]. eauto.
    - intros a. rewrite DY. tauto.
    - intros a C. destruct (CL a C); auto.
  Qed.

  (** ** Giving back references *)

  Lemma work_case : forall w t e j v g s' p p' x ws m' ws2, winv (staged o w t e v g) -> strong o -> winv w -> thr w t p -> inv s' ->
    reads_count o w (k1 w t e) (atomic o (w_s w) t e) j = Some (v, g) ->
    s' = go (mem (w_s w) m') t p' -> work_step (c_mem (w_s w)) x = Some (m', ws2) ->
    atomic o (w_s w) t e = match x with WDec a => ASub a | WFree a => ALoad a (o_last o) end ->
    allocates (w_s w) t e = None -> releases_mem (w_s w) t e = match x with WDec _ => None | WFree a => Some a end ->
    hw' w t e (k2 w t e g) = w_hw w -> hr' w t e (k2 w t e g) = w_hr w -> (forall h, uses h p' = uses h p) -> (forall h, writes h p' = writes h p) ->
    in_hand p = decs (x :: ws) -> dying p = frees (x :: ws) -> in_hand p' = decs (ws2 ++ ws) -> dying p' = frees (ws2 ++ ws) -> frames p' ++ tips p' = frames p ++ tips p ->
    winv (mk w t e g s' (w_log w ++ [(t, uses_of o (w_s w) t e v (k1 w t e) (k2 w t e g))])).
  Proof.
    intros w t e j v g s' p p' x ws m' ws2 V2 ST V T I' RC -> WS AT AL RM EW ER U W HP DP HP' DP' FT.
    set (lg := w_log w ++ [(t, uses_of o (w_s w) t e v (k1 w t e) (k2 w t e g))]).
    assert (B : base w t e g lg (staged o w t e v g)) by (constructor; reflexivity). pose proof (base_kt _ _ _ _ _ _ B) as KT.
    set (w' := mk w t e g (go (mem (w_s w) m') t p') lg).
    assert (BA : basics (staged o w t e v g) w' t p p') by (apply basics_of; auto; apply hands_still; auto).
    assert (T2 : thr (staged o w t e v g) t p) by exact T.
    destruct x as [c|c]; cbn [work_step] in WS; destruct (look (c_mem (w_s w)) c) as [n|] eqn:L; try discriminate.
    - (* counting down *)
      destruct (v_hist o w V c n L) as (m0 & ms & H0 & G0). rewrite AT in RC. cbn [reads_count] in RC. injection RC as VV GG. rewrite (newest_hist _ _ _ _ H0) in VV, GG.
      assert (HE : w_hist w' = upd (w_hist w) c (message w c (g_val m0 - 1) (o_dec o) (k2 w t e g))).
      { unfold w'. cbn [mk w_hist]. unfold hist'. rewrite AT. rewrite (newest_hist _ _ _ _ H0). auto. }
      unfold message in HE. rewrite (newest_hist _ _ _ _ H0) in HE. destruct ST as (_ & RL & _). rewrite RL in HE.
      assert (NZ : n_cnt n <> 0) by (intros Z; rewrite Z in WS; discriminate).
      assert (EM : m' = put (c_mem (w_s w)) c (with_cnt n (n_cnt n - 1)) /\ ws2 = if n_cnt n =? 1 then [WFree c] else []).
      { destruct (n_cnt n) as [|[|k]] eqn:E; [congruence| |]; injection WS as <- <-; cbn; rewrite ?Nat.sub_0_r; auto. }
      destruct EM as [-> ->].
      eapply (lower o (staged o w t e v g) w' t p p' c n _ V2 T2 BA L NZ); [reflexivity| |reflexivity| |exact HE| | | | | | | | |].
      + rewrite HP. left. auto.
      + unfold w'. cbn [mk w_gone]. rewrite RM. cbn [staged before w_gone]. unfold gone2. rewrite AL. auto.
      + cbn [g_val]. congruence.
      + cbn [g_view]. rewrite (base_view _ _ _ _ _ _ c B). unfold hview. rewrite (newest_hist _ _ _ _ H0). intros i X. apply in_or_app. auto.
      + cbn [g_view]. rewrite KT. intros i X. apply in_or_app. auto.
      + cbn [g_ev]. rewrite KT. left. auto.
      + intros A. cbn [g_view]. rewrite KT. intros i X. apply in_app_or in X. destruct X as [X|X]; auto. apply g_k2. rewrite <- GG. unfold got. rewrite A. auto.
      + rewrite HP, HP'. cbn [decs]. intros a [<-|X]; auto. right. rewrite decs_app. apply in_or_app. auto.
      + rewrite HP, HP', decs_app. intros a X. apply in_app_or in X. destruct X as [X|X]; [|right; auto]. destruct (n_cnt n =? 1); destruct X.
      + exact FT.
      + rewrite DP, DP', frees_app. destruct (n_cnt n =? 1); reflexivity.
    - (* freeing *)
      injection WS as <- <-. assert (DC : In c (dying p)) by (rewrite DP; left; auto).
      eapply (freed o (staged o w t e v g) w' t p p' c n (frees ws) V2 T2 BA L); [exact DP|reflexivity|reflexivity| | | | | |exact FT].
      + rewrite (base_view _ _ _ _ _ _ c B), KT. destruct ST as (_ & _ & [A|A]).
        * intros i X. apply k_k2. apply (proj2 (v_dying o w V t p c T DC) A). auto.
        * rewrite AT in RC. rewrite <- (load_last o w t p c _ _ _ _ _ V T DC (k_k1 w t e) RC A). apply g_k2.
      + unfold w'. cbn [mk w_gone]. rewrite RM. cbn [staged before w_gone]. unfold gone2. rewrite AL, KT. auto.
      + unfold w'. cbn [mk w_hist]. unfold hist'. rewrite AT, AL. auto.
      + intros a. rewrite HP, HP', decs_app, in_app_iff. cbn [decs]. assert (E : In a (decs (map WDec (n_kids n))) <-> In a (n_kids n)).
        { clear. induction (n_kids n) as [|y l IH]; cbn [map decs In]; [tauto|]. rewrite IH. tauto. }
        rewrite E. tauto.
      + rewrite DP', frees_app, frees_map. auto.
  Qed.
End WU.
