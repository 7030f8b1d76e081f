(** Proofs about copy on write: the trees that memory shows are values of their own. *)
From Coq Require Import List Arith Bool Lia.
From Verif Require Import Base ListFacts Cow CowSpec CowP CowQ CowR CowS CowT CowU.
Import ListNotations.

Lemma forall2_nth : forall A B (P : A -> B -> Prop) l r i x, Forall2 P l r -> nth_error l i = Some x -> exists y, nth_error r i = Some y /\ P x y.
Proof.
  intros A B P l r i x F. revert i. induction F as [|a b l r X F IH]; intros i H; [destruct i; discriminate|]. destruct i as [|i]; cbn in *; [injection H as <-; eauto|auto].
Qed.
Lemma forall2_firstn : forall A B (P : A -> B -> Prop) k l r, Forall2 P l r -> Forall2 P (firstn k l) (firstn k r).
Proof. intros A B P k l r F. revert k. induction F; intros [|k]; cbn; constructor; auto. Qed.
Lemma forall2_skipn : forall A B (P : A -> B -> Prop) k l r, Forall2 P l r -> Forall2 P (skipn k l) (skipn k r).
Proof. intros A B P k l r F. revert k. induction F; intros [|k]; cbn; try constructor; auto. Qed.
Lemma forall2_remove : forall A B (P : A -> B -> Prop) k l r, Forall2 P l r -> Forall2 P (remove_nth k l) (remove_nth k r).
Proof. intros A B P k l r F. unfold remove_nth. apply Forall2_app; [apply forall2_firstn|apply forall2_skipn]; auto. Qed.
Lemma forall2_insert : forall A B (P : A -> B -> Prop) k x y l r, Forall2 P l r -> P x y -> Forall2 P (insert_at k x l) (insert_at k y r).
Proof. intros A B P k x y l r F X. unfold insert_at. apply Forall2_app; [apply forall2_firstn; auto|]. constructor; auto. apply forall2_skipn; auto. Qed.
Lemma forall2_in : forall A B (P Q : A -> B -> Prop) l r, Forall2 P l r -> (forall x y, In x l -> P x y -> Q x y) -> Forall2 Q l r.
Proof. intros A B P Q l r F H. induction F; constructor; [apply H; auto; left; auto|]. apply IHF. intros u v U. apply H. right. auto. Qed.

Section V.
  Context {D : Type}.
  Notation heap := (heap D).
  Notation cnode := (cnode D).
  Notation pc := (pc D).
  Notation cstate := (cstate D).
  Notation rose := (rose D).
  Notation sstate := (sstate D).
  Notation sthread := (sthread D).

  Notation hrel := (@holds D).
  Definition trel (m : heap) (p : pc) (q : sthread) : Prop :=
    match p, q with
    | PIdle, SNone | PDrop _, SNone => True
    | PRead h is _, SRead h' is' => h' = h /\ is' = is
    | PEns h fr _, SIns h' is fl old => h' = h /\ is = map snd fr /\ fl = [] /\ old = []
    | PAt h fr _ fl old, SIns h' is rfl rold => h' = h /\ is = map snd fr /\ Forall2 (shows m) fl rfl /\ Forall2 (shows m) old rold
    | _, _ => False
    end.
  Definition orel (m : heap) (p : option pc) (q : option sthread) : Prop :=
    match p, q with Some p, Some q => trel m p q | None, None => True | _, _ => False end.

  Record rel (s : cstate) (sp : sstate) : Prop := {
    r_trees : forall h, hrel (c_mem s) (nth_error (c_handles s) h) (nth_error (s_trees sp) h);
    r_threads : forall t, orel (c_mem s) (nth_error (c_threads s) t) (nth_error (s_threads sp) t)
  }.

  Lemma root_none : forall hs h, nth_error hs h = None -> root hs h = None.
  Proof. intros hs h E. unfold root. rewrite E. auto. Qed.

  Lemma nth_replace_out : forall A t (x : A) l, nth_error l t = None -> replace_at t x l = l.
  Proof. intros A t x l H. apply replace_out. apply nth_error_None. auto. Qed.

  Lemma hrel_frame : forall m m' o o', hrel m o o' -> (forall a r, o = Some (Some (Some a)) -> shows m a r -> shows m' a r) -> hrel m' o o'.
  Proof. intros m m' [[[a|]|]|] [[[r|]|]|] H F; cbn in *; auto. Qed.

  Lemma trel_frame : forall m m' p q, trel m p q -> (forall a r, In a (in_hand p) -> shows m a r -> shows m' a r) -> trel m' p q.
  Proof.
    intros m m' p q H F. destruct p, q; cbn in *; auto. destruct H as (-> & -> & H1 & H2). repeat split; eapply forall2_in; eauto; intros x y X; apply F; apply in_or_app; auto.
  Qed.

  (** The steps of one thread leave alone what it has not claimed. *)
  Lemma rel_step : forall (s : cstate) (sp : sstate) t (p : pc) m' hs' p' tr' q', inv s -> rel s sp -> nth_error (c_threads s) t = Some p ->
    keeps (c_mem s) m' (claims p) ->
    (forall h, (writes h p = false /\ nth_error hs' h = nth_error (c_handles s) h /\ nth_error tr' h = nth_error (s_trees sp) h) \/ hrel m' (nth_error hs' h) (nth_error tr' h)) ->
    trel m' p' q' ->
    rel {| c_mem := m'; c_handles := hs'; c_threads := replace_at t p' (c_threads s) |} {| s_trees := tr'; s_threads := replace_at t q' (s_threads sp) |}.
  Proof.
    intros s sp t p m' hs' p' tr' q' I R N K H T. constructor; cbn [c_mem c_handles c_threads s_trees s_threads].
    - intros h. destruct (H h) as [(W & E1 & E2)|X]; auto. rewrite E1, E2. eapply hrel_frame; [apply (r_trees _ _ R)|]. intros a r E SH.
      eapply shows_keeps; [exact I|exact N|exact K| |eassumption]. intros C. assert (RR : refers s a (LRoot h)) by (cbn; unfold root; rewrite E; auto). pose proof (sole s t p a _ I N C RR) as O. cbn in O. congruence.
    - intros t'. destruct (Nat.eq_dec t' t) as [->|NE].
      + pose proof (r_threads _ _ R t) as Q. rewrite N in Q. destruct (nth_error (s_threads sp) t) as [q|] eqn:NQ; [|contradiction].
        rewrite !replace_nth_same; auto; eapply nth_error_lt; eauto.
      + rewrite !replace_nth_other by auto. pose proof (r_threads _ _ R t') as Q. destruct (nth_error (c_threads s) t') as [p2|] eqn:N2; destruct (nth_error (s_threads sp) t') as [q2|]; cbn in *; auto.
        eapply trel_frame; eauto. intros a r A SH. eapply shows_keeps; [exact I|exact N|exact K| |eassumption]. intros C. assert (RR : refers s a (LHand t')) by (cbn; eauto).
        pose proof (sole s t p a _ I N C RR) as O. cbn in O. congruence.
  Qed.

  Lemma rel_stay : forall (s : cstate) (sp : sstate) t (p : pc) m' hs' tr' q, inv s -> rel s sp -> nth_error (c_threads s) t = Some p -> nth_error (s_threads sp) t = Some q ->
    keeps (c_mem s) m' (claims p) ->
    (forall h, (writes h p = false /\ nth_error hs' h = nth_error (c_handles s) h /\ nth_error tr' h = nth_error (s_trees sp) h) \/ hrel m' (nth_error hs' h) (nth_error tr' h)) ->
    trel m' p q ->
    rel {| c_mem := m'; c_handles := hs'; c_threads := c_threads s |} {| s_trees := tr'; s_threads := s_threads sp |}.
  Proof.
    intros s sp t p m' hs' tr' q I R N NQ K H T. pose proof (rel_step s sp t p m' hs' p tr' q I R N K H T) as X. rewrite (replace_same _ _ _ _ N), (replace_same _ _ _ _ NQ) in X. exact X.
  Qed.

  (** Steps that change no node in use. *)
  Lemma rel_quiet : forall (s : cstate) (sp : sstate) t (p p' : pc) m' q', inv s -> rel s sp -> nth_error (c_threads s) t = Some p ->
    keeps (c_mem s) m' (dying p) ->
    (forall q, nth_error (s_threads sp) t = Some q -> trel m' p q -> trel m' p' q') ->
    rel {| c_mem := m'; c_handles := c_handles s; c_threads := replace_at t p' (c_threads s) |} {| s_trees := s_trees sp; s_threads := replace_at t q' (s_threads sp) |}.
  Proof.
    intros s sp t p p' m' q' I R N K T. pose proof (r_threads _ _ R t) as Q. rewrite N in Q. destruct (nth_error (s_threads sp) t) as [q|] eqn:NQ; [|contradiction]. cbn in Q.
    eapply rel_step; eauto.
    - eapply keeps_incl; eauto. intros x X. apply dying_claims. auto.
    - intros h. right. eapply hrel_frame; [apply (r_trees _ _ R)|]. intros a r E SH. eapply (shows_quiet s t p m' a r (LRoot h)); eauto. cbn. unfold root. rewrite E. auto.
    - eapply T; eauto. eapply trel_frame; eauto. intros a r A SH. eapply (shows_quiet s t p m' a r (LHand t)); eauto. cbn. eauto.
  Qed.

  Lemma rel_quiet_same : forall (s : cstate) (sp : sstate) t (p p' : pc) m', inv s -> rel s sp -> nth_error (c_threads s) t = Some p ->
    keeps (c_mem s) m' (dying p) ->
    (forall q, trel m' p q -> trel m' p' q) ->
    rel {| c_mem := m'; c_handles := c_handles s; c_threads := replace_at t p' (c_threads s) |} sp.
  Proof.
    intros s sp t p p' m' I R N K T. pose proof (r_threads _ _ R t) as Q. rewrite N in Q. destruct (nth_error (s_threads sp) t) as [q|] eqn:NQ; [|contradiction].
    assert (E : sp = {| s_trees := s_trees sp; s_threads := replace_at t q (s_threads sp) |}) by (rewrite (replace_same _ _ _ _ NQ); destruct sp; auto).
    rewrite E. eapply rel_quiet; eauto. intros q0 E0. rewrite NQ in E0. injection E0 as <-. auto.
  Qed.

  (** ** The node an insertion is at *)

  Lemma own_shows : forall (s : cstate) t (p : pc) m' y n n' r, inv s -> nth_error (c_threads s) t = Some p -> keeps (c_mem s) m' (claims p) -> ~ In y (frames p) ->
    look (c_mem s) y = Some n -> look m' y = Some n' -> n_data n' = n_data n -> n_kids n' = n_kids n -> shows (c_mem s) y r -> shows m' y r.
  Proof.
    intros s t p m' y n n' r I N K U L L' E1 E2 SH. destruct (shows_elim _ _ _ SH) as (n0 & L0 & ED & F). rewrite L in L0. injection L0 as <-. destruct r as [d ks]. cbn in *. subst d.
    rewrite <- E1. apply shows_intro; auto. rewrite E2. eapply forall2_in; eauto. intros x z X SX. eapply shows_keeps; [exact I|exact N|exact K| |eassumption]. eapply kid_unclaimed; eauto.
  Qed.

  Lemma kids_shows : forall (s : cstate) t (p : pc) m' y n ks, inv s -> nth_error (c_threads s) t = Some p -> keeps (c_mem s) m' (claims p) -> ~ In y (frames p) ->
    look (c_mem s) y = Some n -> Forall2 (shows (c_mem s)) (n_kids n) ks -> Forall2 (shows m') (n_kids n) ks.
  Proof. intros s t p m' y n ks I N K U L F. eapply forall2_in; eauto. intros x z X SX. eapply shows_keeps; [exact I|exact N|exact K| |eassumption]. eapply kid_unclaimed; eauto. Qed.

  Lemma old_unclaimed : forall (s : cstate) t h fr a fl old x, inv s -> nth_error (c_threads s) t = Some (PAt h fr a fl old) -> In x old -> ~ In x (claims (PAt h fr a fl old : pc)).
  Proof.
    intros s t h fr a fl old x I N X C. destruct (at_tinv s t h _ a _ _ I N) as (F & C0 & H1 & FL & ND0).
    assert (R : refers s x (LHand t)). { cbn. eexists. split; [exact N|]. cbn. apply in_or_app. auto. }
    assert (ONE : has_cnt (c_mem s) 1 x).
    { destruct (claim_anchor s t _ x I N C) as [Z|[O _]]; auto. exfalso. eapply refers_zero; eauto. }
    unfold claims in C. cbn [dying frames tips app] in C. apply in_app_or in C. destruct C as [C|[C|C]].
    - destruct (chain_in _ _ _ _ _ C0 C) as [R'|(q & _ & R')]; pose proof (refers_one s x _ _ I ONE R R'); discriminate.
    - subst a. destruct (chain_tip _ _ _ _ C0) as [R'|(q & _ & R')]; pose proof (refers_one s x _ _ I ONE R R'); discriminate.
    - pose proof (occ_le1 s x (LHand t) I ONE) as LE. cbn [amount] in LE. rewrite N in LE. cbn [in_hand] in LE. rewrite occ_app in LE. apply occ_in in C. apply occ_in in X. lia.
  Qed.

  Lemma old_shows : forall (s : cstate) t h fr a fl old m' rold, inv s -> nth_error (c_threads s) t = Some (PAt h fr a fl old) ->
    keeps (c_mem s) m' (claims (PAt h fr a fl old : pc)) -> Forall2 (shows (c_mem s)) old rold -> Forall2 (shows m') old rold.
  Proof. intros s t h fr a fl old m' rold I N K F. eapply forall2_in; eauto. intros x y X SX. eapply shows_keeps; [exact I|exact N|exact K| |eassumption]. eapply old_unclaimed; eauto. Qed.

  Lemma focus : forall (s : cstate) (sp : sstate) h fr a, inv s -> rel s sp -> chain (c_mem s) (c_handles s) h fr a ->
    exists top rt ra, nth_error (c_handles s) h = Some (Some (Some top)) /\ nth_error (s_trees sp) h = Some (Some (Some rt)) /\ shows (c_mem s) top rt /\
      sub rt (rev (map snd fr)) = Some ra /\ shows (c_mem s) a ra /\ here sp h (map snd fr) = Some ra /\ tree_of sp h = Some rt.
  Proof.
    intros s sp h fr a I R C. assert (exists top, root (c_handles s) h = Some top) as (top & RT).
    { clear -C. revert a C. induction fr as [|[q i] fr IH]; intros a C; cbn in C; [eauto|]. destruct C. eauto. }
    pose proof (root_nth _ _ _ RT) as NH. pose proof (r_trees _ _ R h) as HR. rewrite NH in HR. cbn in HR.
    destruct (nth_error (s_trees sp) h) as [[[rt|]|]|] eqn:NT; try contradiction. destruct (chain_sub _ _ _ _ _ _ _ C RT HR) as (ra & E & SA).
    assert (TO : tree_of sp h = Some rt) by (unfold tree_of; rewrite NT; auto).
    exists top, rt, ra. unfold here. rewrite TO. repeat split; auto.
  Qed.

  Lemma change_id : forall (sp : sstate) h is x, here sp h is = Some x -> change sp h is (fun r => r) = sp.
  Proof.
    intros sp h is x H. unfold here in H. unfold change. destruct (tree_of sp h) as [rt|] eqn:T; [|discriminate]. rewrite (chg_same _ _ _ H).
    unfold tree_of in T. destruct (nth_error (s_trees sp) h) as [[r|]|] eqn:N; [|discriminate|discriminate]. subst r. unfold shand. rewrite (replace_same _ _ _ _ N). destruct sp; auto.
  Qed.

  Lemma at_sim : forall (s : cstate) (sp : sstate) t h fr a fl old m' ra ra' f fl' old' rfl' rold', inv s -> rel s sp ->
    nth_error (c_threads s) t = Some (PAt h fr a fl old) -> keeps (c_mem s) m' (claims (PAt h fr a fl old : pc)) ->
    (forall q n, In q (map fst fr) -> look (c_mem s) q = Some n -> exists n', look m' q = Some n' /\ n_data n' = n_data n /\ n_kids n' = n_kids n) ->
    shows m' a ra' -> here sp h (map snd fr) = Some ra -> f ra = ra' -> Forall2 (shows m') fl' rfl' -> Forall2 (shows m') old' rold' ->
    rel {| c_mem := m'; c_handles := c_handles s; c_threads := replace_at t (PAt h fr a fl' old') (c_threads s) |}
        (sgo (change sp h (map snd fr) f) t (SIns h (map snd fr) rfl' rold')).
  Proof.
    intros s sp t h fr a fl old m' ra ra' f fl' old' rfl' rold' I R N K FR SA HE EF FL OL. destruct (at_tinv s t h _ a _ _ I N) as (F & C & H1 & _ & ND0).
    destruct (focus s sp h fr a I R C) as (top & rt & rx & NH & NT & ST & SB & SX & HX & TO). assert (rx = ra) by congruence. subst rx.
    unfold change. rewrite TO. unfold sgo, shand. cbn [s_trees s_threads].
    assert (RT : root (c_handles s) h = Some top) by (unfold root; rewrite NH; auto).
    assert (MV : moved (c_mem s) m' fr a a).
    { apply (moved_intro s t (PAt h fr a fl old) h fr fr a a a m'); auto.
      - cbn [tips in_hand]. intros x [<-|X]; auto. right. apply in_or_app. auto.
      - intros x X. auto.
      - intros q n Q. apply FR. destruct fr as [|z fr]; [destruct Q|]. right. exact Q.
      - destruct fr as [|[q i] fr']; auto. intros n L. cbn [chain] in C. destruct C as [KQ _]. unfold kid in KQ. rewrite L in KQ.
        destruct (FR q n) as (n' & L' & E1 & E2); [left; auto|auto|]. exists n'. rewrite (replace_same _ _ _ _ KQ). auto. }
    pose proof (moved_shows _ _ _ _ _ _ _ _ _ _ C MV SA RT ST) as NEW. rewrite <- EF in NEW. rewrite <- (chg_const _ _ _ f SB) in NEW.
    assert (EQ : match fr with [] => a | _ :: _ => top end = top) by (destruct fr; auto; cbn in C; congruence). rewrite EQ in NEW.
    eapply rel_step; eauto.
    - intros h'. destruct (Nat.eq_dec h' h) as [->|NE].
      + right. rewrite NH, replace_nth_same by (eapply nth_error_lt; eauto). exact NEW.
      + left. rewrite replace_nth_other by auto. repeat split; auto. cbn. apply Nat.eqb_neq. auto.
    - cbn. auto.
  Qed.

  Lemma at_sim_same : forall (s : cstate) (sp : sstate) t h fr a fl old m' n n' fl' old' rfl' rold', inv s -> rel s sp ->
    nth_error (c_threads s) t = Some (PAt h fr a fl old) -> keeps (c_mem s) m' (claims (PAt h fr a fl old : pc)) ->
    (forall q n, In q (map fst fr) -> look (c_mem s) q = Some n -> exists n', look m' q = Some n' /\ n_data n' = n_data n /\ n_kids n' = n_kids n) ->
    look (c_mem s) a = Some n -> look m' a = Some n' -> n_data n' = n_data n -> n_kids n' = n_kids n ->
    Forall2 (shows m') fl' rfl' -> Forall2 (shows m') old' rold' ->
    rel {| c_mem := m'; c_handles := c_handles s; c_threads := replace_at t (PAt h fr a fl' old') (c_threads s) |}
        (sgo sp t (SIns h (map snd fr) rfl' rold')).
  Proof.
    intros s sp t h fr a fl old m' n n' fl' old' rfl' rold' I R N K FR L L' E1 E2 FL OL. destruct (at_tinv s t h _ a _ _ I N) as (F & C & H1 & _ & ND0).
    destruct (focus s sp h fr a I R C) as (top & rt & ra & NH & NT & ST & SB & SX & HX & TO).
    rewrite <- (change_id sp h (map snd fr) ra HX). eapply at_sim; eauto. eapply own_shows; eauto. cbn [frames]. eapply at_notframe; eauto. left. auto.
  Qed.

  Lemma at_thread : forall (s : cstate) (sp : sstate) t h fr a fl old, rel s sp -> nth_error (c_threads s) t = Some (PAt h fr a fl old) ->
    exists rfl rold, nth_error (s_threads sp) t = Some (SIns h (map snd fr) rfl rold) /\ Forall2 (shows (c_mem s)) fl rfl /\ Forall2 (shows (c_mem s)) old rold.
  Proof.
    intros s sp t h fr a fl old R N. pose proof (r_threads _ _ R t) as Q. rewrite N in Q. destruct (nth_error (s_threads sp) t) as [q|]; [|contradiction]. cbn in Q.
    destruct q; try contradiction. destruct Q as (-> & -> & A & B). eauto.
  Qed.

  Definition shown (o : option D) : obs D := match o with Some d => BData d | None => BNone end.
  Definition sims (sp : sstate) (t : nat) (e : ev D) (r : sres D) : Prop :=
    match r with Next s' o => rel s' (fst (sstep sp t e)) /\ snd (sstep sp t e) = shown o | _ => True end.

  Local Ltac step_now := unfold go, mem, hand; cbn [c_mem c_handles c_threads].

  Lemma put_same : forall (m : heap) b n n' (u : list addr), look m b = Some n -> ~ In b u ->
    forall q k, In q u -> look m q = Some k -> exists k', look (put m b n') q = Some k' /\ n_data k' = n_data k /\ n_kids k' = n_kids k.
  Proof. intros m b n n' u L U q k Q LQ. rewrite (look_put _ _ _ _ q L). destruct (Nat.eqb_spec q b) as [E|]; [subst q; contradiction|eauto]. Qed.

  Lemma fl_nodup : forall (u : list addr) a fl i j x, NoDup (u ++ a :: fl) -> nth_error fl i = Some x -> nth_error fl j = Some x -> i = j.
  Proof.
    intros u a fl i j x ND I J. apply nodup_app_inv in ND. destruct ND as (_ & ND & _). inversion ND as [|? ? _ ND2]; subst.
    rewrite NoDup_nth_error in ND2. apply ND2; [eapply nth_error_lt; eauto|congruence].
  Qed.
  Lemma fl_not_a : forall (u : list addr) a fl i x, NoDup (u ++ a :: fl) -> nth_error fl i = Some x -> x <> a.
  Proof. intros u a fl i x ND I ->. apply nodup_app_inv in ND. destruct ND as (_ & ND & _). inversion ND as [|? ? U ND2]; subst. apply U. eapply nth_error_In; eauto. Qed.

  (** The new nodes after one of them, or the node at hand, was written. *)
  Lemma fl_shows : forall (s : cstate) t h fr a fl old m' (rfl : list rose), inv s -> nth_error (c_threads s) t = Some (PAt h fr a fl old) ->
    keeps (c_mem s) m' (claims (PAt h fr a fl old : pc)) -> Forall2 (shows (c_mem s)) fl rfl ->
    (forall i y n, nth_error fl i = Some y -> look (c_mem s) y = Some n -> exists n', look m' y = Some n' /\ n_data n' = n_data n /\ n_kids n' = n_kids n) ->
    Forall2 (shows m') fl rfl.
  Proof.
    intros s t h fr a fl old m' rfl I N K F H. destruct (at_tinv s t h _ a _ _ I N) as (_ & _ & _ & _ & ND0). eapply forall2_in; eauto. intros x y X SX.
    apply In_nth_error in X. destruct X as (i & X). destruct (shows_elim _ _ _ SX) as (n & L & _). destruct (H i x n X L) as (n' & L' & E1 & E2).
    eapply own_shows; eauto. cbn [frames]. eapply at_notframe; eauto. right. eapply nth_error_In; eauto.
  Qed.

  Lemma fl_replace : forall (s : cstate) t h fr a fl old m' (rfl : list rose) j b ks n', inv s -> nth_error (c_threads s) t = Some (PAt h fr a fl old) ->
    keeps (c_mem s) m' (claims (PAt h fr a fl old : pc)) -> Forall2 (shows (c_mem s)) fl rfl ->
    nth_error fl j = Some b -> look m' b = Some n' -> Forall2 (shows m') (n_kids n') ks ->
    (forall i y n, i <> j -> nth_error fl i = Some y -> look (c_mem s) y = Some n -> exists n', look m' y = Some n' /\ n_data n' = n_data n /\ n_kids n' = n_kids n) ->
    Forall2 (shows m') fl (replace_at j (Rose (n_data n') ks) rfl).
  Proof.
    intros s t h fr a fl old m' rfl j b ks n' I N K F J L' FK H. destruct (at_tinv s t h _ a _ _ I N) as (_ & _ & _ & _ & ND0).
    rewrite <- (replace_same _ j b fl J). eapply (forall2_replace _ _ (shows (c_mem s))); eauto.
    - eapply nth_error_lt; eauto.
    - intros i x y NE X SX. destruct (shows_elim _ _ _ SX) as (n & L & _). destruct (H i x n NE X L) as (n2 & L2 & E1 & E2).
      eapply own_shows; eauto. cbn [frames]. eapply at_notframe; eauto. right. eapply nth_error_In; eauto.
    - apply shows_intro; auto.
  Qed.

  Lemma at_step_sim : forall (s : cstate) (sp : sstate) t h fr a fl old e, inv s -> rel s sp -> nth_error (c_threads s) t = Some (PAt h fr a fl old) ->
    sims sp t e (at_step s t h fr a fl old e).
  Proof.
    intros s sp t h fr a fl old e I R N. destruct (at_tinv s t h _ a _ _ I N) as (F & C0 & (n & L & H1) & FL & ND0).
    destruct (at_thread s sp t h fr a fl old R N) as (rfl & rold & NQ & QF & QO).
    destruct (focus s sp h fr a I R C0) as (top & rt & ra & NH & NT & ST & SB & SX & HX & TO).
    destruct (shows_elim _ _ _ SX) as (n0 & L0 & ED & EK). rewrite L in L0. injection L0 as <-.
    assert (UA : ~ In a (map fst fr)) by (eapply at_notframe; eauto; left; auto).
    assert (UF : forall i x, nth_error fl i = Some x -> ~ In x (map fst fr)) by (intros i x X; eapply at_notframe; eauto; right; eapply nth_error_In; eauto).
    assert (CA : In a (claims (PAt h fr a fl old : pc))) by (apply tips_claims; left; auto).
    assert (CF : forall i x, nth_error fl i = Some x -> In x (claims (PAt h fr a fl old : pc))) by (intros i x X; apply tips_claims; right; eapply nth_error_In; eauto).
    unfold at_step. rewrite L. destruct e; try exact Logic.I.
    - (* VChild *)
      destruct (Nat.ltb_spec i (length (n_kids n))) as [LT|]; [|exact Logic.I]. destruct (Nat.eqb_spec (length fl + length old) 0) as [E|]; [|exact Logic.I].
      destruct fl; [|cbn in E; lia]. destruct old; [|cbn in E; lia]. inversion QF; subst. inversion QO; subst. cbn [sims andb]. cbn [sstep]. rewrite NQ. split; auto.
      step_now. eapply rel_quiet; [exact I|exact R|exact N|apply keeps_refl|]. intros q _ _. cbn. auto.
    - (* VWrite *)
      destruct t0 as [|j]; cbn [pick].
      + rewrite L. cbn [sims]. cbn [sstep]. rewrite NQ. split; auto. step_now.
        assert (K : keeps (c_mem s) (put (c_mem s) a (with_body n d (n_kids n))) (claims (PAt h fr a fl old : pc))) by (eapply keeps_put; eauto).
        assert (EQ : {| c_mem := put (c_mem s) a (with_body n d (n_kids n)); c_handles := c_handles s; c_threads := c_threads s |} =
          {| c_mem := put (c_mem s) a (with_body n d (n_kids n)); c_handles := c_handles s; c_threads := replace_at t (PAt h fr a fl old) (c_threads s) |}) by (rewrite (replace_same _ _ _ _ N); auto).
        assert (EQ2 : change sp h (map snd fr) (fun r => Rose d (rkids r)) = sgo (change sp h (map snd fr) (fun r => Rose d (rkids r))) t (SIns h (map snd fr) rfl rold)).
        { unfold change. rewrite TO. unfold sgo, shand. cbn [s_trees s_threads]. rewrite (replace_same _ _ _ _ NQ). auto. }
        cbn [fst]. rewrite EQ, EQ2. eapply at_sim; eauto.
        * eapply put_same; eauto.
        * assert (LN : look (put (c_mem s) a (with_body n d (n_kids n))) a = Some (with_body n d (n_kids n))) by (rewrite (look_put _ _ _ _ a L), Nat.eqb_refl; auto).
          change d with (n_data (with_body n d (n_kids n))) at 2. apply shows_intro; auto. cbn [n_kids with_body]. eapply kids_shows; eauto.
        * eapply fl_shows; eauto. intros i y k Y LY. eapply (put_same _ _ _ _ [y]); eauto; [|left; auto]. intros [<-|[]]. eapply (fl_not_a (map fst fr) y fl i y); eauto.
        * eapply old_shows; eauto.
      + destruct (nth_error fl j) as [b|] eqn:J; [|exact Logic.I]. destruct (look (c_mem s) b) as [nb|] eqn:LB; [|exact Logic.I].
        destruct (forall2_nth _ _ _ _ _ _ _ QF J) as (rb & JR & SB'). destruct (shows_elim _ _ _ SB') as (nb0 & LB0 & EDB & EKB). rewrite LB in LB0. injection LB0 as <-.
        cbn [sims sstep]. rewrite NQ, JR. split; auto. step_now. cbn [fst].
        set (nb' := with_body nb d (n_kids nb)).
        assert (K : keeps (c_mem s) (put (c_mem s) b nb') (claims (PAt h fr a fl old : pc))) by (eapply keeps_put; eauto).
        assert (LN : look (put (c_mem s) b nb') b = Some nb') by (rewrite (look_put _ _ _ _ b LB), Nat.eqb_refl; auto).
        assert (NBA : b <> a) by (eapply fl_not_a; eauto).
        assert (EQ : {| c_mem := put (c_mem s) b nb'; c_handles := c_handles s; c_threads := c_threads s |} =
          {| c_mem := put (c_mem s) b nb'; c_handles := c_handles s; c_threads := replace_at t (PAt h fr a fl old) (c_threads s) |}) by (rewrite (replace_same _ _ _ _ N); auto).
        rewrite EQ. eapply at_sim_same; eauto.
        * eapply put_same; eauto.
        * rewrite (look_put _ _ _ _ a LB). destruct (Nat.eqb_spec a b); [congruence|eauto].
        * change d with (n_data nb'). eapply fl_replace; eauto.
          -- cbn [n_kids nb' with_body]. eapply (kids_shows s t _ _ b nb); [exact I|exact N|exact K|cbn [frames]; eauto|exact LB|exact EKB].
          -- intros i y k NE Y LY. eapply (put_same _ _ _ _ [y]); eauto; [|left; auto]. intros [<-|[]]. apply NE. eapply fl_nodup; eauto.
        * eapply old_shows; eauto.
    - (* VSplit *)
      destruct ((n_h n =? 0) || (m + 1 <? length (n_kids n))); [|exact Logic.I].
      destruct (alloc (c_mem s) a0 _) as [mm|] eqn:A; [|exact Logic.I]. cbn [sims sstep]. rewrite NQ, HX. split; auto. step_now. cbn [fst].
      pose proof (alloc_none _ _ _ _ A) as NA. assert (NE : a <> a0) by congruence.
      assert (LA : look mm a = Some n) by (rewrite (look_alloc _ _ _ _ a A); destruct (Nat.eqb_spec a a0); congruence).
      set (na := with_body n d (firstn (m + 1) (n_kids n))). set (nn := {| n_data := d'; n_kids := skipn (m + 1) (n_kids n); n_cnt := 1; n_par := None; n_h := n_h n |}) in *.
      assert (K : keeps (c_mem s) (put mm a na) (claims (PAt h fr a fl old : pc))).
      { eapply keeps_trans; [eapply keeps_alloc; eauto|eapply keeps_put; eauto]. }
      assert (LK : forall x, look (put mm a na) x = if x =? a then Some na else if x =? a0 then Some nn else look (c_mem s) x).
      { intros x. rewrite (look_put _ _ _ _ x LA), (look_alloc _ _ _ _ x A). auto. }
      assert (OT : forall x k, x <> a -> look (c_mem s) x = Some k -> exists k', look (put mm a na) x = Some k' /\ n_data k' = n_data k /\ n_kids k' = n_kids k).
      { intros x k NX LX. rewrite LK. destruct (Nat.eqb_spec x a); [contradiction|]. destruct (Nat.eqb_spec x a0); [congruence|eauto]. }
      pose proof (kids_shows s t _ _ a n _ I N K UA L EK) as EK'.
      eapply at_sim; eauto.
      + intros q k Q LQ. apply OT; auto. intros ->. contradiction.
      + change d with (n_data na). apply shows_intro; [rewrite LK, Nat.eqb_refl; auto|]. cbn [n_kids na with_body]. apply forall2_firstn. auto.
      + apply Forall2_app.
        * eapply fl_shows; eauto. intros i y k Y LY. apply OT; auto. eapply fl_not_a; eauto.
        * constructor; [|constructor]. change d' with (n_data nn). apply shows_intro; [rewrite LK; destruct (Nat.eqb_spec a0 a); [congruence|]; rewrite Nat.eqb_refl; auto|].
          cbn [n_kids nn]. apply forall2_skipn. auto.
      + eapply old_shows; eauto.
    - (* VAttach *)
      destruct (nth_error fl r) as [c|] eqn:RC; [|destruct (pick a fl t0); exact Logic.I].
      destruct (forall2_nth _ _ _ _ _ _ _ QF RC) as (rc & JRC & SC). destruct (shows_elim _ _ _ SC) as (nc & LC & EDC & EKC).
      destruct t0 as [|j]; cbn [pick].
      + rewrite L, LC. destruct (Nat.eqb_spec a c) as [|NE]; [exact Logic.I|]. cbn [negb andb]. destruct (n_h n =? n_h nc + 1); [|exact Logic.I]. cbn [andb].
        destruct (k <=? length (n_kids n)); [|exact Logic.I]. cbn [sims sstep]. rewrite NQ, JRC. split; auto. step_now. cbn [fst].
        set (na := with_body n d (insert_at k c (n_kids n))).
        assert (K : keeps (c_mem s) (put (c_mem s) a na) (claims (PAt h fr a fl old : pc))) by (eapply keeps_put; eauto).
        assert (OT : forall x k, x <> a -> look (c_mem s) x = Some k -> exists k', look (put (c_mem s) a na) x = Some k' /\ n_data k' = n_data k /\ n_kids k' = n_kids k).
        { intros x y NX LX. rewrite (look_put _ _ _ _ x L). destruct (Nat.eqb_spec x a); [contradiction|eauto]. }
        assert (QF' : Forall2 (shows (put (c_mem s) a na)) fl rfl).
        { eapply fl_shows; eauto. intros i y x Y LY. apply OT; auto. eapply fl_not_a; eauto. }
        eapply at_sim; eauto.
        * intros q x Q LQ. apply OT; auto. intros ->. contradiction.
        * change d with (n_data na). apply shows_intro; [rewrite (look_put _ _ _ _ a L), Nat.eqb_refl; auto|]. cbn [n_kids na with_body]. apply forall2_insert.
          -- eapply kids_shows; eauto.
          -- destruct (forall2_nth _ _ _ _ _ _ _ QF' RC) as (rc2 & JRC2 & SC2). assert (rc2 = rc) by congruence. subst. auto.
        * apply forall2_remove. auto.
        * eapply old_shows; eauto.
      + destruct (nth_error fl j) as [b|] eqn:J; [|exact Logic.I]. destruct (look (c_mem s) b) as [nb|] eqn:LB; [|exact Logic.I]. rewrite LC.
        destruct (Nat.eqb_spec b c) as [|NE]; [exact Logic.I|]. cbn [negb andb]. destruct (n_h nb =? n_h nc + 1); [|exact Logic.I]. cbn [andb].
        destruct (k <=? length (n_kids nb)); [|exact Logic.I].
        destruct (forall2_nth _ _ _ _ _ _ _ QF J) as (rb & JR & SB'). destruct (shows_elim _ _ _ SB') as (nb0 & LB0 & EDB & EKB). rewrite LB in LB0. injection LB0 as <-.
        cbn [sims sstep]. rewrite NQ, JR, JRC. split; auto. step_now. cbn [fst].
        set (nb' := with_body nb d (insert_at k c (n_kids nb))).
        assert (K : keeps (c_mem s) (put (c_mem s) b nb') (claims (PAt h fr a fl old : pc))) by (eapply keeps_put; eauto).
        assert (LN : look (put (c_mem s) b nb') b = Some nb') by (rewrite (look_put _ _ _ _ b LB), Nat.eqb_refl; auto).
        assert (NBA : b <> a) by (eapply fl_not_a; eauto).
        assert (OT : forall x k, x <> b -> look (c_mem s) x = Some k -> exists k', look (put (c_mem s) b nb') x = Some k' /\ n_data k' = n_data k /\ n_kids k' = n_kids k).
        { intros x y NX LX. rewrite (look_put _ _ _ _ x LB). destruct (Nat.eqb_spec x b); [contradiction|eauto]. }
        eapply at_sim_same; eauto.
        * intros q x Q LQ. apply OT; auto. intros ->. exact (UF _ _ J Q).
        * rewrite (look_put _ _ _ _ a LB). destruct (Nat.eqb_spec a b); [congruence|eauto].
        * apply forall2_remove. change d with (n_data nb'). eapply fl_replace; eauto.
          -- cbn [n_kids nb' with_body]. apply forall2_insert; [eapply (kids_shows s t _ _ b nb); [exact I|exact N|exact K|cbn [frames]; eauto|exact LB|exact EKB]|].
             destruct (OT c nc) as (nc' & LC' & E1 & E2); auto. eapply own_shows; eauto.
          -- intros i y x NEI Y LY. apply OT; auto. intros ->. apply NEI. eapply fl_nodup; eauto.
        * eapply old_shows; eauto.
    - (* VFirst *)
      destruct (nth_error fl j) as [b|] eqn:J; [|exact Logic.I]. destruct (nth_error fl r) as [c|] eqn:RC; [|exact Logic.I].
      destruct (look (c_mem s) b) as [nb|] eqn:LB; [|exact Logic.I]. destruct (look (c_mem s) c) as [nc|] eqn:LC; [|exact Logic.I].
      destruct (n_kids nb) as [|x ks] eqn:KB; [exact Logic.I|]. destruct (Nat.eqb_spec b c) as [|NE]; [exact Logic.I|]. cbn [negb andb].
      destruct (n_h nb =? n_h nc + 1); [|exact Logic.I].
      destruct (forall2_nth _ _ _ _ _ _ _ QF J) as (rb & JR & SB'). destruct (shows_elim _ _ _ SB') as (nb0 & LB0 & EDB & EKB). rewrite LB in LB0. injection LB0 as <-.
      destruct (forall2_nth _ _ _ _ _ _ _ QF RC) as (rc & JRC & SC). destruct rb as [db kb]. cbn [rdata rkids] in *. subst db. rewrite KB in EKB. inversion EKB as [|? rx ? rks SXX FKS]; subst.
      cbn [sims sstep]. rewrite NQ, JR, JRC. split; auto. step_now. cbn [fst].
      set (nb' := with_body nb (n_data nb) (c :: ks)). set (nc' := with_par nc (Some (b, 0))).
      assert (LC' : look (put (c_mem s) b nb') c = Some nc) by (rewrite (look_put _ _ _ _ c LB); destruct (Nat.eqb_spec c b); congruence).
      assert (LK : forall y, look (put (put (c_mem s) b nb') c nc') y = if y =? c then Some nc' else if y =? b then Some nb' else look (c_mem s) y).
      { intros y. rewrite (look_put _ _ _ _ y LC'), (look_put _ _ _ _ y LB). auto. }
      assert (K : keeps (c_mem s) (put (put (c_mem s) b nb') c nc') (claims (PAt h fr a fl old : pc))).
      { eapply keeps_trans; [|eapply keeps_put; [exact LC'|right; eauto]]. eapply keeps_put; [exact LB|right; eauto]. }
      assert (NBA : b <> a) by (eapply fl_not_a; eauto). assert (NCA : c <> a) by (eapply fl_not_a; eauto).
      assert (OT : forall y k, y <> b -> look (c_mem s) y = Some k -> exists k', look (put (put (c_mem s) b nb') c nc') y = Some k' /\ n_data k' = n_data k /\ n_kids k' = n_kids k).
      { intros y k NX LX. rewrite LK. destruct (Nat.eqb_spec y c) as [E|]; [subst y; rewrite LC in LX; injection LX as <-; exists nc'; auto|]. destruct (Nat.eqb_spec y b); [contradiction|eauto]. }
      assert (KX : ~ In x (claims (PAt h fr a fl old : pc))).
      { eapply (kid_unclaimed s t _ b nb x); eauto. rewrite KB. left. auto. }
      eapply at_sim_same; eauto.
      + intros q y Q LQ. apply OT; auto. intros ->. exact (UF _ _ J Q).
      + rewrite LK. destruct (Nat.eqb_spec a c); [congruence|]. destruct (Nat.eqb_spec a b); [congruence|eauto].
      + apply forall2_remove. change (n_data nb) with (n_data nb'). eapply fl_replace; eauto.
        * rewrite LK. destruct (Nat.eqb_spec b c); [congruence|]. rewrite Nat.eqb_refl. auto.
        * cbn [n_kids nb' with_body]. constructor.
          -- destruct (OT c nc) as (n2 & LC2 & E1 & E2); auto. eapply own_shows; eauto.
          -- eapply forall2_in; eauto. intros u v U SU. eapply shows_keeps; [exact I|exact N|exact K| |eassumption]. eapply (kid_unclaimed s t _ b nb u); eauto; rewrite KB; right; auto.
        * intros i y k NEI Y LY. apply OT; auto. intros ->. apply NEI. eapply fl_nodup; eauto.
      + apply Forall2_app; [eapply old_shows; eauto|]. constructor; [|constructor]. eapply shows_keeps; [exact I|exact N|exact K| |eassumption]. auto.
    - (* VPush *)
      destruct (nth_error old c) as [b|] eqn:OC; [|exact Logic.I]. destruct (look (c_mem s) b) as [nb|] eqn:LB; [|exact Logic.I].
      destruct (n_h n =? n_h nb + 1); [|exact Logic.I]. destruct (forall2_nth _ _ _ _ _ _ _ QO OC) as (rb & JR & SB').
      cbn [sims sstep]. rewrite NQ, JR. split; auto. step_now. cbn [fst].
      set (na := with_body n d (n_kids n ++ [b])).
      assert (K : keeps (c_mem s) (put (c_mem s) a na) (claims (PAt h fr a fl old : pc))) by (eapply keeps_put; eauto).
      assert (OT : forall x k, x <> a -> look (c_mem s) x = Some k -> exists k', look (put (c_mem s) a na) x = Some k' /\ n_data k' = n_data k /\ n_kids k' = n_kids k).
      { intros x y NX LX. rewrite (look_put _ _ _ _ x L). destruct (Nat.eqb_spec x a); [contradiction|eauto]. }
      pose proof (old_shows s t h fr a fl old _ rold I N K QO) as QO'.
      eapply at_sim; eauto.
      + intros q x Q LQ. apply OT; auto. intros ->. contradiction.
      + change d with (n_data na). apply shows_intro; [rewrite (look_put _ _ _ _ a L), Nat.eqb_refl; auto|]. cbn [n_kids na with_body]. apply Forall2_app; [eapply kids_shows; eauto|].
        constructor; [|constructor]. destruct (forall2_nth _ _ _ _ _ _ _ QO' OC) as (rb2 & JR2 & SB2). assert (rb2 = rb) by congruence. subst. auto.
      + eapply fl_shows; eauto. intros i y x Y LY. apply OT; auto. eapply fl_not_a; eauto.
      + apply forall2_remove. auto.
    - (* VNewRoot *)
      destruct fr as [|x fr]; [|exact Logic.I]. destruct (nth_error fl r) as [b|] eqn:RB; [|exact Logic.I]. destruct (look (c_mem s) b) as [nb|] eqn:LB; [|exact Logic.I].
      destruct (n_h nb =? n_h n); [|exact Logic.I]. destruct (alloc _ a0 _) as [mm|] eqn:A; [|exact Logic.I].
      destruct (forall2_nth _ _ _ _ _ _ _ QF RB) as (rb & JR & SB').
      cbn [sims sstep]. rewrite NQ, JR. split; auto. cbn [fst].
      assert (NE : b <> a) by (eapply fl_not_a; eauto).
      set (m1 := put (c_mem s) a (with_par n (Some (a0, 0)))) in *.
      assert (LB' : look m1 b = Some nb) by (unfold m1; rewrite (look_put _ _ _ _ b L); destruct (Nat.eqb_spec b a); congruence).
      assert (K0 : keeps (c_mem s) mm []).
      { eapply keeps_trans; [|eapply keeps_alloc; exact A]. eapply keeps_trans; [|eapply keeps_put; [exact LB'|left; repeat split]]. eapply keeps_put; [exact L|left; repeat split]. }
      assert (ALL : forall x y, shows (c_mem s) x y -> shows mm x y).
      { intros x y SH. eapply (shows_frame (fun _ => True)); [|exact Logic.I|exact SH]. intros u nu _ LU. split; auto. destruct (K0 u nu LU (fun f => f)) as (n' & L' & E1 & E2 & _). eauto. }
      unfold change. rewrite TO. step_now. unfold sgo, shand. cbn [s_trees s_threads rev chg]. eapply rel_step; eauto.
      + eapply keeps_incl; eauto. intros u [].
      + intros h'. destruct (Nat.eq_dec h' h) as [->|NEH].
        * right. rewrite !replace_nth_same by (eapply nth_error_lt; eauto). cbn [holds]. set (nn := {| n_data := d; n_kids := [a; b]; n_cnt := 1; n_par := None; n_h := n_h n + 1 |}) in *.
          change d with (n_data nn). apply shows_intro; [rewrite (look_alloc _ _ _ _ a0 A), Nat.eqb_refl; auto|]. cbn [n_kids nn]. cbn [map rev sub] in SB. injection SB as <-.
          constructor; [apply ALL; auto|]. constructor; [apply ALL; auto|constructor].
        * left. rewrite !replace_nth_other by auto. repeat split; auto. cbn. apply Nat.eqb_neq. auto.
      + cbn [trel]. repeat split; [|eapply forall2_in; eauto]. apply forall2_remove. eapply forall2_in; eauto.
    - (* VFix *)
      destruct (pick a fl t0) as [b|]; [|exact Logic.I]. destruct (look (c_mem s) b) as [nb|]; [|exact Logic.I]. destruct (nth_error (n_kids nb) i) as [c|]; [|exact Logic.I].
      destruct (look (c_mem s) c) as [nc|] eqn:LC; [|exact Logic.I]. cbn [sims sstep fst snd]. split; auto. destruct (n_cnt nc =? 1); auto. step_now.
      rewrite <- (replace_same _ _ _ _ N). eapply rel_quiet_same; eauto. eapply keeps_put; eauto. left. repeat split.
    - (* VUp *)
      destruct fr as [|[q i] fr]; [exact Logic.I|]. cbn [sims sstep]. rewrite NQ. split; auto. step_now. cbn [fst map snd tl]. eapply rel_quiet; [exact I|exact R|exact N|apply keeps_refl|].
      intros q0 E _. cbn. auto.
    - (* VEnd *)
      destruct (length fl + length old =? 0); [|exact Logic.I]. cbn [sims sstep fst snd]. split; auto. step_now. eapply rel_quiet; [exact I|exact R|exact N|apply keeps_refl|]. intros q0 E _. exact Logic.I.
    - (* VAbort *)
      cbn [sims sstep fst snd]. split; auto. step_now. eapply rel_quiet; [exact I|exact R|exact N|apply keeps_refl|]. intros q0 E _. exact Logic.I.    - (* VShared *)
      cbn [sims sstep fst snd]. split; auto.
  Qed.

  Lemma work_keeps : forall (m : heap) w m' ws, work_step m w = Some (m', ws) -> keeps m m' (frees [w]).
  Proof.
    intros m [b|b] m' ws W; cbn in W; destruct (look m b) as [n|] eqn:L; try discriminate.
    - destruct (n_cnt n) as [|[|c]]; try discriminate; injection W as <- <-; eapply keeps_put; eauto; left; repeat split.
    - injection W as <- <-. intros a x LA U. rewrite (look_free _ _ _ a L). destruct (Nat.eqb_spec a b) as [E|]; [subst a; exfalso; apply U; left; auto|]. exists x. repeat split; auto.
  Qed.

  Lemma ens_step_sim : forall (s : cstate) (sp : sstate) t h fr e new, inv s -> rel s sp -> nth_error (c_threads s) t = Some (PEns h fr e) ->
    match ens_step s t h fr e new with Next s' o => rel s' sp /\ o = None | _ => True end.
  Proof.
    intros s sp t h fr e new I R N. pose proof (i_thread s I t _ N) as T. cbn [tinv] in T. destruct T as (F & a & C & T). pose proof (slot_chain s h fr a C) as SL.
    destruct (tip_live s h fr a I C) as (n & L & _). destruct e as [|d p done|b ws|b]; cbn [ens_step].
    - rewrite SL, L. split; auto. step_now. eapply rel_quiet_same; [exact I|exact R|exact N|apply keeps_refl|auto].
    - rewrite SL, L. destruct (nth_error (n_kids n) (length done)) as [c|] eqn:K.
      + destruct (look (c_mem s) c) as [k|] eqn:LC; [|exact Logic.I]. split; auto. step_now. eapply rel_quiet_same; eauto. eapply keeps_put; eauto. left. repeat split.
      + destruct (alloc (c_mem s) new _) as [m|] eqn:A; [|exact Logic.I]. destruct (set_slot (mem s m) h fr new) as [s'|] eqn:SS; [|exact Logic.I]. split; auto.
        destruct (copy_local s t h fr d p done a n new m s' I N C L K A SS) as [LO TH]. destruct T as (n0 & L0 & ED & EKD). rewrite L in L0. injection L0 as <-.
        pose proof (l_keeps _ _ _ _ _ _ LO) as KE. pose proof (alloc_none _ _ _ _ A) as NA.
        destruct (focus s sp h fr a I R C) as (top & rt & ra & NH & NT & ST & SB & SX & HX & TO).
        assert (RT : root (c_handles s) h = Some top) by (unfold root; rewrite NH; auto).
        set (nn := {| n_data := d; n_kids := n_kids n; n_cnt := 1; n_par := p; n_h := n_h n |}) in *.
        assert (UA : ~ In a (map fst fr)).
        { intros X. destruct (chain_height s h fr a n a I C L X) as (k & LK & LT). rewrite L in LK. injection LK as <-. lia. }
        assert (UN : ~ In new (map fst fr)).
        { intros X. apply (new_unclaimed s new I NA t _ N). apply frames_claims. exact X. }
        assert (NFR : NoDup (map fst fr)).
        { pose proof (i_own s I t _ N) as ND. unfold claims in ND. cbn [dying frames tips app] in ND. rewrite app_nil_r in ND. auto. }
        assert (FACT : look (c_mem s') new = Some nn /\ c_handles s' = match fr with [] => replace_at h (Some (Some new)) (c_handles s) | _ => c_handles s end /\
          (forall q n1, In q (map fst (tl fr)) -> look (c_mem s) q = Some n1 -> exists n', look (c_mem s') q = Some n' /\ n_data n' = n_data n1 /\ n_kids n' = n_kids n1) /\
          match fr with [] => True | (q, i) :: _ => forall n1, look (c_mem s) q = Some n1 -> exists n', look (c_mem s') q = Some n' /\ n_data n' = n_data n1 /\ n_kids n' = replace_at i new (n_kids n1) end).
        { destruct fr as [|[q i] fr']; cbn [set_slot mem hand c_mem c_handles] in SS.
          - injection SS as <-. cbn [hand mem c_mem c_handles]. repeat split; auto; [rewrite (look_alloc _ _ _ _ new A), Nat.eqb_refl; auto|]. intros q n1 [].
          - cbn [map fst] in UN, NFR. assert (NQ : q <> new) by (intros ->; apply UN; left; auto). inversion F as [|? ? (nq & LQ & _) _]; subst. cbn [fst] in LQ.
            assert (LQM : look m q = Some nq) by (rewrite (look_alloc _ _ _ _ q A); destruct (Nat.eqb_spec q new); congruence). rewrite LQM in SS. injection SS as <-. cbn [mem c_mem c_handles].
            repeat split; auto.
            + rewrite (look_put _ _ _ _ new LQM). destruct (Nat.eqb_spec new q); [congruence|]. rewrite (look_alloc _ _ _ _ new A), Nat.eqb_refl. auto.
            + cbn [tl]. intros x n1 X LX. exists n1. repeat split; auto. rewrite (look_put _ _ _ _ x LQM). inversion NFR as [|? ? N1 N2]; subst.
              destruct (Nat.eqb_spec x q) as [E|]; [subst x; contradiction|]. rewrite (look_alloc _ _ _ _ x A). destruct (Nat.eqb_spec x new); [congruence|auto].
            + intros n1 L1. rewrite LQ in L1. injection L1 as <-. eexists. rewrite (look_put _ _ _ _ q LQM), Nat.eqb_refl. split; [reflexivity|]. auto. }
        destruct FACT as (LN & EH & FT & FH).
        assert (SN : shows (c_mem s') new ra).
        { destruct (shows_elim _ _ _ SX) as (n1 & L1 & E1 & F1). rewrite L in L1. injection L1 as <-. destruct ra as [dr kr]. cbn [rdata rkids] in *. subst dr. rewrite ED.
          change d with (n_data nn). apply shows_intro; auto. cbn [n_kids nn]. eapply (kids_shows s t _ _ a n); [exact I|exact N|exact KE|exact UA|exact L|assumption]. }
        assert (MV : moved (c_mem s) (c_mem s') fr a new).
        { apply (moved_intro s t (PEns h fr (EInc d p done)) h fr fr a a new (c_mem s')); auto.
          - intros x [].
          - intros x X. auto. }
        pose proof (moved_shows _ _ _ _ _ _ _ _ _ _ C MV SN RT ST) as NEW. rewrite <- (chg_const _ _ _ (fun y => y) SB), (chg_same _ _ _ SB) in NEW.
        pose proof (r_threads _ _ R t) as Q. rewrite N in Q. destruct (nth_error (s_threads sp) t) as [q|] eqn:NQ; [|contradiction]. cbn [orel] in Q.
        assert (EQ : sp = {| s_trees := s_trees sp; s_threads := replace_at t q (s_threads sp) |}) by (rewrite (replace_same _ _ _ _ NQ); destruct sp; auto).
        rewrite EQ. unfold go. rewrite TH. eapply rel_step; eauto.
        intros h'. destruct (Nat.eq_dec h' h) as [->|NEH].
        * right. rewrite NT. rewrite EH. destruct fr; [rewrite replace_nth_same by (eapply nth_error_lt; eauto)|rewrite NH]; exact NEW.
        * left. rewrite EH. split; [cbn; apply Nat.eqb_neq; auto|]. split; auto. destruct fr; auto. rewrite replace_nth_other by auto. auto.
    - destruct ws as [|w ws].
      + split; auto. step_now. eapply rel_quiet_same; [exact I|exact R|exact N|apply keeps_refl|auto].
      + destruct (work_step (c_mem s) w) as [[m ws']|] eqn:W; [|exact Logic.I]. split; auto. step_now. eapply rel_quiet_same; eauto. eapply keeps_incl; [eapply work_keeps; eauto|].
        cbn [dying]. intros x X. destruct w; cbn in *; [contradiction|]. tauto.
    - destruct (look (c_mem s) b) as [nb|] eqn:LB; [|exact Logic.I]. split; auto. step_now. eapply rel_quiet_same; eauto; [eapply keeps_put; eauto; left; repeat split|].
      intros q Q. destruct q; cbn in *; auto. destruct Q as (-> & -> & -> & ->). repeat split; constructor.
  Qed.

  Lemma follow_sub : forall (m : heap) is top a rt, follow m top is = Some a -> shows m top rt -> exists ra, sub rt is = Some ra /\ shows m a ra.
  Proof.
    intros m. induction is as [|i is IH]; intros top a rt F SH; cbn in *; [injection F as <-; eauto|]. unfold kid in F. destruct (shows_elim _ _ _ SH) as (n & L & _ & FK). rewrite L in F.
    destruct (nth_error (n_kids n) i) as [c|] eqn:E; [|discriminate]. destruct (forall2_nth _ _ _ _ _ _ _ FK E) as (y & NY & SY). rewrite NY. eauto.
  Qed.

  Lemma nth_snoc_rel : forall m (hs : list (option (option addr))) (tr : list (option (option rose))) x y, (forall h, hrel m (nth_error hs h) (nth_error tr h)) -> hrel m (Some x) (Some y) ->
    forall h, hrel m (nth_error (hs ++ [x]) h) (nth_error (tr ++ [y]) h).
  Proof.
    intros m hs tr x y H X h. assert (LE : length hs = length tr).
    { destruct (lt_eq_lt_dec (length hs) (length tr)) as [[E|E]|E]; auto; exfalso.
      - specialize (H (length hs)). rewrite (proj2 (nth_error_None hs (length hs))) in H by lia. destruct (nth_error tr (length hs)) eqn:Z; [destruct o as [[|]|]; exact H|]. apply nth_error_None in Z. lia.
      - specialize (H (length tr)). rewrite (proj2 (nth_error_None tr (length tr))) in H by lia. destruct (nth_error hs (length tr)) eqn:Z; [destruct o as [[|]|]; exact H|]. apply nth_error_None in Z. lia. }
    destruct (lt_eq_lt_dec h (length hs)) as [[L|EH]|L].
    - rewrite !nth_error_app1 by lia. auto.
    - subst h. rewrite nth_snoc. rewrite LE, nth_snoc. auto.
    - rewrite (proj2 (nth_error_None (hs ++ [x]) h)) by (rewrite app_length; cbn; lia). rewrite (proj2 (nth_error_None (tr ++ [y]) h)) by (rewrite app_length; cbn; lia). exact Logic.I.
  Qed.

  Theorem step_sim : forall (s : cstate) (sp : sstate) t e, inv s -> rel s sp -> sims sp t e (cstep s t e).
  Proof.
    intros s sp t e I R. unfold cstep. destruct (nth_error (c_threads s) t) as [p|] eqn:N; [|exact Logic.I].
    pose proof (r_threads _ _ R t) as Q. rewrite N in Q. destruct (nth_error (s_threads sp) t) as [q|] eqn:NQ; [|contradiction]. cbn [orel] in Q.
    assert (K0 : keeps (c_mem s) (c_mem s) (claims p)) by apply keeps_refl.
    destruct p as [|h is a|ws|h fr en|h fr a fl old].
    - destruct q; try contradiction. destruct e; try exact Logic.I.
      + cbn [sims sstep fst snd]. split; auto. unfold add. eapply rel_stay; eauto. intros h. right. apply nth_snoc_rel; [apply (r_trees _ _ R)|exact Logic.I].
      + destruct (nth_error (c_handles s) h) as [[[r|]|]|] eqn:H; try exact Logic.I. destruct (existsb (uses h) (c_threads s)) eqn:U; [exact Logic.I|].
        destruct (alloc (c_mem s) a _) as [m|] eqn:A; [|exact Logic.I]. cbn [sims sstep fst snd]. split; auto. step_now. unfold shand.
        pose proof (r_trees _ _ R h) as HR. rewrite H in HR. destruct (nth_error (s_trees sp) h) as [[[rt|]|]|] eqn:NT; try contradiction.
        eapply rel_stay; eauto; [eapply keeps_alloc; eauto|]. intros h'. destruct (Nat.eq_dec h' h) as [->|NE].
        * right. rewrite !replace_nth_same by (eapply nth_error_lt; eauto). cbn [holds]. set (nn := {| n_data := d; n_kids := []; n_cnt := 1; n_par := None; n_h := 0 |}) in *.
          change d with (n_data nn). apply shows_intro; [rewrite (look_alloc _ _ _ _ a A), Nat.eqb_refl; auto|constructor].
        * left. rewrite !replace_nth_other by auto. auto.
      + pose proof (r_trees _ _ R h) as HR.
        destruct (nth_error (c_handles s) h) as [[[r|]|]|] eqn:H; try exact Logic.I; destruct (existsb (writes h) (c_threads s)) eqn:U; try exact Logic.I;
          destruct (nth_error (s_trees sp) h) as [[[rt|]|]|] eqn:NT; try contradiction; cbn [holds] in HR.
        * destruct (look (c_mem s) r) as [n|] eqn:L; [|exact Logic.I]. cbn [sims sstep fst snd]. split; auto. unfold add, tree_of. rewrite NT.
          assert (K : keeps (c_mem s) (put (c_mem s) r (with_cnt n (n_cnt n + 1))) []) by (eapply keeps_put; eauto; left; repeat split).
          assert (ALL : forall x y, shows (c_mem s) x y -> shows (put (c_mem s) r (with_cnt n (n_cnt n + 1))) x y).
          { intros x y SH. eapply (shows_frame (fun _ => True)); [|exact Logic.I|exact SH]. intros u nu _ LU. split; auto. destruct (K u nu LU (fun f => f)) as (n' & L' & E1 & E2 & _). eauto. }
          eapply rel_stay; eauto. intros h'. right. apply nth_snoc_rel; [|apply ALL; auto]. intros h2. eapply hrel_frame; [apply (r_trees _ _ R)|]. auto.
        * cbn [sims sstep fst snd]. split; auto. unfold add, tree_of. rewrite NT. eapply rel_stay; eauto. intros h'. right. apply nth_snoc_rel; [apply (r_trees _ _ R)|exact Logic.I].
      + pose proof (r_trees _ _ R h) as HR.
        destruct (nth_error (c_handles s) h) as [[r|]|] eqn:H; try exact Logic.I; destruct (existsb (uses h) (c_threads s)) eqn:U; try exact Logic.I.
        cbn [sims sstep fst snd]. split; auto. step_now. unfold shand.
        assert (EQ : s_threads sp = replace_at t SNone (s_threads sp)) by (rewrite (replace_same _ _ _ _ NQ); auto). rewrite EQ.
        eapply (rel_step s sp t PIdle); [exact I|exact R|exact N|exact K0| |exact Logic.I]. intros h'. destruct (Nat.eq_dec h' h) as [->|NE].
        * right. rewrite replace_nth_same by (eapply nth_error_lt; eauto). rewrite replace_nth_same; [exact Logic.I|]. destruct (nth_error (s_trees sp) h) eqn:NT; [eapply nth_error_lt; eauto|].
          destruct r; contradiction.
        * left. rewrite !replace_nth_other by auto. auto.
      + pose proof (r_trees _ _ R h) as HR.
        destruct (nth_error (c_handles s) h) as [[[r|]|]|] eqn:H; try exact Logic.I; destruct (existsb (writes h) (c_threads s)) eqn:U; try exact Logic.I.
        destruct (nth_error (s_trees sp) h) as [[[rt|]|]|] eqn:NT; try contradiction. cbn [holds] in HR.
        destruct (look (c_mem s) r) as [n|] eqn:L; [|exact Logic.I]. cbn [sims sstep fst snd]. destruct (shows_elim _ _ _ HR) as (n0 & L0 & ED & _). rewrite L in L0. injection L0 as <-.
        split; [|unfold here, tree_of; rewrite NT; cbn; congruence]. step_now. unfold sgo. eapply rel_quiet; [exact I|exact R|exact N|apply keeps_refl|]. intros q0 _ _. cbn. auto.
      + destruct (nth_error (c_handles s) h) as [[[r|]|]|] eqn:H; try exact Logic.I; destruct (existsb (uses h) (c_threads s)) eqn:U; try exact Logic.I.
        cbn [sims sstep fst snd]. split; auto. step_now. unfold sgo. eapply rel_quiet; [exact I|exact R|exact N|apply keeps_refl|]. intros q0 _ _. cbn. auto.
    - destruct q as [|h' is'|]; try contradiction. destruct Q as (-> & ->). pose proof (i_thread s I t _ N) as T. cbn [tinv] in T. destruct T as (top & RT & FO).
      pose proof (root_nth _ _ _ RT) as NH. pose proof (r_trees _ _ R h) as HR. rewrite NH in HR. cbn in HR. destruct (nth_error (s_trees sp) h) as [[[rt|]|]|] eqn:NT; try contradiction.
      destruct e; try exact Logic.I.
      + destruct (look (c_mem s) a) as [n|] eqn:L; [|exact Logic.I]. destruct (nth_error (n_kids n) i) as [c|] eqn:K; [|exact Logic.I].
        destruct (look (c_mem s) c) as [nc|] eqn:LC; [|exact Logic.I]. cbn [sims sstep]. rewrite NQ. cbn [fst snd].
        assert (FO' : follow (c_mem s) top (rev (i :: is)) = Some c) by (cbn [rev]; eapply follow_app; eauto; unfold kid; rewrite L; auto).
        destruct (follow_sub _ _ _ _ _ FO' HR) as (rc & SUB & SC). destruct (shows_elim _ _ _ SC) as (n0 & L0 & ED & _). rewrite LC in L0. injection L0 as <-.
        split; [|unfold here, tree_of; rewrite NT, SUB; cbn; congruence]. step_now. unfold sgo. eapply rel_quiet; [exact I|exact R|exact N|apply keeps_refl|]. intros q0 _ _. cbn. auto.
      + cbn [sims sstep fst snd]. split; auto. step_now. unfold sgo. eapply rel_quiet; [exact I|exact R|exact N|apply keeps_refl|]. intros q0 _ _. exact Logic.I.
    - destruct q; try contradiction. destruct e; try exact Logic.I. destruct ws as [|w ws].
      + cbn [sims sstep fst snd]. split; auto. step_now. eapply rel_quiet_same; [exact I|exact R|exact N|apply keeps_refl|auto].
      + destruct (work_step (c_mem s) w) as [[m ws']|] eqn:W; [|exact Logic.I]. cbn [sims sstep fst snd]. split; auto. step_now. eapply rel_quiet_same; eauto.
        eapply keeps_incl; [eapply work_keeps; eauto|]. cbn [dying]. intros x X. destruct w; cbn in *; [contradiction|]. tauto.
    - destruct e; try exact Logic.I.
      + pose proof (ens_step_sim s sp t h fr en a I R N) as X. destruct (ens_step s t h fr en a) as [| |s' o]; try exact Logic.I. cbn [sims sstep fst snd]. destruct X as [X ->]. auto.
      + destruct en; try exact Logic.I. cbn [sims sstep fst snd]. split; auto. step_now. unfold sgo. eapply rel_quiet; [exact I|exact R|exact N|apply keeps_refl|]. intros q0 _ _. exact Logic.I.
      + destruct en; try exact Logic.I. destruct (slot s h fr) as [x|]; [|exact Logic.I]. destruct (look (c_mem s) x) as [nx|]; [|exact Logic.I].
        cbn [sims sstep fst snd]. split; auto. step_now. eapply rel_quiet_same; [exact I|exact R|exact N|apply keeps_refl|auto].
    - apply at_step_sim; auto.
  Qed.

  Lemma start_rel : forall n, rel (start n : cstate) (sstart n).
  Proof.
    intros n. constructor; cbn [start sstart c_mem c_handles c_threads s_trees s_threads].
    - intros h. destruct h; exact Logic.I.
    - induction n as [|n IH]; intros t; [destruct t; exact Logic.I|]. destruct t as [|t]; [exact Logic.I|]. apply IH.
  Qed.

  Lemma run_sim : forall es (s : cstate) (sp : sstate) outs s', inv s -> rel s sp -> crun s es = Some (outs, s') -> exists sp', srun sp es = (outs, sp') /\ rel s' sp'.
  Proof.
    induction es as [|[t e] es IH]; intros s sp outs s' I R H; cbn [crun] in H.
    - injection H as <- <-. exists sp. auto.
    - pose proof (step_good s t e I) as G. pose proof (step_sim s sp t e I R) as X. destruct (cstep s t e) as [| |s1 o]; cbn [sims] in *; [discriminate|contradiction|].
      destruct (crun s1 es) as [[os s2]|] eqn:E; [|discriminate]. injection H as <- <-. destruct X as [R1 O1]. destruct (IH _ _ _ _ G R1 E) as (sp' & SR & R2).
      exists sp'. split; auto. cbn [srun]. destruct (sstep sp t e) as [sp1 o1]. cbn [fst snd] in *. rewrite SR. subst o1. auto.
  Qed.
End V.
