(** Proofs of the properties of copy on write. *)
From Coq Require Import List Arith Bool Lia.
From Verif Require Import Base ListFacts Cow CowSpec CowP CowQ CowR CowS CowT CowU CowV.
Import ListNotations.

Section W.
  Context {D : Type}.
  Notation heap := (heap D).
  Notation cnode := (cnode D).
  Notation pc := (pc D).
  Notation cstate := (cstate D).

  Lemma run_from_start : forall n es outs (s : cstate), crun (start n) es = Some (outs, s) -> inv s /\ ~ In BBad outs.
  Proof. intros. eapply run_inv; eauto. apply start_inv. Qed.

  Lemma follow_reach : forall (m : heap) is a b, follow m a is = Some b -> reach m a b.
  Proof.
    intros m is a. assert (G : forall x y, reach m x y -> forall z, reach m y z -> reach m x z).
    { intros x y X z Y. induction Y; auto. eapply reach_kid; eauto. }
    revert a. induction is as [|i is IH]; intros a b F; cbn in F; [injection F as <-; constructor|]. unfold kid in F. destruct (look m a) as [n|] eqn:L; [|discriminate].
    destruct (nth_error (n_kids n) i) as [c|] eqn:K; [|discriminate]. eapply G; [|apply IH; eauto]. eapply reach_kid; [constructor|eauto|eapply nth_error_In; eauto].
  Qed.

  (** ** Dropping ends *)

  Definition weight (m : heap) : nat := sum (map (fun o => match o with Some n => S (n_cnt n) | None => 0 end) m).

  Lemma weight_step : forall (m : heap) w m' ws, work_step m w = Some (m', ws) -> (forall a n, w = WFree a -> look m a = Some n -> n_cnt n = 0) -> weight m' + 1 = weight m.
  Proof.
    intros m [a|a] m' ws W Z; cbn in W; destruct (look m a) as [n|] eqn:L; try discriminate; pose proof (look_nth _ _ _ L) as NA.
    - destruct (n_cnt n) as [|[|c]] eqn:C; try discriminate; injection W as <- <-; unfold weight, put; pose proof (fun y => sum_replace _ (fun o : option cnode => match o with Some n => S (n_cnt n) | None => 0 end) a (Some n) y m NA) as Q.
      + specialize (Q (Some (with_cnt n 0))). cbn [n_cnt with_cnt] in *. lia.
      + specialize (Q (Some (with_cnt n (S c)))). cbn [n_cnt with_cnt] in *. lia.
    - injection W as <- <-. unfold weight, free. pose proof (sum_replace _ (fun o : option cnode => match o with Some n => S (n_cnt n) | None => 0 end) a (Some n) None m NA) as Q.
      specialize (Z a n eq_refl L). cbn in *. lia.
  Qed.

  Lemma drop_ends : forall k (s : cstate) t ws, inv s -> nth_error (c_threads s) t = Some (PDrop ws) -> weight (c_mem s) <= k ->
    exists j outs s', j <= k + 1 /\ crun s (repeat (t, VStep 0) j) = Some (outs, s') /\ nth_error (c_threads s') t = Some PIdle /\ c_handles s' = c_handles s.
  Proof.
    induction k as [|k IH]; intros s t ws I N W; pose proof (step_good s t (VStep 0) I) as G; unfold cstep in G; rewrite N in G; destruct ws as [|w ws].
    1, 3: exists 1; eexists; eexists; split; [lia|]; cbn [repeat crun]; unfold cstep; rewrite N; split; [reflexivity|]; cbn [go c_threads c_handles]; split; auto; apply replace_nth_same; eapply nth_error_lt; eauto.
    - destruct (work_step (c_mem s) w) as [[m ws']|] eqn:E; [|contradiction]. apply weight_step in E; [lia|]. intros a n -> L. pose proof (i_thread s I t _ N) as T. cbn in T. inversion T as [|? ? (x & L' & Z) _]. congruence.
    - destruct (work_step (c_mem s) w) as [[m ws']|] eqn:E; [|contradiction].
      assert (weight m + 1 = weight (c_mem s)).
      { eapply weight_step; eauto. intros a n -> L. pose proof (i_thread s I t _ N) as T. cbn in T. inversion T as [|? ? (x & L' & Z) _]. congruence. }
      destruct (IH (go (mem s m) t (PDrop (ws' ++ ws))) t (ws' ++ ws)) as (j & outs & s' & LE & R & NI & EH); auto.
      + cbn [go mem c_threads]. apply replace_nth_same. eapply nth_error_lt; eauto.
      + cbn [go mem c_mem]. lia.
      + exists (S j). eexists. exists s'. split; [lia|]. cbn [repeat crun]. unfold cstep at 1. rewrite N, E, R. split; [reflexivity|]. split; auto.
  Qed.

  (** ** Races *)

  Definition sole_kid (s : cstate) (p : pc) (a : addr) : Prop := exists b, In b (claims p) /\ refers s a (LKid b) /\ has_cnt (c_mem s) 1 a.

  Lemma pick_claim : forall h fr a fl old tg b, pick a fl tg = Some b -> In b (claims (PAt h fr a fl old : pc)).
  Proof. intros h fr a fl old [|j] b E; cbn in E; apply tips_claims; [injection E as <-; left; auto|right; eapply nth_error_In; eauto]. Qed.

  Lemma wr_kind : forall (s : cstate) t (p : pc) e a, nth_error (c_threads s) t = Some p -> In a (wr s t e) -> In a (claims p) \/ sole_kid s p a.
  Proof.
    intros s t p e a N W. unfold wr in W. rewrite N in W. destruct p as [|h is x|ws|h fr en|h fr x fl old]; [contradiction| | | |].
    - contradiction.
    - destruct ws as [|[|x] ws]; destruct e; try contradiction. destruct W as [<-|[]]. left. apply dying_claims. left. auto.
    - destruct en as [|d q done|x [|[y|y] ws]|x]; destruct e; try contradiction.
      + left. apply frames_claims. destruct fr as [|[q' i] fr]; cbn in W; [contradiction|]. destruct W as [<-|[]]. left. auto.
      + destruct W as [<-|[]]. left. apply dying_claims. left. auto.
      + destruct W as [<-|[]]. left. apply tips_claims. left. auto.
    - assert (P : forall tg, In a (olist (pick x fl tg)) -> In a (claims (PAt h fr x fl old : pc))).
      { intros tg Q. destruct (pick x fl tg) as [b|] eqn:E; [|contradiction]. destruct Q as [<-|[]]. eapply pick_claim; eauto. }
      assert (F : forall j, In a (olist (nth_error fl j)) -> In a (claims (PAt h fr x fl old : pc))) by (intros j; apply (P (TNew j))).
      assert (A : In x (claims (PAt h fr x fl old : pc))) by (apply (pick_claim h fr x fl old TAt); auto).
      destruct e; try contradiction.
      + left. apply (P t0). auto.
      + left. destruct W as [<-|[]]. auto.
      + left. apply (P t0). auto.
      + left. apply in_app_or in W. destruct W as [W|W]; eapply F; eauto.
      + left. destruct W as [<-|[]]. auto.
      + left. destruct W as [<-|W]; auto. eapply F; eauto.
      + destruct (pick x fl t0) as [b|] eqn:E; [|contradiction]. destruct (look (c_mem s) b) as [nb|] eqn:LB; [|contradiction].
        destruct (nth_error (n_kids nb) i) as [c|] eqn:K; [|contradiction]. destruct (look (c_mem s) c) as [nc|] eqn:LC; [|contradiction].
        destruct (Nat.eqb_spec (n_cnt nc) 1); [|contradiction]. destruct W as [<-|[]]. right. exists b. split; [eapply pick_claim; eauto|]. split; [|exists nc; auto].
        eapply kid_refers. unfold kid. rewrite LB. eauto.
  Qed.

  Definition read_by (s : cstate) (p : pc) (a : addr) : Prop := exists h top is, root (c_handles s) h = Some top /\ follow (c_mem s) top is = Some a /\ writes h p = false.

  Lemma touched_kind : forall (s : cstate) t (p : pc) t' (p' : pc) e a, inv s -> nth_error (c_threads s) t = Some p -> nth_error (c_threads s) t' = Some p' -> t <> t' -> cstep s t' e <> Blocked ->
    In a (touched s t' e) -> In a (claims p') \/ sole_kid s p' a \/ (exists l, refers s a l /\ own_place t' p' l) \/ read_by s p a.
  Proof.
    intros s t p t' p' e a I N N' NE B T. unfold touched in T. apply in_app_or in T. destruct T as [T|T].
    { destruct (wr_kind s t' p' e a N' T); auto. }
    rewrite N' in T. unfold cstep in B. rewrite N' in B. destruct p' as [|h is x|ws|h fr en|h fr x fl old].
    - destruct e; try contradiction. destruct (nth_error (c_handles s) h) as [[[r|]|]|] eqn:H; try contradiction. destruct T as [<-|[]].
      destruct (existsb (writes h) (c_threads s)) eqn:U; [congruence|]. right. right. right. exists h, r, []. split; [unfold root; rewrite H; auto|]. split; auto.
      eapply (existsb_other s t'); eauto. split; eauto.
    - destruct e; try contradiction. pose proof (i_thread s I t' _ N') as TI. cbn [tinv] in TI. destruct TI as (top & RT & FO).
      assert (WF : writes h p = false).
      { destruct (writes h p) eqn:W; auto. pose proof (i_lock s I t p t' _ h N N' NE W) as Q. cbn in Q. rewrite Nat.eqb_refl in Q. discriminate. }
      right. right. right. destruct T as [<-|T]; [exists h, top, (rev is); auto|]. destruct (look (c_mem s) x) as [n|] eqn:L; [|contradiction].
      destruct (nth_error (n_kids n) i) as [c|] eqn:K; [|contradiction]. destruct T as [<-|[]]. exists h, top, (rev is ++ [i]). split; auto. split; auto. eapply follow_app; eauto. unfold kid. rewrite L. auto.
    - destruct ws; destruct e; contradiction.
    - assert (G : In a (map fst fr ++ olist (slot s h fr)) -> In a (claims (PEns h fr en : pc)) \/ sole_kid s (PEns h fr en) a \/ (exists l, refers s a l /\ own_place t' (PEns h fr en) l) \/ read_by s p a).
      { intros X. pose proof (i_thread s I t' _ N') as TI. cbn [tinv] in TI. destruct TI as (F & y & C & _). rewrite (slot_chain s h fr y C) in X. apply in_app_or in X. destruct X as [X|[<-|[]]].
        - left. apply frames_claims. auto.
        - right. right. left. destruct (chain_tip _ _ _ _ C) as [R|(q & Q & R)]; [exists (LRoot h); split; auto; cbn; apply Nat.eqb_refl|exists (LKid q); auto]. }
      destruct en; destruct e; try contradiction; auto.
    - left. apply in_app_or in T. destruct T as [T|T]; [apply frames_claims|apply tips_claims]; auto.
  Qed.

  Lemma read_place : forall (s : cstate) t (p : pc) a, inv s -> nth_error (c_threads s) t = Some p -> read_by s p a ->
    ~ In a (claims p) /\ exists l, refers s a l /\ match l with LRoot h => writes h p = false | LKid q => ~ In q (claims p) | LHand _ => False end.
  Proof.
    intros s t p a I N (h & top & is & RT & FO & W). assert (R0 : refers s top (LRoot h)) by exact RT.
    assert (U0 : ~ In top (claims p)) by (intros C; pose proof (sole s t p top _ I N C R0) as O; cbn in O; congruence).
    assert (P0 : exists l, refers s top l /\ match l with LRoot h => writes h p = false | LKid q => ~ In q (claims p) | LHand _ => False end) by (exists (LRoot h); auto).
    clear RT R0. revert top FO U0 P0. induction is as [|i is IH]; intros top FO U0 P0; cbn in FO; [injection FO as <-; auto|].
    destruct (kid (c_mem s) top i) as [c|] eqn:K; [|discriminate]. pose proof (kid_refers _ _ _ _ K) as RK. unfold kid in K. destruct (look (c_mem s) top) as [n|] eqn:L; [|discriminate].
    apply (IH c FO).
    - eapply (kid_unclaimed s t p top n c); eauto; [eapply nth_error_In; eauto|]. intros X. apply U0, frames_claims, X.
    - exists (LKid top). auto.
  Qed.

  Lemma no_race : forall (s : cstate) t t' e e' a, inv s -> t <> t' -> cstep s t' e' <> Blocked -> In a (wr s t e) -> ~ In a (touched s t' e').
  Proof.
    intros s t t' e e' a I NE B W T.
    destruct (nth_error (c_threads s) t) as [p|] eqn:N; [|unfold wr in W; rewrite N in W; contradiction].
    destruct (nth_error (c_threads s) t') as [p'|] eqn:N'; [|unfold cstep in B; rewrite N' in B; congruence].
    assert (DIS : forall x, In x (claims p) -> ~ In x (claims p')) by (intros x; apply (i_dis s I t p t' p' x N N' NE)).
    assert (O' : other s t' t p) by (split; auto).
    destruct (wr_kind s t p e a N W) as [C|(b & CB & RB & ONE)]; destruct (touched_kind s t p t' p' e' a I N N' NE B T) as [C'|[(b' & CB' & RB' & _)|[(l & RL & OL)|RD]]].
    - eapply DIS; eauto.
    - pose proof (sole s t p a _ I N C RB') as Q. cbn in Q. eapply DIS; [apply frames_claims; exact Q|auto].
    - eapply (not_claimed s t' p' a l t p); eauto.
    - destruct (read_place s t p a I N RD) as [U _]. contradiction.
    - pose proof (sole s t' p' a _ I N' C' RB) as Q. cbn in Q. eapply DIS; [exact CB|apply frames_claims; exact Q].
    - pose proof (refers_one s a _ _ I ONE RB RB') as Q. injection Q as <-. eapply DIS; eauto.
    - pose proof (refers_one s a _ _ I ONE RB RL) as Q. subst l. cbn in OL. eapply DIS; [exact CB|apply frames_claims; exact OL].
    - destruct (read_place s t p a I N RD) as [_ (l & RL & Q)]. pose proof (refers_one s a _ _ I ONE RB RL) as E. subst l. contradiction.
  Qed.

  (** ** What a step means for other trees *)

  Definition mine (p : pc) (e : ev D) (h : nat) : Prop := writes h p = true \/ (exists a d, e = VNew h a d) \/ e = VDrop h.

  Lemma sstep_other : forall (sp : sstate D) t e h m p, orel m (Some p) (nth_error (s_threads sp) t) -> h < length (s_trees sp) -> ~ mine p e h ->
    nth_error (s_trees (fst (sstep sp t e))) h = nth_error (s_trees sp) h.
  Proof.
    intros sp t e h m p O L M.
    assert (CH : forall (sp0 : sstate D) is f h0, h0 <> h -> nth_error (s_trees (change sp0 h0 is f)) h = nth_error (s_trees sp0) h).
    { intros sp0 is f h0 NH. unfold change. destruct (tree_of sp0 h0); auto. cbn. rewrite replace_nth_other; auto. }
    assert (HW : forall h0 is fl old, nth_error (s_threads sp) t = Some (SIns h0 is fl old) -> h0 <> h).
    { intros h0 is fl old E ->. rewrite E in O. cbn in O. apply M. left. destruct p; cbn in O; try contradiction; destruct O as (<- & _); cbn; apply Nat.eqb_refl. }
    unfold sstep. destruct e as [|h0 a d|h0|h0|h0|i| |h0|a|i|tg d|mm d d' a|tg k r d|j r|c d|a r d|tg i| | | |]; cbn [fst]; auto.
    all: try (cbn [add sgo shand s_trees]; rewrite ?nth_error_app1 by auto; rewrite ?replace_nth_other; auto; intros ->; apply M; unfold mine; eauto; fail).
    all: destruct (nth_error (s_threads sp) t) as [[|h1 is|h1 is fl old]|] eqn:E; cbn [fst sgo s_trees]; auto.
    all: try (specialize (HW _ _ _ _ eq_refl)).
    all: repeat match goal with |- context [match ?x with _ => _ end] => destruct x; cbn [fst sgo s_trees]; auto end.
  Qed.
End W.

(** In every history, with any number of threads and any interleaving: every count is the number of owners. *)
Lemma C21_counts_proof : forall D n es outs (s : cstate D),
  crun (start n) es = Some (outs, s) ->
  (forall a k, look (c_mem s) a = Some k -> n_cnt k = owners s a) /\ (forall a, look (c_mem s) a = None -> owners s a = 0).
Proof.
  intros D n es outs s R. destruct (run_from_start _ _ _ _ R) as [I _]. split.
  - intros a k L. rewrite <- (i_cnt s I a). unfold cnt_at. rewrite L. auto.
  - intros a L. rewrite <- (i_cnt s I a). unfold cnt_at. rewrite L. auto.
Qed.

(** Freed memory is never used, and nothing is freed twice. *)
Lemma C21_no_use_after_free_proof : forall D n es outs (s : cstate D),
  crun (start n) es = Some (outs, s) -> ~ In BBad outs.
Proof. intros D n es outs s R. apply (run_from_start _ _ _ _ R). Qed.

(** If no thread is in the middle of something, every node is in some tree; so if there are no trees, or only empty
    ones, every node has been freed. *)
Lemma C21_no_leak_proof : forall D n es outs (s : cstate D),
  crun (start n) es = Some (outs, s) -> (forall t p, nth_error (c_threads s) t = Some p -> p = PIdle) ->
  (forall a k, look (c_mem s) a = Some k -> exists h r, nth_error (c_handles s) h = Some (Some (Some r)) /\ reach (c_mem s) r a) /\
  ((forall h r, nth_error (c_handles s) h <> Some (Some (Some r))) -> forall a, look (c_mem s) a = None).
Proof.
  intros D n es outs s R Q. destruct (run_from_start _ _ _ _ R) as [I _].
  assert (G : forall a k, look (c_mem s) a = Some k -> exists h r, nth_error (c_handles s) h = Some (Some (Some r)) /\ reach (c_mem s) r a).
  { intros a k L. destruct (no_leaks s I Q _ a k L (le_n _)) as (h & r & is & RT & FO). exists h, r. split; [apply root_nth; auto|eapply follow_reach; eauto]. }
  split; auto. intros H a. destruct (look (c_mem s) a) as [k|] eqn:L; auto. destruct (G a k L) as (h & r & E & _). exfalso. eapply H; eauto.
Qed.

(** A thread that is dropping nodes never has to wait, and comes to an end. *)
Lemma C21_drop_ends_proof : forall D n es outs (s : cstate D) t ws,
  crun (start n) es = Some (outs, s) -> nth_error (c_threads s) t = Some (PDrop ws) ->
  exists j outs' s', crun s (repeat (t, VStep 0) j) = Some (outs', s') /\ nth_error (c_threads s') t = Some PIdle /\ c_handles s' = c_handles s.
Proof.
  intros D n es outs s t ws R N. destruct (run_from_start _ _ _ _ R) as [I _]. destruct (drop_ends _ s t ws I N (le_n _)) as (j & o & s' & _ & H). eauto.
Qed.

(** In every history, with any number of threads and any interleaving, trees behave as values: what readers see, and
    what memory shows at the end, is as if every tree were a value of its own and cloning copied it. *)
Lemma C20_values_proof : forall D n es outs (s : cstate D),
  crun (start n) es = Some (outs, s) ->
  exists sp, srun (sstart n) es = (outs, sp) /\ forall h, holds (c_mem s) (nth_error (c_handles s) h) (nth_error (s_trees sp) h).
Proof.
  intros D n es outs s R. destruct (run_sim es _ _ _ _ (start_inv n) (start_rel n) R) as (sp & E & RE). exists sp. split; auto. apply (r_trees _ _ RE).
Qed.

(** So one step of a thread, whatever it does, leaves every other tree as it was, unless it drops that tree or puts
    a first node into it. *)
Lemma C20_others_proof : forall D n es outs (s : cstate D) t p e s' o h a r,
  crun (start n) es = Some (outs, s) -> nth_error (c_threads s) t = Some p -> cstep s t e = Next s' o ->
  writes h p = false -> e <> VDrop h ->
  nth_error (c_handles s) h = Some (Some (Some a)) -> shows (c_mem s) a r ->
  exists a', nth_error (c_handles s') h = Some (Some (Some a')) /\ shows (c_mem s') a' r.
Proof.
  intros D n es outs s t p e s' o h a r R N E W ND H SH. destruct (run_from_start _ _ _ _ R) as [I _].
  destruct (run_sim es _ _ _ _ (start_inv n) (start_rel n) R) as (sp & _ & RE). pose proof (step_sim s sp t e I RE) as S1. rewrite E in S1. cbn [sims] in S1. destruct S1 as [R1 _].
  pose proof (r_trees _ _ RE h) as T0. rewrite H in T0. destruct (nth_error (s_trees sp) h) as [[[r0|]|]|] eqn:NT; try contradiction. cbn [holds] in T0.
  assert (r0 = r) by (eapply shows_det; eauto). subst r0. pose proof (r_trees _ _ R1 h) as T1.
  rewrite (sstep_other sp t e h (c_mem s) p) in T1.
  - rewrite NT in T1. destruct (nth_error (c_handles s') h) as [[[a'|]|]|]; try contradiction. eauto.
  - pose proof (r_threads _ _ RE t) as Q. rewrite N in Q. auto.
  - eapply nth_error_lt; eauto.
  - intros [X|[(a1 & d & ->)|X]]; try congruence. unfold cstep in E. rewrite N in E. destruct p as [|h0 is x|ws|h0 fr en|h0 fr x fl old]; try discriminate.
    + rewrite H in E. discriminate.
    + unfold at_step in E. destruct (look (c_mem s) x); discriminate.
Qed.

(** No two threads are ever about to use the same field of a node other than its count, one of them writing it or
    freeing the node. *)
Lemma C20_no_race_proof : forall D n es outs (s : cstate D) t t' e e' a,
  crun (start n) es = Some (outs, s) -> t <> t' -> cstep s t e <> Blocked -> cstep s t' e' <> Blocked ->
  In a (wr s t e) -> ~ In a (touched s t' e').
Proof. intros D n es outs s t t' e e' a R NE _ B. apply no_race; auto. apply (run_from_start _ _ _ _ R). Qed.
