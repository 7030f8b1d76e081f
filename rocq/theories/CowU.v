(** Proofs about copy on write: what memory shows, and that nothing leaks. *)
From Coq Require Import List Arith Bool Lia.
From Verif Require Import Base ListFacts Cow CowSpec CowP CowQ CowR CowS CowT.
Import ListNotations.

Lemma sum_pos : forall A (f : A -> nat) l, 1 <= sum (map f l) -> exists i x, nth_error l i = Some x /\ 1 <= f x.
Proof.
  intros A f. induction l as [|x l IH]; cbn; intros H; [lia|]. fold (sum (map f l)) in H. destruct (f x) as [|k] eqn:E.
  - destruct (IH H) as (i & y & N & P). exists (S i), y. auto.
  - exists 0, x. split; auto. lia.
Qed.

Lemma Forall2_impl : forall A B (P Q : A -> B -> Prop) l r, (forall a b, P a b -> Q a b) -> Forall2 P l r -> Forall2 Q l r.
Proof. intros A B P Q l r H F. induction F; constructor; auto. Qed.

Lemma Forall2_length : forall A B (P : A -> B -> Prop) l r, Forall2 P l r -> length l = length r.
Proof. intros A B P l r F. induction F; cbn; auto. Qed.

Section U.
  Context {D : Type}.
  Notation heap := (heap D).
  Notation cnode := (cnode D).
  Notation pc := (pc D).
  Notation cstate := (cstate D).
  Notation rose := (rose D).

  (** ** Owners *)

  Lemma owner_exists : forall (s : cstate) a, 1 <= owners s a -> exists l, refers s a l.
  Proof.
    intros s a H. unfold owners in H. destruct (Nat.eq_dec (root_owners (c_handles s) a) 0) as [E1|E1].
    - destruct (Nat.eq_dec (kid_owners (c_mem s) a) 0) as [E2|E2].
      + assert (P : 1 <= hand_owners (c_threads s) a) by lia. apply sum_pos in P. destruct P as (t & p & N & P). apply occ_in in P. exists (LHand t). exists p. auto.
      + assert (P : 1 <= kid_owners (c_mem s) a) by lia. apply sum_pos in P. destruct P as (b & [n|] & N & P); [|lia]. apply occ_in in P. exists (LKid b). exists n. split; auto.
        unfold look. rewrite N. auto.
    - assert (P : 1 <= root_owners (c_handles s) a) by lia. apply sum_pos in P. destruct P as (h & [[r|]|] & N & P); [|lia|lia]. apply occ_in in P. destruct P as [->|[]].
      exists (LRoot h). cbn. unfold root. rewrite N. auto.
  Qed.

  Definition bound (m : heap) : nat := fold_right Nat.max 0 (map (fun o => match o with Some n => n_h n | None => 0 end) m).
  Lemma bound_ge : forall (m : heap) a n, look m a = Some n -> n_h n <= bound m.
  Proof.
    intros m a n L. apply look_nth in L. revert a L. unfold bound. induction m as [|o m IH]; intros a L; [destruct a; discriminate|]. cbn. destruct a as [|a]; cbn in L.
    - injection L as ->. lia.
    - specialize (IH _ L). lia.
  Qed.

  (** When every thread is idle, every node in memory is in some tree. *)
  Lemma no_leaks : forall (s : cstate), inv s -> (forall t p, nth_error (c_threads s) t = Some p -> p = PIdle) ->
    forall k a n, look (c_mem s) a = Some n -> bound (c_mem s) - n_h n <= k -> exists h r is, root (c_handles s) h = Some r /\ follow (c_mem s) r is = Some a.
  Proof.
    intros s I Q.
    assert (OWN : forall a n, look (c_mem s) a = Some n -> exists l, refers s a l).
    { intros a n L. apply owner_exists. pose proof (i_cnt s I a) as C. rewrite (cnt_some _ _ _ L) in C. rewrite <- C.
      destruct (n_cnt n) as [|c] eqn:Z; [|lia]. destruct (i_zero s I a n L Z) as (t & p & N & X). rewrite (Q t p N) in X. contradiction. }
    assert (GO : forall a n, look (c_mem s) a = Some n -> (exists h, root (c_handles s) h = Some a) \/ exists b nb i, look (c_mem s) b = Some nb /\ nth_error (n_kids nb) i = Some a).
    { intros a n L. destruct (OWN a n L) as [[h|b|t] R]; cbn in R.
      - left. eauto.
      - right. destruct R as (nb & LB & X). apply In_nth_error in X. destruct X as (i & X). eauto.
      - destruct R as (p & N & X). rewrite (Q t p N) in X. contradiction. }
    induction k as [|k IH]; intros a n L B; destruct (GO a n L) as [(h & R)|(b & nb & i & LB & K)]; try (exists h, a, []; auto; fail).
    - destruct (i_height s I b nb a LB) as (n' & L' & E); [eapply nth_error_In; eauto|]. rewrite L in L'. injection L' as <-. pose proof (bound_ge _ _ _ LB). lia.
    - destruct (i_height s I b nb a LB) as (n' & L' & E); [eapply nth_error_In; eauto|]. rewrite L in L'. injection L' as <-. pose proof (bound_ge _ _ _ LB).
      destruct (IH b nb LB ltac:(lia)) as (h & r & is & R & F). exists h, r, (is ++ [i]). split; auto. eapply follow_app; eauto. unfold kid. rewrite LB. auto.
  Qed.

  (** ** What memory shows *)

  Lemma all_forall : forall A B (f : A -> option B) l r, all (map f l) = Some r <-> Forall2 (fun a b => f a = Some b) l r.
  Proof.
    intros A B f. induction l as [|a l IH]; intros r; cbn.
    - split; [intros E; injection E as <-; constructor|intros F; inversion F; auto].
    - destruct (f a) as [b|] eqn:E.
      + destruct (all (map f l)) as [r'|] eqn:R.
        * split; [intros X; injection X as <-; constructor; auto; apply IH; auto|intros F; inversion F; subst].
          match goal with H : Forall2 _ l _ |- _ => apply IH in H end. congruence.
        * split; [discriminate|intros F; inversion F; subst]. match goal with H : Forall2 _ l _ |- _ => apply IH in H end. discriminate.
      + split; [discriminate|intros F; inversion F; subst; congruence].
  Qed.

  Lemma view_mono : forall f (m : heap) a r g, view f m a = Some r -> f <= g -> view g m a = Some r.
  Proof.
    induction f as [|f IH]; intros m a r g V L; [discriminate|]. destruct g as [|g]; [lia|]. cbn in *. destruct (look m a) as [n|]; [|discriminate].
    destruct (all (map (view f m) (n_kids n))) as [ks|] eqn:E; [|discriminate]. injection V as <-. apply all_forall in E.
    assert (E' : all (map (view g m) (n_kids n)) = Some ks).
    { apply all_forall. eapply Forall2_impl; [|exact E]. cbn. intros x y X. eapply IH; eauto. lia. }
    rewrite E'. auto.
  Qed.

  Lemma shows_det : forall (m : heap) a r r', shows m a r -> shows m a r' -> r = r'.
  Proof.
    intros m a r r' [f F] [g G]. apply (view_mono _ _ _ _ (f + g)) in F; [|lia]. apply (view_mono _ _ _ _ (f + g)) in G; [|lia]. congruence.
  Qed.

  Lemma shows_intro : forall (m : heap) a n ks, look m a = Some n -> Forall2 (shows m) (n_kids n) ks -> shows m a (Rose (n_data n) ks).
  Proof.
    intros m a n ks L F. assert (E : exists f, Forall2 (fun x y => view f m x = Some y) (n_kids n) ks).
    { clear L. induction F as [|x y l l' [f X] F IH]; [exists 0; constructor|]. destruct IH as (g & IH). exists (f + g). constructor.
      - eapply view_mono; eauto. lia.
      - eapply Forall2_impl; [|exact IH]. cbn. intros u v V. eapply view_mono; eauto. lia. }
    destruct E as (f & E). exists (S f). cbn. rewrite L. apply all_forall in E. rewrite E. auto.
  Qed.

  Lemma shows_elim : forall (m : heap) a r, shows m a r -> exists n, look m a = Some n /\ rdata r = n_data n /\ Forall2 (shows m) (n_kids n) (rkids r).
  Proof.
    intros m a r [f F]. destruct f as [|f]; [discriminate|]. cbn in F. destruct (look m a) as [n|]; [|discriminate].
    destruct (all (map (view f m) (n_kids n))) as [ks|] eqn:E; [|discriminate]. injection F as <-. exists n. split; auto. split; auto. cbn. apply all_forall in E.
    eapply Forall2_impl; [|exact E]. cbn. intros x y X. exists f. auto.
  Qed.

  Lemma shows_total : forall (s : cstate), inv s -> forall k a n, look (c_mem s) a = Some n -> n_h n <= k -> exists r, shows (c_mem s) a r.
  Proof.
    intros s I. induction k as [|k IH]; intros a n L B.
    - exists (Rose (n_data n) []). apply shows_intro; auto. destruct (n_kids n) as [|c ks] eqn:K; [constructor|].
      destruct (i_height s I a n c L) as (x & _ & E); [rewrite K; left; auto|]. lia.
    - assert (X : forall l, (forall c, In c l -> In c (n_kids n)) -> exists ks, Forall2 (shows (c_mem s)) l ks).
      { induction l as [|c l IHl]; intros H; [exists []; constructor|]. destruct IHl as (ks & F); [intros; apply H; right; auto|].
        destruct (i_height s I a n c L) as (x & LX & E); [apply H; left; auto|]. destruct (IH c x LX ltac:(lia)) as (r & R). exists (r :: ks). constructor; auto. }
      destruct (X (n_kids n) (fun _ H => H)) as (ks & F). exists (Rose (n_data n) ks). apply shows_intro; auto.
  Qed.

  (** A set of nodes that is closed under children and is kept shows the same. *)
  Lemma shows_frame : forall (P : addr -> Prop) (m m' : heap),
    (forall a n, P a -> look m a = Some n -> (exists n', look m' a = Some n' /\ n_data n' = n_data n /\ n_kids n' = n_kids n) /\ forall c, In c (n_kids n) -> P c) ->
    forall a r, P a -> shows m a r -> shows m' a r.
  Proof.
    intros P m m' H a r PA [f V]. revert a r PA V. induction f as [|f IH]; intros a r PA V; [discriminate|]. cbn in V. destruct (look m a) as [n|] eqn:L; [|discriminate].
    destruct (all (map (view f m) (n_kids n))) as [ks|] eqn:E; [|discriminate]. injection V as <-. destruct (H a n PA L) as ((n' & L' & E1 & E2) & C).
    rewrite <- E1. apply shows_intro; auto. rewrite E2. apply all_forall in E. clear L L' E1 E2. induction E as [|x y l l' X F IHF]; constructor; auto.
    - eapply IH; eauto. apply C. left. auto.
    - apply IHF. intros c IC. apply C. right. auto.
  Qed.

  (** Nodes that a thread has not claimed show the same after its steps. *)
  Lemma shows_keeps : forall (s : cstate) t (p : pc) m' a r, inv s -> nth_error (c_threads s) t = Some p -> keeps (c_mem s) m' (claims p) ->
    ~ In a (claims p) -> shows (c_mem s) a r -> shows m' a r.
  Proof.
    intros s t p m' a r I N K U S0. eapply (shows_frame (fun x => ~ In x (claims p))); eauto. intros x n X L. split.
    - destruct (K x n L X) as (n' & L' & E1 & E2 & _). eauto.
    - intros c IC. eapply kid_unclaimed; eauto. intros Y. apply X, frames_claims, Y.
  Qed.

  (** Everything referred to shows the same if only nodes that are about to be freed are different. *)
  Lemma shows_quiet : forall (s : cstate) t (p : pc) m' a r l, inv s -> nth_error (c_threads s) t = Some p -> keeps (c_mem s) m' (dying p) ->
    refers s a l -> shows (c_mem s) a r -> shows m' a r.
  Proof.
    intros s t p m' a r l I N K R S0. eapply (shows_frame (fun x => exists l, refers s x l)); eauto. intros x n (l' & X) L. split.
    - assert (U : ~ In x (dying p)).
      { intros Y. eapply refers_zero; eauto. eapply dying_cnt; eauto. apply (i_thread s I t p N). }
      destruct (K x n L U) as (n' & L' & E1 & E2 & _). eauto.
    - intros c IC. exists (LKid x). cbn. eauto.
  Qed.

  (** ** Paths into trees *)

  Lemma sub_app : forall is js (r : rose), sub r (is ++ js) = match sub r is with Some x => sub x js | None => None end.
  Proof. induction is as [|i is IH]; intros js r; cbn; auto. destruct (nth_error (rkids r) i); auto. Qed.

  Lemma chg_app : forall is js (r : rose) f, chg r (is ++ js) f = chg r is (fun x => chg x js f).
  Proof. induction is as [|i is IH]; intros js r f; cbn; auto. destruct (nth_error (rkids r) i); auto. rewrite IH. auto. Qed.

  Lemma chg_const : forall is (r x : rose) f, sub r is = Some x -> chg r is f = chg r is (fun _ => f x).
  Proof.
    induction is as [|i is IH]; intros r x f H; cbn in *; [injection H as ->; auto|]. destruct (nth_error (rkids r) i) as [k|] eqn:E; auto. rewrite (IH k x f H). auto.
  Qed.

  Lemma chg_same : forall is (r x : rose), sub r is = Some x -> chg r is (fun y => y) = r.
  Proof.
    induction is as [|i is IH]; intros r x H; cbn in *; auto. destruct (nth_error (rkids r) i) as [k|] eqn:E; [|discriminate].
    rewrite (IH k x H). rewrite replace_same by auto. destruct r; auto.
  Qed.

  Lemma chain_sub : forall (m : heap) hs h fr a top rt, chain m hs h fr a -> root hs h = Some top -> shows m top rt ->
    exists ra, sub rt (rev (map snd fr)) = Some ra /\ shows m a ra.
  Proof.
    intros m hs h. induction fr as [|[q i] fr IH]; intros a top rt C R T; cbn in *.
    - rewrite R in C. injection C as <-. eauto.
    - destruct C as [K C]. destruct (IH q top rt C R T) as (rq & E & Q). rewrite sub_app, E. cbn. apply shows_elim in Q. destruct Q as (n & L & _ & F).
      unfold kid in K. rewrite L in K. clear - F K. revert i K. induction F as [|x y l l' X F IH]; intros i K; [destruct i; discriminate|]. destruct i as [|i]; cbn in *; [injection K as <-; eauto|]. apply IH. auto.
  Qed.

  (** The nodes on a path when only what hangs at its end has changed. *)
  Fixpoint moved (m m' : heap) (fr : list (addr * nat)) (a a' : addr) : Prop :=
    match fr with
    | [] => True
    | (q, i) :: fr' =>
      (exists n n', look m q = Some n /\ look m' q = Some n' /\ n_data n' = n_data n /\ n_kids n' = replace_at i a' (n_kids n) /\
        nth_error (n_kids n) i = Some a /\ forall j c x, j <> i -> nth_error (n_kids n) j = Some c -> shows m c x -> shows m' c x) /\
      moved m m' fr' q q
    end.

  Lemma forall2_replace : forall A B (P Q : A -> B -> Prop) i a b l r, Forall2 P l r -> i < length l ->
    (forall j x y, j <> i -> nth_error l j = Some x -> P x y -> Q x y) -> Q a b -> Forall2 Q (replace_at i a l) (replace_at i b r).
  Proof.
    intros A B P Q i a b l r F. revert i. induction F as [|x y l r X F IH]; intros i L H QA; cbn [length] in L; [lia|]. destruct i as [|i].
    - rewrite !replace_0. constructor; auto. clear IH L. assert (G : forall j u v, nth_error l j = Some u -> P u v -> Q u v) by (intros j u v E; apply (H (S j)); auto).
      clear H. induction F as [|u v l r U F IH]; constructor; [apply (G 0); auto|]. apply IH. intros j w z E. apply (G (S j)). auto.
    - rewrite !replace_cons. constructor; [apply (H 0); auto|]. apply IH; auto; [lia|]. intros j u v NE E. apply (H (S j)); auto.
  Qed.

  Lemma moved_shows : forall (m m' : heap) hs h fr a a' ra' top rt, chain m hs h fr a -> moved m m' fr a a' -> shows m' a' ra' ->
    root hs h = Some top -> shows m top rt ->
    shows m' (match fr with [] => a' | _ => top end) (chg rt (rev (map snd fr)) (fun _ => ra')).
  Proof.
    intros m m' hs h. induction fr as [|[q i] fr IH]; intros a a' ra' top rt C M S0 R T; [cbn; auto|]. cbn [chain moved] in *. destruct C as [K C].
    destruct M as ((n & n' & L & L' & ED & EK & EA & OT) & M). destruct (chain_sub _ _ _ _ _ _ _ C R T) as (rq & E & Q). pose proof (shows_elim _ _ _ Q) as (n0 & L0 & ED0 & F).
    rewrite L in L0. injection L0 as <-.
    assert (SQ : shows m' q (Rose (n_data n') (replace_at i ra' (rkids rq)))).
    { apply shows_intro; auto. rewrite EK. eapply forall2_replace; eauto. eapply nth_error_lt; eauto. }
    specialize (IH q q _ top rt C M SQ R T). cbn [map snd rev]. rewrite chg_app.
    assert (EQ : match fr with [] => q | _ :: _ => top end = top) by (destruct fr; auto; cbn in C; congruence). rewrite EQ in IH.
    assert (EF : chg rt (rev (map snd fr)) (fun x => chg x [i] (fun _ => ra')) = chg rt (rev (map snd fr)) (fun _ => Rose (n_data n') (replace_at i ra' (rkids rq)))).
    { rewrite (chg_const _ _ rq _ E). f_equal. cbn. assert (exists k, nth_error (rkids rq) i = Some k) as (k & NK).
      { destruct (nth_error (rkids rq) i) eqn:X; [eauto|]. apply nth_error_None in X. apply Forall2_length in F. apply nth_error_lt in EA. lia. }
      rewrite NK. rewrite ED, ED0. auto. }
    rewrite EF. exact IH.
  Qed.

  Lemma chain_elem : forall (m : heap) hs h fr a c, chain m hs h fr a -> In c (a :: map fst fr) -> root hs h = Some c \/ exists q i, In (q, i) fr /\ kid m q i = Some c.
  Proof.
    intros m hs h. induction fr as [|[q i] fr IH]; intros a c C X; cbn [chain] in C.
    - destruct X as [<-|[]]. auto.
    - destruct C as [K C]. destruct X as [<-|X].
      + right. exists q, i. split; auto. left. auto.
      + destruct (IH q c C X) as [R|(q' & i' & Y & Z)]; auto. right. exists q', i'. split; auto. right. auto.
  Qed.

  Lemma occ_two : forall l i j (c : addr), i <> j -> nth_error l i = Some c -> nth_error l j = Some c -> 2 <= occ c l.
  Proof.
    induction l as [|x l IH]; intros i j c NE I J; [destruct i; discriminate|]. rewrite occ_cons. destruct i as [|i], j as [|j]; cbn in I, J.
    - congruence.
    - injection I as ->. rewrite Nat.eqb_refl. apply nth_error_In in J. apply occ_in in J. lia.
    - injection J as ->. rewrite Nat.eqb_refl. apply nth_error_In in I. apply occ_in in I. lia.
    - specialize (IH i j c ltac:(congruence) I J). destruct (x =? c); lia.
  Qed.

  (** Children of a node on the path, other than the next one, are not claimed. *)
  Lemma sibling_unclaimed : forall (s : cstate) t (p : pc) h fr a q i j n c, inv s -> nth_error (c_threads s) t = Some p ->
    chain (c_mem s) (c_handles s) h fr a -> frames p = map fst fr -> (forall x, In x (tips p) -> x = a \/ In x (in_hand p)) ->
    In (q, i) fr -> look (c_mem s) q = Some n -> nth_error (n_kids n) j = Some c -> j <> i -> ~ In c (claims p).
  Proof.
    intros s t p h fr a q i j n c I N C F T X L K NE CL. assert (R : refers s c (LKid q)) by (cbn; exists n; split; auto; eapply nth_error_In; eauto).
    destruct (claim_anchor s t p c I N CL) as [Z|[O _]]; [eapply refers_zero; eauto|].
    assert (E : In c (a :: map fst fr)).
    { unfold claims in CL. apply in_app_or in CL. destruct CL as [Y|Y].
      - exfalso. eapply (refers_zero s c (LKid q)); eauto. eapply dying_cnt; eauto. apply (i_thread s I t p N).
      - apply in_app_or in Y. destruct Y as [Y|Y]; [rewrite F in Y; right; auto|]. destruct (T c Y) as [->|H]; [left; auto|].
        assert (R' : refers s c (LHand t)) by (cbn; eauto). pose proof (refers_one s c _ _ I O R R'). discriminate. }
    destruct (chain_elem _ _ _ _ _ _ C E) as [R'|(q' & i' & IN & K')].
    - pose proof (refers_one s c (LKid q) (LRoot h) I O R R'). discriminate.
    - assert (q' = q). { pose proof (refers_one s c (LKid q) (LKid q') I O R (kid_refers _ _ _ _ K')). congruence. } subst q'.
      assert (i' = i).
      { pose proof (i_own s I t p N) as ND. unfold claims in ND. apply nodup_app_inv in ND. destruct ND as (_ & ND & _). apply nodup_app_inv in ND. destruct ND as (ND & _ & _).
        rewrite F in ND. clear - ND X IN. induction fr as [|[u v] fr IH]; cbn in *; [contradiction|]. inversion ND as [|? ? N1 N2]; subst.
        destruct X as [X|X], IN as [Y|Y]; try congruence; auto.
        - injection X as -> ->. exfalso. apply N1. change q with (fst (q, i')). apply in_map. auto.
        - injection Y as -> ->. exfalso. apply N1. change q with (fst (q, i)). apply in_map. auto. }
      subst i'. unfold kid in K'. rewrite L in K'. pose proof (occ_two _ _ _ _ NE K K') as TW. pose proof (occ_le1 s c (LKid q) I O) as LE. cbn [amount] in LE. rewrite L in LE. lia.
  Qed.

  Lemma moved_intro : forall (s : cstate) t (p : pc) h fr0 fr a0 a a' m', inv s -> nth_error (c_threads s) t = Some p ->
    chain (c_mem s) (c_handles s) h fr0 a0 -> frames p = map fst fr0 -> (forall x, In x (tips p) -> x = a0 \/ In x (in_hand p)) ->
    keeps (c_mem s) m' (claims p) -> incl fr fr0 ->
    chain (c_mem s) (c_handles s) h fr a ->
    (forall q n, In q (map fst (tl fr)) -> look (c_mem s) q = Some n -> exists n', look m' q = Some n' /\ n_data n' = n_data n /\ n_kids n' = n_kids n) ->
    match fr with
    | [] => True
    | (q, i) :: _ => forall n, look (c_mem s) q = Some n -> exists n', look m' q = Some n' /\ n_data n' = n_data n /\ n_kids n' = replace_at i a' (n_kids n)
    end ->
    moved (c_mem s) m' fr a a'.
  Proof.
    intros s t p h fr0 fr a0 a a' m' I N C0 F T K INC. revert a a' INC. induction fr as [|[q i] fr IH]; intros a a' INC C S0 H; cbn [moved]; auto. cbn [chain] in C. destruct C as [KQ C].
    unfold kid in KQ. destruct (look (c_mem s) q) as [n|] eqn:L; [|discriminate]. destruct (H n eq_refl) as (n' & L' & E1 & E2). split.
    - exists n, n'. repeat split; auto. intros j c x NE J X. eapply shows_keeps; eauto. apply (sibling_unclaimed s t p h fr0 a0 q i j n c); auto. apply INC. left. auto.
    - apply IH; auto.
      + intros z Z. apply INC. right. auto.
      + intros q' n0 X L0. apply S0; auto. cbn [tl]. destruct fr as [|y fr]; [destruct X|]. right. auto.
      + destruct fr as [|[q2 i2] fr]; auto. intros n2 L2. cbn [chain] in C. destruct C as [K2 _]. unfold kid in K2. rewrite L2 in K2.
        destruct (S0 q2 n2) as (n3 & L3 & E3 & E4); [left; auto|auto|]. exists n3. rewrite (replace_same _ _ _ _ K2). auto.
  Qed.
End U.
