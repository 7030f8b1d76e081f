(** Proofs about copy on write: the steps, one by one. *)
From Coq Require Import List Arith Bool Lia.
From Verif Require Import Base ListFacts Cow CowSpec CowP CowQ.
Import ListNotations.

Section R.
  Context {D : Type}.
  Notation heap := (heap D).
  Notation cnode := (cnode D).
  Notation pc := (pc D).
  Notation cstate := (cstate D).

  Lemma cnt_put : forall (m : heap) b n n' a, look m b = Some n -> cnt_at (put m b n') a = if a =? b then n_cnt n' else cnt_at m a.
  Proof. intros m b n n' a H. unfold cnt_at. rewrite (look_put m b n n' a H). destruct (a =? b); auto. Qed.

  Lemma cnt_alloc : forall (m : heap) b n m' a, alloc m b n = Some m' -> cnt_at m' a = if a =? b then n_cnt n else cnt_at m a.
  Proof. intros m b n m' a H. unfold cnt_at. rewrite (look_alloc m b n m' a H). destruct (a =? b); auto. Qed.

  Lemma cnt_free : forall (m : heap) b n a, look m b = Some n -> cnt_at (free m b) a = if a =? b then 0 else cnt_at m a.
  Proof. intros m b n a H. unfold cnt_at. rewrite (look_free m b n a H). destruct (a =? b); auto. Qed.

  Lemma cnt_none : forall (m : heap) a, look m a = None -> cnt_at m a = 0.
  Proof. intros m a H. unfold cnt_at. rewrite H. auto. Qed.
  Lemma cnt_some : forall (m : heap) a n, look m a = Some n -> cnt_at m a = n_cnt n.
  Proof. intros m a n H. unfold cnt_at. rewrite H. auto. Qed.

  Lemma has_put : forall (m : heap) b n n' c a, look m b = Some n -> n_cnt n' = n_cnt n -> has_cnt m c a -> has_cnt (put m b n') c a.
  Proof.
    intros m b n n' c a L E (k & K & C). unfold has_cnt. rewrite (look_put m b n n' a L). destruct (Nat.eqb_spec a b) as [EQ|]; [subst a|eauto].
    exists n'. split; auto. congruence.
  Qed.
  Lemma has_put_other : forall (m : heap) b n n' c a, look m b = Some n -> a <> b -> has_cnt m c a -> has_cnt (put m b n') c a.
  Proof.
    intros m b n n' c a L E (k & K & C). unfold has_cnt. rewrite (look_put m b n n' a L). destruct (Nat.eqb_spec a b) as [EQ|]; [subst a; congruence|eauto].
  Qed.
  Lemma has_alloc : forall (m : heap) b n m' c a, alloc m b n = Some m' -> has_cnt m c a -> has_cnt m' c a.
  Proof.
    intros m b n m' c a L (k & K & C). unfold has_cnt. rewrite (look_alloc m b n m' a L). pose proof (alloc_none _ _ _ _ L). destruct (Nat.eqb_spec a b) as [EQ|]; [subst a; congruence|eauto].
  Qed.

  Definition heights (m : heap) : Prop := forall a n c, look m a = Some n -> In c (n_kids n) -> exists k, look m c = Some k /\ n_h n = n_h k + 1.

  (** Changing the body of a node. *)
  Lemma heights_put : forall (m : heap) b n n', heights m -> look m b = Some n -> n_h n' = n_h n ->
    (forall c, In c (n_kids n') -> exists k, look m c = Some k /\ n_h n = n_h k + 1) -> heights (put m b n').
  Proof.
    intros m b n n' H L EH K a x c LA IC. rewrite (look_put m b n n' a L) in LA. rewrite (look_put m b n n' c L).
    assert (Q : exists k, look m c = Some k /\ n_h x = n_h k + 1).
    { destruct (Nat.eqb_spec a b) as [->|].
      - injection LA as <-. destruct (K c IC) as (k & LK & E). exists k. rewrite EH. auto.
      - eauto. }
    destruct Q as (k & LK & E). destruct (Nat.eqb_spec c b) as [EQ|]; [subst c|eauto]. exists n'. split; auto. rewrite EH. congruence.
  Qed.

  Lemma heights_alloc : forall (m : heap) b n m', heights m -> alloc m b n = Some m' ->
    (forall c, In c (n_kids n) -> exists k, look m c = Some k /\ n_h n = n_h k + 1) -> heights m'.
  Proof.
    intros m b n m' H A K a x c LA IC. pose proof (alloc_none _ _ _ _ A) as NB. rewrite (look_alloc m b n m' a A) in LA. rewrite (look_alloc m b n m' c A).
    assert (Q : exists k, look m c = Some k /\ n_h x = n_h k + 1).
    { destruct (Nat.eqb_spec a b) as [EQ|]; [subst a; injection LA as <-; auto|eauto]. }
    destruct Q as (k & LK & E). destruct (Nat.eqb_spec c b) as [EQ|]; [subst c; congruence|eauto].
  Qed.

  Lemma keeps_put : forall (m : heap) b n n' cl, look m b = Some n -> body_eq n n' \/ In b cl -> keeps m (put m b n') cl.
  Proof.
    intros m b n n' cl L H a x LA U. rewrite (look_put m b n n' a L). destruct (Nat.eqb_spec a b) as [->|].
    - destruct H as [H|H]; [|contradiction]. exists n'. split; auto. congruence.
    - exists x. repeat split; auto.
  Qed.

  Lemma keeps_alloc : forall (m : heap) b n m' cl, alloc m b n = Some m' -> keeps m m' cl.
  Proof.
    intros m b n m' cl A a x LA U. rewrite (look_alloc m b n m' a A). pose proof (alloc_none _ _ _ _ A). destruct (Nat.eqb_spec a b) as [EQ|]; [subst a; congruence|].
    exists x. repeat split; auto.
  Qed.

  Lemma keeps_refl : forall (m : heap) cl, keeps m m cl.
  Proof. intros m cl a n L U. exists n. repeat split; auto. Qed.

  Lemma keeps_trans : forall (m1 m2 m3 : heap) cl, keeps m1 m2 cl -> keeps m2 m3 cl -> keeps m1 m3 cl.
  Proof.
    intros m1 m2 m3 cl A B a n L U. destruct (A a n L U) as (n' & L' & E1 & E2 & E3). destruct (B a n' L' U) as (n2 & L2 & F1 & F2 & F3). exists n2.
    repeat split; auto; congruence.
  Qed.

  (** ** Locks *)

  Lemma writes_uses : forall h (p : pc), writes h p = true -> uses h p = true.
  Proof. intros h [|h' is a|w|h' fr e|h' fr a fl old]; cbn; auto; discriminate. Qed.

  Lemma lock_same : forall (s : cstate) t (p p' : pc), inv s -> nth_error (c_threads s) t = Some p ->
    (forall h, writes h p' = true -> writes h p = true) -> (forall h, uses h p' = true -> uses h p = true) ->
    forall h t' q, other s t t' q -> (writes h p' = true -> uses h q = false) /\ (uses h p' = true -> writes h q = false).
  Proof.
    intros s t p p' I N W U h t' q [N' T]. split; intros X.
    - eapply (i_lock s I t p t' q); eauto.
    - destruct (writes h q) eqn:E; auto. pose proof (i_lock s I t' q t p h N' N T E). rewrite (U h X) in H. discriminate.
  Qed.

  Lemma existsb_other : forall (s : cstate) t f t' q, existsb f (c_threads s) = false -> other s t t' q -> f q = false.
  Proof.
    intros s t f t' q E [N _]. destruct (f q) eqn:F; auto. assert (existsb f (c_threads s) = true); [|congruence].
    apply existsb_exists. exists q. split; auto. eapply nth_error_In; eauto.
  Qed.

  Lemma uses_root : forall m hs (q : pc) h, tinv m hs q -> uses h q = true -> exists r, root hs h = Some r.
  Proof.
    assert (C : forall (m : heap) hs h fr a, chain m hs h fr a -> exists r, root hs h = Some r).
    { intros m hs h. induction fr as [|[q i] fr IH]; intros a X; cbn in X; [eauto|]. destruct X as [_ X]. eauto. }
    intros m hs q h T U. destruct q as [|h' is a|w|h' fr e|h' fr a fl old]; cbn [uses writes tinv] in *; try discriminate; apply Nat.eqb_eq in U; subst h'.
    - destruct T as (r & R & _). eauto.
    - destruct T as (_ & a & X & _). eauto.
    - destruct T as (_ & X & _). eauto.
  Qed.

  Lemma claim_live : forall (s : cstate) t (q : pc) a, inv s -> nth_error (c_threads s) t = Some q -> In a (claims q) -> exists n, look (c_mem s) a = Some n.
  Proof. intros s t q a I N C. destruct (claim_anchor s t q a I N C) as [(n & L & _)|((n & L & _) & _)]; eauto. Qed.

  Lemma new_unclaimed : forall (s : cstate) a, inv s -> look (c_mem s) a = None -> forall t q, nth_error (c_threads s) t = Some q -> ~ In a (claims q).
  Proof. intros s a I L t q N C. destruct (claim_live s t q a I N C). congruence. Qed.

  Lemma inv_same : forall (s : cstate) t (p : pc) m' hs', inv s -> nth_error (c_threads s) t = Some p -> local s t p m' hs' p ->
    inv {| c_mem := m'; c_handles := hs'; c_threads := c_threads s |}.
  Proof.
    intros s t p m' hs' I N L. pose proof (inv_step s t p m' hs' p I N L) as Q. rewrite (replace_same _ _ _ _ N) in Q. exact Q.
  Qed.

  (** ** An idle thread *)

  Lemma root_snoc : forall hs x h, h < length hs -> root (hs ++ [x]) h = root hs h.
  Proof. intros hs x h L. unfold root. rewrite nth_error_app1 by auto. reflexivity. Qed.

  Lemma root_lt : forall hs h r, root hs h = Some r -> h < length hs.
  Proof. intros hs h r H. apply root_nth in H. eapply nth_error_lt; eauto. Qed.

  Lemma keeps_root_snoc : forall (s : cstate) t x, inv s -> keeps_root s t (c_handles s ++ [x]).
  Proof.
    intros s t x I t' q h [N T] U. destruct (uses_root _ _ q h (i_thread s I t' q N) U) as (r & R). apply root_snoc. eapply root_lt; eauto.
  Qed.

  Lemma keeps_root_replace : forall (s : cstate) t h x, (forall t' q, other s t t' q -> uses h q = false) -> keeps_root s t (replace_at h x (c_handles s)).
  Proof.
    intros s t h x H t' q h' O U. unfold root. rewrite replace_nth_other; auto. intros <-. rewrite (H t' q O) in U. discriminate.
  Qed.

  Lemma root_owners_snoc : forall hs x a, root_owners (hs ++ [x]) a = root_owners hs a + match x with Some (Some r) => occ a [r] | _ => 0 end.
  Proof. intros. unfold root_owners. rewrite map_app, sum_app. cbn [map]. unfold sum at 2. cbn [fold_right]. lia. Qed.

  Lemma root_owners_replace : forall hs h x y a, nth_error hs h = Some x ->
    root_owners (replace_at h y hs) a + match x with Some (Some r) => occ a [r] | _ => 0 end =
    root_owners hs a + match y with Some (Some r) => occ a [r] | _ => 0 end.
  Proof. intros hs h x y a H. exact (sum_replace _ (fun o => match o with Some (Some r) => occ a [r] | _ => 0 end) h x y hs H). Qed.

  (** Steps that change neither memory nor handles. *)
  Lemma local_pc : forall (s : cstate) t (p p' : pc), inv s -> nth_error (c_threads s) t = Some p ->
    (forall a, occ a (in_hand p') = occ a (in_hand p)) -> (forall a, In a (dying p) -> In a (dying p')) -> NoDup (claims p') ->
    (forall a, In a (claims p') -> In a (claims p) \/ forall t' q, other s t t' q -> ~ In a (claims q)) ->
    tinv (c_mem s) (c_handles s) p' ->
    (forall h t' q, other s t t' q -> (writes h p' = true -> uses h q = false) /\ (uses h p' = true -> writes h q = false)) ->
    local s t p (c_mem s) (c_handles s) p'.
  Proof.
    intros s t p p' I N H DY ND NEW T LK. constructor; auto.
    - intros a n L Z. destruct (in_dec Nat.eq_dec a (dying p)) as [A|A]; [left; auto|right]. split; auto. exists n. auto.
    - apply (i_height s I).
    - apply keeps_refl.
    - intros t' q a c O C X. auto.
    - intros t' q h O U. auto.
  Qed.

  Lemma idle_snoc : forall (s : cstate) t, inv s -> nth_error (c_threads s) t = Some PIdle ->
    local s t PIdle (c_mem s) (c_handles s ++ [Some None]) PIdle.
  Proof.
    intros s t I N. constructor; cbn [in_hand claims dying frames tips tinv app]; auto.
    - intros a. rewrite root_owners_snoc. lia.
    - intros a n L Z. right. split; [exists n; auto|intros []].
    - constructor.
    - apply (i_height s I).
    - intros h t' q O. cbn. split; discriminate.
    - apply keeps_refl.
    - intros t' q a c O C X. auto.
    - apply keeps_root_snoc. auto.
  Qed.

  Lemma idle_new : forall (s : cstate) t h a d m, inv s -> nth_error (c_threads s) t = Some PIdle -> nth_error (c_handles s) h = Some (Some None) ->
    existsb (uses h) (c_threads s) = false -> alloc (c_mem s) a {| n_data := d; n_kids := []; n_cnt := 1; n_par := None; n_h := 0 |} = Some m ->
    local s t PIdle m (replace_at h (Some (Some a)) (c_handles s)) PIdle.
  Proof.
    intros s t h a d m I N H U A. pose proof (alloc_none _ _ _ _ A) as NA. constructor; cbn [in_hand claims dying frames tips tinv app]; auto.
    - intros x. rewrite (cnt_alloc _ _ _ _ x A), (kids_alloc _ _ _ _ x A). cbn [n_cnt n_kids].
      pose proof (root_owners_replace _ _ _ (Some (Some a)) x H) as Q. cbn beta iota in Q. rewrite occ_one in Q. rewrite occ_nil. rewrite Nat.eqb_sym in Q.
      destruct (Nat.eqb_spec x a) as [EQ|]; [subst x; rewrite (cnt_none _ _ NA)|]; lia.
    - intros x n L Z. right. split; [|intros []]. rewrite (look_alloc _ _ _ _ x A) in L. destruct (Nat.eqb_spec x a); [injection L as <-; discriminate|exists n; auto].
    - constructor.
    - eapply heights_alloc; eauto; [exact (i_height s I)|]. intros c [].
    - intros h' t' q O. cbn. split; discriminate.
    - eapply keeps_alloc; eauto.
    - intros t' q x c O C X. eapply has_alloc; eauto.
    - apply keeps_root_replace. intros t' q O. eapply existsb_other; eauto.
  Qed.

  Lemma idle_clone : forall (s : cstate) t h a n, inv s -> nth_error (c_threads s) t = Some PIdle -> nth_error (c_handles s) h = Some (Some (Some a)) ->
    existsb (writes h) (c_threads s) = false -> look (c_mem s) a = Some n ->
    local s t PIdle (put (c_mem s) a (with_cnt n (n_cnt n + 1))) (c_handles s ++ [Some (Some a)]) PIdle.
  Proof.
    intros s t h a n I N H U L.
    assert (R : refers s a (LRoot h)) by (cbn; unfold root; rewrite H; auto).
    destruct (refers_live s a _ I R) as (n0 & L0 & C0). rewrite L in L0. injection L0 as <-.
    constructor; cbn [in_hand claims dying frames tips tinv app]; auto.
    - intros x. rewrite (cnt_put _ _ _ _ x L), root_owners_snoc. pose proof (kids_put _ _ _ (with_cnt n (n_cnt n + 1)) x L) as Q. cbn [n_cnt n_kids with_cnt] in *.
      rewrite occ_one. rewrite (Nat.eqb_sym a x). destruct (Nat.eqb_spec x a) as [EQ|]; [subst x; rewrite (cnt_some _ _ _ L)|]; lia.
    - intros x k LX Z. right. split; [|intros []]. rewrite (look_put _ _ _ _ x L) in LX. destruct (Nat.eqb_spec x a).
      + injection LX as <-. cbn in Z. lia.
      + exists k. auto.
    - constructor.
    - eapply heights_put; eauto; [exact (i_height s I)|]. intros c IC. eapply (i_height s I); eauto.
    - intros h' t' q O. cbn. split; discriminate.
    - eapply keeps_put; eauto. left. repeat split.
    - intros t' q x c O C X. eapply has_put_other; eauto. intros ->. destruct O as [O1 O2].
      pose proof (sole s t' q a (LRoot h) I O1 C R) as W. cbn in W. assert (existsb (writes h) (c_threads s) = true); [|congruence].
      apply existsb_exists. exists q. split; auto. eapply nth_error_In; eauto.
    - apply keeps_root_snoc. auto.
  Qed.

  Lemma idle_drop : forall (s : cstate) t h r, inv s -> nth_error (c_threads s) t = Some PIdle -> nth_error (c_handles s) h = Some (Some r) ->
    existsb (uses h) (c_threads s) = false ->
    local s t PIdle (c_mem s) (replace_at h None (c_handles s)) (PDrop (match r with Some a => [WDec a] | None => [] end)).
  Proof.
    intros s t h r I N H U. constructor; auto.
    - intros a. pose proof (root_owners_replace _ _ _ None a H) as Q. cbn beta iota in Q. destruct r as [b|]; cbn [in_hand decs]; rewrite ?occ_nil; lia.
    - intros a n L Z. right. split; [exists n; auto|intros []].
    - destruct r; cbn; constructor.
    - intros a A. destruct r; cbn in A; contradiction.
    - apply (i_height s I).
    - destruct r; cbn; constructor.
    - intros h' t' q O. destruct r; cbn; split; discriminate.
    - apply keeps_refl.
    - intros t' q x c O C X. auto.
    - apply keeps_root_replace. intros t' q O. eapply existsb_other; eauto.
  Qed.

  Lemma idle_read : forall (s : cstate) t h a, inv s -> nth_error (c_threads s) t = Some PIdle -> nth_error (c_handles s) h = Some (Some (Some a)) ->
    existsb (writes h) (c_threads s) = false -> local s t PIdle (c_mem s) (c_handles s) (PRead h [] a).
  Proof.
    intros s t h a I N H U. apply local_pc; auto.
    - constructor.
    - cbn. exists a. unfold root. rewrite H. auto.
    - intros h' t' q O. cbn. split; [discriminate|]. intros E. apply Nat.eqb_eq in E. subst h'. eapply existsb_other; eauto.
  Qed.

  Lemma idle_insert : forall (s : cstate) t h a, inv s -> nth_error (c_threads s) t = Some PIdle -> nth_error (c_handles s) h = Some (Some (Some a)) ->
    existsb (uses h) (c_threads s) = false -> local s t PIdle (c_mem s) (c_handles s) (PEns h [] ELoad).
  Proof.
    intros s t h a I N H U. apply local_pc; auto.
    - constructor.
    - cbn. split; [constructor|]. exists a. unfold root. rewrite H. auto.
    - intros h' t' q O. cbn. split; intros E; apply Nat.eqb_eq in E; subst h'.
      + eapply existsb_other; eauto.
      + destruct (writes h q) eqn:W; auto. pose proof (existsb_other s t _ t' q U O) as X. rewrite (writes_uses _ _ W) in X. discriminate.
  Qed.

  (** ** A reader *)

  Lemma follow_app : forall (m : heap) is a i b c, follow m a is = Some b -> kid m b i = Some c -> follow m a (is ++ [i]) = Some c.
  Proof.
    intros m. induction is as [|j is IH]; intros a i b c F K; cbn in *.
    - injection F as ->. rewrite K. auto.
    - destruct (kid m a j); [eauto|discriminate].
  Qed.

  Lemma follow_live : forall (s : cstate) is a b n, inv s -> look (c_mem s) a = Some n -> follow (c_mem s) a is = Some b -> exists k, look (c_mem s) b = Some k.
  Proof.
    intros s. induction is as [|j is IH]; intros a b n I L F; cbn in *.
    - injection F as <-. eauto.
    - destruct (kid (c_mem s) a j) as [c|] eqn:K; [|discriminate]. destruct (refers_live s c _ I (kid_refers s a j c K)) as (k & LK & _). eauto.
  Qed.

  Lemma read_live : forall (s : cstate) t h is a, inv s -> nth_error (c_threads s) t = Some (PRead h is a) -> exists n, look (c_mem s) a = Some n.
  Proof.
    intros s t h is a I N. pose proof (i_thread s I t _ N) as T. cbn in T. destruct T as (r & R & F).
    destruct (refers_live s r (LRoot h) I R) as (k & L & _). eapply follow_live; eauto.
  Qed.

  Lemma read_down : forall (s : cstate) t h is a n i c, inv s -> nth_error (c_threads s) t = Some (PRead h is a) -> look (c_mem s) a = Some n ->
    nth_error (n_kids n) i = Some c -> local s t (PRead h is a) (c_mem s) (c_handles s) (PRead h (i :: is) c).
  Proof.
    intros s t h is a n i c I N L K. pose proof (i_thread s I t _ N) as T. cbn in T. destruct T as (r & R & F). apply local_pc; auto.
    - constructor.
    - cbn. exists r. split; auto. eapply follow_app; eauto. unfold kid. rewrite L. auto.
    - eapply lock_same; eauto.
  Qed.

  Lemma read_end : forall (s : cstate) t h is a, inv s -> nth_error (c_threads s) t = Some (PRead h is a) ->
    local s t (PRead h is a) (c_mem s) (c_handles s) PIdle.
  Proof.
    intros s t h is a I N. apply local_pc; auto.
    - constructor.
    - cbn. auto.
    - intros h' t' q O. cbn. split; discriminate.
  Qed.

  (** ** Giving back *)

  Record work_ok (m : heap) (w : work) (m' : heap) (ws : list work) : Prop := {
    w_cnt : forall a, cnt_at m' a + (kid_owners m a + occ a (decs [w])) = cnt_at m a + (kid_owners m' a + occ a (decs ws));
    w_zero : forall a n', look m' a = Some n' -> n_cnt n' = 0 -> In a (frees ws) \/ (has_cnt m 0 a /\ ~ In a (frees [w]));
    w_zeros : Forall (has_cnt m' 0) (frees ws);
    w_nodup : NoDup (frees ws);
    w_keeps : keeps m m' (frees [w]);
    w_same : forall a, (match w with WDec b | WFree b => b end) <> a -> look m' a = look m a;
    w_new : forall a, In a (frees ws) -> w = WDec a;
    w_heights : heights m'
  }.

  Lemma occ_decs_map : forall a l, occ a (decs (map WDec l)) = occ a l.
  Proof. intros a. induction l; cbn [map decs]; auto. rewrite !occ_cons. lia. Qed.
  Lemma frees_map : forall l, frees (map WDec l) = [].
  Proof. induction l; auto. Qed.
  Lemma decs_app : forall a b, decs (a ++ b) = decs a ++ decs b.
  Proof. induction a as [|[x|x] a IH]; intros; cbn; auto. rewrite IH. auto. Qed.
  Lemma frees_app : forall a b, frees (a ++ b) = frees a ++ frees b.
  Proof. induction a as [|[x|x] a IH]; intros; cbn; auto. rewrite IH. auto. Qed.

  Lemma work_step_ok : forall (s : cstate) w, inv s ->
    (forall b, w = WDec b -> exists l, refers s b l) -> (forall b, w = WFree b -> has_cnt (c_mem s) 0 b) ->
    exists m' ws, work_step (c_mem s) w = Some (m', ws) /\ work_ok (c_mem s) w m' ws.
  Proof.
    intros s w I HD HF. destruct w as [b|b].
    - destruct (HD b eq_refl) as (l & R). destruct (refers_live s b l I R) as (n & L & C1). cbn [work_step]. rewrite L.
      assert (P : forall c ws, n_cnt n = S c -> ws = (if c =? 0 then [WFree b] else []) -> work_ok (c_mem s) (WDec b) (put (c_mem s) b (with_cnt n c)) ws).
      { intros c ws C E. constructor.
        - intros a. rewrite (cnt_put _ _ _ _ a L). pose proof (kids_put _ _ _ (with_cnt n c) a L) as Q. cbn [n_kids n_cnt with_cnt decs] in *.
          rewrite occ_one, (Nat.eqb_sym b a). replace (occ a (decs ws)) with 0 by (subst ws; destruct (c =? 0); reflexivity).
          destruct (Nat.eqb_spec a b) as [EQ|]; [subst a; rewrite (cnt_some _ _ _ L)|]; lia.
        - intros a n' LA Z. rewrite (look_put _ _ _ _ a L) in LA. destruct (Nat.eqb_spec a b) as [->|].
          + injection LA as <-. cbn in Z. subst c ws. left. cbn. auto.
          + right. split; [exists n'; auto|]. cbn. tauto.
        - subst ws. destruct (Nat.eqb_spec c 0) as [->|]; constructor; [|constructor]. exists (with_cnt n 0). split; [|reflexivity]. rewrite (look_put _ _ _ _ b L), Nat.eqb_refl. auto.
        - subst ws. destruct (c =? 0); cbn; repeat constructor. intros [].
        - eapply keeps_put; eauto. left. repeat split.
        - intros a NE. rewrite (look_put _ _ _ _ a L). destruct (Nat.eqb_spec a b); congruence.
        - intros a A. subst ws. destruct (c =? 0); cbn in A; [destruct A as [->|[]]; auto|contradiction].
        - eapply heights_put; eauto; [exact (i_height s I)|]. intros c' IC. eapply (i_height s I); eauto. }
      destruct (n_cnt n) as [|[|c]] eqn:E; [lia| |]; do 2 eexists; (split; [reflexivity|]); apply P; auto.
    - destruct (HF b eq_refl) as (n & L & Z). cbn [work_step]. rewrite L. do 2 eexists. split; [reflexivity|]. constructor.
      + intros a. rewrite (cnt_free _ _ _ a L), occ_decs_map. pose proof (kids_free _ _ _ a L) as Q. cbn [decs]. rewrite occ_nil.
        destruct (Nat.eqb_spec a b) as [EQ|]; [subst a; rewrite (cnt_some _ _ _ L)|]; lia.
      + intros a n' LA ZA. rewrite (look_free _ _ _ a L) in LA. destruct (Nat.eqb_spec a b) as [EQ|NE]; [subst a; discriminate|]. right. split; [exists n'; auto|]. cbn. intros [A|[]]. congruence.
      + rewrite frees_map. constructor.
      + rewrite frees_map. constructor.
      + intros a x LA U. rewrite (look_free _ _ _ a L). destruct (Nat.eqb_spec a b) as [EQ|NE]; [subst a; exfalso; apply U; cbn; auto|]. exists x. repeat split; auto.
      + intros a NE. rewrite (look_free _ _ _ a L). destruct (Nat.eqb_spec a b); congruence.
      + intros a A. rewrite frees_map in A. contradiction.
      + intros a x c LA IC. rewrite (look_free _ _ _ a L) in LA. destruct (Nat.eqb_spec a b) as [EQ|NE]; [subst a; discriminate|].
        destruct (i_height s I a x c LA IC) as (k & LK & EH). rewrite (look_free _ _ _ c L). destruct (Nat.eqb_spec c b) as [EQ|]; [subst c|eauto].
        exfalso. eapply (refers_zero s b (LKid a) I); [exists n; auto|]. cbn. eauto.
  Qed.
End R.
