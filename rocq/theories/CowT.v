(** Proofs about copy on write: changing nodes, and every step. *)
From Coq Require Import List Arith Bool Lia Permutation.
From Verif Require Import Base ListFacts Cow CowSpec CowP CowQ CowR CowS.
Import ListNotations.

Section T.
  Context {D : Type}.
  Notation heap := (heap D).
  Notation cnode := (cnode D).
  Notation pc := (pc D).
  Notation cstate := (cstate D).

  (** Memory in which no count of an old node is different, and new nodes have count one. *)
  Record mild (m m' : heap) : Prop := {
    mi_old : forall x n, look m x = Some n -> exists n', look m' x = Some n' /\ n_cnt n' = n_cnt n;
    mi_new : forall x n', look m' x = Some n' -> (exists n, look m x = Some n /\ n_cnt n = n_cnt n') \/ (look m x = None /\ n_cnt n' = 1)
  }.

  Lemma mild_refl : forall m, mild m m.
  Proof. intros m. constructor; eauto. Qed.
  Lemma mild_put : forall m b n n', look m b = Some n -> n_cnt n' = n_cnt n -> mild m (put m b n').
  Proof.
    intros m b n n' L E. constructor; intros x k K.
    - rewrite (look_put _ _ _ _ x L). destruct (Nat.eqb_spec x b) as [Q|]; [subst x; exists n'; split; auto; congruence|eauto].
    - rewrite (look_put _ _ _ _ x L) in K. left. destruct (Nat.eqb_spec x b) as [Q|]; [subst x; injection K as <-; eauto|eauto].
  Qed.
  Lemma mild_alloc : forall m b n m', alloc m b n = Some m' -> n_cnt n = 1 -> mild m m'.
  Proof.
    intros m b n m' A E. pose proof (alloc_none _ _ _ _ A) as NA. constructor; intros x k K.
    - rewrite (look_alloc _ _ _ _ x A). destruct (Nat.eqb_spec x b) as [Q|]; [congruence|eauto].
    - rewrite (look_alloc _ _ _ _ x A) in K. destruct (Nat.eqb_spec x b) as [Q|]; [right; subst x; injection K as <-; auto|left; eauto].
  Qed.
  Lemma mild_trans : forall m1 m2 m3, mild m1 m2 -> mild m2 m3 -> mild m1 m3.
  Proof.
    intros m1 m2 m3 A B. constructor.
    - intros x n L. destruct (mi_old _ _ A x n L) as (n2 & L2 & E2). destruct (mi_old _ _ B x n2 L2) as (n3 & L3 & E3). exists n3. split; auto. congruence.
    - intros x n3 L3. destruct (mi_new _ _ B x n3 L3) as [(n2 & L2 & E2)|[L2 E2]].
      + destruct (mi_new _ _ A x n2 L2) as [(n1 & L1 & E1)|[L1 E1]]; [left; exists n1; split; auto; congruence|right; split; auto; congruence].
      + right. split; auto. destruct (look m1 x) as [n1|] eqn:L1; auto. destruct (mi_old _ _ A x n1 L1) as (n2 & L2' & _). congruence.
  Qed.
  Lemma mild_has : forall m m' c a, mild m m' -> has_cnt m c a -> has_cnt m' c a.
  Proof. intros m m' c a M (n & L & E). destruct (mi_old _ _ M a n L) as (n' & L' & E'). exists n'. split; auto. congruence. Qed.

  Lemma at_tinv : forall (s : cstate) t h fr a fl old, inv s -> nth_error (c_threads s) t = Some (PAt h fr a fl old) ->
    Forall (has_cnt (c_mem s) 1) (map fst fr) /\ chain (c_mem s) (c_handles s) h fr a /\ has_cnt (c_mem s) 1 a /\ Forall (has_cnt (c_mem s) 1) fl /\
    NoDup (map fst fr ++ a :: fl).
  Proof.
    intros s t h fr a fl old I N. pose proof (i_thread s I t _ N) as T. cbn [tinv] in T. destruct T as (F & C & H & FL). repeat split; auto. exact (i_own s I t _ N).
  Qed.

  Lemma at_local : forall (s : cstate) t h fr a fl old m' hs' fr' a' fl' old', inv s -> nth_error (c_threads s) t = Some (PAt h fr a fl old) ->
    mild (c_mem s) m' ->
    (forall x, cnt_at m' x + (root_owners (c_handles s) x + kid_owners (c_mem s) x + occ x (fl ++ old)) =
               cnt_at (c_mem s) x + (root_owners hs' x + kid_owners m' x + occ x (fl' ++ old'))) ->
    NoDup (map fst fr' ++ a' :: fl') ->
    (forall x, In x (map fst fr' ++ a' :: fl') -> In x (map fst fr ++ a :: fl) \/ (look (c_mem s) x = None /\ look m' x <> None)) ->
    heights m' -> chain m' hs' h fr' a' ->
    keeps (c_mem s) m' (map fst fr ++ a :: fl) -> keeps_root s t hs' ->
    local s t (PAt h fr a fl old) m' hs' (PAt h fr' a' fl' old').
  Proof.
    intros s t h fr a fl old m' hs' fr' a' fl' old' I N M CNT ND NEW H C K KR. destruct (at_tinv s t h fr a fl old I N) as (F & C0 & H1 & FL & ND0).
    assert (ONE : forall x, In x (map fst fr' ++ a' :: fl') -> has_cnt m' 1 x).
    { intros x X. destruct (NEW x X) as [Y|[Y Z]].
      - eapply mild_has; eauto. rewrite Forall_forall in F, FL. apply in_app_or in Y. cbn in Y. destruct Y as [Y|[<-|Y]]; auto.
      - destruct (look m' x) as [n'|] eqn:L; [|congruence]. destruct (mi_new _ _ M x n' L) as [(n & L' & E)|[_ E]]; [congruence|]. exists n'. auto. }
    constructor; auto.
    - intros x n' L Z. right. split; [|intros []]. destruct (mi_new _ _ M x n' L) as [(n & L' & E)|[_ E]]; [exists n; split; auto; congruence|congruence].
    - intros x X. destruct (NEW x X) as [Y|[Y _]]; [left; exact Y|]. right. intros t' q [O _]. apply (new_unclaimed s x I Y t' q O).
    - cbn [tinv]. repeat split; auto.
      + apply Forall_forall. intros x X. apply ONE. apply in_or_app. auto.
      + apply ONE. apply in_or_app. cbn. auto.
      + apply Forall_forall. intros x X. apply ONE. apply in_or_app. cbn. auto.
    - eapply lock_same; eauto.
    - intros t' q x c O CQ X. eapply mild_has; eauto.
  Qed.

  Lemma remove_perm : forall A (l : list A) j x, nth_error l j = Some x -> Permutation l (x :: remove_nth j l).
  Proof. intros A l j x H. rewrite (remove_split _ _ _ _ H) at 1. unfold remove_nth. symmetry. apply Permutation_middle. Qed.

  Lemma nodup_remove : forall A (u : list A) (a : A) l j x, nth_error l j = Some x -> NoDup (u ++ a :: l) -> NoDup (u ++ a :: remove_nth j l) /\ ~ In x (u ++ a :: remove_nth j l).
  Proof.
    intros A u a l j x H ND. assert (P : Permutation (u ++ a :: l) (x :: u ++ a :: remove_nth j l)).
    { rewrite (remove_perm _ _ _ _ H) at 1. rewrite perm_swap. symmetry. apply Permutation_middle. }
    apply (Permutation_NoDup P) in ND. inversion ND; subst. auto.
  Qed.

  Lemma in_remove_at : forall A (u : list A) (a : A) l j x, In x (u ++ a :: remove_nth j l) -> In x (u ++ a :: l).
  Proof. intros A u a l j x X. apply in_app_or in X. apply in_or_app. destruct X as [X|[X|X]]; [left; auto|right; left; auto|right; right]. eapply in_remove; eauto. Qed.

  Lemma at_in : forall a fl tg b (u : list addr), pick a fl tg = Some b -> In b (u ++ a :: fl).
  Proof. intros a fl [|j] b u H; cbn in H; apply in_or_app; right; [injection H as ->; left; auto|right; eapply nth_error_In; eauto]. Qed.

  Lemma at_notframe : forall (u : list addr) a fl b, NoDup (u ++ a :: fl) -> In b (a :: fl) -> ~ In b u.
  Proof. intros u a fl b ND X Y. apply nodup_app_inv in ND. destruct ND as (_ & _ & ND). eapply ND; eauto. Qed.

  Lemma pick_in : forall a fl tg b, pick a fl tg = Some b -> In b (a :: fl).
  Proof. intros a fl [|j] b H; cbn in H; [injection H as ->; left; auto|right; eapply nth_error_In; eauto]. Qed.

  (** The chain is as before if the node written is not in it. *)
  Lemma chain_put : forall (s : cstate) h fr a b n n' , chain (c_mem s) (c_handles s) h fr a -> look (c_mem s) b = Some n -> ~ In b (map fst fr) ->
    chain (put (c_mem s) b n') (c_handles s) h fr a.
  Proof.
    intros s h fr a b n n' C L U. eapply chain_keeps; [exact C| |auto]. intros q k Q LQ. rewrite (look_put _ _ _ _ q L).
    destruct (Nat.eqb_spec q b) as [E|]; [subst q; contradiction|eauto].
  Qed.

  Lemma write_local : forall (s : cstate) t h fr a fl old tg b nb d, inv s -> nth_error (c_threads s) t = Some (PAt h fr a fl old) ->
    pick a fl tg = Some b -> look (c_mem s) b = Some nb ->
    local s t (PAt h fr a fl old) (put (c_mem s) b (with_body nb d (n_kids nb))) (c_handles s) (PAt h fr a fl old).
  Proof.
    intros s t h fr a fl old tg b nb d I N P L. destruct (at_tinv s t h fr a fl old I N) as (F & C0 & H1 & FL & ND0). pose proof (pick_in _ _ _ _ P) as IB.
    apply at_local; auto.
    - eapply mild_put; eauto.
    - intros x. rewrite (cnt_put _ _ _ _ x L). pose proof (kids_put _ _ _ (with_body nb d (n_kids nb)) x L) as Q. cbn [n_kids n_cnt with_body] in *.
      destruct (Nat.eqb_spec x b) as [E|]; [subst x; rewrite (cnt_some _ _ _ L)|]; lia.
    - eapply heights_put; eauto; [exact (i_height s I)|]. intros c IC. eapply (i_height s I); eauto.
    - eapply chain_put; eauto. eapply at_notframe; eauto.
    - eapply keeps_put; eauto. right. apply in_or_app. auto.
    - intros t' q h' O U. auto.
  Qed.

  Lemma split_local : forall (s : cstate) t h fr a fl old n m d d' new mm, inv s -> nth_error (c_threads s) t = Some (PAt h fr a fl old) ->
    look (c_mem s) a = Some n ->
    alloc (c_mem s) new {| n_data := d'; n_kids := skipn (m + 1) (n_kids n); n_cnt := 1; n_par := None; n_h := n_h n |} = Some mm ->
    local s t (PAt h fr a fl old) (put mm a (with_body n d (firstn (m + 1) (n_kids n)))) (c_handles s) (PAt h fr a (fl ++ [new]) old).
  Proof.
    intros s t h fr a fl old n m d d' new mm I N L A. destruct (at_tinv s t h fr a fl old I N) as (F & C0 & H1 & FL & ND0).
    pose proof (alloc_none _ _ _ _ A) as NA. assert (NE : a <> new) by congruence.
    assert (LA : look mm a = Some n) by (rewrite (look_alloc _ _ _ _ a A); destruct (Nat.eqb_spec a new); congruence).
    assert (H0 : heights mm).
    { eapply heights_alloc; eauto; [exact (i_height s I)|]. cbn [n_kids n_h]. intros c IC. eapply (i_height s I); eauto. rewrite <- (firstn_skipn (m + 1)). apply in_or_app. auto. }
    assert (UN : ~ In new (map fst fr ++ a :: fl)) by (exact (new_unclaimed s new I NA t _ N)).
    apply at_local; auto.
    - eapply mild_trans; [eapply mild_alloc; eauto|eapply mild_put; eauto].
    - intros x. rewrite (cnt_put _ _ _ _ x LA), (cnt_alloc _ _ _ _ x A). pose proof (kids_put _ _ _ (with_body n d (firstn (m + 1) (n_kids n))) x LA) as Q.
      rewrite (kids_alloc _ _ _ _ x A) in Q. cbn [n_kids n_cnt with_body] in *. rewrite <- (firstn_skipn (m + 1) (n_kids n)) in Q at 2. rewrite !occ_app, occ_one in *.
      rewrite (Nat.eqb_sym new x). destruct (Nat.eqb_spec x a) as [E|]; [subst x; rewrite (cnt_some _ _ _ L); destruct (Nat.eqb_spec a new); [congruence|]; lia|].
      destruct (Nat.eqb_spec x new) as [E|]; [subst x; rewrite (cnt_none _ _ NA)|]; lia.
    - rewrite app_comm_cons, app_assoc. apply nodup_app; auto; [repeat constructor; intros []|]. intros x X [<-|[]]. auto.
    - intros x X. rewrite app_comm_cons, app_assoc in X. apply in_app_or in X. destruct X as [X|[<-|[]]]; auto. right. split; auto.
      rewrite (look_put _ _ _ _ new LA). destruct (Nat.eqb_spec new a); [congruence|]. rewrite (look_alloc _ _ _ _ new A), Nat.eqb_refl. discriminate.
    - eapply heights_put; eauto. cbn [with_body n_kids]. intros c IC. eapply (H0 a n c LA). rewrite <- (firstn_skipn (m + 1)). apply in_or_app. auto.
    - eapply chain_keeps; [exact C0| |auto]. intros q k Q LQ. rewrite (look_put _ _ _ _ q LA). destruct (Nat.eqb_spec q a) as [E|].
      + subst q. exfalso. eapply (at_notframe (map fst fr) a fl a); eauto. left. auto.
      + exists k. split; auto. rewrite (look_alloc _ _ _ _ q A). destruct (Nat.eqb_spec q new); [congruence|auto].
    - eapply keeps_trans; [eapply keeps_alloc; eauto|eapply keeps_put; eauto]. right. apply in_or_app. cbn. auto.
    - intros t' q h' O U. auto.
  Qed.

  Lemma hand_live : forall (s : cstate) t (p : pc) c, inv s -> nth_error (c_threads s) t = Some p -> In c (in_hand p) -> exists n, look (c_mem s) c = Some n /\ 1 <= n_cnt n.
  Proof. intros s t p c I N C. eapply (refers_live s c (LHand t)); eauto. exists p. auto. Qed.

  Lemma attach_local : forall (s : cstate) t h fr a fl old tg b c nb nc k r d, inv s -> nth_error (c_threads s) t = Some (PAt h fr a fl old) ->
    pick a fl tg = Some b -> nth_error fl r = Some c -> look (c_mem s) b = Some nb -> look (c_mem s) c = Some nc ->
    n_h nb = n_h nc + 1 ->
    local s t (PAt h fr a fl old) (put (c_mem s) b (with_body nb d (insert_at k c (n_kids nb)))) (c_handles s) (PAt h fr a (remove_nth r fl) old).
  Proof.
    intros s t h fr a fl old tg b c nb nc k r d I N P R L LC EH. destruct (at_tinv s t h fr a fl old I N) as (F & C0 & H1 & FL & ND0).
    pose proof (pick_in _ _ _ _ P) as IB. apply at_local; auto.
    - eapply mild_put; eauto.
    - intros x. rewrite (cnt_put _ _ _ _ x L). pose proof (kids_put _ _ _ (with_body nb d (insert_at k c (n_kids nb))) x L) as Q. cbn [n_kids n_cnt with_body] in *.
      pose proof (occ_insert (n_kids nb) k c x) as Q2. pose proof (occ_remove fl r c x R) as Q3. rewrite !occ_app.
      destruct (Nat.eqb_spec x b) as [E|]; [subst x; rewrite (cnt_some _ _ _ L)|]; lia.
    - eapply nodup_remove; eauto.
    - intros x X. left. eapply in_remove_at; eauto.
    - eapply heights_put; eauto; [exact (i_height s I)|]. cbn [with_body n_kids]. intros x IC. unfold insert_at in IC. apply in_app_or in IC. destruct IC as [IC|[<-|IC]].
      + eapply (i_height s I); eauto. rewrite <- (firstn_skipn k). apply in_or_app. auto.
      + eauto.
      + eapply (i_height s I); eauto. rewrite <- (firstn_skipn k). apply in_or_app. auto.
    - eapply chain_put; eauto. eapply at_notframe; eauto.
    - eapply keeps_put; eauto. right. apply in_or_app. auto.
    - intros t' q h' O U. auto.
  Qed.

  Lemma first_local : forall (s : cstate) t h fr a fl old j r b c nb nc x ks, inv s -> nth_error (c_threads s) t = Some (PAt h fr a fl old) ->
    nth_error fl j = Some b -> nth_error fl r = Some c -> look (c_mem s) b = Some nb -> look (c_mem s) c = Some nc ->
    n_kids nb = x :: ks -> b <> c -> n_h nb = n_h nc + 1 ->
    local s t (PAt h fr a fl old) (put (put (c_mem s) b (with_body nb (n_data nb) (c :: ks))) c (with_par nc (Some (b, 0)))) (c_handles s)
          (PAt h fr a (remove_nth r fl) (old ++ [x])).
  Proof.
    intros s t h fr a fl old j r b c nb nc x ks I N J R L LC K NE EH. destruct (at_tinv s t h fr a fl old I N) as (F & C0 & H1 & FL & ND0).
    assert (IB : In b (a :: fl)) by (right; eapply nth_error_In; eauto). assert (ICC : In c (a :: fl)) by (right; eapply nth_error_In; eauto).
    assert (LC' : look (put (c_mem s) b (with_body nb (n_data nb) (c :: ks))) c = Some nc).
    { rewrite (look_put _ _ _ _ c L). destruct (Nat.eqb_spec c b); congruence. }
    assert (H0 : heights (put (c_mem s) b (with_body nb (n_data nb) (c :: ks)))).
    { eapply heights_put; eauto; [exact (i_height s I)|]. cbn [with_body n_kids]. intros y [<-|Y]; [eauto|]. eapply (i_height s I); eauto. rewrite K. right. auto. }
    apply at_local; auto.
    - eapply mild_trans; [|eapply mild_put; [exact LC'|reflexivity]]. eapply mild_put; [exact L|reflexivity].
    - intros y. rewrite (cnt_put _ _ _ _ y LC'), (cnt_put _ _ _ _ y L). pose proof (kids_put _ _ _ (with_par nc (Some (b, 0))) y LC') as Q.
      pose proof (kids_put _ _ _ (with_body nb (n_data nb) (c :: ks)) y L) as Q1. cbn [n_kids n_cnt with_body with_par] in *.
      pose proof (occ_remove fl r c y R) as Q3. rewrite K in Q1. rewrite !occ_app, !occ_cons, !occ_nil in *.
      destruct (Nat.eqb_spec y c) as [E|]; [subst y; rewrite (cnt_some _ _ _ LC); lia|].
      destruct (Nat.eqb_spec y b) as [E|]; [subst y; rewrite (cnt_some _ _ _ L)|]; lia.
    - eapply nodup_remove; eauto.
    - intros y Y. left. eapply in_remove_at; eauto.
    - eapply heights_put; eauto.
    - eapply chain_keeps; [exact C0| |auto]. intros q k Q LQ. rewrite (look_put _ _ _ _ q LC'), (look_put _ _ _ _ q L).
      destruct (Nat.eqb_spec q c) as [E|]; [subst q; exfalso; exact (at_notframe _ _ _ _ ND0 ICC Q)|]. destruct (Nat.eqb_spec q b) as [E|]; [subst q; exfalso; exact (at_notframe _ _ _ _ ND0 IB Q)|eauto].
    - eapply keeps_trans; [|eapply keeps_put; [exact LC'|right; apply in_or_app; auto]]. eapply keeps_put; [exact L|right; apply in_or_app; auto].
    - intros t' q h' O U. auto.
  Qed.

  Lemma push_local : forall (s : cstate) t h fr a fl old n c b nb d, inv s -> nth_error (c_threads s) t = Some (PAt h fr a fl old) ->
    look (c_mem s) a = Some n -> nth_error old c = Some b -> look (c_mem s) b = Some nb -> n_h n = n_h nb + 1 ->
    local s t (PAt h fr a fl old) (put (c_mem s) a (with_body n d (n_kids n ++ [b]))) (c_handles s) (PAt h fr a fl (remove_nth c old)).
  Proof.
    intros s t h fr a fl old n c b nb d I N L R LB EH. destruct (at_tinv s t h fr a fl old I N) as (F & C0 & H1 & FL & ND0).
    apply at_local; auto.
    - eapply mild_put; eauto.
    - intros x. rewrite (cnt_put _ _ _ _ x L). pose proof (kids_put _ _ _ (with_body n d (n_kids n ++ [b])) x L) as Q. cbn [n_kids n_cnt with_body] in *.
      pose proof (occ_remove old c b x R) as Q3. rewrite !occ_app in *.
      destruct (Nat.eqb_spec x a) as [E|]; [subst x; rewrite (cnt_some _ _ _ L)|]; lia.
    - eapply heights_put; eauto; [exact (i_height s I)|]. cbn [with_body n_kids]. intros x IC. apply in_app_or in IC. destruct IC as [IC|[<-|[]]]; [|eauto]. eapply (i_height s I); eauto.
    - eapply chain_put; eauto. eapply at_notframe; eauto. left. auto.
    - eapply keeps_put; eauto. right. apply in_or_app. cbn. auto.
    - intros t' q h' O U. auto.
  Qed.

  Lemma root_local : forall (s : cstate) t h a fl old n r b nb new d m, inv s -> nth_error (c_threads s) t = Some (PAt h [] a fl old) ->
    look (c_mem s) a = Some n -> nth_error fl r = Some b -> look (c_mem s) b = Some nb -> n_h nb = n_h n ->
    alloc (put (put (c_mem s) a (with_par n (Some (new, 0)))) b (with_par nb (Some (new, 1)))) new
      {| n_data := d; n_kids := [a; b]; n_cnt := 1; n_par := None; n_h := n_h n + 1 |} = Some m ->
    local s t (PAt h [] a fl old) m (replace_at h (Some (Some new)) (c_handles s)) (PAt h [] new (remove_nth r fl) old).
  Proof.
    intros s t h a fl old n r b nb new d m I N L R LB EH A. destruct (at_tinv s t h [] a fl old I N) as (F & C0 & H1 & FL & ND0).
    cbn [map app chain] in *. assert (NE : b <> a). { intros ->. inversion ND0; subst. apply H2. eapply nth_error_In; eauto. }
    assert (LB' : look (put (c_mem s) a (with_par n (Some (new, 0)))) b = Some nb). { rewrite (look_put _ _ _ _ b L). destruct (Nat.eqb_spec b a); congruence. }
    pose proof (alloc_none _ _ _ _ A) as NA'.
    assert (NA : look (c_mem s) new = None).
    { rewrite (look_put _ _ _ _ new LB'), (look_put _ _ _ _ new L) in NA'. destruct (new =? b); [discriminate|]. destruct (new =? a); [discriminate|auto]. }
    assert (UN : ~ In new (a :: fl)) by (exact (new_unclaimed s new I NA t _ N)).
    set (m1 := put (c_mem s) a (with_par n (Some (new, 0)))) in *. set (m2 := put m1 b (with_par nb (Some (new, 1)))) in *.
    assert (H1' : heights m1). { eapply heights_put; eauto; [exact (i_height s I)|]. cbn [with_par n_kids]. intros y Y. eapply (i_height s I); eauto. }
    assert (H2' : heights m2). { eapply heights_put; eauto. }
    pose proof (root_nth _ _ _ C0) as RN. apply at_local; auto.
    - eapply mild_trans; [|eapply mild_alloc; [exact A|reflexivity]]. eapply mild_trans; [|eapply mild_put; [exact LB'|reflexivity]]. eapply mild_put; [exact L|reflexivity].
    - intros x. rewrite (cnt_alloc _ _ _ _ x A), (kids_alloc _ _ _ _ x A). unfold m2 at 1. rewrite (cnt_put _ _ _ _ x LB'). unfold m1 at 1. rewrite (cnt_put _ _ _ _ x L).
      pose proof (kids_put _ _ _ (with_par nb (Some (new, 1))) x LB') as Q. pose proof (kids_put _ _ _ (with_par n (Some (new, 0))) x L) as Q1. fold m2 in Q. fold m1 in Q1.
      cbn [n_kids n_cnt with_body with_par] in *. pose proof (occ_remove fl r b x R) as Q3. pose proof (root_owners_replace _ _ _ (Some (Some new)) x RN) as Q4. cbn beta iota in Q4.
      rewrite !occ_app, !occ_cons, !occ_nil in *. rewrite (Nat.eqb_sym new x) in *.
      destruct (Nat.eqb_spec x new) as [E|]; [subst x; rewrite (cnt_none _ _ NA); lia|].
      destruct (Nat.eqb_spec x b) as [E|]; [subst x; rewrite (cnt_some _ _ _ LB); lia|].
      destruct (Nat.eqb_spec x a) as [E|]; [subst x; rewrite (cnt_some _ _ _ L)|]; lia.
    - cbn [map app]. constructor; [|].
      + intros X. apply UN. right. eapply in_remove; eauto.
      + inversion ND0; subst. eapply (nodup_remove _ [] a fl r b R) in ND0. destruct ND0 as [ND0 _]. cbn in ND0. inversion ND0; auto.
    - cbn [map app]. intros x [<-|X].
      + right. split; auto. rewrite (look_alloc _ _ _ _ new A), Nat.eqb_refl. discriminate.
      + left. right. eapply in_remove; eauto.
    - eapply heights_alloc; eauto. cbn [n_kids n_h]. intros y [<-|[<-|[]]].
      + exists (with_par n (Some (new, 0))). split; auto. unfold m2. rewrite (look_put _ _ _ _ a LB'). destruct (Nat.eqb_spec a b); [congruence|]. unfold m1. rewrite (look_put _ _ _ _ a L), Nat.eqb_refl. auto.
      + exists (with_par nb (Some (new, 1))). split; [|cbn; lia]. unfold m2. rewrite (look_put _ _ _ _ b LB'), Nat.eqb_refl. auto.
    - cbn [chain]. unfold root. rewrite replace_nth_same; auto. eapply nth_error_lt; eauto.
    - cbn [map app]. eapply keeps_trans; [|eapply keeps_alloc; exact A]. eapply keeps_trans; [|eapply keeps_put; [exact LB'|left; repeat split]]. eapply keeps_put; [exact L|left; repeat split].
    - apply keeps_root_replace. intros t' q [O1 O2]. apply (i_lock s I t _ t' q h N O1); [congruence|]. cbn. apply Nat.eqb_refl.
  Qed.

  Lemma fix_local : forall (s : cstate) t h fr a fl old c nc pr, inv s -> nth_error (c_threads s) t = Some (PAt h fr a fl old) ->
    look (c_mem s) c = Some nc ->
    local s t (PAt h fr a fl old) (put (c_mem s) c (with_par nc pr)) (c_handles s) (PAt h fr a fl old).
  Proof.
    intros s t h fr a fl old c nc pr I N L. destruct (at_tinv s t h fr a fl old I N) as (F & C0 & H1 & FL & ND0).
    apply at_local; auto.
    - eapply mild_put; eauto.
    - intros x. rewrite (cnt_put _ _ _ _ x L). pose proof (kids_put _ _ _ (with_par nc pr) x L) as Q. cbn [n_kids n_cnt with_par] in *.
      destruct (Nat.eqb_spec x c) as [E|]; [subst x; rewrite (cnt_some _ _ _ L)|]; lia.
    - eapply heights_put; eauto; [exact (i_height s I)|]. intros y IC. eapply (i_height s I); eauto.
    - eapply chain_keeps; [exact C0| |auto]. intros q k Q LQ. rewrite (look_put _ _ _ _ q L). destruct (Nat.eqb_spec q c) as [E|]; [|eauto].
      subst q. rewrite L in LQ. injection LQ as <-. eauto.
    - eapply keeps_put; eauto. left. repeat split.
    - intros t' q h' O U. auto.
  Qed.

  Lemma up_local : forall (s : cstate) t h q i fr a fl old, inv s -> nth_error (c_threads s) t = Some (PAt h ((q, i) :: fr) a fl old) ->
    local s t (PAt h ((q, i) :: fr) a fl old) (c_mem s) (c_handles s) (PAt h fr q fl old).
  Proof.
    intros s t h q i fr a fl old I N. destruct (at_tinv s t h _ a fl old I N) as (F & C0 & H1 & FL & ND0). cbn [map fst app chain] in *.
    apply at_local; auto; try (intros; lia).
    - apply mild_refl.
    - eapply Permutation_NoDup; [apply Permutation_middle|]. rewrite app_comm_cons in ND0. apply nodup_app_inv in ND0. destruct ND0 as (N1 & N2 & N3).
      rewrite app_comm_cons. apply nodup_app; auto; [inversion N2; auto|]. intros x X Y. apply (N3 x X). right. auto.
    - intros x X. left. cbn [map fst app]. apply in_app_or in X. cbn in X. destruct X as [X|[X|X]]; [right; apply in_or_app; auto|left; auto|right; apply in_or_app; right; right; auto].
    - exact (i_height s I).
    - apply C0.
    - apply keeps_refl.
    - intros t' q' h' O U. auto.
  Qed.

  Lemma child_local : forall (s : cstate) t h fr a n i, inv s -> nth_error (c_threads s) t = Some (PAt h fr a [] []) -> look (c_mem s) a = Some n ->
    i < length (n_kids n) -> local s t (PAt h fr a [] []) (c_mem s) (c_handles s) (PEns h ((a, i) :: fr) ELoad).
  Proof.
    intros s t h fr a n i I N L LT. destruct (at_tinv s t h _ a _ _ I N) as (F & C0 & H1 & FL & ND0).
    assert (P : Permutation (map fst fr ++ [a]) (a :: map fst fr)) by (symmetry; apply Permutation_cons_append).
    apply local_pc; auto.
    - unfold claims. cbn [dying frames tips app map fst]. rewrite app_nil_r. eapply Permutation_NoDup; [exact P|auto].
    - unfold claims. cbn [dying frames tips app map fst]. rewrite app_nil_r. intros x X. left. eapply Permutation_in; [symmetry; exact P|auto].
    - cbn [tinv map fst]. split; [constructor; auto|]. destruct (nth_error (n_kids n) i) as [c|] eqn:K; [|apply nth_error_None in K; lia].
      exists c. split; auto. cbn [chain]. split; auto. unfold kid. rewrite L. auto.
    - eapply lock_same; eauto.
  Qed.

  Lemma abort_local : forall (s : cstate) t h fr a fl old, inv s -> nth_error (c_threads s) t = Some (PAt h fr a fl old) ->
    local s t (PAt h fr a fl old) (c_mem s) (c_handles s) (PDrop (map WDec (fl ++ old))).
  Proof.
    intros s t h fr a fl old I N. apply local_pc; auto.
    - intros x. cbn [in_hand]. apply occ_decs_map.
    - intros x [].
    - unfold claims. cbn [dying frames tips]. rewrite frees_map. constructor.
    - unfold claims. cbn [dying frames tips]. rewrite frees_map. intros x [].
    - cbn [tinv]. rewrite frees_map. constructor.
    - eapply lock_same; eauto; cbn; discriminate.
  Qed.

  Lemma idle_local : forall (s : cstate) t (p : pc), inv s -> nth_error (c_threads s) t = Some p -> in_hand p = [] -> dying p = [] ->
    local s t p (c_mem s) (c_handles s) PIdle.
  Proof.
    intros s t p I N H1 H2. apply local_pc; auto.
    - intros x. rewrite H1. auto.
    - rewrite H2. intros x [].
    - constructor.
    - exact Logic.I.
    - eapply lock_same; eauto; cbn; discriminate.
  Qed.

  Lemma ework_done : forall (s : cstate) t h fr a, inv s -> nth_error (c_threads s) t = Some (PEns h fr (EWork a [])) ->
    local s t (PEns h fr (EWork a [])) (c_mem s) (c_handles s) (PEns h fr (EPar a)).
  Proof.
    intros s t h fr a I N. pose proof (i_thread s I t _ N) as T. cbn [tinv] in T. destruct T as (F & a0 & C & -> & H1 & F0).
    apply local_pc; auto.
    - exact (i_own s I t _ N).
    - cbn [tinv]. eauto 6.
    - eapply lock_same; eauto.
  Qed.

  (** ** Every step *)

  Definition good (s : cstate) (t : nat) (r : sres D) : Prop :=
    match r with
    | Blocked => True
    | Bad => False
    | Next s' _ => exists p p', nth_error (c_threads s) t = Some p /\ local s t p (c_mem s') (c_handles s') p' /\ c_threads s' = replace_at t p' (c_threads s)
    end.

  Local Ltac step_now := unfold go, mem, hand; cbn [good andb c_mem c_handles c_threads]; eexists; eexists; split; [eassumption|split; [|reflexivity]].
  Local Ltac same_now := unfold go, mem, hand; cbn [good andb c_mem c_handles c_threads]; eexists; eexists; split; [eassumption|split; [|symmetry; apply replace_same; eassumption]].

  Lemma local_refl : forall (s : cstate) t (p : pc), inv s -> nth_error (c_threads s) t = Some p -> local s t p (c_mem s) (c_handles s) p.
  Proof.
    intros s t p I N. apply local_pc; auto.
    - exact (i_own s I t _ N).
    - exact (i_thread s I t _ N).
    - eapply lock_same; eauto.
  Qed.

  Lemma at_good : forall (s : cstate) t h fr a fl old e, inv s -> nth_error (c_threads s) t = Some (PAt h fr a fl old) -> good s t (at_step s t h fr a fl old e).
  Proof.
    intros s t h fr a fl old e I N. destruct (at_tinv s t h _ a _ _ I N) as (F & C0 & (n & L & H1) & FL & ND0). unfold at_step. rewrite L.
    assert (LV : forall c, In c (fl ++ old) -> exists k, look (c_mem s) c = Some k).
    { intros c X. destruct (hand_live s t _ c I N X) as (k & K & _). eauto. }
    assert (PK : forall tg b, pick a fl tg = Some b -> exists k, look (c_mem s) b = Some k).
    { intros tg b P. destruct (pick_in _ _ _ _ P) as [<-|X]; eauto. apply LV. apply in_or_app. auto. }
    assert (FK : forall r c, nth_error fl r = Some c -> exists k, look (c_mem s) c = Some k).
    { intros r c P. apply LV. apply in_or_app. left. eapply nth_error_In; eauto. }
    destruct e; try exact Logic.I.
    - destruct (Nat.ltb_spec i (length (n_kids n))) as [LT|]; [|exact Logic.I]. destruct (Nat.eqb_spec (length fl + length old) 0) as [E|]; [|exact Logic.I].
      destruct fl; [|cbn in E; lia]. destruct old; [|cbn in E; lia]. step_now. eapply child_local; eauto.
    - destruct (pick a fl t0) as [b|] eqn:P; [|exact Logic.I]. destruct (PK _ _ P) as (nb & LB). rewrite LB.
      same_now. eapply write_local; eauto.
    - destruct ((n_h n =? 0) || (m + 1 <? length (n_kids n))); [|exact Logic.I].
      destruct (alloc (c_mem s) a0 _) as [mm|] eqn:A; [|exact Logic.I]. step_now. eapply split_local; eauto.
    - destruct (pick a fl t0) as [b|] eqn:P; [|exact Logic.I]. destruct (nth_error fl r) as [c|] eqn:R; [|exact Logic.I].
      destruct (PK _ _ P) as (nb & LB). rewrite LB. destruct (FK _ _ R) as (nc & LC). rewrite LC.
      destruct (negb (b =? c)) ; [|exact Logic.I]. cbn [andb]. destruct (Nat.eqb_spec (n_h nb) (n_h nc + 1)) as [EH|]; [|exact Logic.I]. cbn [andb].
      destruct (k <=? length (n_kids nb)); [|exact Logic.I]. step_now. eapply attach_local; eauto.
    - destruct (nth_error fl j) as [b|] eqn:J; [|exact Logic.I]. destruct (nth_error fl r) as [c|] eqn:R; [|exact Logic.I].
      destruct (FK _ _ J) as (nb & LB). rewrite LB. destruct (FK _ _ R) as (nc & LC). rewrite LC. destruct (n_kids nb) as [|x ks] eqn:K; [exact Logic.I|].
      destruct (Nat.eqb_spec b c) as [|NE]; [exact Logic.I|]. cbn [negb andb]. destruct (Nat.eqb_spec (n_h nb) (n_h nc + 1)) as [EH|]; [|exact Logic.I].
      step_now. eapply first_local; eauto.
    - destruct (nth_error old c) as [b|] eqn:R; [|exact Logic.I]. destruct (LV b) as (nb & LB); [apply in_or_app; right; eapply nth_error_In; eauto|]. rewrite LB.
      destruct (Nat.eqb_spec (n_h n) (n_h nb + 1)) as [EH|]; [|exact Logic.I]. step_now. eapply push_local; eauto.
    - destruct fr as [|x fr]; [|exact Logic.I]. destruct (nth_error fl r) as [b|] eqn:R; [|exact Logic.I]. destruct (FK _ _ R) as (nb & LB). rewrite LB.
      destruct (Nat.eqb_spec (n_h nb) (n_h n)) as [EH|]; [|exact Logic.I]. destruct (alloc _ a0 _) as [mm|] eqn:A; [|exact Logic.I].
      step_now. eapply root_local; eauto.
    - destruct (pick a fl t0) as [b|] eqn:P; [|exact Logic.I]. destruct (PK _ _ P) as (nb & LB). rewrite LB. destruct (nth_error (n_kids nb) i) as [c|] eqn:K; [|exact Logic.I].
      destruct (i_height s I b nb c LB) as (nc & LC & _); [eapply nth_error_In; eauto|]. rewrite LC. destruct (n_cnt nc =? 1); same_now; [eapply fix_local; eauto|apply local_refl; auto].
    - destruct fr as [|[q i] fr]; [exact Logic.I|]. step_now. apply up_local; auto.
    - destruct (Nat.eqb_spec (length fl + length old) 0) as [E|]; [|exact Logic.I].
      destruct fl; [|cbn in E; lia]. destruct old; [|cbn in E; lia]. step_now. apply idle_local; auto.
    - step_now. eapply abort_local; eauto.
    - same_now. apply local_refl; auto.
  Qed.

  Lemma ens_good : forall (s : cstate) t h fr e new, inv s -> nth_error (c_threads s) t = Some (PEns h fr e) -> good s t (ens_step s t h fr e new).
  Proof.
    intros s t h fr e new I N. pose proof (i_thread s I t _ N) as T. cbn [tinv] in T. destruct T as (F & a & C & T). pose proof (slot_chain s h fr a C) as SL.
    destruct (tip_live s h fr a I C) as (n & L & _). destruct e as [|d p done|b ws|b]; cbn [ens_step].
    - rewrite SL, L. step_now. eapply load_local; eauto.
    - rewrite SL, L. destruct (nth_error (n_kids n) (length done)) as [c|] eqn:K.
      + destruct (i_height s I a n c L) as (k & LK & _); [eapply nth_error_In; eauto|]. rewrite LK. step_now. eapply inc_local; eauto.
      + destruct (alloc (c_mem s) new _) as [m|] eqn:A; [|exact Logic.I].
        assert (exists s', set_slot (mem s m) h fr new = Some s') as (s' & SS).
        { destruct fr as [|[q i] fr]; cbn; [eauto|]. inversion F as [|? ? (nq & LQ & _) _]; subst. cbn in LQ. rewrite (look_alloc _ _ _ _ q A).
          destruct (Nat.eqb_spec q new); [eauto|]. rewrite LQ. eauto. }
        rewrite SS. destruct (copy_local s t h fr d p done a n new m s' I N C L K A SS) as [LO TH]. unfold go; cbn [good c_mem c_handles c_threads]. rewrite TH. do 2 eexists. split; [exact N|]. split; [exact LO|reflexivity].
    - destruct ws as [|w ws].
      + step_now. apply ework_done; auto.
      + destruct T as (-> & H1 & F0). destruct (work_step_ok s w I) as (m' & ws' & W & WO).
        * intros x ->. exists (LHand t). exists (PEns h fr (EWork a (WDec x :: ws))). split; auto. cbn. auto.
        * intros x ->. cbn in F0. inversion F0; auto.
        * rewrite W. step_now. eapply ens_work_local; eauto.
    - destruct T as (-> & H1). rewrite L. step_now. eapply par_local; eauto.
  Qed.

  Theorem step_local : forall (s : cstate) t e, inv s -> good s t (cstep s t e).
  Proof.
    intros s t e I. unfold cstep. destruct (nth_error (c_threads s) t) as [p|] eqn:N; [|exact Logic.I]. destruct p as [|h is a|ws|h fr en|h fr a fl old].
    - destruct e; try exact Logic.I.
      + same_now. apply idle_snoc; auto.
      + destruct (nth_error (c_handles s) h) as [[[r|]|]|] eqn:H; try exact Logic.I. destruct (existsb (uses h) (c_threads s)) eqn:U; [exact Logic.I|].
        destruct (alloc (c_mem s) a _) as [m|] eqn:A; [|exact Logic.I]. same_now. eapply idle_new; eauto.
      + destruct (nth_error (c_handles s) h) as [[[r|]|]|] eqn:H; try exact Logic.I; destruct (existsb (writes h) (c_threads s)) eqn:U; try exact Logic.I.
        * destruct (refers_live s r (LRoot h) I) as (n & L & _); [cbn; unfold root; rewrite H; auto|]. rewrite L. same_now. eapply idle_clone; eauto.
        * same_now. apply idle_snoc; auto.
      + destruct (nth_error (c_handles s) h) as [[r|]|] eqn:H; try exact Logic.I; destruct (existsb (uses h) (c_threads s)) eqn:U; try exact Logic.I.
        step_now. eapply idle_drop; eauto.
      + destruct (nth_error (c_handles s) h) as [[[r|]|]|] eqn:H; try exact Logic.I; destruct (existsb (writes h) (c_threads s)) eqn:U; try exact Logic.I.
        destruct (refers_live s r (LRoot h) I) as (n & L & _); [cbn; unfold root; rewrite H; auto|]. rewrite L. step_now. eapply idle_read; eauto.
      + destruct (nth_error (c_handles s) h) as [[[r|]|]|] eqn:H; try exact Logic.I; destruct (existsb (uses h) (c_threads s)) eqn:U; try exact Logic.I.
        step_now. eapply idle_insert; eauto.
    - destruct (read_live s t h is a I N) as (n & L). destruct e; try exact Logic.I.
      + rewrite L. destruct (nth_error (n_kids n) i) as [c|] eqn:K; [|exact Logic.I]. destruct (i_height s I a n c L) as (k & LK & _); [eapply nth_error_In; eauto|]. rewrite LK.
        step_now. eapply read_down; eauto.
      + step_now. eapply read_end; eauto.
    - destruct e; try exact Logic.I. destruct ws as [|w ws].
      + step_now. apply idle_local; auto.
      + pose proof (i_thread s I t _ N) as T. cbn [tinv] in T. destruct (work_step_ok s w I) as (m' & ws' & W & WO).
        * intros x ->. exists (LHand t). exists (PDrop (WDec x :: ws)). split; auto. cbn. auto.
        * intros x ->. cbn in T. inversion T; auto.
        * rewrite W. step_now. eapply drop_local; eauto.
    - destruct e; try exact Logic.I; [apply ens_good; auto| |].
      + destruct en; try exact Logic.I. step_now. apply idle_local; auto.
      + destruct en; try exact Logic.I. pose proof (i_thread s I t _ N) as T. cbn [tinv] in T. destruct T as (_ & a & C & _).
        rewrite (slot_chain s h fr a C). destruct (tip_live s h fr a I C) as (n & L & _). rewrite L. step_now. apply (shared_local s t h fr a n); auto.
    - apply at_good; auto.
  Qed.

  Theorem step_good : forall (s : cstate) t e, inv s -> match cstep s t e with Blocked => True | Bad => False | Next s' _ => inv s' end.
  Proof.
    intros s t e I. pose proof (step_local s t e I) as G. destruct (cstep s t e) as [| |s' o]; cbn in *; auto. destruct G as (p & p' & N & L & E).
    replace s' with {| c_mem := c_mem s'; c_handles := c_handles s'; c_threads := replace_at t p' (c_threads s) |} by (rewrite <- E; destruct s'; reflexivity). eapply inv_step; eauto.
  Qed.

  Lemma start_inv : forall n, inv (start n : cstate).
  Proof.
    assert (P : forall n t (p : pc), nth_error (repeat PIdle n) t = Some p -> p = PIdle).
    { intros n t p H. apply nth_error_In in H. apply repeat_spec in H. auto. }
    intros n. constructor; cbn [start c_mem c_handles c_threads].
    - intros a. assert (Z : hand_owners (repeat PIdle n : list pc) a = 0).
      { unfold hand_owners. apply sum_zero. intros i x H. apply P in H. subst. reflexivity. }
      unfold owners. cbn [start c_handles c_mem c_threads]. rewrite Z. unfold cnt_at, look. destruct a; reflexivity.
    - intros a k L. destruct a; discriminate.
    - intros t p H. apply P in H. subst. constructor.
    - intros t p t' p' a H. apply P in H. subst. intros _ _ [].
    - intros a k c L. destruct a; discriminate.
    - intros t p H. apply P in H. subst. exact Logic.I.
    - intros t p t' p' h H. apply P in H. subst. discriminate.
  Qed.

  Lemma run_inv : forall es (s : cstate) outs s', inv s -> crun s es = Some (outs, s') -> inv s' /\ ~ In BBad outs.
  Proof.
    induction es as [|[t e] es IH]; intros s outs s' I R; cbn [crun] in R.
    - injection R as <- <-. auto.
    - pose proof (step_good s t e I) as G. destruct (cstep s t e) as [| |s1 o]; cbn in G; [discriminate|contradiction|].
      destruct (crun s1 es) as [[os s2]|] eqn:E; [|discriminate]. injection R as <- <-. destruct (IH _ _ _ G E) as [A B]. split; auto.
      intros [X|X]; auto. destruct o; discriminate.
  Qed.
End T.
