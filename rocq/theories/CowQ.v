(** Proofs about copy on write: every step keeps the invariant. *)
From Coq Require Import List Arith Bool Lia.
From Verif Require Import Base ListFacts Cow CowSpec CowP.
Import ListNotations.

Section Q.
  Context {D : Type}.
  Notation heap := (heap D).
  Notation cnode := (cnode D).
  Notation pc := (pc D).
  Notation cstate := (cstate D).

  Definition body_eq (n n' : cnode) : Prop := n_data n' = n_data n /\ n_kids n' = n_kids n /\ n_h n' = n_h n.

  (** What a step of thread [t], in state [p], may do to memory and handles. *)
  Definition keeps (m m' : heap) (cl : list addr) : Prop :=
    forall a n, look m a = Some n -> ~ In a cl -> exists n', look m' a = Some n' /\ body_eq n n'.

  Definition other (s : cstate) (t t' : nat) (q : pc) : Prop := nth_error (c_threads s) t' = Some q /\ t' <> t.

  Definition keeps_cnt (s : cstate) (t : nat) (m' : heap) : Prop :=
    forall t' q a c, other s t t' q -> In a (claims q) -> has_cnt (c_mem s) c a -> has_cnt m' c a.

  Definition keeps_root (s : cstate) (t : nat) (hs' : list (option (option addr))) : Prop :=
    forall t' q h, other s t t' q -> uses h q = true -> root hs' h = root (c_handles s) h.

  (** Nodes that a thread's own places refer to are not claimed by others. *)
  Lemma not_claimed : forall (s : cstate) t (p : pc) c l t' (q : pc), inv s -> nth_error (c_threads s) t = Some p -> refers s c l -> own_place t p l ->
    other s t t' q -> ~ In c (claims q).
  Proof.
    intros s t p c l t' q I N R O [N' T] C. pose proof (sole s t' q c l I N' C R) as O'. destruct l as [h|a|k]; cbn in *.
    - pose proof (i_lock s I t p t' q h N N' ltac:(congruence) O) as L. assert (uses h q = true) by (destruct q; cbn in *; auto; discriminate). congruence.
    - eapply (i_dis s I t p t' q a); eauto; unfold claims; apply in_or_app; right; apply in_or_app; auto.
    - subst. congruence.
  Qed.

  (** Kids of a node that is not claimed by a thread are not claimed by it either. *)
  Lemma kid_unclaimed : forall (s : cstate) t (p : pc) a n c, inv s -> nth_error (c_threads s) t = Some p -> look (c_mem s) a = Some n -> In c (n_kids n) ->
    ~ In a (frames p) -> ~ In c (claims p).
  Proof.
    intros s t p a n c I N L K U C. pose proof (sole s t p c (LKid a) I N C) as O. cbn in O. apply U. apply O. eauto.
  Qed.

  Lemma frames_claims : forall (p : pc) a, In a (frames p) -> In a (claims p).
  Proof. intros. unfold claims. apply in_or_app. right. apply in_or_app. auto. Qed.
  Lemma tips_claims : forall (p : pc) a, In a (tips p) -> In a (claims p).
  Proof. intros. unfold claims. apply in_or_app. right. apply in_or_app. auto. Qed.
  Lemma dying_claims : forall (p : pc) a, In a (dying p) -> In a (claims p).
  Proof. intros. unfold claims. apply in_or_app. auto. Qed.

  Lemma follow_keeps : forall (s : cstate) t (p : pc) (m' : heap) is a b, inv s -> nth_error (c_threads s) t = Some p -> keeps (c_mem s) m' (claims p) ->
    ~ In a (claims p) -> follow (c_mem s) a is = Some b -> follow m' a is = Some b.
  Proof.
    intros s t p m' is. induction is as [|i is IH]; intros a b I N K U F; cbn in *; auto.
    destruct (kid (c_mem s) a i) as [c|] eqn:E; [|discriminate]. unfold kid in E. destruct (look (c_mem s) a) as [n|] eqn:L; [|discriminate].
    destruct (K a n L U) as (n' & L' & _ & KS & _). unfold kid. rewrite L', KS, E. apply IH; auto.
    apply (kid_unclaimed s t p a n c); auto; [eapply nth_error_In; eauto|]. intros Q. apply U, frames_claims, Q.
  Qed.

  Lemma chain_keeps : forall (s : cstate) (m' : heap) hs' h fr a, chain (c_mem s) (c_handles s) h fr a ->
    (forall q n, In q (map fst fr) -> look (c_mem s) q = Some n -> exists n', look m' q = Some n' /\ n_kids n' = n_kids n) ->
    root hs' h = root (c_handles s) h -> chain m' hs' h fr a.
  Proof.
    intros s m' hs' h. induction fr as [|[q i] fr IH]; intros a C K R; cbn in *; [congruence|]. destruct C as [E C]. split.
    - unfold kid in *. destruct (look (c_mem s) q) as [n|] eqn:L; [|discriminate]. destruct (K q n (or_introl eq_refl) L) as (n' & L' & KS). rewrite L', KS. auto.
    - apply IH; auto.
  Qed.

  (** The other threads' invariants are kept. *)
  Lemma others_ok : forall (s : cstate) t (p : pc) (m' : heap) hs', inv s -> nth_error (c_threads s) t = Some p ->
    keeps (c_mem s) m' (claims p) -> keeps_cnt s t m' -> keeps_root s t hs' ->
    forall t' q, other s t t' q -> tinv m' hs' q.
  Proof.
    intros s t p m' hs' I N K C R t' q O. pose proof O as [N' T]. pose proof (i_thread s I t' q N') as TI.
    assert (DIS : forall a, In a (claims q) -> ~ In a (claims p)) by (intros a A B; apply (i_dis s I t' q t p a N' N T A B)).
    assert (CF : forall c l, Forall (has_cnt (c_mem s) c) l -> (forall a, In a l -> In a (claims q)) -> Forall (has_cnt m' c) l).
    { intros c l F S. rewrite Forall_forall in *. intros a A. eapply C; eauto. }
    assert (CH : forall h fr a, writes h q = true -> (forall x, In x (map fst fr) -> In x (claims q)) -> chain (c_mem s) (c_handles s) h fr a -> chain m' hs' h fr a).
    { intros h fr a W S X. eapply chain_keeps; [exact X| |].
      - intros x n A L. destruct (K x n L (DIS x (S x A))) as (n' & L' & _ & KS & _). eauto.
      - apply (R _ q h O). destruct q; cbn in *; auto; discriminate. }
    destruct q as [|h is a|w|h fr e|h fr a fl old]; cbn [tinv] in *; auto.
    - destruct TI as (r & RT & F). exists r. rewrite (R t' _ h O) by (cbn; apply Nat.eqb_refl). split; auto.
      eapply (follow_keeps s t p); eauto. intros Q.
      pose proof (sole s t p r (LRoot h) I N Q RT) as W. cbn in W. pose proof (i_lock s I t p t' _ h N N' ltac:(congruence) W) as L. cbn in L. rewrite Nat.eqb_refl in L. discriminate.
    - apply CF; auto. intros a A. apply dying_claims. auto.
    - destruct TI as (F & a & X & EI). split.
      + apply CF; auto. intros x A. apply frames_claims. auto.
      + exists a. split; [apply CH; auto; [cbn; apply Nat.eqb_refl|intros x A; apply frames_claims; auto]|]. destruct e as [|d pp done|a' w|a']; auto.
        * destruct EI as (n & L & ED & EK).
          assert (U : ~ In a (claims p)).
          { destruct (chain_tip _ _ _ _ X) as [RR|(x & A & B)].
            - eapply (not_claimed s t' _ a (LRoot h) t p); eauto; [cbn; apply Nat.eqb_refl|split; auto].
            - eapply (not_claimed s t' _ a (LKid x) t p); eauto; split; auto. }
          destruct (K a n L U) as (n' & L' & ND & KS & _). exists n'. rewrite L', ND, KS. auto.
        * destruct EI as (-> & H1 & F0). split; auto. split.
          -- eapply C; eauto. apply tips_claims. left. auto.
          -- apply CF; auto. intros x A. apply dying_claims. auto.
        * destruct EI as (-> & H1). split; auto. eapply C; eauto. apply tips_claims. left. auto.
    - destruct TI as (F & X & H1 & FL). split; [|split; [|split]].
      + apply CF; auto. intros x A. apply frames_claims. auto.
      + apply CH; auto; [cbn; apply Nat.eqb_refl|]. intros x A. apply frames_claims. auto.
      + eapply C; eauto. apply tips_claims. left. auto.
      + apply CF; auto. intros x A. apply tips_claims. right. auto.
  Qed.

  Record local (s : cstate) (t : nat) (p : pc) (m' : heap) (hs' : list (option (option addr))) (p' : pc) : Prop := {
    l_cnt : forall a, cnt_at m' a + (root_owners (c_handles s) a + kid_owners (c_mem s) a + occ a (in_hand p)) =
                      cnt_at (c_mem s) a + (root_owners hs' a + kid_owners m' a + occ a (in_hand p'));
    l_zero : forall a n', look m' a = Some n' -> n_cnt n' = 0 -> In a (dying p') \/ (has_cnt (c_mem s) 0 a /\ ~ In a (dying p));
    l_own : NoDup (claims p');
    l_new : forall a, In a (claims p') -> In a (claims p) \/ forall t' q, other s t t' q -> ~ In a (claims q);
    l_height : forall a n c, look m' a = Some n -> In c (n_kids n) -> exists k, look m' c = Some k /\ n_h n = n_h k + 1;
    l_thread : tinv m' hs' p';
    l_lock : forall h t' q, other s t t' q -> (writes h p' = true -> uses h q = false) /\ (uses h p' = true -> writes h q = false);
    l_keeps : keeps (c_mem s) m' (claims p);
    l_keeps_cnt : keeps_cnt s t m';
    l_keeps_root : keeps_root s t hs'
  }.

  Lemma inv_step : forall (s : cstate) t (p : pc) (m' : heap) hs' (p' : pc), inv s -> nth_error (c_threads s) t = Some p -> local s t p m' hs' p' ->
    inv {| c_mem := m'; c_handles := hs'; c_threads := replace_at t p' (c_threads s) |}.
  Proof.
    intros s t p m' hs' p' I N L.
    assert (LT : t < length (c_threads s)) by (eapply nth_error_lt; eauto).
    assert (TH : forall u q, nth_error (replace_at t p' (c_threads s)) u = Some q -> (u = t /\ q = p') \/ other s t u q).
    { intros u q E. destruct (Nat.eq_dec u t) as [->|NE].
      - rewrite replace_nth_same in E by auto. injection E as <-. auto.
      - rewrite replace_nth_other in E by auto. right. split; auto. }
    constructor; cbn [c_mem c_handles c_threads].
    - intros a. pose proof (l_cnt _ _ _ _ _ _ L a) as Q. pose proof (i_cnt s I a) as C. unfold owners in *. cbn [c_mem c_handles c_threads].
      pose proof (sum_replace _ (fun p => occ a (in_hand p)) t p p' (c_threads s) N) as SR. cbn beta in SR.
      fold (hand_owners (c_threads s) a) in SR. fold (hand_owners (replace_at t p' (c_threads s)) a) in SR. lia.
    - intros a n' E Z. destruct (l_zero _ _ _ _ _ _ L a n' E Z) as [A|[(n & E0 & Z0) A]].
      + exists t, p'. split; auto. apply replace_nth_same. auto.
      + destruct (i_zero s I a n E0 Z0) as (u & q & U & B). exists u, q. split; auto. rewrite replace_nth_other; auto. intros ->. congruence.
    - intros u q E. destruct (TH u q E) as [[-> ->]|[O _]]; [apply L|eapply (i_own s I); eauto].
    - intros u q u' q' a E E' NE A B. destruct (TH u q E) as [[-> ->]|O]; destruct (TH u' q' E') as [[-> ->]|O'].
      + congruence.
      + destruct (l_new _ _ _ _ _ _ L a A) as [A'|A']; [|apply (A' u' q'); auto]. destruct O' as [O' _]. eapply (i_dis s I t p u' q' a); eauto.
      + destruct (l_new _ _ _ _ _ _ L a B) as [A'|A']; [|apply (A' u q); auto]. destruct O as [O _]. eapply (i_dis s I t p u q a); eauto.
      + destruct O as [O _], O' as [O' _]. eapply (i_dis s I u q u' q' a); eauto.
    - apply L.
    - intros u q E. destruct (TH u q E) as [[-> ->]|O]; [apply L|]. eapply others_ok; eauto; apply L.
    - intros u q u' q' h E E' NE W. destruct (TH u q E) as [[-> ->]|O]; destruct (TH u' q' E') as [[-> ->]|O'].
      + congruence.
      + apply (proj1 (l_lock _ _ _ _ _ _ L h u' q' O') W).
      + destruct (uses h p') eqn:U; auto. pose proof (proj2 (l_lock _ _ _ _ _ _ L h u q O) U). congruence.
      + destruct O as [O _], O' as [O' _]. eapply (i_lock s I u q u' q'); eauto.
  Qed.
End Q.
