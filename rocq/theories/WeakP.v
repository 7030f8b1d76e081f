(** Proofs about weak memory: what steps know, and the invariant. *)
From Coq Require Import List Arith Bool Lia.
From Verif Require Import Base ListFacts Cow CowSpec CowP CowQ CowR CowS Weak.
Import ListNotations.

Lemma upd_same : forall A (f : nat -> A) k v, upd f k v k = v.
Proof. intros. unfold upd. rewrite Nat.eqb_refl. auto. Qed.
Lemma upd_other : forall A (f : nat -> A) k v x, x <> k -> upd f k v x = f x.
Proof. intros A f k v x N. unfold upd. destruct (Nat.eqb_spec x k); congruence. Qed.

Section WP.
  Context {D : Type}.
  Notation heap := (heap D).
  Notation cnode := (cnode D).
  Notation pc := (pc D).
  Notation cstate := (cstate D).
  Notation wstate := (wstate D).
  Variable o : ords.

  Definition hview (w : wstate) (a : addr) : evs := g_view (newest w a).
  Definition thr (w : wstate) (t : nat) (p : pc) : Prop := nth_error (c_threads (w_s w)) t = Some p.

  (** Steps that somebody who can get at [a] knows, or that reading its count gives. *)
  Inductive up (w : wstate) : addr -> nat -> Prop :=
  | up_view : forall a i, In i (hview w a) -> up w a i
  | up_root : forall a h i, root (c_handles (w_s w)) h = Some a -> In i (w_hr w h) -> up w a i
  | up_user : forall a h t p i, root (c_handles (w_s w)) h = Some a -> thr w t p -> uses h p = true -> In i (w_k w t) -> up w a i
  | up_hand : forall a t p i, thr w t p -> In a (in_hand p) -> In i (w_k w t) -> up w a i
  | up_dying : forall a t p i, thr w t p -> In a (dying p) -> In i (w_k w t) -> up w a i
  | up_kid : forall a b n i, look (c_mem (w_s w)) b = Some n -> In a (n_kids n) -> up w b i -> up w a i.

  Definition know (w : wstate) (l : place) (i : nat) : Prop :=
    match l with
    | LRoot h => In i (w_hr w h) \/ exists t p, thr w t p /\ uses h p = true /\ In i (w_k w t)
    | LKid b => up w b i
    | LHand t => In i (w_k w t)
    end.

  Lemma know_up : forall w a l i, refers (w_s w) a l -> know w l i -> up w a i.
  Proof.
    intros w a [h|b|t] i R K; cbn in *.
    - destruct K as [K|(t & p & T & U & K)]; [eapply up_root|eapply up_user]; eauto.
    - destruct R as (n & L & X). eapply up_kid; eauto.
    - destruct R as (p & T & X). eapply up_hand; eauto.
  Qed.

  Lemma up_cases : forall w a i, up w a i -> In i (hview w a) \/ (exists t p, thr w t p /\ In a (dying p) /\ In i (w_k w t)) \/ exists l, refers (w_s w) a l /\ know w l i.
  Proof.
    intros w a i U. destruct U as [a i V|a h i R H|a h t p i R T U K|a t p i T H K|a t p i T H K|a b n i L K U]; auto.
    - right. right. exists (LRoot h). cbn. auto.
    - right. right. exists (LRoot h). cbn. split; auto. right. eauto.
    - right. right. exists (LHand t). cbn. split; eauto.
    - right. left. eauto.
    - right. right. exists (LKid b). cbn. split; eauto.
  Qed.

  (** Who can get at nodes: trees, and threads by what they hold. *)
  Inductive ent : Type := ETree (h : nat) | EThread (t : nat).
  Definition top (s : cstate) (E : ent) (a : addr) : Prop :=
    match E with
    | ETree h => root (c_handles s) h = Some a
    | EThread t => exists p, nth_error (c_threads s) t = Some p /\ (In a (in_hand p) \/ In a (dying p))
    end.
  Definition ereach (s : cstate) (E : ent) (a : addr) : Prop := exists b, top s E b /\ reach (c_mem s) b a.
  Definition eknow (w : wstate) (E : ent) (i : nat) : Prop :=
    match E with
    | ETree h => In i (w_hw w h) \/ exists t p, thr w t p /\ writes h p = true /\ In i (w_k w t)
    | EThread t => In i (w_k w t)
    end.

  Definition wrote (l : list (nat * list access)) (i : nat) (a : addr) : Prop :=
    exists t xs x, nth_error l i = Some (t, xs) /\ In x xs /\ x_addr x = a /\ (x_kind x = KWrite \/ x_kind x = KWhole).
  Definition used (l : list (nat * list access)) (i : nat) (a : addr) : Prop :=
    exists t xs x, nth_error l i = Some (t, xs) /\ In x xs /\ x_addr x = a.

  Record winv (w : wstate) : Prop := {
    v_inv : inv (w_s w);
    v_hist : forall a n, look (c_mem (w_s w)) a = Some n -> exists m ms, w_hist w a = m :: ms /\ g_val m = n_cnt n;
    v_wr : forall i a, wrote (w_log w) i a -> forall E, ereach (w_s w) E a -> eknow w E i;
    v_read : forall t p h, thr w t p -> uses h p = true -> incl (w_hw w h) (w_k w t);
    v_write : forall t p h, thr w t p -> writes h p = true -> incl (w_hr w h) (w_k w t);
    v_up : forall i a, used (w_log w) i a -> match look (c_mem (w_s w)) a with Some _ => up w a i | None => In i (w_gone w a) end;
    v_claim : forall t p a, thr w t p -> In a (frames p ++ tips p) -> incl (hview w a) (w_k w t);
    v_dying : forall t p a, thr w t p -> In a (dying p) -> In (g_ev (newest w a)) (w_k w t) /\ (acquires (o_dec o) = true -> incl (hview w a) (w_k w t));
    v_old : forall a pre m post l, w_hist w a = pre ++ m :: post -> pre <> [] -> g_val m = 1 -> refers (w_s w) a l -> look (c_mem (w_s w)) a <> None ->
      exists m', In m' pre /\ know w l (g_ev m');
    v_race : ~ race w
  }.

  (** ** What a thread knows about nodes that only it can get at *)

  Lemma own_tree : forall w t p h t' p', winv w -> thr w t p -> writes h p = true -> thr w t' p' -> uses h p' = true -> t' = t.
  Proof.
    intros w t p h t' p' V T W T' U. destruct (Nat.eq_dec t' t) as [|N]; auto.
    pose proof (i_lock _ (v_inv w V) t p t' p' h T T' ltac:(congruence) W). congruence.
  Qed.

  Lemma ft_claims : forall (p : pc) a, In a (frames p ++ tips p) -> In a (claims p).
  Proof. intros p a H. apply in_app_or in H. destruct H; [apply frames_claims|apply tips_claims]; auto. Qed.

  Lemma claim_up : forall w t p, winv w -> thr w t p -> forall a i, up w a i -> In a (frames p ++ tips p) -> In i (w_k w t).
  Proof.
    intros w t p V T a i U. pose proof (v_inv w V) as I. induction U as [a i X|a h i R H|a h t' p' i R T' U K|a t' p' i T' H K|a t' p' i T' H K|a b n i L K U IH]; intros C; pose proof (ft_claims _ _ C) as CC.
    - eapply (v_claim w V); eauto.
    - pose proof (sole _ t p a (LRoot h) I T CC R) as O. cbn in O. eapply (v_write w V); eauto.
    - pose proof (sole _ t p a (LRoot h) I T CC R) as O. cbn in O. rewrite (own_tree w t p h t' p') in K; auto.
    - assert (R : refers (w_s w) a (LHand t')) by (cbn; eauto). pose proof (sole _ t p a _ I T CC R) as O. cbn in O. subst. auto.
    - destruct (Nat.eq_dec t' t) as [->|N]; auto. exfalso. eapply (i_dis _ I t p t' p' a); eauto. apply dying_claims. auto.
    - assert (R : refers (w_s w) a (LKid b)) by (cbn; eauto). pose proof (sole _ t p a _ I T CC R) as O. cbn in O. apply IH. apply in_or_app. auto.
  Qed.

  Lemma dying_up : forall w t p a i, winv w -> thr w t p -> up w a i -> In a (dying p) -> In i (hview w a) \/ In i (w_k w t).
  Proof.
    intros w t p a i V T U C. pose proof (v_inv w V) as I. pose proof (dying_cnt _ _ _ _ (i_thread _ I t p T) C) as Z.
    destruct (up_cases _ _ _ U) as [X|[(t' & p' & T' & H & K)|(l & R & K)]]; auto.
    - right. destruct (Nat.eq_dec t' t) as [->|N]; auto. exfalso. eapply (i_dis _ I t p t' p' a); eauto; apply dying_claims; auto.
    - exfalso. eapply refers_zero; eauto.
  Qed.

  (** Places that only this thread can get at. *)
  Definition mn (t : nat) (p : pc) (l : place) : Prop :=
    match l with LRoot h => writes h p = true | LKid b => In b (frames p ++ tips p) | LHand t' => t' = t end.

  Lemma own_mn : forall t (p : pc) l, own_place t p l -> mn t p l.
  Proof. intros t p [h|b|t']; cbn; auto. intros. apply in_or_app. auto. Qed.

  Lemma mn_in : forall w t p l i, winv w -> thr w t p -> mn t p l -> know w l i -> In i (w_k w t).
  Proof.
    intros w t p [h|b|t'] i V T M K; cbn in *.
    - destruct K as [K|(t' & p' & T' & U & K)]; [eapply (v_write w V); eauto|]. rewrite (own_tree w t p h t' p') in K; auto.
    - eapply claim_up; eauto.
    - subst. auto.
  Qed.

  Lemma chain_up : forall w h fr a i, chain (c_mem (w_s w)) (c_handles (w_s w)) h fr a -> know w (LRoot h) i -> up w a i /\ forall q, In q (map fst fr) -> up w q i.
  Proof.
    intros w h. induction fr as [|[q j] fr IH]; intros a i C K; cbn [chain] in C.
    - split; [|intros q []]. apply (know_up w a (LRoot h)); auto.
    - destruct C as [E C]. destruct (IH q i C K) as [A B]. split.
      + apply (know_up w a (LKid q)); auto. eapply kid_refers; eauto.
      + intros x [<-|X]; auto.
  Qed.

  Lemma user_know : forall w t p h i, thr w t p -> uses h p = true -> In i (w_k w t) -> know w (LRoot h) i.
  Proof. intros. cbn. right. eauto. Qed.

  Lemma claim_has : forall w t p a i, inv (w_s w) -> thr w t p -> In a (frames p ++ tips p) -> In i (w_k w t) -> up w a i.
  Proof.
    intros w t p a i I T C K. pose proof (i_thread _ I t p T) as TI. apply in_app_or in C.
    destruct p as [|h is x|ws|h fr en|h fr x fl old]; cbn [frames tips] in C; try (destruct C; contradiction).
    - cbn [tinv] in TI. destruct TI as (_ & y & CH & E). destruct (chain_up w h fr y i CH) as [A B].
      { eapply user_know; eauto. cbn. apply Nat.eqb_refl. }
      destruct C as [C|C]; auto. destruct en; cbn in C; try contradiction; destruct C as [<-|[]]; destruct E as [-> _]; auto.
    - cbn [tinv] in TI. destruct TI as (_ & CH & _). destruct (chain_up w h fr x i CH) as [A B].
      { eapply user_know; eauto. cbn. apply Nat.eqb_refl. }
      destruct C as [C|[<-|C]]; auto. eapply up_hand; eauto. cbn. apply in_or_app. auto.
  Qed.

  Lemma mn_out : forall w t p l i, inv (w_s w) -> thr w t p -> mn t p l -> In i (w_k w t) -> know w l i.
  Proof.
    intros w t p [h|b|t'] i I T M K; cbn [mn] in M.
    - eapply user_know; eauto. apply writes_uses. auto.
    - cbn. eapply claim_has; eauto.
    - subst. auto.
  Qed.

  (** ** Who can get at such nodes *)

  Definition own (t : nat) (p : pc) (E : ent) : Prop := match E with ETree h => writes h p = true | EThread t' => t' = t end.

  Lemma claim_ent : forall (s : cstate) t p E a, inv s -> nth_error (c_threads s) t = Some p -> In a (claims p) -> ereach s E a -> own t p E.
  Proof.
    intros s t p E a I T C (b & TP & R). revert C. induction R as [|x n c R IH L K]; intros C.
    - destruct E as [h|t']; cbn in *.
      + exact (sole s t p b (LRoot h) I T C TP).
      + destruct TP as (p' & T' & [X|X]).
        * exact (sole s t p b (LHand t') I T C (ex_intro _ p' (conj T' X))).
        * destruct (Nat.eq_dec t' t) as [|N]; auto. exfalso. eapply (i_dis s I t p t' p' b); eauto. apply dying_claims. auto.
    - apply IH. pose proof (sole s t p c (LKid x) I T C (ex_intro _ n (conj L K))) as O. cbn in O. apply frames_claims. auto.
  Qed.

  Lemma own_know : forall w t p E i, thr w t p -> own t p E -> In i (w_k w t) -> eknow w E i.
  Proof. intros w t p [h|t'] i T O K; cbn in *; [right; eauto|subst; auto]. Qed.

  (** Trees a thread uses, or nodes it holds. *)
  Definition mine (t : nat) (p : pc) (E : ent) : Prop := match E with ETree h => uses h p = true | EThread t' => t' = t end.

  Lemma mine_know : forall w t p E i, winv w -> thr w t p -> mine t p E -> eknow w E i -> In i (w_k w t).
  Proof.
    intros w t p [h|t'] i V T M K; cbn in *; [|subst; auto]. destruct K as [K|(t' & p' & T' & W & K)].
    - eapply (v_read w V); eauto.
    - rewrite (own_tree w t' p' h t p); auto.
  Qed.

  Lemma own_mine : forall t (p : pc) E, own t p E -> mine t p E.
  Proof. intros t p [h|t']; cbn; auto. apply writes_uses. Qed.

  Lemma reach_up : forall w b a i, reach (c_mem (w_s w)) b a -> up w b i -> up w a i.
  Proof. intros w b a i R U. induction R; auto. eapply up_kid; eauto. Qed.

  Lemma mine_up : forall w t p E a i, thr w t p -> mine t p E -> ereach (w_s w) E a -> In i (w_k w t) -> up w a i.
  Proof.
    intros w t p E a i T M (b & TP & R) K. eapply reach_up; eauto. destruct E as [h|t']; cbn in *.
    - eapply up_user; eauto.
    - subst. destruct TP as (p' & T' & [X|X]); unfold thr in T; rewrite T in T'; injection T' as <-; [eapply up_hand|eapply up_dying]; eauto.
  Qed.

  Lemma ereach_kid : forall (s : cstate) E b c n, ereach s E b -> look (c_mem s) b = Some n -> In c (n_kids n) -> ereach s E c.
  Proof. intros s E b c n (x & T & R) L K. exists x. split; auto. eapply reach_kid; eauto. Qed.

  Lemma chain_reach : forall (s : cstate) h fr a, chain (c_mem s) (c_handles s) h fr a -> ereach s (ETree h) a /\ forall q, In q (map fst fr) -> ereach s (ETree h) q.
  Proof.
    intros s h. induction fr as [|[q j] fr IH]; intros a C; cbn [chain] in C.
    - split; [|intros q []]. exists a. split; [exact C|constructor].
    - destruct C as [E C]. destruct (IH q C) as [A B]. unfold kid in E. destruct (look (c_mem s) q) as [n|] eqn:L; [|discriminate]. split.
      + eapply ereach_kid; eauto. eapply nth_error_In; eauto.
      + intros x [<-|X]; auto.
  Qed.

  Lemma claim_reach : forall (s : cstate) t p a, inv s -> nth_error (c_threads s) t = Some p -> In a (claims p) -> exists E, own t p E /\ ereach s E a.
  Proof.
    intros s t p a I T C. pose proof (i_thread _ I t p T) as TI. unfold claims in C. apply in_app_or in C. destruct C as [C|C].
    { exists (EThread t). split; [reflexivity|]. exists a. split; [cbn; eauto|constructor]. }
    apply in_app_or in C. destruct p as [|h is x|ws|h fr en|h fr x fl old]; cbn [frames tips] in C; try (destruct C; contradiction).
    - cbn [tinv] in TI. destruct TI as (_ & y & CH & E). destruct (chain_reach s h fr y CH) as [A B]. exists (ETree h). split; [cbn; apply Nat.eqb_refl|].
      destruct C as [C|C]; auto. destruct en; cbn in C; try contradiction; destruct C as [<-|[]]; destruct E as [-> _]; auto.
    - cbn [tinv] in TI. destruct TI as (_ & CH & _). destruct (chain_reach s h fr x CH) as [A B].
      destruct C as [C|[<-|C]]; [exists (ETree h)|exists (ETree h)|exists (EThread t)]; (split; [cbn; rewrite ?Nat.eqb_refl; auto|]); auto.
      exists a. split; [|constructor]. cbn. exists (PAt h fr x fl old). split; auto. left. cbn. apply in_or_app. auto.
  Qed.

  Lemma mn_reach : forall (s : cstate) t p l a, inv s -> nth_error (c_threads s) t = Some p -> mn t p l -> refers s a l -> exists E, own t p E /\ ereach s E a.
  Proof.
    intros s t p [h|b|t'] a I T M R; cbn [mn] in M.
    - exists (ETree h). split; auto. exists a. split; [exact R|constructor].
    - destruct (claim_reach s t p b I T (ft_claims _ _ M)) as (E & O & X). exists E. split; auto. destruct R as (n & L & K). eapply ereach_kid; eauto.
    - subst. exists (EThread t). split; [reflexivity|]. destruct R as (p' & T' & K). exists a. split; [cbn; eauto|constructor].
  Qed.

  (** Who reads [a] by a place. *)
  Definition through (s : cstate) (E : ent) (l : place) : Prop :=
    match l with LRoot h => E = ETree h | LKid b => ereach s E b | LHand t => E = EThread t end.

  Lemma mn_through : forall (s : cstate) t p l E, inv s -> nth_error (c_threads s) t = Some p -> mn t p l -> through s E l -> own t p E.
  Proof.
    intros s t p [h|b|t'] E I T M X; cbn in *; try (subst; cbn; auto; fail). eapply claim_ent; eauto. apply ft_claims. auto.
  Qed.

  (** ** Learning *)

  Definition set_k (w : wstate) (k : nat -> evs) : wstate :=
    {| w_s := w_s w; w_k := k; w_hist := w_hist w; w_hw := w_hw w; w_hr := w_hr w; w_gone := w_gone w; w_log := w_log w |}.

  Lemma up_grow : forall w k a i, (forall t, incl (w_k w t) (k t)) -> up w a i -> up (set_k w k) a i.
  Proof.
    intros w k a i H U. induction U as [a i X|a h i R X|a h t p i R T U K|a t p i T X K|a t p i T X K|a b n i L K U IH].
    - apply up_view. auto.
    - eapply up_root; eauto.
    - eapply (up_user _ a h t p); eauto. apply H. auto.
    - eapply (up_hand _ a t p); eauto. apply H. auto.
    - eapply (up_dying _ a t p); eauto. apply H. auto.
    - eapply up_kid; eauto.
  Qed.

  Lemma know_grow : forall w k l i, (forall t, incl (w_k w t) (k t)) -> know w l i -> know (set_k w k) l i.
  Proof.
    intros w k [h|b|t] i H K; cbn in *; [|apply up_grow; auto|apply H; auto]. destruct K as [K|(t & p & T & U & K)]; auto.
    right. exists t, p. split; auto. split; auto. apply H. auto.
  Qed.

  Lemma eknow_grow : forall w k E i, (forall t, incl (w_k w t) (k t)) -> eknow w E i -> eknow (set_k w k) E i.
  Proof.
    intros w k [h|t] i H K; cbn in *; [|apply H; auto]. destruct K as [K|(t & p & T & U & K)]; auto.
    right. exists t, p. split; auto. split; auto. apply H. auto.
  Qed.

  Lemma grow : forall w k, winv w -> (forall t, incl (w_k w t) (k t)) -> winv (set_k w k).
  Proof.
    intros w k V H. constructor; cbn [set_k w_s w_log].
    - apply (v_inv w V).
    - apply (v_hist w V).
    - intros i a X E R. apply eknow_grow; auto. eapply (v_wr w V); eauto.
    - intros t p h T U i X. apply (H t). eapply (v_read w V); eauto.
    - intros t p h T U i X. apply (H t). eapply (v_write w V); eauto.
    - intros i a X. pose proof (v_up w V i a X) as Y. destruct (look (c_mem (w_s w)) a); auto. apply up_grow; auto.
    - intros t p a T C i X. apply (H t). eapply (v_claim w V); eauto.
    - intros t p a T C. destruct (v_dying w V t p a T C) as [A B]. split; [apply (H t); auto|]. intros Q i X. apply (H t). apply B; auto.
    - intros a pre m post l E P G R LA. destruct (v_old w V a pre m post l E P G R LA) as (m' & A & B). exists m'. split; auto. apply know_grow; auto.
    - exact (v_race w V).
  Qed.

  (** ** A step in the log *)

  Definition set_log (w : wstate) (l : list (nat * list access)) : wstate :=
    {| w_s := w_s w; w_k := w_k w; w_hist := w_hist w; w_hw := w_hw w; w_hr := w_hr w; w_gone := w_gone w; w_log := l |}.

  Lemma up_log : forall w l a i, up w a i <-> up (set_log w l) a i.
  Proof.
    intros w l a i. split; intros U; induction U as [a i X|a h i R X|a h t p i R T U K|a t p i T X K|a t p i T X K|a b n i L K U IH].
    all: first [apply up_view; assumption|eapply up_root; eassumption|eapply up_user; eassumption|eapply up_hand; eassumption|eapply up_dying; eassumption|eapply up_kid; eassumption].
  Qed.

  Lemma know_log : forall w l p i, know w p i <-> know (set_log w l) p i.
  Proof. intros w l [h|b|t] i; cbn; try tauto. apply up_log. Qed.

  Definition heavy (k : kind) : Prop := k = KWrite \/ k = KWhole.

  Lemma log_add : forall w t acc, winv w ->
    (forall x, In x acc -> match look (c_mem (w_s w)) (x_addr x) with Some _ => up w (x_addr x) (length (w_log w)) | None => In (length (w_log w)) (w_gone w (x_addr x)) end) ->
    (forall x E, In x acc -> heavy (x_kind x) -> ereach (w_s w) E (x_addr x) -> eknow w E (length (w_log w))) ->
    (forall x i, In x acc -> used (w_log w) i (x_addr x) -> heavy (x_kind x) -> In i (x_hb x)) ->
    (forall x i, In x acc -> wrote (w_log w) i (x_addr x) -> In i (x_hb x)) ->
    winv (set_log w (w_log w ++ [(t, acc)])).
  Proof.
    intros w t acc V A1 A2 A3 A4.
    assert (NT : forall i q, nth_error (w_log w ++ [(t, acc)]) i = Some q -> nth_error (w_log w) i = Some q \/ i = length (w_log w) /\ q = (t, acc)).
    { intros i q E. destruct (lt_eq_lt_dec i (length (w_log w))) as [[L| ->]|L].
      - rewrite nth_error_app1 in E by auto. auto.
      - rewrite nth_snoc in E. injection E as <-. auto.
      - assert (i < length (w_log w ++ [(t, acc)])) by (eapply nth_error_lt; eauto). rewrite app_length in H. cbn in H. lia. }
    constructor; cbn [set_log w_s w_log].
    - apply (v_inv w V).
    - apply (v_hist w V).
    - intros i a (u & xs & x & E & X & <- & H) EN R. apply NT in E. destruct E as [E|[-> E]].
      + apply (v_wr w V i (x_addr x)); auto. exists u, xs, x. auto.
      + injection E as -> ->. apply (A2 x EN X H R).
    - apply (v_read w V).
    - apply (v_write w V).
    - intros i a (u & xs & x & E & X & <-). apply NT in E. destruct E as [E|[-> E]].
      + pose proof (v_up w V i (x_addr x)) as Y. cbn [w_gone]. destruct (look (c_mem (w_s w)) (x_addr x)); [apply up_log|]; apply Y; exists u, xs, x; auto.
      + injection E as -> ->. specialize (A1 x X). destruct (look (c_mem (w_s w)) (x_addr x)); auto. apply up_log. auto.
    - apply (v_claim w V).
    - apply (v_dying w V).
    - intros a pre m post l E P G R LA. destruct (v_old w V a pre m post l E P G R LA) as (m' & A & B). exists m'. split; auto. apply know_log. auto.
    - intros (i & j & u & u' & xs & ys & x & y & LT & E & E' & X & Y & SA & C & NI). cbn in E, E'. apply NT in E'. destruct E' as [E'|[-> E']].
      + apply (v_race w V). exists i, j, u, u', xs, ys, x, y. split; [exact LT|]. split; [|tauto].
        apply NT in E. destruct E as [E|[-> _]]; auto. apply nth_error_lt in E'. lia.
      + injection E' as -> ->. apply NT in E. destruct E as [E|[-> _]]; [|lia]. apply NI.
        destruct (x_kind y) eqn:KY; try solve [apply (A3 y i Y); [exists u, xs, x; auto|rewrite KY; unfold heavy; auto]];
          apply (A4 y i Y); exists u, xs, x; (split; [auto|split; [auto|split; [auto|]]]); destruct (x_kind x); cbn in C; auto; discriminate.
  Qed.
End WP.
