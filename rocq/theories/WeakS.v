(** Proofs about weak memory: the uses of nodes in every step. *)
From Coq Require Import List Arith Bool Lia.
From Verif Require Import Base ListFacts Cow CowSpec CowP CowQ CowR CowS CowT CowPropsP Weak WeakP WeakQ WeakR.
Import ListNotations.

Section WS.
  Context {D : Type}.
  Notation heap := (heap D).
  Notation cnode := (cnode D).
  Notation pc := (pc D).
  Notation cstate := (cstate D).
  Notation wstate := (wstate D).
  Variable o : ords.
  Hypothesis ST : strong o.
  Notation winv := (@winv D o).

  Definition k1 (w : wstate) (t : nat) (e : ev D) : evs := w_k w t ++ joins w t e.
  Definition k2 (w : wstate) (t : nat) (e : ev D) (g : evs) : evs := length (w_log w) :: g ++ k1 w t e.
  Definition gone2 (w : wstate) (t : nat) (e : ev D) (g : evs) : addr -> evs :=
    match allocates (w_s w) t e with Some a => upd (w_gone w) a (k2 w t e g) | None => w_gone w end.

  Lemma k_k1 : forall w t e, incl (w_k w t) (k1 w t e).
  Proof. intros w t e i X. apply in_or_app. auto. Qed.
  Lemma k1_k2 : forall w t e g, incl (k1 w t e) (k2 w t e g).
  Proof. intros w t e g i X. right. apply in_or_app. auto. Qed.
  Lemma g_k2 : forall w t e g, incl g (k2 w t e g).
  Proof. intros w t e g i X. right. apply in_or_app. auto. Qed.
  Lemma k_k2 : forall w t e g, incl (w_k w t) (k2 w t e g).
  Proof. intros w t e g i X. apply k1_k2, k_k1, X. Qed.

  (** An allocating step finds the address free. *)
  Lemma alloc_free : forall (s s' : cstate) t e v b a, vstep s t e v = Next s' b -> allocates s t e = Some a -> look (c_mem s) a = None.
  Proof.
    intros s s' t e v b a E A. unfold allocates in A. unfold vstep in E. destruct (nth_error (c_threads s) t) as [p|] eqn:N; [|discriminate].
    destruct p as [|h is x|ws|h fr en|h fr x fl old]; try (destruct e; discriminate).
    - destruct e; try discriminate. injection A as ->. unfold cstep in E. rewrite N in E. destruct (nth_error (c_handles s) h) as [[[r|]|]|]; try discriminate.
      destruct (existsb (uses h) (c_threads s)); [discriminate|]. destruct (alloc (c_mem s) a _) as [m|] eqn:AL; [|discriminate]. eapply alloc_none; eauto.
    - destruct en as [|d q done|x ws|x]; try (destruct e; discriminate). destruct e; try discriminate. unfold next_kid in A. unfold cstep in E. rewrite N in E. cbn [ens_step] in E.
      destruct (slot s h fr) as [x|]; [|discriminate]. destruct (look (c_mem s) x) as [n|]; [|discriminate]. destruct (nth_error (n_kids n) (length done)) as [c|]; [discriminate|].
      injection A as ->. destruct (alloc (c_mem s) a _) as [m|] eqn:AL; [|discriminate]. eapply alloc_none; eauto.
    - destruct e; try discriminate; injection A as ->; unfold cstep in E; rewrite N in E; cbn [at_step] in E.
      + unfold at_step in E. destruct (look (c_mem s) x) as [n|]; [|discriminate]. destruct ((n_h n =? 0) || (m + 1 <? length (n_kids n))); [|discriminate].
        destruct (alloc (c_mem s) a _) as [mm|] eqn:AL; [|discriminate]. eapply alloc_none; eauto.
      + unfold at_step in E. destruct (look (c_mem s) x) as [n|] eqn:LX; [|discriminate]. destruct fr; [|discriminate]. destruct (nth_error fl r) as [y|]; [|discriminate].
        destruct (look (c_mem s) y) as [ny|] eqn:LY; [|discriminate]. destruct (n_h ny =? n_h n); [|discriminate]. destruct (alloc _ a _) as [m|] eqn:AL; [|discriminate].
        apply alloc_none in AL. destruct (look (c_mem s) a) as [na|] eqn:LA; auto. exfalso.
        assert (LY2 : exists n2, look (put (c_mem s) x (with_par n (Some (a, 0)))) y = Some n2) by (rewrite (look_put _ _ _ _ y LX); destruct (y =? x); eauto). destruct LY2 as (n2 & LY2).
        rewrite (look_put _ _ _ _ a LY2) in AL. destruct (a =? y); [discriminate|]. rewrite (look_put _ _ _ _ a LX) in AL. destruct (a =? x); congruence.
  Qed.

  Lemma joins_gone : forall w t e a, allocates (w_s w) t e = Some a -> incl (w_gone w a) (k1 w t e).
  Proof. intros w t e a A i X. apply in_or_app. right. unfold joins. rewrite A. apply in_or_app. auto. Qed.

  Definition simple (e : ev D) : Prop := match e with VRead _ | VClone _ => False | _ => True end.

  Lemma acc_fair : forall (w : wstate) t p e j v g s' b, winv w -> thr w t p -> simple e -> reads_count o w (k1 w t e) (atomic o (w_s w) t e) j = Some (v, g) ->
    vstep (w_s w) t e v = Next s' b ->
    forall x, In x (uses_of o (w_s w) t e v (k1 w t e) (k2 w t e g)) -> fair w t p (k2 w t e g) (gone2 w t e g) x.
  Proof.
    intros w t p e j v g s' b V T SI RC VS x X. pose proof (v_inv o w V) as I. pose proof (i_thread _ I t p T) as TI.
    assert (LIGHT : forall a kd E, mine t p E -> ereach (w_s w) E a -> kd = KRead \/ kd = KCount -> fair w t p (k2 w t e g) (gone2 w t e g) {| x_addr := a; x_kind := kd; x_hb := k1 w t e |}).
    { intros a kd E M R KD. eapply (fair_light o); eauto. apply k_k1. }
    assert (ULIGHT : forall a kd, (exists E, own t p E /\ ereach (w_s w) E a) -> kd = KRead \/ kd = KCount -> fair w t p (k2 w t e g) (gone2 w t e g) {| x_addr := a; x_kind := kd; x_hb := k1 w t e |}).
    { intros a kd (E & O & R) KD. eapply LIGHT; eauto. apply own_mine. auto. }
    assert (CLAIM : forall a kd, In a (frames p ++ tips p) -> fair w t p (k2 w t e g) (gone2 w t e g) {| x_addr := a; x_kind := kd; x_hb := k2 w t e g |}).
    { intros a kd C. eapply (fair_claim o); eauto. apply k_k2. }
    assert (CREACH : forall a, In a (claims p) -> exists E, own t p E /\ ereach (w_s w) E a) by (intros a C; eapply claim_reach; eauto).
    unfold uses_of in X. rewrite !in_app_iff, !in_map_iff in X. destruct X as [(a & <- & X)|[(a & <- & X)|[(a & <- & X)|[(a & <- & X)|(a & <- & X)]]]].
    - (* reads *)
      unfold rd_nodes in X. rewrite T in X. destruct p as [|h is y|ws|h fr en|h fr y fl old].
      + destruct e; try contradiction.
      + destruct e; try contradiction. cbn [tinv] in TI. destruct TI as (r & RT & FO).
        assert (RY : ereach (w_s w) (ETree h) y) by (exists r; split; [exact RT|eapply follow_reach; eauto]).
        apply (LIGHT a KRead (ETree h)); auto; [cbn; apply Nat.eqb_refl|]. destruct X as [<-|X]; auto. destruct (look (c_mem (w_s w)) y) as [n|] eqn:L; [|contradiction].
        destruct (nth_error (n_kids n) i) as [c|] eqn:K; [|contradiction]. destruct X as [<-|[]]. eapply ereach_kid; eauto. eapply nth_error_In; eauto.
      + contradiction.
      + cbn [tinv] in TI. destruct TI as (_ & y & CH & _). destruct (chain_reach _ _ _ _ CH) as [RA RF].
        assert (XX : In a (map fst fr ++ olist (slot (w_s w) h fr))) by (destruct en; destruct e; try contradiction; exact X).
        apply (LIGHT a KRead (ETree h)); auto; [cbn; apply Nat.eqb_refl|]. rewrite (slot_chain _ _ _ _ CH) in XX. apply in_app_or in XX. destruct XX as [XX|[<-|[]]]; auto.
      + apply ULIGHT; [|auto]. apply CREACH. apply in_app_or in X. destruct X as [X|X]; [apply frames_claims|apply tips_claims]; auto.
    - (* the count *)
      unfold atomic in X. rewrite T in X. destruct p as [|h is y|ws|h fr en|h fr y fl old].
      + destruct e; try contradiction.
      + destruct e; contradiction.
      + apply ULIGHT; [|auto]. exists (EThread t). split; [reflexivity|]. destruct ws as [|[y|y] ws]; destruct e; try contradiction; destruct X as [<-|[]]; exists y; (split; [|constructor]); cbn; eexists; (split; [exact T|]); cbn; auto.
      + cbn [tinv] in TI. destruct TI as (_ & y & CH & EI). destruct (chain_reach _ _ _ _ CH) as [RA RF].
        destruct en as [|d q done|z [|[u|u] ws]|z]; destruct e; try contradiction.
        * rewrite (slot_chain _ _ _ _ CH) in X. destruct X as [<-|[]]. apply (LIGHT y KCount (ETree h)); auto. cbn. apply Nat.eqb_refl.
        * unfold next_kid in X. rewrite (slot_chain _ _ _ _ CH) in X. destruct (look (c_mem (w_s w)) y) as [n|] eqn:L; [|contradiction].
          destruct (nth_error (n_kids n) (length done)) as [c|] eqn:K; [|contradiction]. destruct X as [<-|[]].
          apply (LIGHT c KCount (ETree h)); auto; [cbn; apply Nat.eqb_refl|]. eapply ereach_kid; eauto. eapply nth_error_In; eauto.
        * destruct X as [<-|[]]. apply ULIGHT; [|auto]. exists (EThread t). split; [reflexivity|]. exists u. split; [|constructor]. cbn. eexists. split; [exact T|]. cbn. auto.
        * destruct X as [<-|[]]. apply ULIGHT; [|auto]. exists (EThread t). split; [reflexivity|]. exists u. split; [|constructor]. cbn. eexists. split; [exact T|]. cbn. auto.
      + destruct e; try contradiction. unfold fix_kid in X. destruct (pick y fl t0) as [z|] eqn:P; [|contradiction]. destruct (look (c_mem (w_s w)) z) as [nz|] eqn:L; [|contradiction].
        destruct (nth_error (n_kids nz) i) as [c|] eqn:K; [|contradiction]. destruct X as [<-|[]]. apply ULIGHT; [|auto].
        destruct (CREACH z) as (E & O & R); [eapply pick_claim; eauto|]. exists E. split; auto. eapply ereach_kid; eauto. eapply nth_error_In; eauto.
    - (* allocation *)
      destruct (allocates (w_s w) t e) as [a0|] eqn:A; [|contradiction]. destruct X as [<-|[]]. pose proof (alloc_free _ _ _ _ _ _ _ VS A) as L.
      eapply (fair_new o); eauto; [apply joins_gone; auto|]. unfold gone2. rewrite A, upd_same. left. auto.
    - (* writes *)
      unfold wr_nodes in X. rewrite T in X. destruct p as [|h is y|ws|h fr en|h fr y fl old].
      + destruct e; contradiction.
      + destruct e; contradiction.
      + destruct e; contradiction.
      + destruct en as [|d q done|z ws|z]; destruct e; try contradiction.
        * apply CLAIM. apply in_or_app. left. destruct fr as [|[q' i] fr]; cbn in X; [contradiction|]. destruct X as [<-|[]]. left. auto.
        * apply CLAIM. apply in_or_app. right. destruct X as [<-|[]]. left. auto.
      + assert (PK : forall tg, In a (olist (pick y fl tg)) -> In a (frames (PAt h fr y fl old : pc) ++ tips (PAt h fr y fl old : pc))).
        { intros tg Q. destruct (pick y fl tg) as [z|] eqn:P; [|contradiction]. destruct Q as [<-|[]]. apply in_or_app. right. eapply pick_in; eauto. }
        assert (FL : forall r, In a (olist (nth_error fl r)) -> In a (frames (PAt h fr y fl old : pc) ++ tips (PAt h fr y fl old : pc))) by (intros r; apply (PK (TNew r))).
        assert (YY : In y (frames (PAt h fr y fl old : pc) ++ tips (PAt h fr y fl old : pc))) by (apply in_or_app; right; left; auto).
        destruct e; try contradiction; try (apply CLAIM; eauto; fail).
        * destruct X as [<-|[]]. apply CLAIM. auto.
        * apply in_app_or in X. apply CLAIM. destruct X as [X|X]; eauto.
        * destruct X as [<-|[]]. apply CLAIM. auto.
        * apply CLAIM. destruct X as [<-|X]; eauto.
        * destruct (Nat.eqb_spec v 1) as [->|]; [|contradiction]. unfold fix_kid in X. cbn [atomic] in RC. unfold atomic in RC. unfold thr in T. rewrite T in RC. unfold fix_kid in RC.
          destruct (pick y fl t0) as [z|] eqn:P; [|contradiction]. destruct (look (c_mem (w_s w)) z) as [nz|] eqn:L; [|contradiction].
          destruct (nth_error (n_kids nz) i) as [c|] eqn:K; [|contradiction]. destruct X as [<-|[]].
          assert (R : refers (w_s w) c (LKid z)) by (cbn; exists nz; split; auto; eapply nth_error_In; eauto).
          assert (M : mn t (PAt h fr y fl old : pc) (LKid z)) by (cbn [mn]; apply in_or_app; right; eapply pick_in; eauto).
          destruct (refers_live _ _ _ I R) as (nc & LC & _). cbn [oload] in RC.
          destruct (load_one o w t _ _ _ _ _ _ _ _ V T M R LC (k_k1 w t _) RC) as [C1 G]. specialize (G (proj1 ST)). subst g.
          eapply (fair_unique o); eauto; [apply k_k2|apply g_k2].
    - (* freeing *)
      unfold releases_mem in X. rewrite T in X. unfold atomic in RC. unfold thr in T. rewrite T in RC.
      assert (DYING : forall z, In z (dying p) -> reads_count o w (k1 w t e) (ALoad z (o_last o)) j = Some (v, g) -> fair w t p (k2 w t e g) (gone2 w t e g) {| x_addr := z; x_kind := KWhole; x_hb := k2 w t e g |}).
      { intros z Z R. eapply (fair_dying o); eauto; [apply k_k2|]. destruct ST as (_ & _ & [A|A]).
        - intros i Q. apply k_k2. apply (proj2 (v_dying o w V t p z T Z) A). auto.
        - rewrite <- (load_last o w t p z _ _ _ _ _ V T Z (k_k1 w t e) R A). apply g_k2. }
      destruct p as [|h is y|ws|h fr en|h fr y fl old]; try (destruct e; contradiction).
      + destruct ws as [|[y|y] ws]; destruct e; try contradiction. destruct X as [<-|[]]. apply DYING; auto. cbn. auto.
      + destruct en as [|d q done|z [|[u|u] ws]|z]; destruct e; try contradiction. destruct X as [<-|[]]. apply DYING; auto. cbn. auto.
  Qed.

  Definition staged (w : wstate) (t : nat) (e : ev D) (v : nat) (g : evs) : wstate :=
    before w t (k2 w t e g) (gone2 w t e g) (uses_of o (w_s w) t e v (k1 w t e) (k2 w t e g)).

  Lemma staged_ok : forall (w : wstate) t p e j v g s' b, winv w -> thr w t p -> simple e -> reads_count o w (k1 w t e) (atomic o (w_s w) t e) j = Some (v, g) ->
    vstep (w_s w) t e v = Next s' b -> winv (staged w t e v g).
  Proof.
    intros w t p e j v g s' b V T SI RC VS. eapply (before_ok o); eauto.
    - apply k_k2.
    - left. auto.
    - intros a L. unfold gone2. destruct (allocates (w_s w) t e) as [a0|] eqn:A; [|apply incl_refl]. unfold upd. destruct (Nat.eqb_spec a a0) as [->|]; [|apply incl_refl].
      eapply incl_tran; [apply joins_gone; eauto|apply k1_k2].
    - eapply acc_fair; eauto.
  Qed.

  (** ** The step of the machine without weak memory *)

  Definition alike (e e' : ev D) : Prop := e' = e \/ (e' = VShared /\ match e with VStep _ | VFix _ _ => True | _ => False end).

  Lemma vstep_cow : forall (w : wstate) t p e j v g, winv w -> thr w t p -> reads_count o w (k1 w t e) (atomic o (w_s w) t e) j = Some (v, g) ->
    match vstep (w_s w) t e v with Blocked => True | r => exists e', alike e e' /\ cstep (w_s w) t e' = r end.
  Proof.
    intros w t p e j v g V T RC. pose proof (v_inv o w V) as I. pose proof (i_thread _ I t p T) as TI. unfold thr in T.
    assert (DEF : match cstep (w_s w) t e with Blocked => True | r => exists e', alike e e' /\ cstep (w_s w) t e' = r end).
    { destruct (cstep (w_s w) t e) eqn:E; auto; exists e; (split; [left; auto|auto]). }
    unfold vstep. rewrite T. destruct p as [|h is y|ws|h fr en|h fr y fl old]; try (destruct e; auto; fail).
    - destruct en as [|d q done|z ws|z]; try (destruct e; auto; fail). destruct e; auto. unfold atomic in RC. rewrite T in RC. cbn [tinv] in TI. destruct TI as (_ & y & CH & _).
      rewrite (slot_chain _ _ _ _ CH) in *. destruct (tip_live _ _ _ _ I CH) as (n & L & _). rewrite L. cbn [oload] in RC.
      assert (M : exists l, refers (w_s w) y l /\ mn t (PEns h fr ELoad : pc) l).
      { destruct (chain_refers (w_s w) t _ h fr y T CH) as (l & R & O & _); [reflexivity|cbn; apply Nat.eqb_refl|]. exists l. split; auto. apply own_mn. auto. }
      destruct M as (l & R & M). destruct (Nat.eqb_spec v 1) as [->|NV].
      + destruct (load_one o w t _ _ _ _ _ _ _ _ V T M R L (k_k1 w t _) RC) as [C1 _]. exists (VStep a). split; [left; auto|]. unfold cstep. rewrite T. cbn [ens_step].
        rewrite (slot_chain _ _ _ _ CH), L, C1. reflexivity.
      + exists VShared. split; [right; auto|]. unfold cstep. rewrite T, (slot_chain _ _ _ _ CH), L. reflexivity.
    - destruct e; auto. unfold atomic in RC. rewrite T in RC. unfold fix_kid in RC. cbn [tinv] in TI. destruct TI as (_ & CH & (n & L & _) & _). rewrite L.
      destruct (pick y fl t0) as [z|] eqn:P; auto. destruct (claim_live _ t _ z I T (pick_claim _ _ _ _ _ _ _ P)) as (nz & LZ). rewrite LZ in *.
      destruct (nth_error (n_kids nz) i) as [c|] eqn:K; auto. assert (R : refers (w_s w) c (LKid z)) by (cbn; exists nz; split; auto; eapply nth_error_In; eauto).
      assert (M : mn t (PAt h fr y fl old : pc) (LKid z)) by (cbn [mn]; apply in_or_app; right; eapply pick_in; eauto).
      destruct (refers_live _ _ _ I R) as (nc & LC & _). rewrite LC. cbn [oload] in RC. destruct (Nat.eqb_spec v 1) as [->|NV].
      + destruct (load_one o w t _ _ _ _ _ _ _ _ V T M R LC (k_k1 w t _) RC) as [C1 _]. exists (VFix t0 i). split; [left; auto|]. unfold cstep. rewrite T. unfold at_step.
        rewrite L, P, LZ, K, LC, C1. reflexivity.
      + exists VShared. split; [right; auto|]. unfold cstep. rewrite T. unfold at_step. rewrite L. reflexivity.
  Qed.
End WS.
