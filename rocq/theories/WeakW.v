(** Proofs about weak memory: every step keeps the invariant, part 3. *)
From Coq Require Import List Arith Bool Lia Permutation.
From Verif Require Import Base ListFacts Cow CowSpec CowP CowQ CowR CowS CowT CowPropsP Weak WeakP WeakQ WeakR WeakS WeakT WeakU WeakV.
Import ListNotations.

Section WW.
  Context {D : Type}.
  Notation heap := (heap D).
  Notation cnode := (cnode D).
  Notation pc := (pc D).
  Notation cstate := (cstate D).
  Notation wstate := (wstate D).
  Variable o : ords.
  Hypothesis ST : strong o.
  Notation winv := (@winv D o).

  Lemma in_remove : forall (l : list addr) j x y, nth_error l j = Some x -> In y l <-> y = x \/ In y (remove_nth j l).
  Proof.
    intros l j x y N. pose proof (remove_perm _ _ _ _ N) as P. split; intros H.
    - apply (Permutation_in _ P) in H. destruct H; auto.
    - apply (Permutation_in _ (Permutation_sym P)). destruct H as [->|H]; [left|right]; auto.
  Qed.

  Lemma in_insert : forall (l : list addr) k c x, k <= length l -> In x (insert_at k c l) <-> x = c \/ In x l.
  Proof.
    intros l k c x K. unfold insert_at. rewrite <- (firstn_skipn k l) at 3. rewrite !in_app_iff. cbn [In]. split; intros H; repeat (destruct H as [H|H]; auto).
  Qed.

  (** ** With unique access *)

  Lemma at_case : forall (w : wstate) t e j v g s' b h fr a fl old, winv w -> thr w t (PAt h fr a fl old) -> inv s' ->
    reads_count o w (k1 w t e) (atomic o (w_s w) t e) j = Some (v, g) -> vstep (w_s w) t e v = Next s' b -> simple e -> winv (mk o w t e g s' (logged o w t e v g)).
  Proof.
    intros w t e j v g s' b h fr a fl old V T I' RC VS SI. pose proof (staged_ok o ST w t _ e j v g s' b V T SI RC VS) as V2. pose proof (base_staged o w t e v g) as B.
    pose proof (v_inv o w V) as I. unfold thr in T.
    assert (LT : t < length (c_threads (w_s w))) by (eapply nth_error_lt; eauto).
    assert (YY : forall f : list (addr * nat), In a (map fst f ++ a :: fl)) by (intros f; apply in_or_app; right; left; auto).
    assert (SAME : c_threads (w_s w) = replace_at t (PAt h fr a fl old) (c_threads (w_s w))) by (symmetry; apply replace_same; auto).
    assert (STILL : forall s2, hw' w t e (k2 w t e g) = w_hw w -> hr' w t e (k2 w t e g) = w_hr w -> hands (staged o w t e v g) (mk o w t e g s2 (logged o w t e v g)) t (PAt h fr a fl old) (PAt h fr a fl old))
      by (intros s2 EW ER; apply (hands_still o); auto).
    assert (HR : forall x, In x (fl ++ old) -> refers (w_s w) x (LHand t)) by (intros x X; cbn; eexists; split; [exact T|exact X]).
    destruct e; try (unfold vstep, cstep, at_step in VS; rewrite !T in VS; solve [discriminate|destruct (look (c_mem (w_s w)) a); discriminate]).
    - (* VChild *)
      unfold vstep in VS. rewrite T in VS. unfold cstep in VS. rewrite T in VS. unfold at_step in VS. destruct (look (c_mem (w_s w)) a) as [n|] eqn:L; [|discriminate].
      destruct ((i <? length (n_kids n)) && (length fl + length old =? 0)) eqn:C; [|discriminate]. injection VS as <- <-.
      apply andb_prop in C. destruct C as [_ C]. apply Nat.eqb_eq in C. destruct fl, old; try discriminate.
      eapply (quiet_case o w t _ g _ _ _ _ (PEns h ((a, i) :: fr) ELoad) B V2 T I'); try reflexivity; try (calc T); auto; try (cbn; tauto); [apply same_refl| |apply (hands_still o); auto; calc T].
      cbn. intros x [<-|X]; left; auto. rewrite app_nil_r in X. apply in_or_app. auto.
    - (* VWrite *)
      unfold vstep in VS. rewrite T in VS. unfold cstep in VS. rewrite T in VS. unfold at_step in VS. destruct (look (c_mem (w_s w)) a) as [n|] eqn:L; [|discriminate].
      destruct (pick a fl t0) as [z|] eqn:P; [|discriminate]. destruct (look (c_mem (w_s w)) z) as [nz|] eqn:LZ; [|discriminate]. injection VS as <- <-.
      eapply (quiet_case o w t _ g _ _ _ _ (PAt h fr a fl old) B V2 T I'); try reflexivity; try (calc T); auto; [eapply same_put; eauto|apply STILL; calc T].
    - (* VSplit *)
      unfold vstep in VS. rewrite T in VS. unfold cstep in VS. rewrite T in VS. unfold at_step in VS. destruct (look (c_mem (w_s w)) a) as [n|] eqn:L; [|discriminate].
      destruct ((n_h n =? 0) || (m + 1 <? length (n_kids n))); [|discriminate].
      destruct (alloc (c_mem (w_s w)) a0 {| n_data := d'; n_kids := skipn (m + 1) (n_kids n); n_cnt := 1; n_par := None; n_h := n_h n |}) as [mm|] eqn:AL; [|discriminate]. injection VS as <- <-.
      pose proof (alloc_none _ _ _ _ AL) as LN. assert (NA : a <> a0) by congruence.
      assert (LM : look mm a = Some n) by (rewrite (look_alloc _ _ _ _ a AL), (proj2 (Nat.eqb_neq a a0) NA); auto).
      assert (LK : forall z, look (put mm a (with_body n d (firstn (m + 1) (n_kids n)))) z = if z =? a then Some (with_body n d (firstn (m + 1) (n_kids n)))
                else if z =? a0 then Some {| n_data := d'; n_kids := skipn (m + 1) (n_kids n); n_cnt := 1; n_par := None; n_h := n_h n |} else look (c_mem (w_s w)) z).
      { intros z. rewrite (look_put _ _ _ _ z LM). destruct (z =? a); auto. apply (look_alloc _ _ _ _ z AL). }
      assert (RA : forall x s2, c_mem s2 = put mm a (with_body n d (firstn (m + 1) (n_kids n))) -> In x (firstn (m + 1) (n_kids n)) -> refers s2 x (LKid a)).
      { intros x s2 E X. cbn. rewrite E, LK, Nat.eqb_refl. eexists. split; [reflexivity|exact X]. }
      assert (RN : forall x s2, c_mem s2 = put mm a (with_body n d (firstn (m + 1) (n_kids n))) -> In x (skipn (m + 1) (n_kids n)) -> refers s2 x (LKid a0)).
      { intros x s2 E X. cbn. rewrite E, LK, (proj2 (Nat.eqb_neq a0 a) ltac:(congruence)), Nat.eqb_refl. eexists. split; [reflexivity|exact X]. }
      assert (RO : forall x, In x (n_kids n) -> exists l', mn t (PAt h fr a fl old : pc) l' /\ refers (w_s w) x l') by (intros x X; exists (LKid a); split; [cbn; apply YY|cbn; eauto]).
      eapply (shuffle_case o w t _ g _ _ _ _ (PAt h fr a (fl ++ [a0]) old) [a; a0] (Some a0) B V2 T I'); try reflexivity; try (calc T); auto.
      + intros x nx LX. cbn. rewrite LK. destruct (Nat.eqb_spec x a) as [->|].
        * eexists. split; [reflexivity|]. cbn. congruence.
        * destruct (Nat.eqb_spec x a0) as [->|]; [congruence|eauto].
      + intros x LX NX. cbn. rewrite LK. destruct (Nat.eqb_spec x a) as [->|]; [congruence|]. destruct (Nat.eqb_spec x a0) as [->|]; [congruence|auto].
      + intros x E. injection E as <-. split; auto. split.
        * eexists. cbn. rewrite LK, (proj2 (Nat.eqb_neq a0 a) ltac:(congruence)), Nat.eqb_refl. split; reflexivity.
        * exists (LHand t). split; [reflexivity|]. cbn. rewrite replace_nth_same by auto. eexists. split; [reflexivity|]. cbn. rewrite !in_app_iff. cbn. auto.
      + intros z x NZ. cbn. rewrite LK. destruct (Nat.eqb_spec z a) as [->|]; [exfalso; apply NZ; left; auto|]. destruct (Nat.eqb_spec z a0) as [->|]; [exfalso; apply NZ; right; left; auto|]. tauto.
      + intros z [<-|[<-|[]]]; auto. right. cbn. apply YY.
      + intros z [<-|[<-|[]]]; cbn; rewrite !in_app_iff; cbn; rewrite !in_app_iff; cbn; auto.
      + intros x [h'|z|u] C R; cbn [changed] in C.
        * exists (LRoot h'). split; [exact C|exact R].
        * destruct C as [<-|[<-|[]]]; destruct R as (nn & E & X); [|congruence]. rewrite L in E. injection E as <-. rewrite <- (firstn_skipn (m + 1) (n_kids n)) in X. apply in_app_or in X. destruct X as [X|X].
          -- exists (LKid a). split; [cbn; rewrite !in_app_iff; cbn; auto|]. apply RA; auto.
          -- exists (LKid a0). split; [cbn; rewrite !in_app_iff; cbn; rewrite !in_app_iff; cbn; auto|]. apply RN; auto.
        * subst u. exists (LHand t). split; [reflexivity|]. destruct R as (pp & E & X). rewrite T in E. injection E as <-. cbn. rewrite replace_nth_same by auto. eexists. split; [reflexivity|]. cbn in *. rewrite !in_app_iff in *. cbn. tauto.
      + intros x [h'|z|u] C R; cbn [changed] in C.
        * right. exists (LRoot h'). split; [exact C|exact R].
        * right. apply RO. destruct C as [<-|[<-|[]]]; destruct R as (nn & E & X); cbn in E; rewrite LK in E.
          -- rewrite Nat.eqb_refl in E. injection E as <-. cbn in X. rewrite <- (firstn_skipn (m + 1) (n_kids n)). apply in_or_app. auto.
          -- rewrite (proj2 (Nat.eqb_neq a0 a) ltac:(congruence)), Nat.eqb_refl in E. injection E as <-. cbn in X. rewrite <- (firstn_skipn (m + 1) (n_kids n)). apply in_or_app. auto.
        * subst u. destruct R as (pp & E & X). cbn in E. rewrite replace_nth_same in E by auto. injection E as <-. cbn in X. rewrite !in_app_iff in X. cbn in X.
          destruct X as [[X|[X|[]]]|X]; [right|left; congruence|right]; exists (LHand t); (split; [reflexivity|]); apply HR; apply in_or_app; auto.
      + intros x C. cbn in C. rewrite !in_app_iff in C. cbn in C. rewrite !in_app_iff in C. cbn in C. cbn. rewrite !in_app_iff. cbn. destruct C as [C|[C|[C|[C|[]]]]]; auto; left; congruence.
    - (* VAttach *)
      unfold vstep in VS. rewrite T in VS. unfold cstep in VS. rewrite T in VS. unfold at_step in VS. destruct (look (c_mem (w_s w)) a) as [n|] eqn:L; [|discriminate].
      destruct (pick a fl t0) as [z|] eqn:P; [|discriminate]. destruct (nth_error fl r) as [c|] eqn:NR; [|discriminate].
      destruct (look (c_mem (w_s w)) z) as [nz|] eqn:LZ; [|discriminate]. destruct (look (c_mem (w_s w)) c) as [nc|] eqn:LC; [|discriminate].
      destruct (negb (z =? c) && (n_h nz =? n_h nc + 1) && (k <=? length (n_kids nz))) eqn:C; [|discriminate]. injection VS as <- <-.
      apply andb_prop in C. destruct C as [C KL]. apply andb_prop in C. destruct C as [NZC _]. apply negb_true_iff, Nat.eqb_neq in NZC. apply Nat.leb_le in KL.
      assert (LK : forall x, look (put (c_mem (w_s w)) z (with_body nz d (insert_at k c (n_kids nz)))) x = if x =? z then Some (with_body nz d (insert_at k c (n_kids nz))) else look (c_mem (w_s w)) x)
        by (intros x; apply (look_put _ _ _ _ x LZ)).
      assert (ZP : In z (map fst fr ++ a :: fl)) by (apply in_or_app; right; eapply pick_in; eauto).
      assert (ZP' : In z (map fst fr ++ a :: remove_nth r fl)).
      { apply in_or_app. right. apply pick_in in P. destruct P as [P|P]; [left; auto|right]. apply (in_remove _ _ _ z NR) in P. destruct P; [congruence|auto]. }
      eapply (shuffle_case o w t _ g _ _ _ _ (PAt h fr a (remove_nth r fl) old) [z] None B V2 T I'); try reflexivity; try (calc T); auto.
      + intros x nx LX. cbn. rewrite LK. destruct (Nat.eqb_spec x z) as [->|]; [|eauto]. eexists. split; [reflexivity|]. cbn. congruence.
      + intros x LX _. cbn. rewrite LK. destruct (Nat.eqb_spec x z) as [->|]; [congruence|auto].
      + discriminate.
      + intros x y NX. cbn. rewrite LK. destruct (Nat.eqb_spec x z) as [->|]; [exfalso; apply NX; left; auto|tauto].
      + intros x [<-|[]]. auto.
      + intros x [<-|[]]. auto.
      + intros x [h'|y|u] C R; cbn [changed] in C.
        * exists (LRoot h'). split; [exact C|exact R].
        * destruct C as [<-|[]]. destruct R as (nn & E & X). rewrite LZ in E. injection E as <-. exists (LKid z). split; [exact ZP'|]. cbn. rewrite LK, Nat.eqb_refl. eexists. split; [reflexivity|]. cbn. apply in_insert; auto.
        * subst u. destruct R as (pp & E & X). rewrite T in E. injection E as <-. cbn in X. apply in_app_or in X. rewrite (in_remove _ _ _ x NR) in X. destruct X as [[->|X]|X].
          -- exists (LKid z). split; [exact ZP'|]. cbn. rewrite LK, Nat.eqb_refl. eexists. split; [reflexivity|]. cbn. apply in_insert; auto.
          -- exists (LHand t). split; [reflexivity|]. cbn. rewrite replace_nth_same by auto. eexists. split; [reflexivity|]. cbn. apply in_or_app. auto.
          -- exists (LHand t). split; [reflexivity|]. cbn. rewrite replace_nth_same by auto. eexists. split; [reflexivity|]. cbn. apply in_or_app. auto.
      + intros x [h'|y|u] C R; cbn [changed] in C; right.
        * exists (LRoot h'). split; [exact C|exact R].
        * destruct C as [<-|[]]. destruct R as (nn & E & X). cbn in E. rewrite LK, Nat.eqb_refl in E. injection E as <-. cbn in X. apply in_insert in X; auto. destruct X as [->|X].
          -- exists (LHand t). split; [reflexivity|]. apply HR. apply in_or_app. left. eapply nth_error_In; eauto.
          -- exists (LKid z). split; [exact ZP|]. cbn. eauto.
        * subst u. destruct R as (pp & E & X). cbn in E. rewrite replace_nth_same in E by auto. injection E as <-. cbn in X. exists (LHand t). split; [reflexivity|]. apply HR. rewrite in_app_iff in *. rewrite (in_remove _ _ _ x NR). tauto.
      + intros x C. right. cbn in *. rewrite in_app_iff in *. cbn in *. rewrite (in_remove _ _ _ x NR). tauto.
    - (* VFirst *)
      unfold vstep in VS. rewrite T in VS. unfold cstep in VS. rewrite T in VS. unfold at_step in VS. destruct (look (c_mem (w_s w)) a) as [n|] eqn:L; [|discriminate].
      destruct (nth_error fl j0) as [z|] eqn:NJ; [|discriminate]. destruct (nth_error fl r) as [c|] eqn:NR; [|discriminate].
      destruct (look (c_mem (w_s w)) z) as [nz|] eqn:LZ; [|discriminate]. destruct (look (c_mem (w_s w)) c) as [nc|] eqn:LC; [|discriminate].
      destruct (n_kids nz) as [|f ks] eqn:NK; [discriminate|]. destruct (negb (z =? c) && (n_h nz =? n_h nc + 1)) eqn:C; [|discriminate]. injection VS as <- <-.
      apply andb_prop in C. destruct C as [NZC _]. apply negb_true_iff, Nat.eqb_neq in NZC.
      assert (LC1 : look (put (c_mem (w_s w)) z (with_body nz (n_data nz) (c :: ks))) c = Some nc) by (rewrite (look_put _ _ _ _ c LZ), (proj2 (Nat.eqb_neq c z) ltac:(congruence)); auto).
      assert (LK : forall x, look (put (put (c_mem (w_s w)) z (with_body nz (n_data nz) (c :: ks))) c (with_par nc (Some (z, 0)))) x =
                if x =? c then Some (with_par nc (Some (z, 0))) else if x =? z then Some (with_body nz (n_data nz) (c :: ks)) else look (c_mem (w_s w)) x).
      { intros x. rewrite (look_put _ _ _ _ x LC1). destruct (x =? c); auto. apply (look_put _ _ _ _ x LZ). }
      assert (ZF : In z fl) by (eapply nth_error_In; eauto).
      assert (ZP : In z (map fst fr ++ a :: fl)) by (apply in_or_app; right; right; auto).
      assert (ZP' : In z (map fst fr ++ a :: remove_nth r fl)).
      { apply in_or_app. right. right. apply (in_remove _ _ _ z NR) in ZF. destruct ZF; [congruence|auto]. }
      assert (LZK : look (put (put (c_mem (w_s w)) z (with_body nz (n_data nz) (c :: ks))) c (with_par nc (Some (z, 0)))) z = Some (with_body nz (n_data nz) (c :: ks)))
        by (rewrite LK, (proj2 (Nat.eqb_neq z c) NZC), Nat.eqb_refl; auto).
      eapply (shuffle_case o w t _ g _ _ _ _ (PAt h fr a (remove_nth r fl) (old ++ [f])) [z] None B V2 T I'); try reflexivity; try (calc T); auto.
      + intros x nx LX. cbn. rewrite LK. destruct (Nat.eqb_spec x c) as [->|]; [eexists; split; [reflexivity|]; cbn; congruence|]. destruct (Nat.eqb_spec x z) as [->|]; [|eauto]. eexists. split; [reflexivity|]. cbn. congruence.
      + intros x LX _. cbn. rewrite LK. destruct (Nat.eqb_spec x c) as [->|]; [congruence|]. destruct (Nat.eqb_spec x z) as [->|]; [congruence|auto].
      + discriminate.
      + intros x y NX. cbn. rewrite LK. destruct (Nat.eqb_spec x c) as [->|].
        * rewrite LC. split; intros (nn & E & X); injection E as <-; eexists; (split; [reflexivity|exact X]).
        * destruct (Nat.eqb_spec x z) as [->|]; [exfalso; apply NX; left; auto|tauto].
      + intros x [<-|[]]. auto.
      + intros x [<-|[]]. auto.
      + intros x [h'|y|u] C R; cbn [changed] in C.
        * exists (LRoot h'). split; [exact C|exact R].
        * destruct C as [<-|[]]. destruct R as (nn & E & X). rewrite LZ in E. injection E as <-. rewrite NK in X. destruct X as [<-|X].
          -- exists (LHand t). split; [reflexivity|]. cbn. rewrite replace_nth_same by auto. eexists. split; [reflexivity|]. cbn. rewrite !in_app_iff. cbn. auto.
          -- exists (LKid z). split; [exact ZP'|]. cbn. rewrite LZK. eexists. split; [reflexivity|]. cbn. auto.
        * subst u. destruct R as (pp & E & X). rewrite T in E. injection E as <-. cbn in X. apply in_app_or in X. rewrite (in_remove _ _ _ x NR) in X. destruct X as [[->|X]|X].
          -- exists (LKid z). split; [exact ZP'|]. cbn. rewrite LZK. eexists. split; [reflexivity|]. cbn. auto.
          -- exists (LHand t). split; [reflexivity|]. cbn. rewrite replace_nth_same by auto. eexists. split; [reflexivity|]. cbn. rewrite !in_app_iff. auto.
          -- exists (LHand t). split; [reflexivity|]. cbn. rewrite replace_nth_same by auto. eexists. split; [reflexivity|]. cbn. rewrite !in_app_iff. auto.
      + intros x [h'|y|u] C R; cbn [changed] in C; right.
        * exists (LRoot h'). split; [exact C|exact R].
        * destruct C as [<-|[]]. destruct R as (nn & E & X). cbn in E. rewrite LZK in E. injection E as <-. cbn in X. destruct X as [<-|X].
          -- exists (LHand t). split; [reflexivity|]. apply HR. apply in_or_app. left. eapply nth_error_In; eauto.
          -- exists (LKid z). split; [exact ZP|]. cbn. exists nz. split; auto. rewrite NK. right. auto.
        * subst u. destruct R as (pp & E & X). cbn in E. rewrite replace_nth_same in E by auto. injection E as <-. cbn in X. rewrite !in_app_iff in X. destruct X as [X|[X|[<-|[]]]].
          -- exists (LHand t). split; [reflexivity|]. apply HR. rewrite in_app_iff. rewrite (in_remove _ _ _ x NR). tauto.
          -- exists (LHand t). split; [reflexivity|]. apply HR. rewrite in_app_iff. auto.
          -- exists (LKid z). split; [exact ZP|]. cbn. exists nz. split; auto. rewrite NK. left. auto.
      + intros x C. right. cbn in *. rewrite in_app_iff in *. cbn in *. rewrite (in_remove _ _ _ x NR). tauto.
    - (* VPush *)
      unfold vstep in VS. rewrite T in VS. unfold cstep in VS. rewrite T in VS. unfold at_step in VS. destruct (look (c_mem (w_s w)) a) as [n|] eqn:L; [|discriminate].
      destruct (nth_error old c) as [z|] eqn:NC; [|discriminate]. destruct (look (c_mem (w_s w)) z) as [nz|] eqn:LZ; [|discriminate].
      destruct (n_h n =? n_h nz + 1); [|discriminate]. injection VS as <- <-.
      assert (LK : forall x, look (put (c_mem (w_s w)) a (with_body n d (n_kids n ++ [z]))) x = if x =? a then Some (with_body n d (n_kids n ++ [z])) else look (c_mem (w_s w)) x)
        by (intros x; apply (look_put _ _ _ _ x L)).
      eapply (shuffle_case o w t _ g _ _ _ _ (PAt h fr a fl (remove_nth c old)) [a] None B V2 T I'); try reflexivity; try (calc T); auto.
      + intros x nx LX. cbn. rewrite LK. destruct (Nat.eqb_spec x a) as [->|]; [|eauto]. eexists. split; [reflexivity|]. cbn. congruence.
      + intros x LX _. cbn. rewrite LK. destruct (Nat.eqb_spec x a) as [->|]; [congruence|auto].
      + discriminate.
      + intros x y NX. cbn. rewrite LK. destruct (Nat.eqb_spec x a) as [->|]; [exfalso; apply NX; left; auto|tauto].
      + intros x [<-|[]]. right. apply YY.
      + intros x [<-|[]]. apply YY.
      + intros x [h'|y|u] C R; cbn [changed] in C.
        * exists (LRoot h'). split; [exact C|exact R].
        * destruct C as [<-|[]]. destruct R as (nn & E & X). rewrite L in E. injection E as <-. exists (LKid a). split; [apply YY|]. cbn. rewrite LK, Nat.eqb_refl. eexists. split; [reflexivity|]. cbn. apply in_or_app. auto.
        * subst u. destruct R as (pp & E & X). rewrite T in E. injection E as <-. cbn in X. apply in_app_or in X. rewrite (in_remove _ _ _ x NC) in X. destruct X as [X|[->|X]].
          -- exists (LHand t). split; [reflexivity|]. cbn. rewrite replace_nth_same by auto. eexists. split; [reflexivity|]. cbn. apply in_or_app. auto.
          -- exists (LKid a). split; [apply YY|]. cbn. rewrite LK, Nat.eqb_refl. eexists. split; [reflexivity|]. cbn. apply in_or_app. right. left. auto.
          -- exists (LHand t). split; [reflexivity|]. cbn. rewrite replace_nth_same by auto. eexists. split; [reflexivity|]. cbn. apply in_or_app. auto.
      + intros x [h'|y|u] C R; cbn [changed] in C; right.
        * exists (LRoot h'). split; [exact C|exact R].
        * destruct C as [<-|[]]. destruct R as (nn & E & X). cbn in E. rewrite LK, Nat.eqb_refl in E. injection E as <-. cbn in X. apply in_app_or in X. destruct X as [X|[<-|[]]].
          -- exists (LKid a). split; [apply YY|]. cbn. eauto.
          -- exists (LHand t). split; [reflexivity|]. apply HR. apply in_or_app. right. eapply nth_error_In; eauto.
        * subst u. destruct R as (pp & E & X). cbn in E. rewrite replace_nth_same in E by auto. injection E as <-. cbn in X. exists (LHand t). split; [reflexivity|]. apply HR. rewrite in_app_iff in *. rewrite (in_remove _ _ _ x NC). tauto.
    - (* VNewRoot *)
      unfold vstep in VS. rewrite T in VS. unfold cstep in VS. rewrite T in VS. unfold at_step in VS. destruct (look (c_mem (w_s w)) a) as [n|] eqn:L; [|discriminate].
      destruct fr as [|]; [|discriminate]. destruct (nth_error fl r) as [z|] eqn:NR; [|discriminate]. destruct (look (c_mem (w_s w)) z) as [nz|] eqn:LZ; [|discriminate].
      destruct (n_h nz =? n_h n); [|discriminate].
      destruct (alloc (put (put (c_mem (w_s w)) a (with_par n (Some (a0, 0)))) z (with_par nz (Some (a0, 1)))) a0 {| n_data := d; n_kids := [a; z]; n_cnt := 1; n_par := None; n_h := n_h n + 1 |}) as [m|] eqn:AL; [|discriminate].
      injection VS as <- <-.
      assert (NAZ : a <> z).
      { pose proof (i_own _ I t _ T) as ND. unfold claims in ND. cbn in ND. inversion ND as [|? ? NI _]; subst. intros ->. apply NI. eapply nth_error_In; eauto. }
      assert (LZ1 : look (put (c_mem (w_s w)) a (with_par n (Some (a0, 0)))) z = Some nz) by (rewrite (look_put _ _ _ _ z L), (proj2 (Nat.eqb_neq z a) ltac:(congruence)); auto).
      assert (LK : forall x, look m x = if x =? a0 then Some {| n_data := d; n_kids := [a; z]; n_cnt := 1; n_par := None; n_h := n_h n + 1 |} else if x =? z then Some (with_par nz (Some (a0, 1))) else if x =? a then Some (with_par n (Some (a0, 0))) else look (c_mem (w_s w)) x).
      { intros x. rewrite (look_alloc _ _ _ _ x AL). destruct (x =? a0); auto. rewrite (look_put _ _ _ _ x LZ1). destruct (x =? z); auto. apply (look_put _ _ _ _ x L). }
      assert (LN : look (c_mem (w_s w)) a0 = None).
      { apply alloc_none in AL. rewrite (look_put _ _ _ _ a0 LZ1) in AL. destruct (a0 =? z); [discriminate|]. rewrite (look_put _ _ _ _ a0 L) in AL. destruct (a0 =? a); [discriminate|auto]. }
      pose proof (i_thread _ I t _ T) as TI. cbn [tinv chain] in TI. destruct TI as (_ & CH & _).
      assert (RN : forall s2 x, c_mem s2 = m -> (x = a \/ x = z) -> refers s2 x (LKid a0)).
      { intros s2 x E X. cbn. rewrite E, LK, Nat.eqb_refl. eexists. split; [reflexivity|]. cbn. destruct X; auto. }
      eapply (shuffle_case o w t _ g _ _ _ _ (PAt h [] a0 (remove_nth r fl) old) [a0] (Some a0) B V2 T I'); try reflexivity; try (calc T); auto.
      + intros h'. cbn [go hand mem c_handles writes]. destruct (Nat.eqb_spec h' h) as [->|NE]; auto. left. unfold root. rewrite replace_nth_other by auto. auto.
      + intros x nx LX. cbn. rewrite LK. destruct (Nat.eqb_spec x a0) as [->|]; [congruence|]. destruct (Nat.eqb_spec x z) as [->|]; [eexists; split; [reflexivity|]; cbn; congruence|].
        destruct (Nat.eqb_spec x a) as [->|]; [eexists; split; [reflexivity|]; cbn; congruence|eauto].
      + intros x LX NX. cbn. rewrite LK. destruct (Nat.eqb_spec x a0) as [->|]; [congruence|]. destruct (Nat.eqb_spec x z) as [->|]; [congruence|]. destruct (Nat.eqb_spec x a) as [->|]; [congruence|auto].
      + intros x E. injection E as <-. split; auto. split.
        * eexists. cbn. rewrite LK, Nat.eqb_refl. split; reflexivity.
        * exists (LRoot h). split; [cbn; apply Nat.eqb_refl|]. cbn. unfold root. rewrite replace_nth_same; [reflexivity|]. apply root_nth in CH. eapply nth_error_lt; eauto.
      + intros x y NX. cbn. rewrite LK. destruct (Nat.eqb_spec x a0) as [->|]; [exfalso; apply NX; left; auto|].
        destruct (Nat.eqb_spec x z) as [->|].
        { rewrite LZ. split; intros (nn & E & X); injection E as <-; eexists; (split; [reflexivity|exact X]). }
        destruct (Nat.eqb_spec x a) as [->|].
        { rewrite L. split; intros (nn & E & X); injection E as <-; eexists; (split; [reflexivity|exact X]). }
        tauto.
      + intros x [<-|[]]. auto.
      + intros x [<-|[]]. left. auto.
      + intros x [h'|y|u] C R; cbn [changed] in C.
        * cbn in C. apply Nat.eqb_eq in C. subst h'. cbn in R. rewrite CH in R. injection R as <-. exists (LKid a0). split; [cbn; auto|]. apply RN; auto.
        * destruct C as [<-|[]]. destruct R as (nn & E & _). congruence.
        * subst u. destruct R as (pp & E & X). rewrite T in E. injection E as <-. cbn in X. apply in_app_or in X. rewrite (in_remove _ _ _ x NR) in X. destruct X as [[->|X]|X].
          -- exists (LKid a0). split; [cbn; auto|]. apply RN; auto.
          -- exists (LHand t). split; [reflexivity|]. cbn. rewrite replace_nth_same by auto. eexists. split; [reflexivity|]. cbn. apply in_or_app. auto.
          -- exists (LHand t). split; [reflexivity|]. cbn. rewrite replace_nth_same by auto. eexists. split; [reflexivity|]. cbn. apply in_or_app. auto.
      + intros x [h'|y|u] C R; cbn [changed] in C.
        * cbn in C. apply Nat.eqb_eq in C. subst h'. left. cbn in R. unfold root in R. rewrite replace_nth_same in R by (apply root_nth in CH; eapply nth_error_lt; eauto). congruence.
        * destruct C as [<-|[]]. right. destruct R as (nn & E & X). cbn in E. rewrite LK, Nat.eqb_refl in E. injection E as <-. cbn in X. destruct X as [<-|[<-|[]]].
          -- exists (LRoot h). split; [cbn; apply Nat.eqb_refl|exact CH].
          -- exists (LHand t). split; [reflexivity|]. apply HR. apply in_or_app. left. eapply nth_error_In; eauto.
        * subst u. right. destruct R as (pp & E & X). cbn in E. rewrite replace_nth_same in E by auto. injection E as <-. cbn in X. exists (LHand t). split; [reflexivity|]. apply HR. rewrite in_app_iff in *. rewrite (in_remove _ _ _ x NR). tauto.
      + intros x C. cbn in C. destruct C as [C|C]; [left; congruence|]. right. cbn. right. apply (in_remove _ _ _ x NR). auto.
    - (* VFix *)
      assert (EH : hist' o w t (VFix t0 i) (k2 w t (VFix t0 i) g) = w_hist w) by (unfold hist', atomic, allocates; rewrite T; destruct (fix_kid (w_s w) a fl t0 i); reflexivity).
      unfold vstep in VS. rewrite T in VS. destruct (look (c_mem (w_s w)) a) as [n|] eqn:L; [|discriminate].
      destruct (pick a fl t0) as [z|] eqn:P; [|discriminate]. destruct (look (c_mem (w_s w)) z) as [nz|] eqn:LZ; [|discriminate].
      destruct (nth_error (n_kids nz) i) as [c|] eqn:K; [|discriminate]. destruct (look (c_mem (w_s w)) c) as [nc|] eqn:LC; [|discriminate]. injection VS as <- <-.
      eapply (quiet_case o w t _ g _ _ _ _ (PAt h fr a fl old) B V2 T I'); try reflexivity; try (calc T); auto; try (destruct (v =? 1); exact SAME); [|destruct (v =? 1); reflexivity|apply STILL; calc T].
      destruct (v =? 1); [eapply same_put; eauto|apply same_refl].
    - (* VUp *)
      unfold vstep in VS. rewrite T in VS. unfold cstep in VS. rewrite T in VS. unfold at_step in VS. destruct (look (c_mem (w_s w)) a) as [n|] eqn:L; [|discriminate].
      destruct fr as [|[q i] fr]; [discriminate|]. injection VS as <- <-.
      eapply (quiet_case o w t _ g _ _ _ _ (PAt h fr q fl old) B V2 T I'); try reflexivity; try (calc T); auto; try (cbn; tauto); [apply same_refl| |apply (hands_still o); auto; calc T].
      cbn. intros x X. left. rewrite in_app_iff in *. cbn in *. tauto.
    - (* VEnd *)
      unfold vstep in VS. rewrite T in VS. unfold cstep in VS. rewrite T in VS. unfold at_step in VS. destruct (look (c_mem (w_s w)) a) as [n|] eqn:L; [|discriminate].
      destruct (length fl + length old =? 0) eqn:C; [|discriminate]. injection VS as <- <-. apply Nat.eqb_eq in C. destruct fl, old; try discriminate.
      eapply (quiet_case o w t _ g _ _ _ _ PIdle B V2 T I'); try reflexivity; try (calc T); auto; try (cbn; tauto); [apply same_refl|].
      apply (hands_end o) with (h := h); auto; calc T.
    - (* VAbort *)
      unfold vstep in VS. rewrite T in VS. unfold cstep in VS. rewrite T in VS. unfold at_step in VS. destruct (look (c_mem (w_s w)) a) as [n|] eqn:L; [|discriminate]. injection VS as <- <-.
      eapply (quiet_case o w t _ g _ _ _ _ (PDrop (map WDec (fl ++ old))) B V2 T I'); try reflexivity; try (calc T); auto; [apply same_refl| | | |].
      + intros x. cbn [in_hand]. generalize (fl ++ old). clear. intros l. induction l as [|y l IH]; cbn [map decs In]; [tauto|]. rewrite IH. tauto.
      + intros x. cbn [dying]. rewrite frees_map. tauto.
      + intros x X. destruct X.
      + apply (hands_end o) with (h := h); auto; calc T.
  Qed.
End WW.
