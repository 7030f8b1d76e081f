(** Neighbouring runs are never joinable, for slice types with the laws of Joins.v. *)
From Coq Require Import List ZArith Bool Lia.
From Verif Require Import Base Slice Spec Rep Flat Joins.
Import ListNotations.
Local Open Scope Z_scope.

Section JoinsP.
  Context {I V : Type} (Y : slice_ops I V) (inj : Z -> I).
  Context (D : doc_laws Y inj) (LL : left_law Y) (MJ : sl_may_join Y = true).
  Notation run := (prod V Z) (only parsing).

  (** The slice [s] cannot be joined with the first run of [l]. *)
  Definition no_head (s : V) (l : list run) : Prop :=
    match l with [] => True | (b, _) :: _ => ~ joins Y s b end.

  Fixpoint apart (l : list run) : Prop :=
    match l with [] => True | (a, _) :: l' => no_head a l' /\ apart l' end.

  Lemma apart_unjoined : forall l, apart l -> unjoined Y l.
  Proof.
    intros l H A. revert l H. induction A as [|[a z] A IH]; intros l H a' za b zb B E; subst l.
    - cbn in H. tauto.
    - destruct H as [_ H]. eapply IH; eauto.
  Qed.

  Lemma refuse_no : forall a b a' b', sl_try_join Y a b = inr (a', b') -> a' = a /\ b' = b /\ ~ joins Y a b.
  Proof. intros a b a' b' E. destruct (dl_refuse _ _ D _ _ _ _ E). repeat split; auto. intros [j Ej]. congruence. Qed.

  Lemma right_no : forall a b j l, sl_try_join Y a b = inl j -> no_head b l -> no_head j l.
  Proof. intros a b j [|[c zc] l] E H; cbn in *; auto. intros J. apply H. eapply dl_right; eauto. Qed.

  Lemma part_no : forall s q a b l, sl_split_at Y s (inj q) = (a, b) -> no_head s l -> no_head b l.
  Proof. intros s q a b [|[c zc] l] E H; cbn in *; auto. intros J. apply H. eapply dl_split_right; eauto. Qed.

  (** [l'] starts with something that joins to the right of no slice to which the start of [l] does not. *)
  Definition same_head (l l' : list run) : Prop := forall s, no_head s l -> no_head s l'.

  Lemma apart_place_none : forall x n s z r l, apart ((s, z) :: l) -> place Y None x n (Some (s, z)) = Ok r -> apart (r ++ l).
  Proof.
    intros x n s z r l [H1 H2] E. unfold place, join in E. rewrite MJ in E.
    destruct (sl_try_join Y x s) as [j|[x' s']] eqn:Ej; inversion E; subst; cbn [app apart no_head].
    - split; auto. eapply right_no; eauto.
    - destruct (refuse_no _ _ _ _ Ej) as (-> & -> & N). auto.
  Qed.

  Lemma apart_place_some : forall x n s z c r l, apart ((s, z) :: match c with Some c => c :: l | None => [] end) -> (c = None -> l = []) ->
    place Y (Some (s, z)) x n c = Ok r -> apart (r ++ l) /\ same_head [(s, z)] (r ++ l).
  Proof.
    intros x n s z c r l Ha Hc E. unfold place, join in E. rewrite MJ in E.
    destruct c as [[s2 z2]|].
    - destruct Ha as (H1 & H2 & H3).
      destruct (sl_try_join Y s x) as [m|[s' x']] eqn:E1.
      + destruct (sl_try_join Y m s2) as [j|[m' s2']] eqn:E2; inversion E; subst.
        destruct (refuse_no _ _ _ _ E2) as (-> & -> & N). cbn [app apart no_head]. repeat split; auto.
        intros s0 H0 J. apply H0. eapply LL; eauto.
      + destruct (refuse_no _ _ _ _ E1) as (-> & -> & N).
        destruct (sl_try_join Y x s2) as [j|[x2 s2']] eqn:E2; inversion E; subst; cbn [app apart no_head].
        * split; [|intros s0 H0; exact H0]. split; [intros J; apply N; eapply LL; eauto|]. split; auto. eapply right_no; eauto.
        * destruct (refuse_no _ _ _ _ E2) as (-> & -> & N2). split; [|intros s0 H0; exact H0]. auto.
    - rewrite (Hc eq_refl). destruct (sl_try_join Y s x) as [m|[s' x']] eqn:E1; inversion E; subst; cbn [app apart no_head].
      + repeat split; auto. intros s0 H0 J. apply H0. eapply LL; eauto.
      + destruct (refuse_no _ _ _ _ E1) as (-> & -> & N). split; [auto|intros s0 H0; exact H0].
  Qed.

  Lemma apart_place_inside : forall s z q x n l, apart ((s, z) :: l) ->
    apart (place_inside Y inj s z q x n ++ l) /\ same_head [(s, z)] (place_inside Y inj s z q x n ++ l).
  Proof.
    intros s z q x n l [H1 H2]. unfold place_inside, join. rewrite MJ.
    destruct (sl_split_at Y s (inj q)) as [a b] eqn:Es.
    pose proof (part_no _ _ _ _ _ Es H1) as Hb.
    assert (Hh : forall s0, ~ joins Y s0 s -> ~ joins Y s0 a) by (intros s0 H0 J; apply H0; eapply dl_split_left; eauto).
    destruct (sl_try_join Y a x) as [m|[a' x']] eqn:E1.
    - assert (Hm : forall s0, ~ joins Y s0 s -> ~ joins Y s0 m) by (intros s0 H0 J; apply (Hh s0 H0); eapply LL; eauto).
      destruct (sl_try_join Y m b) as [j|[m' b']] eqn:E2; cbn [app apart no_head].
      + split; [split; auto; eapply right_no; eauto|]. intros s0 H0 J. apply (Hm s0 H0). eapply LL; eauto.
      + destruct (refuse_no _ _ _ _ E2) as (-> & -> & N). split; [auto|]. intros s0 H0. apply Hm, H0.
    - destruct (refuse_no _ _ _ _ E1) as (-> & -> & N).
      destruct (sl_try_join Y x b) as [j|[x2 b']] eqn:E2; cbn [app apart no_head].
      + split; [|intros s0 H0; apply Hh, H0]. split; [intros J; apply N; eapply LL; eauto|]. split; auto. eapply right_no; eauto.
      + destruct (refuse_no _ _ _ _ E2) as (-> & -> & N2). split; [auto|intros s0 H0; apply Hh, H0].
  Qed.

  Lemma insert_runs_apart : forall l idx x n l', apart l -> idx <= rsum l -> insert_runs Y inj l idx x n = Ok l' ->
    apart l' /\ (idx <> 0 -> l <> [] -> same_head l l').
  Proof.
    induction l as [|[s z] l IH]; intros idx x n l' Ha Hr E; cbn [insert_runs rsum] in E, Hr.
    - inversion E; subst. cbn. repeat split; auto. congruence.
    - destruct (Z.eqb_spec idx 0) as [->|Hi].
      { destruct (place Y None x n (Some (s, z))) as [r| |] eqn:Ep; cbn [bind] in E; inversion E; subst.
        split; [eapply apart_place_none; eauto|congruence]. }
      destruct (Z.ltb_spec idx z).
      { inversion E; subst. destruct (apart_place_inside s z idx x n l Ha) as [H1 H2]. split; [exact H1|]. intros _ _ s0 H0. apply H2, H0. }
      destruct (Z.eqb_spec idx z).
      { destruct l as [|c l].
        - destruct (apart_place_some x n s z None l' [] Ha (fun _ => eq_refl) E) as [H1 H2]. rewrite app_nil_r in *. split; auto.
        - destruct (place Y (Some (s, z)) x n (Some c)) as [r| |] eqn:Ep; cbn [bind] in E; inversion E; subst.
          destruct (apart_place_some x n s z (Some c) r l Ha ltac:(discriminate) Ep) as [H1 H2].
          split; [exact H1|]. intros _ _ s0 H0. apply H2, H0. }
      destruct (insert_runs Y inj l (idx - z) x n) as [r| |] eqn:Er; cbn [bind] in E; inversion E; subst.
      destruct Ha as [H1 H2]. destruct (IH (idx - z) x n r H2 ltac:(lia) Er) as [H3 H4]. cbn [apart]. split; [split; auto|intros _ _ s0 H0; exact H0].
      destruct l as [|c l]; [cbn [rsum] in Hr; lia|]. apply H4; auto; [lia|discriminate].
  Qed.

  Lemma spec_run_apart : forall ops l l', apart l -> spec_run Y inj l ops = Ok l' -> apart l'.
  Proof.
    induction ops as [|[[i x] n] ops IH]; intros l l' Ha E; cbn [spec_run] in E; [inversion E; subst; auto|].
    destruct (spec_insert Y inj l i x n) as [l1| |] eqn:E1; cbn [bind] in E; try discriminate.
    apply (IH l1 l'); auto. unfold spec_insert in E1. destruct (Z.ltb_spec (rsum l) i); [discriminate|].
    destruct (Z.leb_spec n 0); [discriminate|]. apply (insert_runs_apart l i x n); auto.
  Qed.
End JoinsP.
