(** Proofs about the destructive iterator of a tree with references. *)
From Coq Require Import List Arith Bool Lia.
From Verif Require Import Base Recycle RefState RefStateP RefPropsP PoisonPropsP CanBorrowPropsP DrainRef.
Import ListNotations.

Section DrainRef.
  Variable CMAX : nat.

  Lemma idle_step : forall w o p, w_tree w = TIdle -> owner_call o = false -> nstep CMAX w o = Some p -> w_tree (snd p) = TIdle.
  Proof.
    intros w o p T N H.
    assert (K : forall v, w_tree v = w_tree w -> w_tree v = TIdle) by (intros v E; congruence).
    unfold nstep in H. destruct o; try discriminate.
    - destruct (ref_var w r); [|discriminate]. injection H as <-. apply (touch_keep (fun v => w_tree v = TIdle)); auto. apply K. apply (clone_agree CMAX).
    - destruct (ref_var w r); [|discriminate]. destruct (borrowed_from w r); [discriminate|]. injection H as <-. apply (touch_keep (fun v => w_tree v = TIdle)); auto. apply K. apply drop_agree.
    - destruct (ref_var w r); [|discriminate]. destruct (borrowed_from w r); [discriminate|]. injection H as <-. apply K. reflexivity.
    - destruct (ref_var w r); [|discriminate]. injection H as <-. apply (touch_keep (fun v => w_tree v = TIdle)); auto. apply K. apply valid_agree.
    - destruct (ref_var w r); [|discriminate]. injection H as <-. apply (touch_keep (fun v => w_tree v = TIdle)); auto.
    - destruct (ref_var w r); [|discriminate]. injection H as <-. apply (touch_keep (fun v => w_tree v = TIdle)); auto. apply K. apply borrow_tree.
    - destruct (ref_var w r); [|discriminate]. injection H as <-. apply (touch_keep (fun v => w_tree v = TIdle)); auto. apply K. apply borrow_tree.
    - destruct (bor_var w b); [|discriminate]. injection H as <-. apply (touch_keep (fun v => w_tree v = TIdle)); auto. apply K. unfold bor_clone.
      destruct (borrow_of w) as [| |c d| |]; try reflexivity. destruct (_ <? _); reflexivity.
    - destruct (bor_var w b); [|discriminate]. injection H as <-. apply (touch_keep (fun v => w_tree v = TIdle)); auto. apply K. rewrite drop_borrow_tree. reflexivity.
    - destruct (bor_var w b); [|discriminate]. injection H as <-. apply K. reflexivity.
  Qed.

  Lemma idle_run : forall os w outs w', w_tree w = TIdle -> forallb (fun o => negb (owner_call o)) os = true ->
    nrun CMAX w os = Some (outs, w') -> ~ In OUB outs -> w_tree w' = TIdle.
  Proof.
    induction os as [|o os IH]; intros w outs w' T F H N.
    - injection H as <- <-. exact T.
    - destruct (nrun_cons CMAX _ _ _ _ _ H N) as (out & w1 & outs1 & ST & NO & R & ->).
      cbn [forallb] in F. apply andb_prop in F. destruct F as [F1 F2]. apply negb_true_iff in F1.
      apply (IH w1 outs1); auto; [exact (idle_step _ _ _ T F1 ST)|]. intros J. apply N. right. exact J.
  Qed.

  Lemma no_ip_run : forall os w outs w', forallb (fun o => negb (owner_call o)) os = true ->
    nrun CMAX w os = Some (outs, w') -> ~ In OUB outs -> insert_panics os outs = 0.
  Proof.
    induction os as [|o os IH]; intros w outs w' F H N; [destruct outs; reflexivity|].
    destruct (nrun_cons CMAX _ _ _ _ _ H N) as (out & w1 & outs1 & ST & NO & R & ->).
    cbn [forallb] in F. apply andb_prop in F. destruct F as [F1 F2].
    assert (Q : insert_panics os outs1 = 0) by (eapply IH; eauto; intros J; apply N; right; exact J).
    destruct o; try discriminate F1; cbn [insert_panics]; destruct out; exact Q.
  Qed.

  Lemma no_ip_app : forall os w outs w' os' outs', nrun CMAX w os = Some (outs, w') -> ~ In OUB outs ->
    insert_panics os outs = 0 -> insert_panics os' outs' = 0 -> insert_panics (os ++ os') (outs ++ outs') = 0.
  Proof.
    induction os as [|o os IH]; intros w outs w' os' outs' H N P P'.
    - injection H as <- <-. exact P'.
    - destruct (nrun_cons CMAX _ _ _ _ _ H N) as (out & w1 & outs1 & ST & NO & R & ->).
      assert (Q : insert_panics os outs1 = 0) by (destruct o, out; cbn [insert_panics] in P; try discriminate; exact P).
      assert (K : insert_panics (os ++ os') (outs1 ++ outs') = 0) by (eapply IH; eauto; intros J; apply N; right; exact J).
      cbn [app]. destruct o, out; cbn [insert_panics] in P |- *; try discriminate; exact K.
  Qed.

  (** Dropping a `Drain` of a tree with references panics, whatever happened before, and changes nothing.  The nodes and
      the shared allocation are then never freed; and every reference keeps the slice it refers to, which was drained. *)
  Lemma C32_drain_with_references_proof : forall k os outs w os' outs' w2,
    nrun CMAX (start k) os = Some (outs, w) -> ~ In OUB outs -> w_tree w = TIdle ->
    nrun CMAX w os' = Some (outs', w2) -> ~ In OUB outs' -> forallb (fun o => negb (owner_call o)) os' = true ->
    length os + length os' + 3 <= CMAX ->
    drain_drop_refs w = (OPanic PUnreachable, w) /\
    w_nodes_freed w2 = 0 /\ w_alloc_freed w2 = 0 /\
    (insert_panics os outs = 0 -> forall r, ref_var w2 r <> None -> exists w3, nstep CMAX w2 (NBorrow r) = Some (OBool true, w3)).
  Proof.
    intros k os outs w os' outs' w2 H N T H' N' F BD.
    destruct (reach_inv CMAX _ _ _ _ H ltac:(lia) N) as (a & b & c & G & _).
    pose proof (idle_run _ _ _ _ T F H' N') as T2.
    pose proof (nrun_app CMAX _ _ _ _ _ _ _ H N H') as HA.
    assert (NA : ~ In OUB (outs ++ outs')) by (intros J; apply in_app_or in J; tauto).
    assert (BA : length (os ++ os') + 3 <= CMAX) by (rewrite app_length; lia).
    destruct (reach_inv CMAX _ _ _ _ HA ltac:(lia) NA) as (a2 & b2 & c2 & G2 & _).
    split; [|split; [|split]].
    - pose proof (g_bs _ _ _ _ _ G) as BS. rewrite T in BS. unfold drain_drop_refs, store_drop.
      destruct (borrow_of w) as [| |m d| |]; inversion BS; reflexivity.
    - rewrite (g_nodes _ _ _ _ _ G2). pose proof (g_bs _ _ _ _ _ G2) as BS. rewrite T2 in BS. inversion BS; reflexivity.
    - eapply alive_tree; eauto; congruence.
    - intros P r V. destruct (C25_borrow_while_alive_proof CMAX _ _ _ _ _ HA BA NA V (or_introl T2)) as [[Q _]|[_ Q]]; [exact Q|].
      exfalso. assert (FN : fine w2).
      { eapply (fine_run CMAX); [|exact HA|exact NA|]; [intros Q'; discriminate|].
        eapply no_ip_app; eauto. eapply no_ip_run; eauto. }
      unfold nstep in Q. destruct (ref_var w2 r); [|congruence]. rewrite (alive_tree _ _ _ _ _ G2) in Q by congruence. cbn [Nat.eqb] in Q.
      unfold can_borrow in Q. pose proof (g_bs _ _ _ _ _ G2) as BS. rewrite T2 in BS. unfold fine in FN.
      destruct (borrow_of w2) eqn:B; try discriminate; [specialize (FN eq_refl); congruence|inversion BS|inversion BS].
  Qed.
End DrainRef.
