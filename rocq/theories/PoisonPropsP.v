(** Proofs: what a panicking insertion leaves of the state shared with references. *)
From Coq Require Import List Arith Bool Lia.
From Verif Require Import Base ListFacts Recycle RefState RefStateP RefPropsP.
Import ListNotations.

Section Poison.
  Variable CMAX : nat.

  Definition locked (w : world) : Prop := w_tree w = TIdle /\ borrow_of w = Mutable.

  Ltac unf := unfold borrow_of, table_of, weak_of, set_id, set_borrow, set_table, set_weak, set_store,
                set_tree, set_keys, set_refs, set_bors, free_nodes, dealloc in *;
              cbn [w_store w_tree w_keys w_refs w_bors w_nodes_freed w_alloc_freed s_borrow s_refs s_weak fst snd] in *.

  Lemma lift_keep : forall (P : world -> Prop) A w (r : res A) f, P w -> (forall a, P (snd (f a))) -> P (snd (lift w r f)).
  Proof. intros P A w [a|y|] f H1 H2; cbn [lift]; cbn [snd]; auto. Qed.

  Lemma collapse_keep : forall (P : world -> Prop) w r id f, P w -> P (set_id w r None) -> (forall t, P (set_table (set_id w r None) t)) ->
    (forall h w1, P w1 -> P (snd (f h w1))) -> P (snd (collapse_refs w r id f)).
  Proof.
    intros P w r id f H0 H1 H2 F. unfold collapse_refs. destruct id as [i|]; [|apply F; auto].
    apply lift_keep; auto. intros [p|j|]; [apply F; auto|cbn [snd]; auto|]. apply lift_keep; auto.
  Qed.

  Lemma touch_keep : forall (P : world -> Prop) w p, P w -> P (snd p) -> P (snd (if w_alloc_freed w =? 0 then p else (OUB, w))).
  Proof. intros P w p H1 H2. destruct (w_alloc_freed w =? 0); auto. Qed.

  (** Borrow state and owner after calls that concern references only. *)
  Definition agree (w w' : world) : Prop := w_tree w' = w_tree w /\ borrow_of w' = borrow_of w.

  Lemma make_agree : forall w k p, make_ref CMAX w k = Some p -> agree w (snd p).
  Proof.
    intros w k p H. unfold make_ref in H. destruct (key_id w k) as [[id|]|]; try discriminate; injection H as <-.
    - apply lift_keep; [split; reflexivity|]. intros a. unfold bump_weak. destruct (_ <? _); cbn [snd]; split; unf; reflexivity.
    - apply lift_keep; [split; reflexivity|]. intros a. apply lift_keep; [split; unf; reflexivity|].
      intros b. unfold bump_weak. destruct (_ <? _); cbn [snd]; split; unf; reflexivity.
  Qed.

  Lemma clone_agree : forall w r id, agree w (snd (ref_clone CMAX w r id)).
  Proof.
    intros w r id. unfold ref_clone. destruct id as [i|]; [|cbn [snd]; split; unf; reflexivity].
    destruct (table_readable w); [|cbn [snd]; split; unf; reflexivity].
    unfold bump_weak. destruct (_ <? _); [|cbn [snd]; split; unf; reflexivity].
    apply lift_keep; [split; unf; reflexivity|]. intros a. cbn [snd]. split; unf; reflexivity.
  Qed.

  Lemma valid_agree : forall w r id, agree w (snd (is_valid w r id)).
  Proof.
    intros w r id. unfold is_valid. destruct (table_readable w); [|split; reflexivity].
    apply (collapse_keep (agree w)); try (split; unf; reflexivity). intros h w1 H. exact H.
  Qed.

  Lemma drop_agree : forall w r, agree w (snd (ref_drop w r)).
  Proof.
    intros w r. unfold ref_drop. destruct (weak_of w) as [|n]; [split; reflexivity|]. cbn [snd].
    destruct n, (borrow_of w); split; unf; reflexivity.
  Qed.

  (** *** Once locked, always locked *)

  Lemma locked_agree : forall w w', locked w -> agree w w' -> locked w'.
  Proof. intros w w' [A B] [C D]. split; congruence. Qed.

  Lemma locked_step : forall w o out w', locked w -> nstep CMAX w o = Some (out, w') -> out <> OUB -> o <> NDropBegin -> locked w'.
  Proof.
    intros w o out w' L H N D. pose proof L as [T B].
    change w' with (snd (out, w')). revert H. generalize (out, w'). intros p H. unfold nstep in H. rewrite ?T in H.
    destruct o; try discriminate; try congruence.
    - injection H as <-. apply touch_keep; auto. unfold acquire_mutable. rewrite B. exact L.
    - destruct (make_ref CMAX w k) as [q|] eqn:E; [|discriminate]. injection H as <-.
      apply touch_keep; auto. eapply locked_agree; eauto. eapply make_agree; eauto.
    - destruct (ref_var w r); [|discriminate]. injection H as <-. apply touch_keep; auto. eapply locked_agree; eauto. apply clone_agree.
    - destruct (ref_var w r); [|discriminate]. destruct (borrowed_from w r); [discriminate|]. injection H as <-. apply touch_keep; auto.
      eapply locked_agree; eauto. apply drop_agree.
    - destruct (ref_var w r); [|discriminate]. destruct (borrowed_from w r); [discriminate|]. injection H as <-. cbn [snd]. exact L.
    - destruct (ref_var w r); [|discriminate]. injection H as <-. apply touch_keep; auto. eapply locked_agree; eauto. apply valid_agree.
    - destruct (ref_var w r); [|discriminate]. injection H as <-. apply touch_keep; auto.
    - destruct (ref_var w r); [|discriminate]. injection H as <-. apply touch_keep; auto.
      unfold borrow_slice, borrow_refs. rewrite B. exact L.
    - destruct (ref_var w r); [|discriminate]. injection H as <-. apply touch_keep; auto.
      unfold borrow_slice, borrow_refs. rewrite B. exact L.
    - destruct (bor_var w b); [|discriminate]. injection H as <-. apply touch_keep; auto. unfold bor_clone. rewrite B. exact L.
    - destruct (bor_var w b); [|discriminate]. injection H as <-. apply touch_keep; auto. unfold drop_borrow.
      change (borrow_of (set_bors w (replace_at b BDead (w_bors w)))) with (borrow_of w). rewrite B. exact L.
    - destruct (bor_var w b); [|discriminate]. injection H as <-. exact L.
  Qed.

  Lemma nrun_cons : forall w o os outs w', nrun CMAX w (o :: os) = Some (outs, w') -> ~ In OUB outs ->
    exists out w1 outs1, nstep CMAX w o = Some (out, w1) /\ out <> OUB /\ nrun CMAX w1 os = Some (outs1, w') /\ outs = out :: outs1.
  Proof.
    intros w o os outs w' H N. cbn [nrun] in H. destruct (nstep CMAX w o) as [[out w1]|] eqn:E; [|discriminate].
    assert (D : out <> OUB). { intros ->. injection H as <- <-. apply N. left. reflexivity. }
    exists out, w1. destruct out; try congruence;
      (destruct (nrun CMAX w1 os) as [[outs1 w2]|] eqn:R; [|discriminate]; injection H as <- <-; exists outs1; auto).
  Qed.

  Lemma locked_run : forall os w outs w', locked w -> nrun CMAX w os = Some (outs, w') -> ~ In OUB outs -> ~ In NDropBegin os -> locked w'.
  Proof.
    induction os as [|o os IH]; intros w outs w' L H N D.
    - injection H as <- <-. exact L.
    - destruct (nrun_cons _ _ _ _ _ H N) as (out & w1 & outs1 & S & NO & R & ->).
      apply (IH w1 outs1); auto.
      + eapply locked_step; eauto. intros ->. apply D. left. reflexivity.
      + intros I. apply N. right. exact I.
      + intros I. apply D. right. exact I.
  Qed.

  (** The insertion panics: user code inside it does ([NInsPanic]), or its own work ([NIns]). *)
  Definition panicking (o : call) (out : outcome) : Prop := o = NInsPanic \/ exists i y, o = NIns i /\ out = OPanic y.

  Lemma nrun_app : forall os w outs w1 os' outs' w2, nrun CMAX w os = Some (outs, w1) -> ~ In OUB outs ->
    nrun CMAX w1 os' = Some (outs', w2) -> nrun CMAX w (os ++ os') = Some (outs ++ outs', w2).
  Proof.
    induction os as [|o os IH]; intros w outs w1 os' outs' w2 H N H'.
    - injection H as <- <-. exact H'.
    - destruct (nrun_cons _ _ _ _ _ H N) as (out & wa & outs1 & S & NO & R & ->).
      cbn [app nrun]. rewrite S. rewrite (IH _ _ _ _ _ _ R (fun I => N (or_intror I)) H'). destruct out; congruence.
  Qed.

  (** An insertion panics, in user code or in its own work on the table of references.  Whatever is done then, short of
      dropping the tree: every insertion panics, and every attempt to borrow through a reference fails, although
      [is_valid] returns true for every reference.  The tree can be dropped, which frees the nodes, once; and the
      shared allocation, if there is no reference left and none was lost by a panic. *)
  Lemma C47_locked_after_panic_proof : forall k os outs w o out w1 os' outs' w2,
    nrun CMAX (start k) os = Some (outs, w) -> ~ In OUB outs ->
    w_tree w = TInserting -> nstep CMAX w o = Some (out, w1) -> o = NInsPanic \/ (exists i y, o = NIns i /\ out = OPanic y) ->
    nrun CMAX w1 os' = Some (outs', w2) -> ~ In OUB outs' -> ~ In NDropBegin os' -> length os + length os' + 4 <= CMAX ->
    w_tree w2 = TIdle /\ w_nodes_freed w2 = 0 /\ live_borrows w2 = 0 /\
    nstep CMAX w2 NInsBegin = Some (OPanic PUnreachable, w2) /\
    (forall r, ref_var w2 r <> None ->
       nstep CMAX w2 (NIsValid r) = Some (OBool true, w2) /\ nstep CMAX w2 (NCanBorrow r) = Some (OBool false, w2) /\
       nstep CMAX w2 (NBorrow r) = Some (OBool false, w2) /\ nstep CMAX w2 (NRange r) = Some (OBool false, w2)) /\
    (exists w3 w4, nstep CMAX w2 NDropBegin = Some (OUnit, w3) /\ w_nodes_freed w3 = 1 /\
       nstep CMAX w3 NDropEnd = Some (OUnit, w4) /\ w_nodes_freed w4 = 1 /\ (kept_refs w4 = 0 -> ref_panics (os ++ o :: os') (outs ++ out :: outs') = 0 ->
         clones_in_time CMAX (start k) (os ++ o :: os') = true -> w_alloc_freed w4 = 1)).
  Proof.
    intros k os outs w o out w1 os' outs' w2 H N T S P H' N' D BD.
    pose proof (reach_inv CMAX _ _ _ _ H ltac:(lia) N) as I.
    assert (NO : out <> OUB).
    { intros ->. destruct I as (a & b & c & G & _). assert (AF : w_alloc_freed w = 0) by (eapply alive_tree; eauto; congruence).
      destruct P as [->|(i & y & -> & E)]; [|discriminate]. cbn [nstep] in S. rewrite T in S. discriminate. }
    assert (L1 : locked w1).
    { destruct I as (a & b & c & G & _). assert (AF : w_alloc_freed w = 0) by (eapply alive_tree; eauto; congruence).
      assert (B : borrow_of w = Mutable).
      { destruct G as [Gbs _ _ _ _ _ _ _ _ _ _]. rewrite T in Gbs. inversion Gbs; auto. }
      destruct P as [->|(i & y & -> & E)].
      - cbn [nstep] in S. rewrite T in S. injection S as <- <-. split; [reflexivity|exact B].
      - subst out. cbn [nstep] in S. rewrite T, AF in S. cbn [Nat.eqb] in S.
        destruct (insert_step CMAX w i) as [[oo w0]|] eqn:ST; [|discriminate].
        destruct (istep_ok CMAX _ _ _ _ _ _ (reach_inv CMAX _ _ _ _ H ltac:(lia) N) T ST) as (_ & (a' & b' & c' & G' & _) & T').
        cbn [snd] in *. assert (B' : borrow_of w0 = Mutable).
        { destruct G' as [Gbs _ _ _ _ _ _ _ _ _ _]. rewrite T' in Gbs. inversion Gbs; auto. }
        destruct oo; injection S; intros; subst; try discriminate. split; [reflexivity|exact B']. }
    pose proof (locked_run _ _ _ _ L1 H' N' D) as [T2 B2].
    assert (R : nrun CMAX (start k) (os ++ o :: os') = Some (outs ++ out :: outs', w2)).
    { eapply nrun_app; eauto. cbn [nrun]. rewrite S, H'. destruct out; congruence. }
    assert (NN : ~ In OUB (outs ++ out :: outs')).
    { intros Q. apply in_app_or in Q. destruct Q as [Q|[Q|Q]]; auto. }
    assert (LEN : length (os ++ o :: os') + 3 <= CMAX) by (rewrite app_length; cbn [length]; lia).
    pose proof (reach_inv CMAX _ _ _ _ R ltac:(lia) NN) as (a & b & c & G & I1 & I2 & I3).
    assert (AF : w_alloc_freed w2 = 0) by (eapply alive_tree; eauto; congruence).
    split; [exact T2|]. split; [rewrite (g_nodes _ _ _ _ _ G), B2; reflexivity|].
    split.
    { pose proof (g_bs _ _ _ _ _ G) as Q. rewrite T2, B2 in Q. inversion Q. unfold live_borrows. pose proof (live_open (w_bors w2)). unfold open_borrows in *. lia. }
    split; [unfold nstep; rewrite T2, AF; cbn [Nat.eqb]; unfold acquire_mutable; rewrite B2; reflexivity|].
    split.
    { intros r V. destruct (ref_var w2 r) as [id|] eqn:E; [|congruence].
      assert (J : exists i, id = Some i).
      { pose proof (g_ids _ _ _ _ _ G (or_introl T2) r) as Q. apply ref_nth in E. destruct id; eauto; congruence. }
      destruct J as [i ->]. destruct (get_cases CMAX _ _ _ _ _ _ _ G E) as [(_ & cc & q & E1 & _)|(T' & _)]; [|congruence].
      unfold nstep. rewrite E, AF. cbn [Nat.eqb]. unfold is_valid, can_borrow, borrow_slice, borrow_refs, table_readable. rewrite B2.
      cbn [lift]. split; auto. cbn [collapse_refs]. unfold rv_get. rewrite E1. reflexivity. }
    unfold nstep at 1. rewrite T2, AF. cbn [Nat.eqb]. unfold drop_begin. rewrite B2.
    exists (set_tree (free_nodes (set_borrow w2 Dropping)) TDropping).
    assert (NF : w_nodes_freed w2 = 0) by (rewrite (g_nodes _ _ _ _ _ G), B2; reflexivity).
    set (w3 := set_tree (free_nodes (set_borrow w2 Dropping)) TDropping).
    assert (E3 : nstep CMAX w3 NDropEnd = Some (store_drop (set_tree w3 TGone))).
    { unfold nstep. subst w3. unf. rewrite AF. reflexivity. }
    eexists. split; [reflexivity|]. split; [subst w3; unf; rewrite NF; reflexivity|]. split.
    { rewrite E3. unfold store_drop. change (borrow_of (set_tree w3 TGone)) with Dropping. cbv iota. reflexivity. }
    subst w3. split.
    - match goal with |- context [if ?x then _ else _] => destruct x end; unf; rewrite NF; reflexivity.
    - intros K0 P0 CT0. rewrite P0 in I2. rewrite CT0 in I3. specialize (I3 eq_refl). subst c.
      assert (K : kept_refs w2 = 0).
      { revert K0. match goal with |- context [if ?x then _ else _] => destruct x end; unfold kept_refs; unf; auto. }
      pose proof (g_weak _ _ _ _ _ G) as W. assert (W0 : s_weak (w_store w2) = 0) by (unfold weak_of in W; lia).
      unf. rewrite W0. cbn [Nat.eqb]. unf. rewrite AF. reflexivity.
  Qed.

  (** *** Nothing else locks the tree *)

  Definition fine (w : world) : Prop := borrow_of w = Mutable -> w_tree w = TInserting.
  Lemma fine_agree : forall w w', fine w -> agree w w' -> fine w'.
  Proof. intros w w' F [C D] B. rewrite C. apply F. congruence. Qed.

  Lemma drop_borrow_fine : forall w, fine w -> fine (snd (drop_borrow w)).
  Proof.
    intros w F. unfold drop_borrow. destruct (borrow_of w) as [| |[|[|c]] []| |]; cbn [snd]; auto; intros B; unf; discriminate.
  Qed.

  Lemma borrow_fine : forall w r id keep, fine w -> fine (snd (borrow_slice CMAX w r id keep)).
  Proof.
    intros w r id keep F. unfold borrow_slice. destruct (borrow_refs CMAX w) as [[w1|]|y|] eqn:E; cbn [lift]; cbn [snd]; auto.
    assert (F1 : fine w1 /\ (forall x, fine (set_id w1 r x)) /\ forall t, fine (set_table (set_id w1 r None) t)).
    { unfold borrow_refs in E. destruct (borrow_of w) as [| |c d| |]; try discriminate; [|destruct (_ <? _); [|discriminate]];
        injection E as <-; repeat split; intros; intros Q; unf; discriminate. }
    destruct F1 as (F1 & F2 & F3). apply collapse_keep; auto. intros [[|]|] w2 FF; [destruct keep| |]; cbn [snd]; auto;
      pose proof (drop_borrow_fine _ FF) as Q; destruct (drop_borrow w2) as [[] w3]; exact Q.
  Qed.

  Lemma insert_tree : forall w i oo w0, insert_step CMAX w i = Some (oo, w0) -> w_tree w = TInserting -> w_tree w0 = TInserting.
  Proof.
    intros w i oo w0 ST T. rewrite <- T. change w0 with (snd (oo, w0)). revert ST. generalize (oo, w0). clear. intros r H. destruct i; cbn [insert_step] in H.
    - destruct (_ <=? _); [|discriminate]. injection H as <-. reflexivity.
    - destruct (key_id w k) as [[id|]|]; try discriminate; injection H as <-; [|reflexivity].
      apply (lift_keep (fun v => w_tree v = w_tree w)); auto.
    - destruct (key_id w k) as [[id|]|]; try discriminate; injection H as <-; [|reflexivity].
      apply (lift_keep (fun v => w_tree v = w_tree w)); auto.
    - destruct (key_id w from) as [[f0|]|], (key_id w to) as [[t0|]|]; try discriminate; injection H as <-; try reflexivity;
        (apply (lift_keep (fun v => w_tree v = w_tree w)); [reflexivity|]; intros a; try reflexivity).
      apply (lift_keep (fun v => w_tree v = w_tree w)); reflexivity.
  Qed.

  Lemma fine_step : forall w o out w', fine w -> nstep CMAX w o = Some (out, w') -> ~ panicking o out -> fine w'.
  Proof.
    intros w o out w' F H NP.
    assert (Q : forall p, nstep CMAX w o = Some p -> ~ panicking o (fst p) -> fine (snd p)); [|exact (Q _ H NP)].
    clear H NP out w'. intros p H NP. unfold nstep in H. destruct o.
    - destruct (w_tree w) eqn:T; try discriminate. injection H as <-. apply touch_keep; auto. unfold acquire_mutable.
      destruct (borrow_of w) eqn:B; cbn [snd]; auto. intros _. reflexivity.
    - destruct (w_tree w) eqn:T; try discriminate. destruct (insert_step CMAX w i) as [[oo w0]|] eqn:ST; [|discriminate].
      pose proof (fun Q => insert_tree _ _ _ _ ST Q) as TI. specialize (TI T).
      destruct oo; injection H as <-.
      + apply touch_keep; auto. cbn [snd]. intros _. exact TI.
      + apply touch_keep; auto. cbn [snd]. intros _. exact TI.
      + destruct (w_alloc_freed w =? 0); [|cbn [snd]; exact F]. exfalso. apply NP. right. do 2 eexists. split; reflexivity.
      + apply touch_keep; auto. cbn [snd]. intros _.
        exact TI.
    - destruct (w_tree w) eqn:T; try discriminate. destruct (all_present w); [|discriminate]. injection H as <-. apply touch_keep; auto.
      unfold release_mutable. change (borrow_of (set_tree w TIdle)) with (borrow_of w). destruct (borrow_of w) eqn:B; cbn [snd]; intros Q; unf; congruence.
    - exfalso. apply NP. left. reflexivity.
    - destruct (w_tree w) eqn:T; try discriminate. injection H as <-. apply touch_keep; auto. unfold drop_begin.
      destruct (borrow_of w) as [| |c [|]| |] eqn:B; cbn [snd]; try exact F; try (intros Q; unf; congruence).
      unfold store_drop. change (borrow_of (set_tree (set_borrow w (Immutable c true)) TGone)) with (Immutable c true).
      cbv iota. intros Q. unf. discriminate.
    - destruct (w_tree w) eqn:T; try discriminate. injection H as <-. apply touch_keep; auto. unfold store_drop.
      change (borrow_of (set_tree w TGone)) with (borrow_of w).
      destruct (borrow_of w) as [| |c [|]| |] eqn:B; cbn [snd]; try (intros Q; unf; congruence);
        try (match goal with |- context [if ?x then _ else _] => destruct x end; intros Q; unf; congruence).
      intros Q. specialize (F B). congruence.
    - destruct (w_tree w) eqn:T; try discriminate. destruct (make_ref CMAX w k) as [q|] eqn:E; [|discriminate]. injection H as <-.
      apply touch_keep; auto. eapply fine_agree; eauto. eapply make_agree; eauto.
    - destruct (ref_var w r); [|discriminate]. injection H as <-. apply touch_keep; auto. eapply fine_agree; eauto. apply clone_agree.
    - destruct (ref_var w r); [|discriminate]. destruct (borrowed_from w r); [discriminate|]. injection H as <-. apply touch_keep; auto.
      eapply fine_agree; eauto. apply drop_agree.
    - destruct (ref_var w r); [|discriminate]. destruct (borrowed_from w r); [discriminate|]. injection H as <-. exact F.
    - destruct (ref_var w r); [|discriminate]. injection H as <-. apply touch_keep; auto. eapply fine_agree; eauto. apply valid_agree.
    - destruct (ref_var w r); [|discriminate]. injection H as <-. apply touch_keep; auto.
    - destruct (ref_var w r); [|discriminate]. injection H as <-. apply touch_keep; auto. apply borrow_fine; auto.
    - destruct (ref_var w r); [|discriminate]. injection H as <-. apply touch_keep; auto. apply borrow_fine; auto.
    - destruct (bor_var w b); [|discriminate]. injection H as <-. apply touch_keep; auto. unfold bor_clone.
      destruct (borrow_of w) eqn:B; cbn [snd]; try exact F. destruct (_ <? _); cbn [snd]; [intros Q; unf; congruence|exact F].
    - destruct (bor_var w b); [|discriminate]. injection H as <-. apply touch_keep; auto. apply drop_borrow_fine. exact F.
    - destruct (bor_var w b); [|discriminate]. injection H as <-. exact F.
  Qed.

  Lemma fine_run : forall os w outs w', fine w -> nrun CMAX w os = Some (outs, w') -> ~ In OUB outs -> insert_panics os outs = 0 -> fine w'.
  Proof.
    induction os as [|o os IH]; intros w outs w' L H N D.
    - injection H as <- <-. exact L.
    - destruct (nrun_cons _ _ _ _ _ H N) as (out & w1 & outs1 & S & NO & R & ->).
      apply (IH w1 outs1); auto.
      + eapply fine_step; eauto. intros [->|(i & y & -> & ->)]; cbn [insert_panics] in D; discriminate.
      + intros I. apply N. right. exact I.
      + destruct o; cbn [insert_panics] in D; try exact D; try discriminate. destruct out; try exact D; discriminate.
  Qed.

  (** If no insertion has panicked, and no call on a reference, then with all borrows gone the next insertion starts
      and references can be borrowed from. *)
  Lemma C47_locked_only_by_panic_proof : forall k os outs w,
    nrun CMAX (start k) os = Some (outs, w) -> ~ In OUB outs -> length os + 2 <= CMAX ->
    insert_panics os outs = 0 -> ref_panics os outs = 0 -> w_tree w = TIdle -> open_borrows w = 0 ->
    (exists w', nstep CMAX w NInsBegin = Some (OUnit, w') /\ w_tree w' = TInserting) /\
    (forall r, ref_var w r <> None -> nstep CMAX w (NCanBorrow r) = Some (OBool true, w)).
  Proof.
    intros k os outs w H N BD P1 P2 T O. pose proof (reach_inv CMAX _ _ _ _ H BD N) as (a & b & c & G & I1 & I2 & I3).
    assert (F : fine w). { eapply fine_run; eauto. intros Q. discriminate. }
    assert (AF : w_alloc_freed w = 0) by (eapply alive_tree; eauto; congruence).
    assert (B : borrow_of w = NotBorrowed).
    { pose proof (g_bs _ _ _ _ _ G) as Q. rewrite T in Q. rewrite P2 in I1. replace (open_borrows w + a) with 0 in Q by lia.
      inversion Q as [E|E| | | | |]; auto. symmetry in E. specialize (F ltac:(congruence)). congruence. }
    split.
    - unfold nstep. rewrite T, AF. cbn [Nat.eqb]. unfold acquire_mutable. rewrite B. eexists. split; reflexivity.
    - intros r V. unfold nstep. destruct (ref_var w r); [|congruence]. rewrite AF. cbn [Nat.eqb]. unfold can_borrow. rewrite B. reflexivity.
  Qed.
End Poison.
