(** Properties of the shared state of a tree and its references. *)
From Coq Require Import List Arith Bool Lia.
From Verif Require Import Base Recycle ListFacts RefState RefStateP.
Import ListNotations.

Section Props.
  Variable CMAX : nat.

  Lemma reach_inv : forall k os outs w, nrun CMAX (start k) os = Some (outs, w) -> length os + 2 <= CMAX -> ~ In OUB outs ->
    inv w (length os) (ref_panics os outs) (negb (clones_in_time CMAX (start k) os)).
  Proof.
    intros k os outs w H BD N. destruct (nrun_ok CMAX os (start k) 0 0 false outs w (start_inv k) BD H) as [_ A]. exact (A N).
  Qed.

  Lemma live_open : forall l, length (filter (fun b => match b with BLive _ => true | _ => false end) l) <= length (filter is_open l).
  Proof. induction l as [|[r| |] l IH]; cbn [filter is_open length]; lia. Qed.

  (** While a borrow is alive the nodes have not been freed, no insertion is running, and none can start: it
      panics and changes nothing.  The nodes are freed at most once, not before the tree is dropped and every
      borrow is gone; and if no call on a reference has panicked, exactly then. *)
  Lemma C23_borrow_excludes_proof : forall k os outs w,
    nrun CMAX (start k) os = Some (outs, w) -> length os + 2 <= CMAX -> ~ In OUB outs ->
    (0 < live_borrows w -> w_nodes_freed w = 0 /\ w_alloc_freed w = 0 /\ (w_tree w = TIdle \/ w_tree w = TGone) /\
       (w_tree w = TIdle -> nstep CMAX w NInsBegin = Some (OPanic PBorrow, w))) /\
    w_nodes_freed w <= 1 /\
    (w_nodes_freed w = 1 -> (w_tree w = TDropping \/ w_tree w = TGone) /\ open_borrows w = 0) /\
    (ref_panics os outs = 0 -> (w_tree w = TDropping \/ w_tree w = TGone) -> open_borrows w = 0 -> w_nodes_freed w = 1).
  Proof.
    intros k os outs w H BD N. destruct (reach_inv _ _ _ _ H BD N) as (a & b & c & G & H1 & H2 & H3).
    pose proof (live_open (w_bors w)) as LO. fold (live_borrows w) (open_borrows w) in LO.
    pose proof (alive_tree _ _ _ _ _ G) as AT.
    destruct G as [Gbs Gnodes Gtbl Ggone Gids Gbor Gweak Galloc Galloc1 Gpres Gbound].
    split; [|split; [|split]].
    - intros L. assert (O : 0 < open_borrows w) by lia.
      assert (AF : w_alloc_freed w = 0).
      { destruct Galloc1 as [_ Q]. destruct (Nat.eq_dec (w_alloc_freed w) 0) as [|D]; auto. specialize (Q D). rewrite Q in Gbs. inversion Gbs. lia. }
      rewrite Gnodes. inversion Gbs as [E1 E2 E3|E1 E2 E3|E1 E2 E3|m0 E1 E2 E3|m0 E1 E2 E3|E1 E2 E3|E1 E2 E3]; try lia.
      + split; auto. split; auto. split; auto. intros _. unfold nstep. rewrite <- E1, AF. cbn [Nat.eqb]. unfold acquire_mutable. rewrite <- E2. reflexivity.
      + split; auto. split; auto. split; auto. intros T. congruence.
    - rewrite Gnodes. destruct (borrow_of w); lia.
    - intros F. rewrite Gnodes in F. inversion Gbs as [E1 E2 E3|E1 E2 E3|E1 E2 E3|m0 E1 E2 E3|m0 E1 E2 E3|E1 E2 E3|E1 E2 E3];
        rewrite <- E2 in F; try discriminate; split; auto; lia.
    - intros P T O. rewrite P in H1. rewrite Gnodes.
      inversion Gbs as [E1 E2 E3|E1 E2 E3|E1 E2 E3|m0 E1 E2 E3|m0 E1 E2 E3|E1 E2 E3|E1 E2 E3]; try lia; auto;
        destruct T; congruence.
  Qed.

  (** If every clone of a reference is made while the tree is alive, there is no undefined behaviour, and the
      shared allocation is freed at most once, not before the tree, the nodes and every reference are gone; and
      if no call on a reference has panicked, exactly then. *)
  Lemma C24_freed_once_partial_proof : forall k os outs w,
    nrun CMAX (start k) os = Some (outs, w) -> length os + 2 <= CMAX -> clones_in_time CMAX (start k) os = true ->
    ~ In OUB outs /\ w_alloc_freed w <= 1 /\
    (w_alloc_freed w = 1 -> w_tree w = TGone /\ w_nodes_freed w = 1 /\ open_borrows w = 0 /\ kept_refs w = 0) /\
    (ref_panics os outs = 0 -> w_tree w = TGone -> open_borrows w = 0 -> kept_refs w = 0 -> w_alloc_freed w = 1).
  Proof.
    intros k os outs w H BD CT. destruct (nrun_ok CMAX os (start k) 0 0 false outs w (start_inv k) BD H) as [A1 A2].
    rewrite CT in *. specialize (A1 eq_refl). specialize (A2 A1). split; auto.
    destruct A2 as (a & b & c & G & H1 & H2 & H3). rewrite (H3 eq_refl) in *. cbn [Nat.add] in *.
    destruct G as [Gbs Gnodes Gtbl Ggone Gids Gbor Gweak Galloc Galloc1 Gpres Gbound]. specialize (Galloc eq_refl).
    split; [apply Galloc1|]. split.
    - intros F. assert (B : borrow_of w = Dropped) by (apply Galloc1; lia). rewrite B in *. inversion Gbs.
      rewrite F in Galloc. destruct (weak_of w); [|discriminate]. repeat split; auto; lia.
    - intros P T O K. rewrite P in *. rewrite T in *. inversion Gbs as [| | | |m0 E1 E2 E3| |E1 E2 E3]; [lia|].
      rewrite <- E2 in *. rewrite Galloc. replace (weak_of w) with 0 by lia. reflexivity.
  Qed.

  (** `can_borrow` never panics.  `clone` and `is_valid` panic exactly when the tree has been dropped but its
      nodes are still there because of a borrow, and this reference still has an id. *)
  Lemma C25_panics_exactly_partial_proof : forall k os outs w r,
    nrun CMAX (start k) os = Some (outs, w) -> length os + 3 <= CMAX -> ~ In OUB outs ->
    ref_var w r <> None -> w_alloc_freed w = 0 ->
    let panics o := exists y w', nstep CMAX w o = Some (OPanic y, w') in
    let bad := w_tree w = TGone /\ w_nodes_freed w = 0 /\ exists i, ref_var w r = Some (Some i) in
    ~ panics (NCanBorrow r) /\ (panics (NIsValid r) <-> bad) /\ (panics (NClone r) <-> bad).
  Proof.
    intros k os outs w r H BD N V AF panics bad. destruct (reach_inv _ _ _ _ H ltac:(lia) N) as (a & b & c & G & H1 & H2 & H3).
    destruct (ref_var w r) as [id|] eqn:E; [|congruence].
    assert (TR : table_readable w = true <-> w_nodes_freed w = 0).
    { rewrite (g_nodes _ _ _ _ _ G). unfold table_readable. destruct (borrow_of w); split; auto; discriminate. }
    assert (WB : weak_of w <? CMAX = true) by (apply Nat.ltb_lt; pose proof (g_bound _ _ _ _ _ G); lia).
    split; [|split].
    - intros (y & w' & P). unfold nstep in P. rewrite E, AF in P. cbn in P. discriminate.
    - split.
      + intros (y & w' & P). unfold nstep in P. rewrite E, AF in P. cbn [Nat.eqb] in P. injection P as P.
        unfold is_valid in P. destruct (table_readable w) eqn:R; [|discriminate]. destruct id as [i|]; [|discriminate].
        cbn [collapse_refs] in P. destruct (get_cases CMAX _ _ _ _ _ _ _ G E) as [(T & cc & q & E1 & _)|(T & E1 & _)].
        * unfold rv_get in P. rewrite E1 in P. discriminate.
        * split; auto. split; [apply TR; auto|eauto].
      + intros (T & NF & i & Q). injection Q as ->. unfold nstep. unfold panics, nstep. rewrite E, AF. cbn [Nat.eqb].
        unfold is_valid. rewrite (proj2 TR NF). cbn [collapse_refs].
        destruct (get_cases CMAX _ _ _ _ _ _ _ G E) as [(T' & _)|(_ & E1 & _)]; [congruence|]. rewrite E1. cbn [lift]. eauto.
    - split.
      + intros (y & w' & P). unfold nstep in P. rewrite E, AF in P. cbn [Nat.eqb] in P. injection P as P.
        unfold ref_clone in P. destruct id as [i|]; [|discriminate]. destruct (table_readable w) eqn:R; [|discriminate].
        unfold bump_weak in P. change (weak_of (set_id w r None)) with (weak_of w) in P. rewrite WB in P.
        change (table_of (set_weak (set_id w r None) (S (weak_of w)))) with (table_of w) in P.
        destruct (get_cases CMAX _ _ _ _ _ _ _ G E) as [(T & cc & q & E1 & B1 & B2)|(T & _ & E1)].
        * rewrite (clone_ok CMAX _ _ _ _ E1) in P. replace (cc <? CMAX) with true in P by (symmetry; apply Nat.ltb_lt; lia). discriminate.
        * split; auto. split; [apply TR; auto|eauto].
      + intros (T & NF & i & Q). injection Q as ->. unfold panics, nstep. rewrite E, AF. cbn [Nat.eqb].
        unfold ref_clone. rewrite (proj2 TR NF). unfold bump_weak. change (weak_of (set_id w r None)) with (weak_of w). rewrite WB.
        change (table_of (set_weak (set_id w r None) (S (weak_of w)))) with (table_of w).
        destruct (get_cases CMAX _ _ _ _ _ _ _ G E) as [(T' & _)|(_ & _ & E1)]; [congruence|]. rewrite E1. cbn [lift]. eauto.
  Qed.

  (** While the tree is alive, borrowing through a reference succeeds unless an insertion is running or has
      panicked; it never panics, and `can_borrow` tells which. *)
  Lemma C25_borrow_while_alive_proof : forall k os outs w r,
    nrun CMAX (start k) os = Some (outs, w) -> length os + 3 <= CMAX -> ~ In OUB outs ->
    ref_var w r <> None -> w_tree w = TIdle \/ w_tree w = TInserting ->
    ((exists w', nstep CMAX w (NBorrow r) = Some (OBool true, w')) /\ nstep CMAX w (NCanBorrow r) = Some (OBool true, w)) \/
    (nstep CMAX w (NBorrow r) = Some (OBool false, w) /\ nstep CMAX w (NCanBorrow r) = Some (OBool false, w)).
  Proof.
    intros k os outs w r H BD N V T. destruct (reach_inv _ _ _ _ H ltac:(lia) N) as (a & b & c & G & H1 & H2 & H3).
    destruct (ref_var w r) as [id|] eqn:E; [|congruence].
    assert (AF : w_alloc_freed w = 0) by (eapply alive_tree; eauto; destruct T; congruence).
    assert (I : exists i, id = Some i).
    { pose proof (g_ids _ _ _ _ _ G T r) as Q. apply ref_nth in E. destruct id; eauto; congruence. }
    destruct I as [i ->]. unfold nstep. rewrite E, AF. cbn [Nat.eqb]. unfold borrow_slice, borrow_refs, can_borrow.
    destruct (get_cases CMAX _ _ _ _ _ _ _ G E) as [(T' & cc & q & E1 & B1 & B2)|(T' & _)]; [|destruct T; congruence].
    destruct (borrow_of w) as [| |m d| |] eqn:B; cbn [lift]; auto; left; (split; [|reflexivity]).
    - cbn [collapse_refs]. change (table_of (set_borrow w (Immutable 1 false))) with (table_of w). unfold rv_get. rewrite E1. cbn [lift].
      rewrite (g_present _ _ _ _ _ G (or_introl B) _ _ _ E1). eauto.
    - destruct G as [Gbs Gnodes Gtbl Ggone Gids Gbor Gweak Galloc Galloc1 Gpres Gbound]. rewrite B in *.
      assert (D : m <? CMAX = true).
      { apply Nat.ltb_lt. inversion Gbs; lia. }
      rewrite D. cbn [lift collapse_refs]. change (table_of (set_borrow w (Immutable (S m) d))) with (table_of w). unfold rv_get. rewrite E1. cbn [lift].
      assert (d = false) by (inversion Gbs; auto; destruct T; congruence). subst d.
      rewrite (Gpres ltac:(eauto) _ _ _ E1). eauto.
  Qed.

  (** Once `is_valid` has returned false for a reference it does so for ever. *)
  Definition dead (w : world) (r : nat) : Prop :=
    forall i, nth_error (w_refs w) r = Some (RLive (Some i)) -> table_readable w = false.

  Lemma dead_new : forall w w' r x, dead w r -> r < length (w_refs w) -> w_refs w' = w_refs w ++ [x] ->
    (table_readable w = false -> table_readable w' = false) -> dead w' r.
  Proof.
    intros w w' r x D L E R i H. rewrite E in H. rewrite nth_error_app1 in H by auto. apply R, (D i H).
  Qed.
  Lemma dead_set : forall w w' r r0 x, dead w r -> (forall i, x <> RLive (Some i)) -> w_refs w' = replace_at r0 x (w_refs w) ->
    (table_readable w = false -> table_readable w' = false) -> dead w' r.
  Proof.
    intros w w' r r0 x D NX E R i H. rewrite E in H. apply nth_replace in H. destruct H as [[_ H]|[_ H]]; [exfalso; eapply NX; eauto|apply R, (D i H)].
  Qed.
  Lemma dead_same : forall w w' r, dead w r -> w_refs w' = w_refs w -> (table_readable w = false -> table_readable w' = false) -> dead w' r.
  Proof. intros w w' r D E R i H. rewrite E in H. apply R, (D i H). Qed.

  Lemma drop_borrow_refs : forall w, w_refs (snd (drop_borrow w)) = w_refs w /\ (table_readable w = false -> table_readable (snd (drop_borrow w)) = false).
  Proof.
    intros w. unfold drop_borrow, table_readable. destruct (borrow_of w) as [| |[|[|m]] []| |] eqn:B; cbn [snd]; unfold borrow_of in *; cbn; rewrite ?B; auto; split; auto; discriminate.
  Qed.

  Lemma dead_step : forall w n p late o out w' r, inv w n p late -> n + 2 < CMAX -> nstep CMAX w o = Some (out, w') -> out <> OUB ->
    r < length (w_refs w) -> dead w r -> dead w' r.
  Proof.
    intros w n p late o out w' r I BD H NU L D.
    destruct I as (a & b & c & G & _).
    assert (TRT : w_tree w <> TGone -> w_tree w <> TDropping -> table_readable w = true).
    { intros T1 T2. pose proof (g_bs _ _ _ _ _ G) as Gbs. unfold table_readable. inversion Gbs; auto; congruence. }
    assert (TCH : forall (q : outcome * world), (if w_alloc_freed w =? 0 then q else (OUB, w)) = (out, w') -> q = (out, w')).
    { intros q Q. destruct (w_alloc_freed w =? 0); [auto|congruence]. }
    assert (CR : forall w0 rr id f, collapse_refs w0 rr id f = (out, w') -> w_refs w0 = w_refs w -> (table_readable w = false -> table_readable w0 = false) ->
              (forall h w2, f h w2 = (out, w') -> dead w2 r -> w_refs w2 = w_refs w \/ w_refs w2 = replace_at rr (RLive None) (w_refs w) -> dead w' r) -> dead w' r).
    { intros w0 rr id f Q E0 R0 F. destruct id as [i|]; cbn [collapse_refs] in Q.
      - destruct (rv_get (table_of w0) i) as [v|y|] eqn:RG; cbn [lift] in Q.
        + destruct v as [pp|j|].
          * eapply F; eauto. eapply dead_same; eauto.
          * congruence.
          * destruct (rv_recycle (table_of w0) i) as [q|y|] eqn:RR; cbn [lift] in Q.
            -- eapply F; [eauto| |right; cbn; rewrite E0; reflexivity].
               eapply dead_set; [exact D| |cbn; rewrite E0; reflexivity|]. congruence. auto.
            -- injection Q as _ <-. eapply dead_set; [exact D| |cbn; rewrite E0; reflexivity|]. congruence. auto.
            -- congruence.
        + injection Q as _ <-. eapply dead_set; [exact D| |cbn; rewrite E0; reflexivity|]. congruence. auto.
        + congruence.
      - eapply F; eauto. eapply dead_same; eauto. }
    destruct o as [|i| | | | |k|r0|r0|r0|r0|r0|r0|r0|b0|b0|b0]; cbn [nstep] in H.
    - destruct (w_tree w) eqn:T; try discriminate. injection H as H. apply TCH in H. unfold acquire_mutable in H.
      assert (R : table_readable w = true) by (apply TRT; congruence).
      destruct (borrow_of w) eqn:B; injection H as _ <-; eapply dead_same; eauto; congruence.
    - destruct (w_tree w) eqn:T; try discriminate.
      assert (R : table_readable w = true) by (apply TRT; congruence).
      assert (W : forall o1 w1, insert_step CMAX w i = Some (o1, w1) -> w_refs w1 = w_refs w).
      { intros o1 w1 Q. destruct i; cbn [insert_step] in Q; repeat match type of Q with context [match ?x with _ => _ end] => destruct x eqn:?; try discriminate end;
          try (injection Q as <- <-; reflexivity); unfold lift in Q;
          repeat match type of Q with context [match ?x with _ => _ end] => destruct x eqn:?; try discriminate end; injection Q as <- <-; reflexivity. }
      destruct (insert_step CMAX w i) as [[o1 w1]|] eqn:S; [|discriminate]. specialize (W _ _ eq_refl).
      destruct o1; injection H as H; apply TCH in H; injection H as _ <-; eapply dead_same; eauto; congruence.
    - destruct (w_tree w) eqn:T; try discriminate. destruct (all_present w); [|discriminate]. injection H as H. apply TCH in H.
      assert (R : table_readable w = true) by (apply TRT; congruence).
      unfold release_mutable in H. destruct (borrow_of (set_tree w TIdle)); injection H as _ <-; eapply dead_same; eauto; congruence.
    - destruct (w_tree w) eqn:T; try discriminate. injection H as _ <-. eapply dead_same; eauto.
    - destruct (w_tree w) eqn:T; try discriminate. injection H as H. apply TCH in H.
      assert (R : table_readable w = true) by (apply TRT; congruence).
      unfold drop_begin, store_drop in H. destruct (borrow_of w) as [| |m []| |] eqn:B; cbn in H; try (injection H as _ <-); eapply dead_same; eauto; congruence.
    - destruct (w_tree w) eqn:T; try discriminate. injection H as H. apply TCH in H.
      pose proof (g_bs _ _ _ _ _ G) as Gbs. rewrite T in Gbs. unfold store_drop in H. change (borrow_of (set_tree w TGone)) with (borrow_of w) in H.
      inversion Gbs as [| | | | |E1 E2 E3|]. rewrite <- E2 in H. destruct (weak_of _ =? 0); injection H as _ <-; eapply dead_same; eauto.
    - destruct (w_tree w) eqn:T; try discriminate.
      assert (R : table_readable w = true) by (apply TRT; congruence).
      assert (W : forall o1 w1, make_ref CMAX w k = Some (o1, w1) -> w_refs w1 = w_refs w \/ exists x, w_refs w1 = w_refs w ++ [x]).
      { intros o1 w1 Q. unfold make_ref, bump_weak, lift in Q.
        repeat match type of Q with context [match ?x with _ => _ end] => destruct x eqn:?; try discriminate end; injection Q as <- <-; cbn; eauto. }
      destruct (make_ref CMAX w k) as [[o1 w1]|] eqn:S; [|discriminate]. injection H as H. apply TCH in H. injection H as -> ->.
      destruct (W _ _ eq_refl) as [E|[x E]]; [eapply dead_same; eauto|eapply dead_new; eauto]; congruence.
    - destruct (ref_var w r0) as [id|] eqn:V; [|discriminate]. injection H as H. apply TCH in H. unfold ref_clone in H.
      destruct id as [i|]; [|injection H as _ <-; eapply (dead_new w); [exact D|exact L|reflexivity|exact (fun q => q)]].
      destruct (table_readable w) eqn:R.
      + unfold bump_weak in H. destruct (weak_of (set_id w r0 None) <? CMAX).
        * destruct (rv_clone CMAX _ i) as [q|y|] eqn:RC; cbn [lift] in H; [| |congruence].
          -- injection H as _ <-. intros j Q. cbn in Q. rewrite nth_error_app1 in Q by (rewrite !replace_len; auto).
             apply nth_replace in Q. destruct Q as [[-> Q]|[NE Q]].
             ++ exfalso. apply ref_nth in V. specialize (D _ V). congruence.
             ++ rewrite replace_nth_other in Q by auto. specialize (D _ Q). congruence.
          -- injection H as _ <-. eapply dead_set; [exact D| |reflexivity|]; congruence.
        * injection H as _ <-. eapply dead_set; [exact D| |reflexivity|]; congruence.
      + injection H as _ <-. intros j Q. cbn in Q. rewrite nth_error_app1 in Q by (rewrite !replace_len; auto). exact R.
    - destruct (ref_var w r0) as [id|] eqn:V; [|discriminate]. destruct (borrowed_from w r0); [discriminate|]. injection H as H. apply TCH in H.
      unfold ref_drop in H. destruct (weak_of w) as [|[|m]]; [congruence| |].
      + assert (E : w_refs w' = replace_at r0 RDead (w_refs w) /\ borrow_of w' = borrow_of w) by (destruct (borrow_of w) eqn:B; injection H as _ <-; split; auto).
        destruct E as [E1 E2]. eapply dead_set; [exact D| |exact E1|unfold table_readable; rewrite E2; auto]. congruence.
      + injection H as _ <-. eapply dead_set; [exact D| |reflexivity|unfold table_readable; cbn; auto]; congruence.
    - destruct (ref_var w r0) as [id|] eqn:V; [|discriminate]. destruct (borrowed_from w r0); [discriminate|]. injection H as _ <-.
      eapply dead_set; [exact D| |reflexivity|unfold table_readable; cbn; auto]; congruence.
    - destruct (ref_var w r0) as [id|] eqn:V; [|discriminate]. injection H as H. apply TCH in H. unfold is_valid in H.
      destruct (table_readable w) eqn:R; [|injection H as _ <-; auto].
      eapply CR; [exact H|auto|discriminate|]. intros h w2 Q DD _. injection Q as _ <-. auto.
    - destruct (ref_var w r0) as [id|] eqn:V; [|discriminate]. injection H as H. apply TCH in H. injection H as _ <-. auto.
    - destruct (ref_var w r0) as [id|] eqn:V; [|discriminate]. injection H as H. apply TCH in H. unfold borrow_slice in H.
      destruct (borrow_refs CMAX w) as [[w1|]|y|] eqn:BR; cbn [lift] in H; try (injection H as _ <-; auto; fail).
      destruct (borrow_refs_ok CMAX _ _ _ _ _ _ G BR) as (_ & _ & _ & R1 & _ & _).
      assert (RD : table_readable w = true) by (unfold borrow_refs in BR; unfold table_readable; destruct (borrow_of w); auto; discriminate).
      eapply CR; [exact H|auto|congruence|]. intros h w2 Q DD _. cbv beta in Q.
      destruct (drop_borrow w2) as [o2 w3] eqn:DB. pose proof (drop_borrow_refs w2) as [X1 X2]. rewrite DB in X1, X2. cbn [snd] in X1, X2.
      destruct h as [[|]|]; [injection Q as _ <-; eapply dead_same; eauto| injection Q as _ <-; auto |].
      destruct o2; injection Q as _ <-; eapply dead_same; eauto.
    - destruct (ref_var w r0) as [id|] eqn:V; [|discriminate]. injection H as H. apply TCH in H. unfold borrow_slice in H.
      destruct (borrow_refs CMAX w) as [[w1|]|y|] eqn:BR; cbn [lift] in H; try (injection H as _ <-; auto; fail).
      destruct (borrow_refs_ok CMAX _ _ _ _ _ _ G BR) as (_ & _ & _ & R1 & _ & _).
      assert (RD : table_readable w = true) by (unfold borrow_refs in BR; unfold table_readable; destruct (borrow_of w); auto; discriminate).
      eapply CR; [exact H|auto|congruence|]. intros h w2 Q DD _. cbv beta in Q.
      destruct (drop_borrow w2) as [o2 w3] eqn:DB. pose proof (drop_borrow_refs w2) as [X1 X2]. rewrite DB in X1, X2. cbn [snd] in X1, X2.
      destruct h as [[|]|]; [| injection Q as _ <-; auto |]; destruct o2; injection Q as _ <-; eapply dead_same; eauto.
    - destruct (bor_var w b0) as [id|] eqn:V; [|discriminate]. injection H as H. apply TCH in H. unfold bor_clone in H.
      destruct (borrow_of w) as [| |m d| |] eqn:B; try (injection H as _ <-; auto; fail).
      destruct (m <? CMAX); injection H as _ <-; auto. eapply dead_same; eauto. unfold table_readable. rewrite B. discriminate.
    - destruct (bor_var w b0) as [id|] eqn:V; [|discriminate]. injection H as H. apply TCH in H.
      pose proof (drop_borrow_refs (set_bors w (replace_at b0 BDead (w_bors w)))) as [X1 X2]. rewrite H in X1, X2. cbn [snd] in X1, X2.
      eapply dead_same; eauto.
    - destruct (bor_var w b0) as [id|] eqn:V; [|discriminate]. injection H as _ <-. eapply dead_same; eauto.
  Qed.

  Lemma refs_len : forall w n p late o out w', inv w n p late -> n + 2 < CMAX -> nstep CMAX w o = Some (out, w') -> out <> OUB ->
    length (w_refs w) <= length (w_refs w').
  Proof.
    intros w n p late o out w' I BD H NU. destruct o as [|i| | | | |k|r0|r0|r0|r0|r0|r0|r0|b0|b0|b0]; try destruct i;
      unfold nstep, acquire_mutable, insert_step, release_mutable, drop_begin, store_drop, make_ref,
      ref_clone, bump_weak, ref_drop, is_valid, can_borrow, borrow_slice, borrow_refs, collapse_refs, bor_clone, drop_borrow, lift, option_map in H;
    repeat match type of H with
    | context [match ?x with _ => _ end] => lazymatch x with context [match _ with _ => _ end] => fail | _ => destruct x; try discriminate H end
    end; try congruence; try (injection H as <- <-; cbn; rewrite ?app_length, ?replace_len; cbn [length]; lia).
  Qed.

  Lemma dead_run : forall os w n p late outs w' r, inv w n p late -> n + length os + 2 <= CMAX -> nrun CMAX w os = Some (outs, w') -> ~ In OUB outs ->
    r < length (w_refs w) -> dead w r -> dead w' r.
  Proof.
    induction os as [|o os IH]; intros w n p late outs w' r I BD H N L D; cbn [nrun] in H.
    - injection H as <- <-. auto.
    - destruct (nstep CMAX w o) as [[out w1]|] eqn:E; [|discriminate]. cbn [length] in BD.
      assert (B1 : n + 2 < CMAX) by lia.
      pose proof (nstep_ok _ _ _ _ _ _ _ I B1 E) as S. destruct S as [[S1 S2]|[S1 S2]]; cbn [fst snd] in *.
      + subst out. injection H as <- <-. exfalso. apply N. left. reflexivity.
      + assert (H' : match nrun CMAX w1 os with Some (outs0, w2) => Some (out :: outs0, w2) | None => None end = Some (outs, w')) by (destruct out; auto; congruence).
        destruct (nrun CMAX w1 os) as [[outs0 w2]|] eqn:E2; [|discriminate]. injection H' as <- <-.
        eapply IH; [exact S2|lia|exact E2| | |].
        * intros Q. apply N. right. auto.
        * pose proof (refs_len _ _ _ _ _ _ _ I B1 E S1). lia.
        * exact (dead_step w n p late o out w1 r I B1 E S1 L D).
  Qed.

  Lemma nrun_app : forall os1 os2 w outs1 w1, nrun CMAX w os1 = Some (outs1, w1) -> ~ In OUB outs1 ->
    nrun CMAX w (os1 ++ os2) = match nrun CMAX w1 os2 with Some (outs2, w2) => Some (outs1 ++ outs2, w2) | None => None end.
  Proof.
    induction os1 as [|o os1 IH]; intros os2 w outs1 w1 H N; cbn [nrun app] in *.
    - injection H as <- <-. destruct (nrun CMAX w os2) as [[? ?]|]; reflexivity.
    - destruct (nstep CMAX w o) as [[out w2]|]; [|discriminate].
      assert (NO : out <> OUB) by (intros ->; injection H as <- <-; apply N; left; reflexivity).
      assert (H' : match nrun CMAX w2 os1 with Some (outs0, w3) => Some (out :: outs0, w3) | None => None end = Some (outs1, w1)) by (destruct out; auto; congruence).
      destruct (nrun CMAX w2 os1) as [[outs0 w3]|] eqn:E; [|discriminate]. injection H' as <- <-.
      specialize (IH os2 _ _ _ E ltac:(intros Q; apply N; right; auto)). rewrite IH.
      destruct (nrun CMAX w3 os2) as [[? ?]|]; destruct out; auto; congruence.
  Qed.

  (** The promise at slice_ref.rs 627-629: once `is_valid` has returned false for a reference, it returns false
      whenever it is asked again. *)
  Lemma C25_invalid_for_good_proof : forall k os outs w r w1 os' outs' w2 b w3,
    nrun CMAX (start k) os = Some (outs, w) -> ~ In OUB outs -> length os + length os' + 4 <= CMAX ->
    nstep CMAX w (NIsValid r) = Some (OBool false, w1) ->
    nrun CMAX w1 os' = Some (outs', w2) -> ~ In OUB outs' ->
    nstep CMAX w2 (NIsValid r) = Some (OBool b, w3) -> b = false.
  Proof.
    intros k os outs w r w1 os' outs' w2 b w3 H N BD V1 H' N' V2.
    assert (B0 : length os + 2 <= CMAX) by lia. pose proof (reach_inv _ _ _ _ H B0 N) as I.
    assert (RV : r < length (w_refs w)).
    { unfold nstep, ref_var in V1. destruct (nth_error (w_refs w) r) eqn:E; [|discriminate]. eapply nth_error_lt; eauto. }
    assert (B1 : length os + 2 < CMAX) by lia.
    pose proof (nstep_ok _ _ _ _ _ _ _ I B1 V1) as S. destruct S as [[S1 _]|[_ S2]]; [discriminate|]. cbn [fst snd] in S2.
    pose proof (refs_len _ _ _ _ _ _ _ I B1 V1 ltac:(discriminate)) as L1.
    assert (D1 : dead w1 r).
    { unfold nstep in V1. destruct (ref_var w r) as [id|] eqn:E; [|discriminate]. destruct (w_alloc_freed w =? 0); [|discriminate].
      injection V1 as V1. unfold is_valid in V1. destruct (table_readable w) eqn:R.
      - destruct id as [i|]; cbn [collapse_refs] in V1.
        + destruct I as (a & b0 & c & G & _). destruct (get_cases CMAX _ _ _ _ _ _ _ G E) as [(T & cc & q & E1 & _)|(T & E1 & _)].
          * unfold rv_get in V1. rewrite E1 in V1. discriminate.
          * rewrite E1 in V1. discriminate.
        + injection V1 as <-. apply ref_nth in E. intros i Q. congruence.
      - injection V1 as <-. intros i Q. auto. }
    assert (D2 : dead w2 r) by (eapply dead_run; [exact S2| |exact H'|exact N'|lia|exact D1]; lia).
    unfold nstep in V2. destruct (ref_var w2 r) as [id|] eqn:E; [|discriminate]. destruct (w_alloc_freed w2 =? 0); [|discriminate].
    injection V2 as V2. unfold is_valid in V2. destruct (table_readable w2) eqn:R; [|congruence].
    destruct id as [i|]; cbn [collapse_refs] in V2; [|congruence]. apply ref_nth in E. specialize (D2 _ E). congruence.
  Qed.

  (** ** Memory *)

  Definition slots (w : world) : nat := length (rv_vals (table_of w)).
  Definition has_id (k : option nat) : bool := match k with Some _ => true | None => false end.

  Lemma cnt_le : forall A (p : A -> bool) l, cnt p l <= length l.
  Proof. induction l as [|x l IH]; [cbn; lia|]. rewrite cnt_cons. cbn [length]. destruct (p x); cbn [b2n]; lia. Qed.

  Lemma recycle_len : forall (t : @rvec stored) i q, rv_recycle t i = Ok q -> length (rv_vals (snd q)) = length (rv_vals t).
  Proof.
    intros t i q H. unfold rv_recycle in H. repeat match type of H with context [match ?x with _ => _ end] => destruct x; try discriminate H end;
      injection H as <-; cbn; rewrite replace_len; reflexivity.
  Qed.

  Lemma collapse_slots : forall w r id f out w', collapse_refs w r id f = (out, w') -> out <> OUB ->
    (forall h w1, f h w1 = (out, w') -> slots w1 = slots w -> w_keys w1 = w_keys w -> w_tree w1 = w_tree w ->
      slots w' <= slots w /\ w_keys w' = w_keys w /\ w_tree w' = w_tree w) ->
    slots w' <= slots w /\ w_keys w' = w_keys w /\ w_tree w' = w_tree w.
  Proof.
    intros w r id f out w' H N F. destruct id as [i|]; cbn [collapse_refs] in H; [|eapply F; eauto].
    destruct (rv_get (table_of w) i) as [[pp|j|]|y|]; cbn [lift] in H; try congruence.
    - eapply F; eauto.
    - destruct (rv_recycle (table_of w) i) as [q|y|] eqn:R; cbn [lift] in H; try congruence.
      + eapply F; eauto. unfold slots. apply (recycle_len _ _ _ R).
      + injection H as _ <-. auto.
    - injection H as _ <-. auto.
  Qed.

  Lemma drop_borrow_slots : forall w, slots (snd (drop_borrow w)) <= slots w /\ w_keys (snd (drop_borrow w)) = w_keys w /\ w_tree (snd (drop_borrow w)) = w_tree w.
  Proof. intros w. unfold drop_borrow. destruct (borrow_of w) as [| |[|[|m]] []| |]; cbn [snd]; (split; [|auto]); unfold slots, table_of; cbn; lia. Qed.

  Lemma borrow_slots : forall w r id keep out w', borrow_slice CMAX w r id keep = (out, w') -> out <> OUB ->
    slots w' <= slots w /\ w_keys w' = w_keys w /\ w_tree w' = w_tree w.
  Proof.
    intros w r id keep out w' H N. unfold borrow_slice in H.
    assert (B : forall o, borrow_refs CMAX w = Ok (Some o) -> slots o = slots w /\ w_keys o = w_keys w /\ w_tree o = w_tree w).
    { intros o Q. unfold borrow_refs in Q. destruct (borrow_of w) as [| |m d| |]; try discriminate; [|destruct (m <? CMAX); [|discriminate]]; injection Q as <-; auto. }
    destruct (borrow_refs CMAX w) as [[w1|]|y|]; cbn [lift] in H; try (injection H as _ <-; auto; fail).
    destruct (B _ eq_refl) as (<- & <- & <-). eapply collapse_slots; [exact H|auto|]. intros h w2 Q <- <- <-. cbv beta in Q.
    pose proof (drop_borrow_slots w2) as X. destruct (drop_borrow w2) as [o2 w3]. cbn [snd] in X.
    destruct h as [[|]|]; [destruct keep| |]; try (injection Q as _ <-; auto; fail); destruct o2; injection Q as _ <-; auto.
  Qed.

  Lemma slots_step : forall w n p late o out w', inv w n p late -> n + 2 < CMAX -> nstep CMAX w o = Some (out, w') -> out <> OUB ->
    (w_tree w <> TGone -> slots w <= cnt has_id (w_keys w)) -> w_tree w' <> TGone -> slots w' <= cnt has_id (w_keys w').
  Proof.
    intros w n p late o out w' I BD H NU C T'. pose proof I as (a & b & c & G & _).
    destruct o as [|i| | | | |k|r0|r0|r0|r0|r0|r0|r0|b0|b0|b0];
      try (unfold nstep, acquire_mutable, release_mutable, drop_begin, store_drop, bump_weak,
        ref_clone, ref_drop, is_valid, can_borrow, borrow_slice, borrow_refs, collapse_refs, bor_clone, drop_borrow, lift in H;
        repeat match type of H with
        | context [match rv_clone CMAX ?t ?i with _ => _ end] => destruct (rv_clone CMAX t i) as [[? ?]|?|] eqn:?
        | context [match rv_recycle ?t ?i with _ => _ end] => destruct (rv_recycle t i) as [[? ?]|?|] eqn:?
        | context [match ?x with _ => _ end] => destruct x eqn:?; try discriminate H
        end; try congruence; injection H as <- <-; cbn -[cnt] in *; try congruence;
        unfold slots, table_of in *; cbn -[cnt]; first [apply C; congruence | idtac]; fail).
    - (* an insertion at work *)
      cbn [nstep] in H. destruct (w_tree w) eqn:T; try discriminate. specialize (C ltac:(congruence)).
      assert (W : forall o1 w1, insert_step CMAX w i = Some (o1, w1) -> slots w1 <= cnt has_id (w_keys w1)).
      { intros o1 w1 Q. destruct i as [k|k|k|f t]; cbn [insert_step] in Q.
        - destruct (k <=? length (w_keys w)); [|discriminate]. injection Q as <- <-. cbn -[cnt]. rewrite cnt_insert. unfold slots, table_of in *. cbn -[cnt] in *. lia.
        - destruct (key_id w k) as [[id|]|]; try discriminate; [|injection Q as <- <-; auto].
          unfold rv_replace in Q. destruct (nth_error (rv_vals (table_of w)) id) as [[?|? ?]|]; cbn [lift] in Q; injection Q as <- <-; auto.
          unfold slots, table_of in *. cbn -[cnt]. rewrite replace_len. auto.
        - destruct (key_id w k) as [[id|]|]; try discriminate; [|injection Q as <- <-; auto].
          unfold rv_replace in Q. destruct (nth_error (rv_vals (table_of w)) id) as [[?|? ?]|]; cbn [lift] in Q; injection Q as <- <-; auto.
          unfold slots, table_of in *. cbn -[cnt]. rewrite replace_len. auto.
        - destruct (key_id w f) as [[f0|]|] eqn:Kf; destruct (key_id w t) as [[t0|]|] eqn:Kt; try discriminate; try (injection Q as <- <-; auto; fail).
          + unfold rv_clone in Q. destruct (nth_error (rv_vals (table_of w)) t0) as [[?|cc vv]|]; cbn [lift] in Q; try (injection Q as <- <-; auto; fail).
            destruct (cc <? CMAX); cbn [lift fst snd] in Q; [|injection Q as <- <-; auto].
            pose proof (cnt_replace has_id f (Some t0) _ _ Kf) as CR. cbn [has_id b2n] in CR.
            unfold rv_recycle in Q. cbn [table_of w_store set_keys set_table set_store s_refs rv_vals] in Q.
            destruct (nth_error (replace_at t0 (Value (S cc) vv) (rv_vals (table_of w))) f0) as [[?|[|[|c2]] v2]|]; cbn [lift] in Q; injection Q as <- <-;
              unfold slots, table_of in *; cbn -[cnt]; rewrite ?replace_len; lia.
          + unfold rv_clone in Q. destruct (nth_error (rv_vals (table_of w)) f0) as [[?|cc vv]|]; cbn [lift] in Q; try (injection Q as <- <-; auto; fail).
            destruct (cc <? CMAX); cbn [lift fst snd] in Q; [|injection Q as <- <-; auto].
            pose proof (cnt_replace has_id t (Some f0) _ _ Kt) as CR. cbn [has_id b2n] in CR.
            injection Q as <- <-; unfold slots, table_of in *; cbn -[cnt]; rewrite ?replace_len; lia. }
      destruct (insert_step CMAX w i) as [[o1 w1]|] eqn:S; [|discriminate]. specialize (W _ _ eq_refl).
      destruct (w_alloc_freed w =? 0); [|destruct o1; congruence]. destruct o1; injection H as <- <-; auto.
    - (* a new reference *)
      cbn [nstep] in H. destruct (w_tree w) eqn:T; try discriminate. specialize (C ltac:(congruence)).
      assert (TB : tbl_ok (w_keys w) (w_refs w) (table_of w) n) by (apply (g_tbl _ _ _ _ _ G); congruence).
      unfold make_ref in H. destruct (key_id w k) as [[id|]|] eqn:K; try discriminate; cbn [option_map] in H.
      + assert (W : forall o1 w1, lift w (rv_clone CMAX (table_of w) id) (fun p0 => bump_weak CMAX (set_table w (snd p0))
                 (fun w2 => (OUnit, set_refs w2 (w_refs w2 ++ [RLive (Some (fst p0))])))) = (o1, w1) -> slots w1 = slots w /\ w_keys w1 = w_keys w).
        { intros o1 w1 Q. unfold rv_clone in Q. destruct (nth_error (rv_vals (table_of w)) id) as [[?|cc vv]|]; cbn [lift] in Q; try (injection Q as <- <-; auto; fail).
          destruct (cc <? CMAX); cbn [lift fst snd] in Q; [|injection Q as <- <-; auto]. unfold bump_weak in Q.
          destruct (_ <? CMAX); injection Q as <- <-; unfold slots, table_of in *; cbn -[cnt]; rewrite replace_len; auto. }
        destruct (w_alloc_freed w =? 0); [|congruence]. injection H as H. destruct (W _ _ H) as [-> ->]. auto.
      + rewrite (push_ok _ _ (to_head _ _ _ _ TB)) in H. cbn [lift fst snd] in H.
        unfold rv_clone in H. cbn [rv_vals] in H. rewrite nth_snoc in H. replace (1 <? CMAX) with true in H by (symmetry; apply Nat.ltb_lt; lia).
        cbn [lift fst snd] in H. pose proof (cnt_replace has_id k (Some (length (rv_vals (table_of w)))) _ _ K) as CR. cbn [has_id b2n] in CR.
        unfold bump_weak in H. destruct (w_alloc_freed w =? 0); [|congruence].
        destruct (_ <? CMAX); injection H as <- <-; unfold slots, table_of in *; cbn -[cnt]; rewrite replace_len, app_length; cbn [length]; lia.
    - (* a clone *)
      cbn [nstep] in H. destruct (ref_var w r0) as [id|] eqn:V; [|discriminate]. destruct (w_alloc_freed w =? 0); [|congruence]. injection H as H.
      assert (W : slots w' = slots w /\ w_keys w' = w_keys w /\ w_tree w' = w_tree w).
      { unfold ref_clone in H. destruct id as [i|]; [|injection H as <- <-; auto]. destruct (table_readable w); [|injection H as <- <-; auto].
        unfold bump_weak in H. destruct (_ <? CMAX); [|injection H as <- <-; auto].
        unfold rv_clone in H. destruct (nth_error _ i) as [[?|cc vv]|]; cbn [lift] in H; try (injection H as <- <-; auto; fail).
        destruct (cc <? CMAX); cbn [lift fst snd] in H; injection H as <- <-; auto. unfold slots, table_of in *. cbn -[cnt]. rewrite replace_len. auto. }
      destruct W as (-> & -> & W). apply C. congruence.
    - cbn [nstep] in H. destruct (ref_var w r0) as [id|] eqn:V; [|discriminate]. destruct (w_alloc_freed w =? 0); [|congruence]. injection H as H.
      assert (W : slots w' <= slots w /\ w_keys w' = w_keys w /\ w_tree w' = w_tree w).
      { unfold is_valid in H. destruct (table_readable w); [|injection H as _ <-; auto]. eapply collapse_slots; [exact H|auto|].
        intros h w1 Q <- <- <-. injection Q as _ <-. auto. }
      destruct W as (W1 & -> & W). specialize (C ltac:(congruence)). lia.
    - cbn [nstep] in H. destruct (ref_var w r0) as [id|] eqn:V; [|discriminate]. destruct (w_alloc_freed w =? 0); [|congruence]. injection H as H.
      destruct (borrow_slots _ _ _ _ _ _ H NU) as (W1 & -> & W). specialize (C ltac:(congruence)). lia.
    - cbn [nstep] in H. destruct (ref_var w r0) as [id|] eqn:V; [|discriminate]. destruct (w_alloc_freed w =? 0); [|congruence]. injection H as H.
      destruct (borrow_slots _ _ _ _ _ _ H NU) as (W1 & -> & W). specialize (C ltac:(congruence)). lia.
    - cbn [nstep] in H. destruct (bor_var w b0) as [id|] eqn:V; [|discriminate]. destruct (w_alloc_freed w =? 0); [|congruence]. injection H as H.
      pose proof (drop_borrow_slots (set_bors w (replace_at b0 BDead (w_bors w)))) as X. rewrite H in X. cbn [snd] in X.
      destruct X as (W1 & W2 & W3). cbn in W2, W3. rewrite W2. change (slots (set_bors w (replace_at b0 BDead (w_bors w)))) with (slots w) in W1.
      specialize (C ltac:(congruence)). lia.
  Qed.
  Lemma slots_run : forall os w n p late outs w', inv w n p late -> n + length os + 2 <= CMAX -> nrun CMAX w os = Some (outs, w') -> ~ In OUB outs ->
    (w_tree w <> TGone -> slots w <= cnt has_id (w_keys w)) -> w_tree w' <> TGone -> slots w' <= cnt has_id (w_keys w').
  Proof.
    induction os as [|o os IH]; intros w n p late outs w' I BD H N L; cbn [nrun] in H.
    - injection H as <- <-. auto.
    - destruct (nstep CMAX w o) as [[out w1]|] eqn:E; [|discriminate]. cbn [length] in BD.
      assert (B1 : n + 2 < CMAX) by lia.
      pose proof (nstep_ok _ _ _ _ _ _ _ I B1 E) as S. destruct S as [[S1 S2]|[S1 S2]]; cbn [fst snd] in *.
      + subst out. injection H as <- <-. exfalso. apply N. left. reflexivity.
      + assert (H' : match nrun CMAX w1 os with Some (outs0, w2) => Some (out :: outs0, w2) | None => None end = Some (outs, w')) by (destruct out; auto; congruence).
        destruct (nrun CMAX w1 os) as [[outs0 w2]|] eqn:E2; [|discriminate]. injection H' as <- <-.
        eapply IH; [exact S2|lia|exact E2| |].
        * intros Q. apply N. right. auto.
        * exact (slots_step w n p late o out w1 I B1 E S1 L).
  Qed.

  (** However many references are made, cloned and dropped, and in whatever order: while the tree is alive the
      table has no more slots than the tree has runs; when it is dropped, none.  (This is weaker than the claim:
      slots of references that are gone are not given back before the tree is.) *)
  Lemma C28_slots_bounded_partial_proof : forall k os outs w,
    nrun CMAX (start k) os = Some (outs, w) -> length os + 2 <= CMAX -> ~ In OUB outs ->
    (w_tree w <> TGone -> length (rv_vals (s_refs (w_store w))) <= length (w_keys w)) /\
    (w_tree w = TGone -> s_refs (w_store w) = rv_new).
  Proof.
    intros k os outs w H BD N. destruct (reach_inv _ _ _ _ H BD N) as (a & b & c & G & _). split.
    - intros T. etransitivity; [|apply (cnt_le _ has_id)]. eapply (slots_run os (start k) 0 0 false); eauto using start_inv. cbn. lia.
    - apply (g_gone _ _ _ _ _ G).
  Qed.
End Props.

(** ** Claims that are false of the code *)

(** Two references, a borrow through the first, the tree is dropped, an attempt to borrow through the second
    panics, and then the borrow is dropped.  The tree is gone and nobody borrows from it any more, but its nodes
    are not freed; nor are they after everything else is dropped. *)
Lemma C23_dropped_once_refuted_proof : exists os outs w,
  nrun 100 (start 2) os = Some (outs, w) /\ ~ In OUB outs /\
  w_tree w = TGone /\ open_borrows w = 0 /\ kept_refs w = 0 /\ w_nodes_freed w = 0.
Proof.
  exists [NMake 0; NMake 1; NBorrow 0; NDropBegin; NBorrow 1; NBDrop 0; NDrop 0; NDrop 1]. eexists. eexists.
  split; [vm_compute; reflexivity|]. split; [cbv [In]; intuition discriminate|]. vm_compute. auto.
Qed.

(** A reference is cloned after the tree is gone: the second drop reads the shared allocation after it was
    freed. *)
Lemma C24_freed_once_refuted_proof : exists os outs w, nrun 100 (start 1) os = Some (outs, w) /\ In OUB outs /\ w_alloc_freed w = 1.
Proof.
  exists [NMake 0; NDropBegin; NDropEnd; NClone 0; NDrop 0; NDrop 1]. eexists. eexists.
  split; [vm_compute; reflexivity|]. split; [cbv [In]; intuition|]. vm_compute. reflexivity.
Qed.

(** The tree is dropped while a borrow is alive: then [is_valid], or [clone], of another reference panics.  If it
    was [clone], the shared allocation is never freed. *)
Lemma C25_never_panics_refuted_proof :
  (exists os outs w y, nrun 100 (start 2) (os ++ [NIsValid 1]) = Some (outs ++ [OPanic y], w) /\ ~ In OUB outs) /\
  (exists os outs w y, nrun 100 (start 2) (os ++ [NClone 1]) = Some (outs ++ [OPanic y], w) /\ ~ In OUB outs) /\
  (exists os outs w, nrun 100 (start 2) os = Some (outs, w) /\ ~ In OUB outs /\ clones_in_time 100 (start 2) os = false /\
    w_tree w = TGone /\ open_borrows w = 0 /\ kept_refs w = 0 /\ w_nodes_freed w = 1 /\ w_alloc_freed w = 0).
Proof.
  split; [|split].
  - exists [NMake 0; NMake 1; NBorrow 0; NDropBegin], [OUnit; OUnit; OBool true; OUnit]. eexists. exists PAssert.
    split; [vm_compute; reflexivity|]. cbv [In]. intuition discriminate.
  - exists [NMake 0; NMake 1; NBorrow 0; NDropBegin], [OUnit; OUnit; OBool true; OUnit]. eexists. exists PAssert.
    split; [vm_compute; reflexivity|]. cbv [In]. intuition discriminate.
  - exists [NMake 0; NMake 1; NBorrow 0; NDropBegin; NClone 1; NBDrop 0; NDrop 0; NDrop 1]. eexists. eexists.
    split; [vm_compute; reflexivity|]. split; [cbv [In]; intuition discriminate|]. vm_compute. repeat split.
Qed.

Fixpoint cycles (n : nat) : list call := match n with O => [] | S n' => cycles n' ++ [NMake 0; NDrop n'] end.
Definition after_cycles (n : nat) : world :=
  {| w_store := {| s_borrow := NotBorrowed; s_refs := match n with O => rv_new | S n' => {| rv_vals := [Value (S n) (SHandle true)]; rv_head := None |} end; s_weak := 0 |};
     w_tree := TIdle; w_keys := match n with O => [None] | S _ => [Some 0] end; w_refs := repeat RDead n; w_bors := [];
     w_nodes_freed := 0; w_alloc_freed := 0 |}.

Lemma repeat_snoc : forall A (x : A) n, repeat x n ++ [x] = repeat x (S n).
Proof. induction n as [|n IH]; [reflexivity|]. cbn [repeat app] in *. rewrite IH. reflexivity. Qed.

Lemma nth_repeat_end : forall A (x y : A) n, nth_error (repeat x n ++ [y]) n = Some y.
Proof. induction n as [|n IH]; auto. Qed.
Lemma replace_end : forall A (x y z : A) n, replace_at n z (repeat x n ++ [y]) = repeat x n ++ [z].
Proof. induction n as [|n IH]; auto. cbn [repeat app]. rewrite replace_cons, IH. reflexivity. Qed.

Lemma one_cycle : forall CMAX n, S n < CMAX -> nrun CMAX (after_cycles n) [NMake 0; NDrop n] = Some ([OUnit; OUnit], after_cycles (S n)).
Proof.
  intros CMAX n L. pose proof (nth_repeat_end rvar RDead (RLive (Some 0)) n) as E. pose proof (replace_end rvar RDead (RLive (Some 0)) RDead n) as E2.
  assert (C1 : 0 <? CMAX = true) by (apply Nat.ltb_lt; lia). assert (C2 : 1 <? CMAX = true) by (apply Nat.ltb_lt; lia).
  assert (C3 : S n <? CMAX = true) by (apply Nat.ltb_lt; lia).
  destruct n as [|n].
  - cbn -[Nat.ltb]. rewrite C2. cbn -[Nat.ltb]. unfold bump_weak. cbn -[Nat.ltb]. rewrite C1. reflexivity.
  - cbn -[Nat.ltb repeat]. rewrite C3. cbn -[Nat.ltb repeat]. unfold bump_weak. cbn -[Nat.ltb repeat]. rewrite C1. cbn -[repeat nth_error]. unfold ref_var. cbn -[repeat nth_error]. rewrite E. cbn -[repeat nth_error].
    rewrite E2. rewrite repeat_snoc. reflexivity.
Qed.

Lemma many_cycles : forall CMAX n, n < CMAX -> exists outs, nrun CMAX (start 1) (cycles n) = Some (outs, after_cycles n) /\ ~ In OUB outs.
Proof.
  intros CMAX. induction n as [|n IH]; intros L.
  - exists []. split; [reflexivity|intros []].
  - destruct (IH ltac:(lia)) as (outs & H & N). cbn [cycles]. rewrite (nrun_app CMAX _ [NMake 0; NDrop n] _ _ _ H N), one_cycle by lia.
    exists (outs ++ [OUnit; OUnit]). split; auto. intros Q. apply in_app_or in Q. destruct Q as [Q|Q]; auto. cbv [In] in Q. intuition discriminate.
Qed.

(** Making a reference and dropping it leaves a slot behind; and the count in that slot grows with each round, so
    that with counts up to any [CMAX] the round after [CMAX - 1] of them panics, although there never was more than
    one reference. *)
Lemma C28_slots_reused_refuted_proof :
  (exists outs w, nrun 100 (start 1) [NMake 0; NDrop 0] = Some (outs, w) /\ kept_refs w = 0 /\
    length (rv_vals (s_refs (w_store (start 1)))) < length (rv_vals (s_refs (w_store w)))) /\
  (forall CMAX, 2 <= CMAX -> exists os outs w w' y, (forall o, In o os -> o = NMake 0 \/ exists r, o = NDrop r) /\
    nrun CMAX (start 1) os = Some (outs, w) /\ ~ In OUB outs /\ kept_refs w = 0 /\ nstep CMAX w (NMake 0) = Some (OPanic y, w')).
Proof.
  split; [eexists; eexists; split; [vm_compute; reflexivity|]; vm_compute; auto|].
  intros CMAX L. destruct (many_cycles CMAX (CMAX - 1) ltac:(lia)) as (outs & H & N).
  exists (cycles (CMAX - 1)), outs. exists (after_cycles (CMAX - 1)), (after_cycles (CMAX - 1)), PArith. split; [|split; [exact H|split; [exact N|split]]].
  - clear. induction (CMAX - 1) as [|n IH]; cbn [cycles]; intros o Q; [destruct Q|]. apply in_app_or in Q. destruct Q as [Q|[<-|[<-|[]]]]; eauto.
  - unfold kept_refs. cbn [w_refs after_cycles]. clear. induction (CMAX - 1); auto.
  - destruct CMAX as [|[|m]]; try lia. cbn [Nat.sub]. cbn -[Nat.ltb repeat]. rewrite Nat.ltb_irrefl. cbn. reflexivity.
Qed.

