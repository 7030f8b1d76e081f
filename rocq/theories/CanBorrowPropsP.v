(** Properties of `can_borrow`. *)
From Coq Require Import List Arith Bool Lia.
From Verif Require Import Base Recycle ListFacts RefState RefStateP RefPropsP PoisonPropsP.
Import ListNotations.

Section CanBorrow.
  Variable CMAX : nat.

  Ltac unf := unfold borrow_of, table_of, weak_of, set_id, set_borrow, set_table, set_weak, set_store,
                set_tree, set_keys, set_refs, set_bors, free_nodes, dealloc in *;
              cbn [w_store w_tree w_keys w_refs w_bors w_nodes_freed w_alloc_freed s_borrow s_refs s_weak fst snd] in *.

  Definition dropped (w : world) : Prop := w_tree w = TDropping \/ w_tree w = TGone.

  Lemma drop_borrow_tree : forall w, w_tree (snd (drop_borrow w)) = w_tree w.
  Proof. intros w. unfold drop_borrow. destruct (borrow_of w) as [| |[|[|c]] []| |]; reflexivity. Qed.

  Lemma borrow_tree : forall w r id keep, w_tree (snd (borrow_slice CMAX w r id keep)) = w_tree w.
  Proof.
    intros w r id keep. unfold borrow_slice. destruct (borrow_refs CMAX w) as [[w1|]|y|] eqn:E; cbn [lift]; cbn [snd]; auto.
    assert (T : w_tree w1 = w_tree w).
    { unfold borrow_refs in E. destruct (borrow_of w) as [| |c d| |]; try discriminate; [|destruct (_ <? _); [|discriminate]]; injection E as <-; reflexivity. }
    apply (collapse_keep (fun v => w_tree v = w_tree w)); auto.
    intros [[|]|] w2 F; [destruct keep| |]; cbn [snd]; auto.
    - pose proof (drop_borrow_tree w2) as Q. destruct (drop_borrow w2) as [[] v]; cbn [snd] in *; congruence.
    - pose proof (drop_borrow_tree w2) as Q. destruct (drop_borrow w2) as [[] v]; cbn [snd] in *; congruence.
  Qed.

  (** The drop of a tree is not undone. *)
  Lemma dropped_step : forall w o p, dropped w -> nstep CMAX w o = Some p -> dropped (snd p).
  Proof.
    intros w o p D H.
    assert (NI : w_tree w <> TIdle /\ w_tree w <> TInserting) by (destruct D; split; congruence).
    assert (K : forall v, w_tree v = w_tree w -> dropped v) by (intros v E; destruct D; [left|right]; congruence).
    unfold nstep in H. destruct o.
    - destruct (w_tree w); try discriminate; destruct NI; congruence.
    - destruct (w_tree w); try discriminate; destruct NI; congruence.
    - destruct (w_tree w); try discriminate; destruct NI; congruence.
    - destruct (w_tree w); try discriminate; destruct NI; congruence.
    - destruct (w_tree w); try discriminate; destruct NI; congruence.
    - destruct (w_tree w); try discriminate. injection H as <-. apply touch_keep; auto.
      right. unfold store_drop. unf. destruct (s_borrow (w_store w)) as [| |c []| |]; try reflexivity.
      destruct (_ =? _); reflexivity.
    - destruct (w_tree w); try discriminate; destruct NI; congruence.
    - destruct (ref_var w r); [|discriminate]. injection H as <-. apply touch_keep; auto. apply K. apply (clone_agree CMAX).
    - destruct (ref_var w r); [|discriminate]. destruct (borrowed_from w r); [discriminate|]. injection H as <-. apply touch_keep; auto. apply K. apply drop_agree.
    - destruct (ref_var w r); [|discriminate]. destruct (borrowed_from w r); [discriminate|]. injection H as <-. apply K. reflexivity.
    - destruct (ref_var w r); [|discriminate]. injection H as <-. apply touch_keep; auto. apply K. apply valid_agree.
    - destruct (ref_var w r); [|discriminate]. injection H as <-. apply touch_keep; auto.
    - destruct (ref_var w r); [|discriminate]. injection H as <-. apply touch_keep; auto. apply K. apply borrow_tree.
    - destruct (ref_var w r); [|discriminate]. injection H as <-. apply touch_keep; auto. apply K. apply borrow_tree.
    - destruct (bor_var w b); [|discriminate]. injection H as <-. apply touch_keep; auto. apply K. unfold bor_clone.
      destruct (borrow_of w) as [| |c d| |]; try reflexivity. destruct (_ <? _); reflexivity.
    - destruct (bor_var w b); [|discriminate]. injection H as <-. apply touch_keep; auto. apply K. rewrite drop_borrow_tree. reflexivity.
    - destruct (bor_var w b); [|discriminate]. injection H as <-. apply K. reflexivity.
  Qed.

  Lemma over_run : forall os w outs w', locked w \/ dropped w -> nrun CMAX w os = Some (outs, w') -> ~ In OUB outs -> locked w' \/ dropped w'.
  Proof.
    induction os as [|o os IH]; intros w outs w' L H N.
    - injection H as <- <-. exact L.
    - destruct (nrun_cons CMAX _ _ _ _ _ H N) as (out & w1 & outs1 & ST & NO & R & ->).
      apply (IH w1 outs1); [|exact R|intros I; apply N; right; exact I].
      destruct L as [L|L]; [|right; exact (dropped_step _ _ _ L ST)].
      assert (C : o = NDropBegin \/ o <> NDropBegin) by (destruct o; auto; right; discriminate).
      destruct C as [->|D]; [|left; eapply locked_step; eauto].
      right. destruct L as [T B]. unfold nstep in ST. rewrite T in ST. destruct (w_alloc_freed w =? 0); [|injection ST as <- <-; congruence].
      unfold drop_begin in ST. rewrite B in ST. injection ST as <- <-. left. reflexivity.
  Qed.

  (** After an insertion that panicked the tree is locked, or dropped. *)
  Lemma panicked_run : forall os w outs w' n p late, inv w n p late -> nrun CMAX w os = Some (outs, w') -> ~ In OUB outs ->
    n + length os + 2 <= CMAX -> 0 < insert_panics os outs -> locked w' \/ dropped w'.
  Proof.
    induction os as [|o os IH]; intros w outs w' n p late I H N BD P.
    - injection H as <- <-. cbn in P. lia.
    - destruct (nrun_cons CMAX _ _ _ _ _ H N) as (out & w1 & outs1 & ST & NO & R & ->).
      assert (N1 : ~ In OUB outs1) by (intros J; apply N; right; exact J).
      assert (C : panicking o out \/ ~ panicking o out /\ insert_panics (o :: os) (out :: outs1) = insert_panics os outs1).
      { unfold panicking. destruct o; try (right; split; [intros [Q|(i & y & Q & _)]; discriminate|reflexivity]).
        - destruct out; try (right; split; [intros [Q|(i0 & y & Q & Q2)]; discriminate|reflexivity]). left. right. eauto.
        - left. left. reflexivity. }
      destruct C as [C|[C E]].
      + destruct I as (a & b & c & G & _). assert (T : w_tree w = TInserting).
        { destruct C as [->|(i & y & -> & _)]; unfold nstep in ST; destruct (w_tree w); congruence. }
        assert (AF : w_alloc_freed w = 0) by (eapply alive_tree; eauto; congruence).
        assert (B : borrow_of w = Mutable). { pose proof (g_bs _ _ _ _ _ G) as Q. rewrite T in Q. inversion Q. reflexivity. }
        eapply over_run; [|exact R|exact N1]. left.
        destruct C as [->|(i & y & -> & ->)]; unfold nstep in ST; rewrite T in ST.
        * injection ST as <- <-. split; [reflexivity|exact B].
        * destruct (insert_step CMAX w i) as [[oo w0]|] eqn:E; [|discriminate].
          destruct oo; rewrite AF in ST; cbn [Nat.eqb] in ST; injection ST as Q <-; try discriminate.
          split; [reflexivity|]. change (borrow_of w0 = Mutable).
          assert (AG : forall p, insert_step CMAX w i = Some p -> borrow_of (snd p) = Mutable); [|exact (AG _ E)].
          clear - B. intros p H. destruct i; cbn [insert_step] in H.
          -- destruct (_ <=? _); [|discriminate]. injection H as <-. exact B.
          -- destruct (key_id w k) as [[id|]|]; try discriminate; injection H as <-; [|exact B].
             apply (lift_keep (fun v => borrow_of v = Mutable)); auto.
          -- destruct (key_id w k) as [[id|]|]; try discriminate; injection H as <-; [|exact B].
             apply (lift_keep (fun v => borrow_of v = Mutable)); auto.
          -- destruct (key_id w from) as [[f0|]|], (key_id w to) as [[t0|]|]; try discriminate; injection H as <-; try exact B.
             ++ apply (lift_keep (fun v => borrow_of v = Mutable)); auto. intros q. apply (lift_keep (fun v => borrow_of v = Mutable)); auto.
             ++ apply (lift_keep (fun v => borrow_of v = Mutable)); auto.
      + rewrite E in P.
        assert (S1 : nrun CMAX w [o] = Some ([out], w1)) by (cbn [nrun]; rewrite ST; destruct out; congruence).
        cbn [length] in BD. destruct (nrun_ok CMAX [o] w n p late [out] w1 I ltac:(cbn [length]; lia) S1) as [_ Q].
        eapply IH; [apply Q|exact R|exact N1|cbn [length]; lia|exact P]. intros [->|[]]. congruence.
  Qed.

  (** `can_borrow` returns false exactly while an insertion runs, from the first insertion that panicked until the tree
      is dropped, and when the nodes are gone.  So it returns true while the tree has been dropped but a borrow keeps its
      nodes, where the documentation promises false. *)
  Lemma C53_can_borrow_exact_partial_proof : forall k os outs w r,
    nrun CMAX (start k) os = Some (outs, w) -> length os + 2 <= CMAX -> ~ In OUB outs ->
    ref_var w r <> None -> w_alloc_freed w = 0 ->
    exists b, nstep CMAX w (NCanBorrow r) = Some (OBool b, w) /\
      (b = false <-> w_tree w = TInserting \/ (w_tree w = TIdle /\ 0 < insert_panics os outs) \/ w_nodes_freed w = 1).
  Proof.
    intros k os outs w r H BD N V AF. destruct (reach_inv CMAX _ _ _ _ H BD N) as (a & b & c & G & _).
    pose proof (g_bs _ _ _ _ _ G) as BS. pose proof (g_nodes _ _ _ _ _ G) as GN.
    assert (LK : 0 < insert_panics os outs -> w_tree w = TIdle -> borrow_of w = Mutable).
    { intros P T. destruct (panicked_run os _ _ _ 0 0 false (start_inv k) H N ltac:(lia) P) as [[_ Q]|[Q|Q]]; congruence. }
    assert (FN : insert_panics os outs = 0 -> fine w).
    { intros P. eapply (fine_run CMAX); eauto. intros Q. discriminate. }
    unfold nstep. destruct (ref_var w r); [|congruence]. rewrite AF. cbn [Nat.eqb]. unfold can_borrow.
    eexists. split; [reflexivity|].
    destruct (borrow_of w) as [| |m d| |] eqn:B; rewrite GN; inversion BS as [E|E|E|m0 E|m0 E|E|E]; split; intros Q; try discriminate; try reflexivity; auto;
      try (destruct Q as [Q|[[Q P]|Q]]; try congruence; specialize (LK P (eq_sym E)); congruence).
    right. left. split; auto. destruct (insert_panics os outs) eqn:P; [|lia]. specialize (FN eq_refl B). congruence.
  Qed.

  (** What the two checks are for: if `can_borrow` and then `is_valid` return true, borrowing through the reference
      succeeds, and so do `range` and the like. *)
  Lemma C53_checks_suffice_proof : forall k os outs w r w1,
    nrun CMAX (start k) os = Some (outs, w) -> length os + 3 <= CMAX -> ~ In OUB outs ->
    nstep CMAX w (NCanBorrow r) = Some (OBool true, w) -> nstep CMAX w (NIsValid r) = Some (OBool true, w1) ->
    (exists w2, nstep CMAX w1 (NBorrow r) = Some (OBool true, w2) /\ live_borrows w2 = S (live_borrows w)) /\
    (exists w2, nstep CMAX w1 (NRange r) = Some (OBool true, w2) /\ live_borrows w2 = live_borrows w).
  Proof.
    intros k os outs w r w1 H BD N H1 H2. destruct (reach_inv CMAX _ _ _ _ H ltac:(lia) N) as (a & b & c & G & _).
    unfold nstep in H1, H2. destruct (ref_var w r) as [id|] eqn:V; [|discriminate].
    destruct (w_alloc_freed w =? 0) eqn:AF; [|discriminate]. injection H1 as H1. injection H2 as H2.
    unfold is_valid in H2. destruct (table_readable w) eqn:TR; [|discriminate].
    destruct id as [i|]; [|discriminate]. cbn [collapse_refs] in H2.
    destruct (get_cases CMAX _ _ _ _ _ _ _ G V) as [(T' & cc & q & E1 & _)|(_ & Q & _)].
    2: { rewrite Q in H2. discriminate. }
    unfold rv_get in H2. rewrite E1 in H2. cbn [lift] in H2. injection H2 as <-.
    pose proof (g_bs _ _ _ _ _ G) as BS. pose proof (g_present _ _ _ _ _ G) as PR. destruct (g_bound _ _ _ _ _ G) as [_ GB].
    unfold nstep. rewrite V, AF. unfold borrow_slice, borrow_refs.
    destruct (borrow_of w) as [| |m d| |] eqn:B; try discriminate; inversion BS as [E|E|E|m0 E E' E''|m0 E|E|E]; try (symmetry in E; congruence).
    - cbn [lift collapse_refs]. change (table_of (set_borrow w (Immutable 1 false))) with (table_of w). unfold rv_get. rewrite E1. cbn [lift].
      rewrite (PR (or_introl eq_refl) _ _ _ E1). split.
      + eexists. split; [reflexivity|]. unfold live_borrows. unf. rewrite filter_app, app_length. cbn. lia.
      + eexists. split; [reflexivity|]. reflexivity.
    - subst m d. assert (D : S m0 <? CMAX = true) by (apply Nat.ltb_lt; lia). rewrite D.
      cbn [lift collapse_refs]. change (table_of (set_borrow w (Immutable (S (S m0)) false))) with (table_of w). unfold rv_get. rewrite E1. cbn [lift].
      rewrite (PR (or_intror (ex_intro _ _ eq_refl)) _ _ _ E1). split.
      + eexists. split; [reflexivity|]. unfold live_borrows. unf. rewrite filter_app, app_length. cbn. lia.
      + eexists. split; [reflexivity|]. reflexivity.
  Qed.

  (** The documentation of `can_borrow`: false if the tree has been dropped.  Two references, a borrow through the first,
      the tree is dropped: for the second `can_borrow` returns true, and then borrowing through it panics, as does
      `is_valid`. *)
  Lemma C53_documented_refuted_proof : exists os outs w w1 w2,
    nrun 100 (start 2) os = Some (outs, w) /\ ~ In OUB outs /\ ref_panics os outs = 0 /\ w_tree w = TGone /\
    nstep 100 w (NCanBorrow 1) = Some (OBool true, w) /\
    nstep 100 w (NBorrow 1) = Some (OPanic PAssert, w1) /\ nstep 100 w (NIsValid 1) = Some (OPanic PAssert, w2).
  Proof.
    exists [NMake 0; NMake 1; NBorrow 0; NDropBegin]. do 4 eexists. split; [vm_compute; reflexivity|].
    split; [cbv [In]; intuition discriminate|]. repeat split; vm_compute; reflexivity.
  Qed.
End CanBorrow.
