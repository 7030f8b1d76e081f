(** Walks through a tree with any index type stay inside the tree.  Proof support only. *)
From Coq Require Import List ZArith Bool Arith Lia.
From Verif Require Import Base Index Slice Tree Insert Range Iter Validate Spec Zip Rep Path Find Wild.
Import ListNotations.

Definition post {A} (P : A -> Prop) (m : res A) : Prop := match m with Ok a => P a | Panic _ => True | UB => False end.
Lemma post_bind : forall {A B} (P : A -> Prop) (Q : B -> Prop) m k,
  post P m -> (forall a, m = Ok a -> P a -> post Q (k a)) -> post Q (bind m k).
Proof. intros A B P Q [a|y|] k H K; cbn in *; auto. Qed.
Lemma post_imp : forall {A} (P Q : A -> Prop) m, post P m -> (forall a, P a -> Q a) -> post Q m.
Proof. intros A P Q [a|y|] H K; cbn in *; auto. Qed.
Lemma post_any : forall {A} (m : res A), m <> UB -> post (fun _ => True) m.
Proof. intros A [a|y|] H; cbn; auto. Qed.
Lemma post_nub : forall {A} (P : A -> Prop) m, post P m -> m <> UB.
Proof. intros A P [a|y|] H; cbn in *; congruence. Qed.

Section Walk.
  Context {I V : Type} (X : index_ops I) (M low : nat).
  Hypothesis HX : index_any X.
  Notation tree := (tree I V).
  Notation shape := (@wshape I V M low).
  Notation T1 := (fun _ => True).

  Lemma p_addl : forall a b, post T1 (ix_add_left X a b).
  Proof. intros. apply post_any, ia_addl, HX. Qed.
  Lemma p_addr : forall a b, post T1 (ix_add_right X a b).
  Proof. intros. apply post_any, ia_addr, HX. Qed.
  Lemma p_subl : forall a b, post T1 (ix_sub_left X a b).
  Proof. intros. apply post_any, ia_subl, HX. Qed.
  Lemma p_subr : forall a b, post T1 (ix_sub_right X a b).
  Proof. intros. apply post_any, ia_subr, HX. Qed.

  Lemma shape_nil : forall lo h, shape lo h Nil = true -> False.
  Proof. intros lo [|h]; discriminate. Qed.
  Lemma wshape_S : forall lo h tot c0 es, shape lo h (Node tot c0 es) =
    ((lo <=? length es) && (length es <=? 2 * M) &&
      match h with
      | 0 => forallb (fun c => match c with Nil => true | Node _ _ _ => false end) (c0 :: map e_child es)
      | S h' => forallb (shape low h') (c0 :: map e_child es)
      end).
  Proof. intros lo [|h]; reflexivity. Qed.
  Lemma shape_node : forall lo h t, shape lo h t = true -> exists tot c0 es, t = Node tot c0 es.
  Proof. intros lo h [|tot c0 es] H; [destruct (shape_nil _ _ H)|eauto]. Qed.
  Lemma shape_len : forall lo h t, shape lo h t = true -> lo <= tlen t <= 2 * M.
  Proof.
    intros lo h [|tot c0 es] H; [destruct (shape_nil _ _ H)|]. unfold tlen. rewrite wshape_S in H. cbn [keys].
    apply andb_prop in H. destruct H as [H _]. apply andb_prop in H. destruct H as [H1 H2].
    apply Nat.leb_le in H1, H2. lia.
  Qed.
  Lemma shape_child : forall lo h t c, shape lo (S h) t = true -> c <= tlen t -> exists ch, child t c = Ok ch /\ shape low h ch = true.
  Proof.
    intros lo h [|tot c0 es] c H Hc; [discriminate|]. cbn [wshape] in H. unfold tlen in Hc. cbn [keys] in Hc.
    apply andb_prop in H. destruct H as [_ H]. cbn [forallb] in H. apply andb_prop in H. destruct H as [H0 H].
    destruct c as [|k]; [exists c0; auto|]. cbn [child child_of]. unfold nth_ub.
    destruct (nth_error es k) as [e|] eqn:E; [|apply nth_error_None in E; lia]. cbn [bind]. eexists. split; [reflexivity|].
    rewrite forallb_forall in H. apply H, in_map, nth_error_In with k, E.
  Qed.
  Lemma shape_leaf_child : forall lo t c ch, shape lo 0 t = true -> child t c = Ok ch -> ch = Nil.
  Proof.
    intros lo [|tot c0 es] c ch H E; [discriminate|]. cbn [wshape] in H.
    apply andb_prop in H. destruct H as [_ H]. cbn [forallb] in H. apply andb_prop in H. destruct H as [H0 H].
    destruct c as [|k]; cbn [child child_of] in E.
    - inversion E; subst. destruct ch; [reflexivity|discriminate].
    - unfold nth_ub in E. destruct (nth_error es k) as [e|] eqn:Ee; [|discriminate]. cbn [bind] in E. inversion E; subst.
      rewrite forallb_forall in H. specialize (H (e_child e) (in_map _ _ _ (nth_error_In _ _ Ee))). destruct (e_child e); [reflexivity|discriminate].
  Qed.

  Lemma p_tsize : forall lo h t, shape lo h t = true -> post T1 (tsize t).
  Proof. intros lo h [|] H; [destruct (shape_nil _ _ H)|exact Logic.I]. Qed.
  Lemma p_key_pos : forall (t : tree) k, k < tlen t -> post T1 (key_pos t k).
  Proof.
    intros t k H. unfold key_pos, nth_ub. destruct (nth_error (keys t) k) eqn:E; [exact Logic.I|].
    apply nth_error_None in E. unfold tlen in H. lia.
  Qed.
  Lemma p_slice_at : forall (t : tree) k, k < tlen t -> post (fun s => exists e, In e (keys t) /\ e_slice e = s) (slice_at t k).
  Proof.
    intros t k H. unfold slice_at, nth_ub. destruct (nth_error (keys t) k) as [e|] eqn:E; cbn.
    - exists e. split; [apply nth_error_In with k, E|reflexivity].
    - apply nth_error_None in E. unfold tlen in H. lia.
  Qed.
  Lemma p_kpe : forall lo h t k, shape lo h t = true -> post T1 (key_pos_or_end t k).
  Proof. intros. unfold key_pos_or_end. destruct (try_key_pos t k); [exact Logic.I|]. eapply p_tsize; eauto. Qed.
  Lemma p_child_size : forall lo h t c, shape lo (S h) t = true -> c <= tlen t -> post T1 (child_size t c).
  Proof. intros lo h t c H Hc. unfold child_size. destruct (shape_child _ _ _ _ H Hc) as (ch & -> & Hs). cbn [bind]. eapply p_tsize; eauto. Qed.
  Lemma p_csz : forall lo h t c, shape lo h t = true -> c <= tlen t -> post T1 (child_size_or_zero X h t c).
  Proof. intros lo [|h] t c H Hc; [exact Logic.I|]. eapply p_child_size; eauto. Qed.
  Lemma p_slice_size : forall lo h t k, shape lo h t = true -> k < tlen t -> post T1 (slice_size X h t k).
  Proof.
    intros lo h t k H Hk. unfold slice_size. eapply post_bind; [apply p_key_pos, Hk|]. intros kp _ _.
    eapply post_bind; [eapply p_kpe, H|]. intros nx _ _. eapply post_bind with (P := T1).
    - destruct h; [exact Logic.I|]. eapply post_bind; [eapply p_child_size; [exact H|lia]|]. intros. apply p_subr.
    - intros. apply p_subl.
  Qed.

  Definition pick_ok (t : tree) (r : cok I) : Prop := match r with CKey k _ => k < tlen t | CChild c _ => c <= tlen t end.

  Lemma p_search_step : forall lo h t hint target, shape lo h t = true -> post (pick_ok t) (search_step X h t hint target).
  Proof.
    intros lo h t hint target H. unfold search_step. eapply post_bind; [eapply p_tsize, H|]. intros total _ _.
    destruct (ix_debug X && _); [exact Logic.I|].
    eapply post_bind with (P := fun q => match q with None => True | Some (ci, _) => ci <= tlen t end).
    - destruct hint as [ci|]; [|exact Logic.I]. destruct ((h =? 0) || (tlen t <? ci)) eqn:E; [exact Logic.I|].
      apply orb_false_elim in E. destruct E as [E1 E2]. apply Nat.eqb_neq in E1. apply Nat.ltb_ge in E2.
      destruct h; [congruence|].
      eapply post_bind; [eapply p_child_size; eauto|]. intros cs _ _. eapply post_bind; [eapply p_kpe, H|]. intros nk _ _.
      eapply post_bind; [apply p_subr|]. intros cp _ _. destruct (ix_leb X cp target && _); cbn; auto.
    - intros [[ci cp]|] _ Hh; [exact Hh|].
      pose proof (ia_search _ HX (map e_pos (keys t)) target) as Hs. rewrite map_length in Hs. change (length (keys t)) with (tlen t) in Hs.
      destruct (ix_search X (map e_pos (keys t)) target) as [i|[|k]].
      + eapply post_bind; [apply p_key_pos, Hs|]. intros; cbn; auto.
      + cbn. lia.
      + eapply post_bind; [eapply p_kpe, H|]. intros nk _ _. eapply post_bind; [eapply p_csz; [exact H|lia]|]. intros ncs _ _.
        destruct (ix_debug X && _); [exact Logic.I|]. eapply post_bind; [apply p_subr|]. intros st _ _.
        destruct (ix_ltb X target st); [|cbn; lia]. eapply post_bind; [apply p_key_pos; lia|]. intros; cbn; lia.
  Qed.

  (** ** Slices seen through handles *)
  Lemma slices_child : forall (t : tree) c ch, child t c = Ok ch -> incl (slices ch) (slices t).
  Proof.
    intros [|tot c0 es] c ch H; [discriminate|]. intros s Hs. cbn [slices]. apply in_or_app.
    destruct c as [|k]; cbn [child child_of] in H.
    - inversion H; subst. auto.
    - unfold nth_ub in H. destruct (nth_error es k) as [e|] eqn:E; [|discriminate]. cbn [bind] in H. inversion H; subst.
      right. apply in_flat_map. exists e. split; [apply nth_error_In with k, E|]. right. exact Hs.
  Qed.
  Lemma slices_key : forall (t : tree) e, In e (keys t) -> In (e_slice e) (slices t).
  Proof.
    intros [|tot c0 es] e H; [destruct H|]. cbn [keys] in H. cbn [slices]. apply in_or_app. right. apply in_flat_map.
    exists e. split; [exact H|]. left. reflexivity.
  Qed.
  Lemma slices_node_at : forall p (t n : tree), node_at t p = Ok n -> incl (slices n) (slices t).
  Proof.
    induction p as [|c p IH]; intros t n H; cbn [node_at] in H; [inversion H; apply incl_refl|].
    destruct (child t c) as [ch| |] eqn:E; try discriminate. cbn [bind] in H.
    eapply incl_tran; [eapply IH, H|eapply slices_child, E].
  Qed.

  Lemma p_get_loop : forall h lo t hints target idx, shape lo h t = true ->
    post (fun e => In (snd e) (slices t)) (get_loop X h t hints target idx).
  Proof.
    induction h as [|h IH]; intros lo t hints target idx H.
    - cbn [get_loop]. eapply post_bind; [eapply p_search_step, H|].
      intros [c cs|k ks] _ Hk; cbn [pick_ok] in Hk; [eapply post_bind; [apply p_subl|]; intros; exact Logic.I|].
      eapply post_bind; [apply p_subl|]. intros d _ _. eapply post_bind; [apply p_subr|]. intros rs _ _.
      eapply post_bind; [eapply p_slice_size; eauto|]. intros sz _ _. eapply post_bind; [apply p_addr|]. intros re _ _.
      eapply post_bind; [apply p_slice_at, Hk|]. intros s _ (e & He & <-). cbn. apply slices_key, He.
    - cbn [get_loop]. eapply post_bind; [eapply p_search_step, H|].
      intros [c cs|k ks] _ Hk; cbn [pick_ok] in Hk. all: cycle 1.
      + eapply post_bind; [apply p_subl|]. intros d _ _. eapply post_bind; [apply p_subr|]. intros rs _ _.
        eapply post_bind; [eapply p_slice_size; eauto|]. intros sz _ _. eapply post_bind; [apply p_addr|]. intros re _ _.
        eapply post_bind; [apply p_slice_at, Hk|]. intros s _ (e & He & <-). cbn. apply slices_key, He.
      + eapply post_bind; [apply p_subl|]. intros tg _ _. destruct (shape_child _ _ _ _ H Hk) as (ch & E & Hs). rewrite E. cbn [bind].
        eapply post_imp; [eapply IH, Hs|]. intros e He. eapply slices_child; eauto.
  Qed.

  Definition rle_sh (r : @rle I V) : Prop :=
    match r with None => True | Some r => exists lo, shape lo (r_height r) (r_node r) = true end.
  Lemma p_rle_size : forall r, rle_sh r -> post T1 (rle_size X r).
  Proof. intros [r|] H; [|exact Logic.I]. destruct H as [lo H]. eapply p_tsize, H. Qed.

  Lemma p_get : forall r hints idx, rle_sh r -> post (fun e => In (snd e) (rle_slices r)) (get_with_cursor X r hints idx).
  Proof.
    intros r hints idx H. unfold get_with_cursor. eapply post_bind; [eapply p_rle_size, H|]. intros sz _ _.
    destruct (ix_ltb X idx (ix_zero X)); [exact Logic.I|]. destruct (ix_leb X sz idx); [exact Logic.I|].
    destruct r as [r|]; [|exact Logic.I]. destruct H as [lo H]. eapply p_get_loop, H.
  Qed.

  (** ** Handles *)
  Definition vh (T : tree) (a : handle) : Prop := exists n, node_at T (fst a) = Ok n /\ snd a < tlen n.
  Lemma node_at_app : forall p q (t n : tree), node_at t p = Ok n -> node_at t (p ++ q) = node_at n q.
  Proof.
    induction p as [|c p IH]; intros q t n H; cbn [node_at app] in *; [inversion H; reflexivity|].
    destruct (child t c); try discriminate. cbn [bind] in *. apply IH, H.
  Qed.
  Lemma vh_shape : forall H lo T p n k, shape lo H T = true -> node_at T p = Ok n -> k < tlen n ->
    length p <= H /\ exists lo', shape lo' (H - length p) n = true.
  Proof.
    intros H lo T p. revert H lo T. induction p as [|c p IH]; intros H lo T n k Hs E Hk; cbn [node_at length] in *.
    - inversion E; subst. split; [lia|]. exists lo. rewrite Nat.sub_0_r. exact Hs.
    - destruct (child T c) as [ch| |] eqn:Ec; try discriminate. cbn [bind] in E.
      destruct H as [|H].
      + rewrite (shape_leaf_child _ _ _ _ Hs Ec) in E. destruct p; [inversion E; subst; cbn in Hk; lia|discriminate].
      + assert (Hc : c <= tlen T).
        { destruct T as [|tot c0 es]; [discriminate|]. unfold tlen. cbn [keys].
          destruct c as [|c]; [lia|]. cbn [child child_of] in Ec. unfold nth_ub in Ec. destruct (nth_error es c) eqn:En; [|discriminate].
          assert (c < length es) by (apply nth_error_Some; congruence). lia. }
        destruct (shape_child _ _ _ _ Hs Hc) as (ch' & Ec' & Hch). rewrite Ec in Ec'. inversion Ec'; subst ch'.
        destruct (IH H low ch n k Hch E Hk) as (A & B). split; [lia|]. exact B.
  Qed.
  Lemma p_handle_size : forall H lo T a, shape lo H T = true -> vh T a -> post T1 (handle_size X H T a).
  Proof.
    intros H lo T [p k] Hs (n & E & Hk). unfold handle_size. cbn [fst snd] in *. rewrite E. cbn [bind].
    destruct (vh_shape _ _ _ _ _ _ Hs E Hk) as (_ & lo' & Hn). eapply p_slice_size; eauto.
  Qed.
  Lemma p_handle_slice : forall T a, vh T a -> post (fun s => In s (slices T)) (handle_slice T a).
  Proof.
    intros T [p k] (n & E & Hk). unfold handle_slice. cbn [fst snd] in *. rewrite E. cbn [bind].
    eapply post_imp; [apply p_slice_at, Hk|]. intros s (e & He & <-). eapply slices_node_at; [exact E|]. apply slices_key, He.
  Qed.

  (** ** Iteration *)
  Lemma p_stack_pick : forall lo h t hint target ex, shape lo h t = true -> post (pick_ok t) (stack_pick X h t hint target ex).
  Proof.
    intros lo h t hint target ex H. unfold stack_pick. eapply post_bind; [eapply p_tsize, H|]. intros total _ _.
    destruct (negb (ix_eqb X target total)).
    - eapply post_bind; [eapply p_search_step, H|]. intros [c cp|k kp] _ Hk; cbn [pick_ok] in Hk. all: cycle 1.
      + destruct (ex && ix_eqb X kp target); [|exact Hk]. destruct h as [|h].
        * destruct k as [|k]; [exact Logic.I|]. eapply post_bind; [apply p_key_pos; lia|]. intros; cbn; lia.
        * eapply post_bind; [eapply p_child_size; [exact H|lia]|]. intros cs _ _. eapply post_bind; [apply p_subr|]. intros; cbn; lia.
      + destruct (ex && ix_eqb X cp target); [|exact Hk]. destruct c as [|k]; [exact Logic.I|].
        eapply post_bind; [apply p_key_pos; lia|]. intros; cbn; lia.
    - destruct h as [|h].
      + destruct (tlen t) as [|i] eqn:E; [exact Logic.I|]. eapply post_bind; [apply p_key_pos; lia|]. intros; cbn; lia.
      + cbv zeta. eapply post_bind; [eapply p_child_size; [exact H|lia]|]. intros cs _ _. eapply post_bind; [eapply p_kpe, H|]. intros nk _ _.
        eapply post_bind; [apply p_subr|]. intros; cbn; lia.
  Qed.
  Lemma p_make_stack : forall T h lo t p hints hp target ex, shape lo h t = true -> node_at T p = Ok t ->
    post (fun s => vh T (k_head s)) (make_stack X h t p hints hp target ex).
  Proof.
    intros T. induction h as [|h IH]; intros lo t p hints hp target ex H E; cbn [make_stack].
    - eapply post_bind; [eapply p_stack_pick, H|]. intros [c cp|k kp] _ Hk; cbn [pick_ok] in Hk; [exact Logic.I|].
      eapply post_bind; [eapply p_slice_size; eauto|]. intros sz _ _. eapply post_bind; [apply p_addr|]. intros a _ _.
      eapply post_bind; [apply p_addr|]. intros e _ _. cbn. exists t. auto.
    - eapply post_bind; [eapply p_stack_pick, H|]. intros [c cp|k kp] _ Hk; cbn [pick_ok] in Hk. all: cycle 1.
      + eapply post_bind; [eapply p_slice_size; eauto|]. intros sz _ _. eapply post_bind; [apply p_addr|]. intros a _ _.
        eapply post_bind; [apply p_addr|]. intros e _ _. cbn. exists t. auto.
      + destruct (shape_child _ _ _ _ H Hk) as (ch & Ec & Hs). rewrite Ec. cbn [bind].
        eapply post_bind; [apply p_subl|]. intros tg _ _. eapply post_bind; [apply p_addr|]. intros hp' _ _.
        eapply IH; [exact Hs|]. rewrite (node_at_app _ _ _ _ E). cbn [node_at]. rewrite Ec. reflexivity.
  Qed.

  Lemma p_fwd_down : forall T h lo t p c, shape lo (S h) t = true -> node_at T p = Ok t -> c <= tlen t -> post (vh T) (fwd_down h t p c).
  Proof.
    intros T. induction h as [|h IH]; intros lo t p c H E Hc; cbn [fwd_down];
      destruct (shape_child _ _ _ _ H Hc) as (ch & Ec & Hs); rewrite Ec; cbn [bind];
      assert (E' : node_at T (p ++ [c]) = Ok ch) by (rewrite (node_at_app _ _ _ _ E); cbn [node_at]; rewrite Ec; reflexivity).
    - destruct (tlen ch =? 0) eqn:Z; [exact Logic.I|]. apply Nat.eqb_neq in Z. exists ch. cbn [fst snd]. split; [exact E'|lia].
    - eapply IH; [exact Hs|exact E'|lia].
  Qed.
  Lemma node_at_prefix : forall p q (T n : tree), node_at T (p ++ q) = Ok n -> exists m, node_at T p = Ok m.
  Proof.
    induction p as [|c p IH]; intros q T n H; [eexists; reflexivity|]. cbn [app node_at] in *. destruct (child T c); try discriminate.
    cbn [bind] in *. eapply IH, H.
  Qed.
  Lemma p_fwd_up : forall T rp n, node_at T (rev rp) = Ok n -> post (vh T) (fwd_up T rp).
  Proof.
    intros T. induction rp as [|c rp IH]; intros n H; cbn [fwd_up]; [exact Logic.I|]. cbn [rev] in H.
    destruct (node_at_prefix _ _ _ _ H) as (m & E). rewrite E. cbn [bind].
    destruct (c <? tlen m) eqn:L; [|exact (IH m E)]. exists m. cbn [fst snd]. split; [exact E|apply Nat.ltb_lt, L].
  Qed.
  Lemma p_fwd_head : forall H lo T a, shape lo H T = true -> vh T a -> post (vh T) (fwd_head H T a).
  Proof.
    intros H lo T [p k] Hs (n & E & Hk). unfold fwd_head. cbn [fst snd] in *. rewrite E. cbn [bind].
    destruct (vh_shape _ _ _ _ _ _ Hs E Hk) as (_ & lo' & Hn).
    destruct (H - length p) as [|h'].
    - destruct (k + 1 <? tlen n) eqn:L.
      + exists n. cbn [fst snd]. split; [exact E|apply Nat.ltb_lt, L].
      + apply p_fwd_up with n. rewrite rev_involutive. exact E.
    - eapply p_fwd_down; [exact Hn|exact E|lia].
  Qed.
  Lemma p_bkwd_down : forall T h lo t p c, shape lo (S h) t = true -> node_at T p = Ok t -> c <= tlen t -> post (vh T) (bkwd_down h t p c).
  Proof.
    intros T. induction h as [|h IH]; intros lo t p c H E Hc; cbn [bkwd_down];
      destruct (shape_child _ _ _ _ H Hc) as (ch & Ec & Hs); rewrite Ec; cbn [bind];
      assert (E' : node_at T (p ++ [c]) = Ok ch) by (rewrite (node_at_app _ _ _ _ E); cbn [node_at]; rewrite Ec; reflexivity).
    - destruct (tlen ch) as [|k] eqn:Z; [exact Logic.I|]. exists ch. cbn [fst snd]. split; [exact E'|lia].
    - eapply IH; [exact Hs|exact E'|lia].
  Qed.
  Lemma child_bound : forall (t : tree) c ch, child t c = Ok ch -> c <= tlen t.
  Proof. intros [|tot c0 es] c ch H; [discriminate|]. exact (child_of_bound 1 (le_n 1) c0 es c ch H). Qed.
  Lemma p_bkwd_up : forall T rp n, node_at T (rev rp) = Ok n -> post (vh T) (bkwd_up T rp).
  Proof.
    intros T. induction rp as [|c rp IH]; intros n H; cbn [bkwd_up]; [exact Logic.I|]. cbn [rev] in H.
    destruct (node_at_prefix _ _ _ _ H) as (m & E). destruct c as [|k]; [exact (IH m E)|].
    rewrite (node_at_app _ _ _ _ E) in H. cbn [node_at] in H. destruct (child m (S k)) as [ch| |] eqn:Ec; try discriminate.
    apply child_bound in Ec. exists m. cbn [fst snd]. split; [exact E|lia].
  Qed.
  Lemma p_bkwd_head : forall H lo T a, shape lo H T = true -> vh T a -> post (vh T) (bkwd_head H T a).
  Proof.
    intros H lo T [p k] Hs (n & E & Hk). unfold bkwd_head. cbn [fst snd] in *. rewrite E. cbn [bind].
    destruct (vh_shape _ _ _ _ _ _ Hs E Hk) as (_ & lo' & Hn).
    destruct (H - length p) as [|h'].
    - destruct k as [|k].
      + apply p_bkwd_up with n. rewrite rev_involutive. exact E.
      + exists n. cbn [fst snd]. split; [exact E|lia].
    - eapply p_bkwd_down; [exact Hn|exact E|lia].
  Qed.
  Lemma p_fwd_step : forall H lo T s, shape lo H T = true -> vh T (k_head s) -> post (fun s => vh T (k_head s)) (fwd_step X H T s).
  Proof.
    intros H lo T s Hs Hv. unfold fwd_step. eapply post_bind; [eapply p_fwd_head; eauto|]. intros a _ Ha.
    eapply post_bind; [eapply p_handle_size; eauto|]. intros sz _ _. eapply post_bind; [apply p_addr|]. intros; exact Ha.
  Qed.
  Lemma p_bkwd_step : forall H lo T s, shape lo H T = true -> vh T (k_head s) -> post (fun s => vh T (k_head s)) (bkwd_step X H T s).
  Proof.
    intros H lo T s Hs Hv. unfold bkwd_step. eapply post_bind; [eapply p_bkwd_head; eauto|]. intros a _ Ha.
    eapply post_bind; [eapply p_handle_size; eauto|]. intros sz _ _. eapply post_bind; [apply p_subr|]. intros; exact Ha.
  Qed.

  Definition it_ok (r : @rle I V) (it : @iter I) : Prop :=
    match it_state it with
    | None => True
    | Some st => exists r0, r = Some r0 /\
        (forall s, s_fwd st = Some s -> vh (r_node r0) (k_head s)) /\ (forall s, s_bkwd st = Some s -> vh (r_node r0) (k_head s))
    end.
  Definition item_ok (r : @rle I V) (o : option (I * I * V)) : Prop := forall e, o = Some e -> In (snd e) (rle_slices r).
  Notation step_ok r := (fun q : option (I * I * V) * @iter I => item_ok r (fst q) /\ it_ok r (snd q)).

  Lemma p_iter_step : forall r b it, rle_sh r -> it_ok r it -> post (step_ok r) (iter_step X r b it).
  Proof.
    intros r b it Hr Hi. unfold iter_step. destruct r as [r|].
    2: { unfold it_ok in Hi. destruct (it_state it) as [st|] eqn:E.
         - destruct Hi as (r0 & ? & _). discriminate.
         - split; cbn [fst snd]; [intros e; discriminate|]. unfold it_ok. rewrite E. exact Logic.I. }
    assert (End : post (step_ok (Some r)) (Ok (None, ended it))).
    { split; cbn [fst snd]; [intros e; discriminate|exact Logic.I]. }
    destruct Hr as [lo Hs]. unfold it_ok in Hi. destruct b.
    - unfold iter_next_back. destruct (it_state it) as [st|] eqn:E.
      2: { split; cbn [fst snd]; [intros e; discriminate|]. unfold it_ok. rewrite E. exact Logic.I. }
      destruct Hi as (r0 & E0 & Hf & Hb). inversion E0; subst r0; clear E0.
      eapply post_bind with (P := fun q : option (@istack I * list nat) => match q with None => True | Some (b, _) => vh (r_node r) (k_head b) end).
      + destruct (s_bkwd st) as [bk|].
        * eapply post_bind; [eapply p_handle_size; [exact Hs|apply Hb; reflexivity]|]. intros sz _ _.
          eapply post_bind; [apply p_subr|]. intros ne _ _. destruct (ix_leb X ne (it_start it)); [exact Logic.I|].
          eapply post_bind; [eapply p_bkwd_step; [exact Hs|apply Hb; reflexivity]|]. intros b' _ Hv. exact Hv.
        * eapply post_bind; [eapply p_make_stack; [exact Hs|reflexivity]|]. intros s _ Hv. exact Hv.
      + intros [[bk cur]|] _ Hv; [|exact End].
        match goal with |- context [if ?c then _ else _] => destruct c end; [exact End|].
        eapply post_bind; [eapply p_handle_size; eauto|]. intros sz _ _. eapply post_bind; [apply p_subr|]. intros start _ _.
        eapply post_bind; [apply p_handle_slice, Hv|]. intros s _ Hin. split; cbn [fst snd].
        * intros e He. inversion He; subst. exact Hin.
        * unfold it_ok. cbn. exists r. repeat split; [exact Hf|]. intros s0 E0. inversion E0; subst. exact Hv.
    - unfold iter_next. destruct (it_state it) as [st|] eqn:E.
      2: { split; cbn [fst snd]; [intros e; discriminate|]. unfold it_ok. rewrite E. exact Logic.I. }
      destruct Hi as (r0 & E0 & Hf & Hb). inversion E0; subst r0; clear E0.
      eapply post_bind with (P := fun q : option (@istack I * I * list nat) => match q with None => True | Some (b, _, _) => vh (r_node r) (k_head b) end).
      + destruct (s_fwd st) as [fw|].
        * cbv zeta. match goal with |- context [if (if ?a then ?b else ?c) then _ else _] => destruct (if a then b else c) end; [exact Logic.I|].
          eapply post_bind; [eapply p_fwd_step; [exact Hs|apply Hf; reflexivity]|]. intros b' _ Hv. exact Hv.
        * eapply post_bind; [eapply p_make_stack; [exact Hs|reflexivity]|]. intros s _ Hv.
          eapply post_bind; [eapply p_handle_size; eauto|]. intros sz _ _. eapply post_bind; [apply p_subr|]. intros ns _ _. exact Hv.
      + intros [[[fw ns] cur]|] _ Hv; [|exact End].
        match goal with |- context [if ?c then _ else _] => destruct c end; [exact End|].
        eapply post_bind; [apply p_handle_slice, Hv|]. intros s _ Hin. split; cbn [fst snd].
        * intros e He. inversion He; subst. exact Hin.
        * unfold it_ok. cbn. exists r. repeat split; [|exact Hb]. intros s0 E0. inversion E0; subst. exact Hv.
  Qed.

  Lemma p_iter_new : forall r hints sb eb, rle_sh r -> post (it_ok r) (iter_new X r hints sb eb).
  Proof.
    intros r hints sb eb Hr. unfold iter_new. eapply post_bind; [eapply p_rle_size, Hr|]. intros sz _ _. cbv zeta.
    destruct (match eb with EIncl i => (i, false) | EExcl i => (i, true) | EUnb => (sz, true) end) as [e excl].
    repeat match goal with |- post _ (if ?c then Panic _ else _) => destruct c; [exact Logic.I|] end.
    cbn. unfold it_ok. cbn. destruct r as [r|]; [|exact Logic.I].
    match goal with |- context [if ?c then None else _] => destruct c end; [exact Logic.I|]. exists r. repeat split; discriminate.
  Qed.

  Lemma p_iter_calls : forall r calls it, rle_sh r -> it_ok r it ->
    post (fun q => Forall (item_ok r) (fst q)) (iter_calls X r it calls).
  Proof.
    intros r. induction calls as [|b calls IH]; intros it Hr Hi; cbn [iter_calls]; [constructor|].
    eapply post_bind; [apply p_iter_step; auto|]. intros [o it'] _ [Ho Hi']. cbn [fst snd] in *.
    eapply post_bind; [exact (IH it' Hr Hi')|]. intros [os it''] _ Hos. cbn [fst snd] in *. constructor; auto.
  Qed.

  (** ** The search for the place of an insertion *)
  Context (Y : slice_ops I V).

  Lemma node_split : forall (t : tree) c, c <= tlen t -> t <> Nil ->
    exists tot lft ch rgt, t = node tot lft ch rgt /\ length lft = c.
  Proof.
    intros [|tot c0 es] c H Hn; [congruence|]. unfold tlen in H. cbn [keys] in H.
    destruct (asm_split c c0 es H) as (lft & ch & rgt & E & L). exists tot, lft, ch, rgt. split; [|exact L].
    unfold node. rewrite E. reflexivity.
  Qed.

  Definition wpoint (H : nat) (T : tree) (ip : @inspoint I) : Prop :=
    match ip with
    | EdgeInsert p k a b => exists e, erank T p k = Some e /\ length p = H /\ e <= count T /\
        (sl_may_join Y = true -> lhs_ok T a e /\ rhs_ok T b e (count T))
    | SplitKeyInsert p hk k _ => exists r, rank T p k = Some r /\ hk = H - length p /\ r < count T
    end.

  Lemma p_find : forall T H h lo t hints target path lhs rhs b,
    shape lo h t = true -> length path + h = H -> b + count t <= count T ->
    (forall q k, rank T (path ++ q) k = option_map (Nat.add b) (rank t q k)) ->
    (forall q k, erank T (path ++ q) k = option_map (Nat.add b) (erank t q k)) ->
    (sl_may_join Y = true -> lhs_ok T lhs b /\ rhs_ok T rhs (b + count t) (count T)) ->
    post (wpoint H T) (find_insertion_point X Y h t hints target path lhs rhs).
  Proof.
    intros T H. induction h as [|h IH]; intros lo t hints target path lhs rhs b Hs Hl Hb Hr He Hj; cbn [find_insertion_point].
    all: eapply post_bind; [eapply p_search_step, Hs|]; intros r0 _ H0.
    all: eapply post_bind with (P := pick_ok t);
      [destruct r0 as [c cp|k kp]; [exact H0|]; cbn [pick_ok] in H0; destruct (ix_eqb X kp target); [|exact H0];
       eapply post_bind; [eapply p_csz; [exact Hs|lia]|]; intros cs _ _; eapply post_bind; [apply p_subr|]; intros cp _ _; cbn; lia|].
    all: intros [c cp|k kp] _ Hk; cbn [pick_ok] in Hk.
    2, 4: eapply post_bind; [apply p_subl|]; intros q _ _; cbn;
      assert (Hn : t <> Nil) by (intros ->; exact (shape_nil _ _ Hs));
      destruct (node_split t k ltac:(lia) Hn) as (tot & lft & ch & rgt & -> & <-);
      rewrite node_tlen in Hk; destruct rgt as [|e rgt]; [cbn in Hk; lia|];
      exists (b + (lcount lft + count ch)); rewrite count_node in Hb; destruct e as [ek ec]; cbn [ecount] in Hb;
      (repeat split; [rewrite <- (app_nil_r path), Hr, rank_here; reflexivity|lia|lia]).
    all: cbv zeta;
      assert (Hn : t <> Nil) by (intros ->; exact (shape_nil _ _ Hs));
      destruct (node_split t c ltac:(lia) Hn) as (tot & lft & ch & rgt & -> & <-).
    all: set (lhs' := if sl_may_join Y then match length lft with 0 => lhs | S ki => Some (path, ki) end else lhs).
    all: set (rhs' := if sl_may_join Y then if length lft <? tlen (node tot lft ch rgt) then Some (path, length lft) else rhs else rhs).
    all: assert (Hj' : sl_may_join Y = true -> lhs_ok T lhs' (b + lcount lft) /\ rhs_ok T rhs' (b + lcount lft + count ch) (count T)).
    1, 3: intros J; destruct (Hj J) as [J1 J2]; unfold lhs', rhs'; rewrite J, node_tlen; rewrite count_node in J2, Hb; split;
      [ destruct lft as [|a lft _] using rev_ind; [cbn [lcount length]; rewrite Nat.add_0_r; exact J1|];
        rewrite app_length, lcount_app; cbn [length]; rewrite Nat.add_1_r; destruct a as [ac ak]; cbn [lcount lhs_ok];
        exists (b + (lcount lft + count ac)); split; [lia|]; rewrite <- (app_nil_r path), Hr, node_snoc, rank_here; reflexivity
      | destruct rgt as [|[ek ec] rgt];
        [ cbn [length ecount] in *; rewrite Nat.add_0_r, Nat.ltb_irrefl; rewrite Nat.add_0_r in J2; rewrite Nat.add_assoc in J2; exact J2
        | destruct (Nat.ltb_spec (length lft) (length lft + length ((ek, ec) :: rgt))); [|cbn [length] in *; lia];
          cbn [rhs_ok]; rewrite <- (app_nil_r path), Hr, rank_here; cbn; f_equal; lia ] ].
    - cbn. exists (b + lcount lft). rewrite count_node in Hb. split; [|split; [lia|split; [lia|]]].
      + rewrite <- (app_nil_r path), He, erank_here. reflexivity.
      + intros J. destruct (Hj' J) as [J1 J2]. split; [exact J1|].
        assert (E : child (node tot lft ch rgt) (length lft) = Ok ch) by apply node_child.
        rewrite (shape_leaf_child _ _ _ _ Hs E) in J2. cbn [count] in J2. rewrite Nat.add_0_r in J2. exact J2.
    - eapply post_bind; [apply p_subl|]. intros tg _ _. rewrite node_child. cbn [bind].
      assert (Hch : shape low h ch = true).
      { destruct (shape_child _ _ _ _ Hs Hk) as (ch' & E & A). rewrite node_child in E. inversion E; subst. exact A. }
      rewrite count_node in Hb.
      apply (IH low ch _ tg (path ++ [length lft]) lhs' rhs' (b + lcount lft) Hch).
      + rewrite app_length. cbn. lia.
      + lia.
      + intros q k. rewrite <- app_assoc. cbn [app]. rewrite Hr, rank_down. destruct (rank ch q k); cbn; f_equal; lia.
      + intros q k. rewrite <- app_assoc. cbn [app]. rewrite He, erank_down. destruct (erank ch q k); cbn; f_equal; lia.
      + exact Hj'.
  Qed.

  Lemma p_find_root : forall lo h t hints target, shape lo h t = true ->
    post (wpoint h t) (find_insertion_point X Y h t hints target [] None None).
  Proof.
    intros lo h t hints target Hs. apply (p_find t h h lo t hints target [] None None 0 Hs); cbn [length app]; try lia.
    - intros q k. destruct (rank t q k); reflexivity.
    - intros q k. destruct (erank t q k); reflexivity.
    - intros _. split; reflexivity.
  Qed.
End Walk.

Section Shape.
  Context {I V : Type} (M : nat).

  Lemma shape_S : forall lo h (tot : I) c0 (es : list (I * V * tree I V)), Validate.shape M lo h (Node tot c0 es) =
    ((lo <=? length es) && (length es <=? 2 * M) &&
      match h with
      | 0 => forallb (fun c => match c with Nil => true | Node _ _ _ => false end) (c0 :: map e_child es)
      | S h' => forallb (Validate.shape M M h') (c0 :: map e_child es)
      end).
  Proof. intros lo [|h]; reflexivity. Qed.
  Lemma shape_wshape : forall h lo (t : tree I V), wshape M M lo h t = Validate.shape M lo h t.
  Proof.
    induction h as [|h IH]; intros lo [|tot c0 es]; try reflexivity. cbn [wshape Validate.shape]. f_equal.
    induction (c0 :: map e_child es) as [|c l IHl]; [reflexivity|]. cbn [forallb]. rewrite IH, IHl. reflexivity.
  Qed.
  Definition rle_shape (r : @rle I V) : Prop :=
    match r with None => True | Some r => Validate.shape M 1 (r_height r) (r_node r) = true /\ r_len r = length (slices (r_node r)) end.
  Lemma rle_shape_sh : forall r, rle_shape r -> rle_sh M M r.
  Proof. intros [r|] H; [|exact Logic.I]. exists 1. rewrite shape_wshape. apply H. Qed.
End Shape.
