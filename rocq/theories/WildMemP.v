(** Several trees with any index type.  Proof support only. *)
From Coq Require Import List ZArith Lia Bool Arith Permutation.
From Verif Require Import Base Index Slice Tree Insert Range Hist Order Validate Spec Zip Rep Path Find Ins OrderP LTree LInsert LTreeP LUpP LLeafP LShape LShapeP LLenP LUpdP LPlanP LRef LMemP LClimbP LInvP LMemHistP Wild WildP WildQ WildR WildCalls WildPropsP WildRef WildRefP WildMem ListFacts.
Import ListNotations.

Section WildMem.
  Context {I V : Type} (M : nat) (HM : 1 <= M).

  Lemma has_addr : forall (t : ptree I V) hp a, winv M t hp -> has_node t a <-> In a (laddrs (pt_nodes t)).
  Proof.
    intros t hp a P. pose proof (wi_shape _ _ _ P) as Es. unfold has_node, deref. destruct (pt_rle t) as [r|]; cbn [rshape] in Es.
    - rewrite <- (cells_addrs _ _ (r_height r) Es). rewrite in_map_iff. split.
      + intros H. destruct (find _ _) as [c|] eqn:Ef; [|congruence]. apply find_some in Ef. destruct Ef as [Hin Eq]. apply Nat.eqb_eq in Eq. exists c. auto.
      + intros ([a' v] & <- & Hin). destruct (find _ _) eqn:Ef; [discriminate|]. exfalso. pose proof (find_none _ _ Ef _ Hin) as N. cbn in N. rewrite Nat.eqb_refl in N. discriminate.
    - symmetry in Es. destruct (pt_nodes t); [|discriminate]. cbn. split; [congruence|intros []].
  Qed.

  Lemma winv_writes : forall X Y nop (t : ptree I V) hp hints idx x n t' hp' ho log, index_any X -> winv M t hp ->
    p_insert X Y M nop t hp hints idx x n = Ok (t', hp', ho, log) ->
    (exists m, hp_next hp' = m + hp_next hp /\ Permutation (laddrs (pt_nodes t')) (laddrs (pt_nodes t) ++ seq (hp_next hp) m)) /\
    Forall (fun a => In a (laddrs (pt_nodes t)) \/ hp_next hp <= a < hp_next hp') log.
  Proof.
    intros X Y nop t hp hints idx x n t' hp' ho log HX P E0. unfold p_insert in E0.
    destruct (insert_with_cursor X Y M nop (pt_rle t) hints idx x n) as [[r' cur]| |] eqn:E; try discriminate. cbn [bind] in E0.
    pose proof (wild_insert_at M X Y HX HM nop (pt_rle t) hints idx x n (wi_tree _ _ _ P)) as W. rewrite E in W. cbn [post] in W.
    destruct W as (_ & _ & e & z & q & l' & Hpl & _).
    destruct (insert_shape X Y M nop _ _ _ _ _ _ _ E) as (pl & Ep & _). rewrite Ep in E0. cbn [bind] in E0.
    assert (H00 : rshape (pt_rle t) = SX -> lrefs (pt_nodes t) = []) by (rewrite (wi_shape _ _ _ P); intros H0; apply lshape_SX in H0; rewrite H0; reflexivity).
    destruct (wild_plan M HM X Y HX _ _ _ _ _ (lrefs (pt_nodes t)) _ _ (wi_tree _ _ _ P) Ep Hpl H00) as (R' & i & d & Hat & _).
    rewrite (wi_shape _ _ _ P) in Hat.
    set (s0 := {| p_store := hp_store hp; p_next := hp_next hp; p_log := []; p_ho := None; p_present := false; p_skip := false |}) in *.
    destruct (run_plan_ok M HM pl (pt_nodes t) s0 R' i (wi_lok _ _ _ P) Hat (wi_sok _ _ _ P) (wi_rids _ _ _ P) (wi_nodup _ _ _ P) (wi_next _ _ _ P) eq_refl eq_refl eq_refl)
      as (lt' & s' & w & Er & Q & _). rewrite Er in E0. cbn [bind] in E0. injection E0 as <- <- _ <-. cbn [pt_nodes hp_next].
    destruct Q as [_ _ _ _ (m & Qm & Qp) _ (lg & Qlg & Qlg') _]. split; [exists m; split; [exact Qm|exact Qp]|].
    rewrite Qlg. cbn [s0 p_log]. rewrite app_nil_r, Forall_forall. exact Qlg'.
  Qed.

  Notation mem := (@mem I V).
  Definition wtree (n : nat) (t : option (ptree I V)) : Prop := match t with Some t => winv M t (at_next n) | None => True end.
  Record wminv (m : mem) : Prop := {
    wm_trees : Forall (wtree (m_next m)) (m_trees m);
    wm_mem : Permutation (live m ++ m_freed m) (seq 0 (m_next m));
  }.
  Lemma wtree_more : forall n n' ts, n <= n' -> Forall (wtree n) ts -> Forall (wtree n') ts.
  Proof.
    intros n n' ts H. apply Forall_impl. intros [t|]; cbn; auto. intros []. constructor; auto. cbn [at_next hp_next] in *.
    eapply Forall_impl; [|exact wi_next]. cbn. intros. lia.
  Qed.
  Lemma forall_set : forall n (ts : list (option (ptree I V))) j x, Forall (wtree n) ts -> wtree n x -> Forall (wtree n) (replace_at j x ts).
  Proof.
    intros n ts j x H Hx. unfold replace_at. rewrite <- (firstn_skipn j ts) in H. apply Forall_app in H. destruct H as [H1 H2].
    destruct (skipn j ts) as [|y r] eqn:E; [rewrite <- (firstn_skipn j ts), E; apply Forall_app; auto|]. inversion H2; subst. apply Forall_app. split; [exact H1|]. constructor; auto.
  Qed.
  Lemma wm_at : forall m j t, wminv m -> tree_is m j t -> winv M t (at_next (m_next m)).
  Proof. intros m j t [H _] E. rewrite Forall_forall in H. exact (H _ (nth_error_In _ _ E)). Qed.
  Lemma wm_nodup : forall m, wminv m -> NoDup (live m ++ m_freed m).
  Proof. intros m [_ H]. apply (Permutation_NoDup (Permutation_sym H)). apply seq_NoDup. Qed.
  Lemma in_live : forall (m : mem) j t a, tree_is m j t -> In a (laddrs (pt_nodes t)) -> In a (live m).
  Proof. intros m j t a E Ha. apply in_flat_map. exists (Some t). split; [exact (nth_error_In _ _ E)|exact Ha]. Qed.
  Lemma wm_apart : forall m j j2 t t2 a, wminv m -> tree_is m j t -> tree_is m j2 t2 -> In a (laddrs (pt_nodes t)) -> In a (laddrs (pt_nodes t2)) -> j = j2.
  Proof.
    intros m j j2 t t2 a W E E2 Ha Ha2. destruct (Nat.eq_dec j j2) as [|Hj]; [assumption|]. exfalso.
    pose proof (wm_nodup _ W) as Hnd. apply nodup_app_iff in Hnd. destruct Hnd as [Hnd _]. unfold live in Hnd.
    destruct (live_set (m_trees m) j _ None E) as [Hp _]. apply (Permutation_NoDup Hp) in Hnd. apply nodup_app_iff in Hnd. destruct Hnd as (_ & _ & Hd).
    apply (Hd a Ha). apply in_flat_map. exists (Some t2). split; [|exact Ha2]. apply (nth_error_In _ j2). rewrite replace_nth_other by congruence. exact E2.
  Qed.

  (** What a call does. *)
  Definition op_effect (m m' : mem) (c : @mem_op I V) : Prop :=
    (forall j t, changed c <> Some j -> tree_is m j t -> tree_is m' j t /\ forall a, In a (laddrs (pt_nodes t)) -> ~ In a (m_writes m')) /\
    match c with
    | ANew => tree_is m' (length (m_trees m)) p_empty /\ m_freed m' = m_freed m /\ m_dropped m' = m_dropped m
    | AIns j c => (forall t, tree_is m j t -> exists t', tree_is m' j t' /\ forall a, In a (laddrs (pt_nodes t)) -> In a (laddrs (pt_nodes t'))) /\ m_freed m' = m_freed m /\ m_dropped m' = m_dropped m
    | AClone j => (forall t, tree_is m j t -> exists t', tree_is m' (length (m_trees m)) t' /\ pt_rle t' = pt_rle t) /\ m_freed m' = m_freed m /\ m_dropped m' = m_dropped m
    | ADrop j => forall t, tree_is m j t -> nth_error (m_trees m') j = Some None /\
        exists f d, m_freed m' = m_freed m ++ f /\ m_dropped m' = m_dropped m ++ d /\ Permutation f (laddrs (pt_nodes t)) /\ Permutation d (rle_slices (pt_rle t))
    end.

  Lemma wm_idle : forall m c, wminv m -> (forall j, changed c = Some j -> forall t, ~ tree_is m j t) -> (forall j, c = AClone j -> forall t, ~ tree_is m j t) -> c <> ANew ->
    wminv (m_idle m) /\ op_effect m (m_idle m) c.
  Proof.
    intros m c [A B] H1 H2 H3. split; [constructor; [exact A|exact B]|]. split; [intros j t _ E; split; [exact E|cbn; auto]|].
    destruct c as [|j c|j|j]; [congruence| | |].
    - split; [intros t E; destruct (H1 j eq_refl t E)|auto].
    - split; [intros t E; destruct (H2 j eq_refl t E)|auto].
    - intros t E. destruct (H1 j eq_refl t E).
  Qed.

  Lemma wm_call : forall nop m c, any_op c -> wminv m -> post (fun m' => wminv m' /\ op_effect m m' c) (do_mem_op M nop m c).
  Proof.
    intros nop m c HX W. pose proof W as [Ht Hm].
    assert (Hlt : forall j t a, tree_is m j t -> In a (laddrs (pt_nodes t)) -> a < m_next m).
    { intros j t a E Ha. pose proof (wi_next _ _ _ (wm_at _ _ _ W E)) as Hx. rewrite Forall_forall in Hx. exact (Hx a Ha). }
    destruct c as [|j c|j|j]; cbn [do_mem_op any_op] in *.
    - cbn [post]. split.
      + constructor; cbn [m_trees m_next m_freed]; [apply Forall_app; split; [exact Ht|]; constructor; [|constructor]; apply (winv_empty M HM)|].
        unfold live in *. cbn [m_trees]. rewrite flat_map_app. cbn. rewrite app_nil_r. exact Hm.
      + split; [|unfold tree_is; cbn [m_trees m_freed m_dropped]; split; [rewrite nth_error_app2, Nat.sub_diag by lia; reflexivity|auto]].
        intros j t _ E. unfold tree_is in *. cbn [m_trees m_writes]. split; [rewrite nth_error_app1; auto; apply nth_error_Some; congruence|auto].
    - destruct (nth_error (m_trees m) j) as [[t|]|] eqn:Et.
      2,3: cbn [post]; apply wm_idle; auto; try congruence; intros j0 H; injection H as <-; unfold tree_is; congruence.
      pose proof (wm_at _ _ _ W Et) as P. cbv zeta.
      eapply post_bind; [exact (winv_insert M HM (ic_x c) (ic_y c) nop _ _ _ _ _ _ HX P)|]. intros [[[t' hp'] ho] log] E (P' & Hst & _).
      destruct (winv_writes _ _ _ _ _ _ _ _ _ _ _ _ _ HX P E) as [(k & Hk & Hpm) Hlog]. cbn [at_next hp_next hp_store length] in *.
      assert (Ehp : hp' = at_next (hp_next hp')) by (destruct hp' as [[|? ?] ?]; cbn in *; [reflexivity|lia]).
      cbn [post]. split.
      + constructor; cbn [m_trees m_next m_freed].
        * apply forall_set; [eapply wtree_more; [|exact Ht]; lia|]. cbn [wtree]. rewrite <- Ehp. exact P'.
        * unfold live in *. cbn [m_trees]. destruct (live_set (m_trees m) j _ (Some t') Et) as [H1 H2]. rewrite H2. cbn [own].
          rewrite H1 in Hm. cbn [own] in Hm. rewrite Hpm, Hk. rewrite Nat.add_comm, seq_app. cbn [plus].
          rewrite <- Hm. rewrite <- !app_assoc. apply Permutation_app_head.
          rewrite !app_assoc. rewrite <- (Permutation_app_comm (seq (m_next m) k)). rewrite !app_assoc. reflexivity.
      + split; unfold tree_is in *; cbn [m_trees m_writes m_freed m_dropped changed].
        * intros j2 t2 Hj E2. split; [rewrite replace_nth_other by congruence; exact E2|]. intros a Ha Hin. rewrite Forall_forall in Hlog.
          destruct (Hlog a Hin) as [H|H]; [|specialize (Hlt _ _ _ E2 Ha); lia]. apply Hj. f_equal. exact (wm_apart _ _ _ _ _ _ W Et E2 H Ha).
        * split; [|auto]. intros t0 E0. rewrite Et in E0. injection E0 as <-. exists t'. split; [apply replace_nth_same; apply nth_error_Some; congruence|].
          intros a Ha. apply (Permutation_in _ (Permutation_sym Hpm)). apply in_or_app. left. exact Ha.
    - destruct (nth_error (m_trees m) j) as [[t|]|] eqn:Et.
      2,3: cbn [post]; apply wm_idle; auto; try congruence; intros j0 H; try discriminate; injection H as <-; unfold tree_is; congruence.
      pose proof (wm_at _ _ _ W Et) as P. unfold p_clone.
      set (s0 := {| p_store := []; p_next := m_next m; p_log := []; p_ho := None; p_present := false; p_skip := false |}).
      destruct (l_clone_ok M (pt_nodes t) s0 _ (wi_lok _ _ _ P)) as (lt' & n & lg & E & Hok & Hs & Hpm & Hlg & Hr).
      rewrite E. cbn [bind post upst p_next p_log s0] in *. split.
      + constructor; cbn [m_trees m_next m_freed].
        * apply Forall_app. split; [eapply wtree_more; [|exact Ht]; lia|]. constructor; [|constructor]. cbn [wtree].
          constructor; cbn [pt_nodes pt_rle at_next hp_store hp_next].
          -- exact (wi_tree _ _ _ P).
          -- rewrite Hs. exact (wi_shape _ _ _ P).
          -- exact Hok.
          -- apply (Permutation_NoDup (Permutation_sym Hpm)). apply seq_NoDup.
          -- rewrite Forall_forall. intros a Ha. apply (Permutation_in _ Hpm) in Ha. apply in_seq in Ha. lia.
          -- apply no_rids_Sok. exact Hr.
          -- rewrite Hr. constructor.
          -- cbn. intros r H. lia.
        * unfold live in *. cbn [m_trees]. rewrite flat_map_app. cbn [flat_map own pt_nodes]. rewrite app_nil_r, Hpm.
          rewrite Nat.add_comm, seq_app. cbn [plus]. rewrite <- Hm, <- !app_assoc. apply Permutation_app_head. apply Permutation_app_comm.
      + split; unfold tree_is in *; cbn [m_trees m_writes m_freed m_dropped changed].
        * intros j2 t2 _ E2. split; [rewrite nth_error_app1; auto; apply nth_error_Some; congruence|]. intros a Ha Hin. rewrite app_nil_r in Hin.
          specialize (Hlg _ Hin). specialize (Hlt _ _ _ E2 Ha). lia.
        * split; [|auto]. intros t0 E0. rewrite Et in E0. injection E0 as <-. eexists. split; [rewrite nth_error_app2, Nat.sub_diag by lia; reflexivity|reflexivity].
    - destruct (nth_error (m_trees m) j) as [[t|]|] eqn:Et.
      2,3: cbn [post]; apply wm_idle; auto; try congruence; intros j0 H; injection H as <-; unfold tree_is; congruence.
      pose proof (wm_at _ _ _ W Et) as P. destruct (wild_drop M _ _ P) as (D1 & _ & D2). cbn [post]. split.
      + constructor; cbn [m_trees m_next m_freed]; [apply forall_set; [exact Ht|exact Logic.I]|].
        rewrite <- Hm. unfold live. cbn [m_trees]. destruct (live_set (m_trees m) j _ None Et) as [H1 _]. rewrite H1. cbn [own].
        rewrite D2. rewrite <- !app_assoc. rewrite (Permutation_app_comm (laddrs (pt_nodes t))). rewrite <- !app_assoc. apply Permutation_app_head. apply Permutation_refl.
      + split; unfold tree_is in *; cbn [m_trees m_writes m_freed m_dropped changed].
        * intros j2 t2 Hj E2. split; [rewrite replace_nth_other by congruence; exact E2|]. intros a Ha Hin. apply (Permutation_in _ D2) in Hin.
          apply Hj. f_equal. exact (wm_apart _ _ _ _ _ _ W Et E2 Hin Ha).
        * intros t0 E0. rewrite Et in E0. injection E0 as <-. split; [apply replace_nth_same; apply nth_error_Some; congruence|].
          exists (frees (p_drop t)), (drops (p_drop t)). auto.
  Qed.

  Lemma wm_new : wminv mem_new.
  Proof. constructor; cbn; constructor. Qed.
  Lemma wm_run : forall nop cs m, Forall any_op cs -> wminv m -> post wminv (run_mem M nop m cs).
  Proof.
    intros nop cs. induction cs as [|c cs IH]; intros m HX W; cbn [run_mem]; [exact W|]. inversion HX; subst.
    eapply post_bind; [apply (wm_call nop m c); auto|]. intros m' _ [W' _]. apply IH; auto.
  Qed.
End WildMem.
